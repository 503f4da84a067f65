(** * Specification vocabulary for the Bockstein (C86).  No proofs here. *)
From Verif Require Import PyBase Dict FreeModule Symmetric Simplicial Surjection Spec SpecChain.

(** A chain of [e]-dimensional simplices of [X] with integer coefficients. *)
Definition integral_chain (X : list Z -> Prop) (e : Z) (C : simp) : Prop :=
  wf cls_simplicial C /\ torsion C = 0 /\ keys_in (fun k => exists s, k = [s] /\ X s /\ zlen s - 1 = e) C.
(** [c] and [c'] are the reductions modulo [p] of integral chains [C] and [C']
    with boundary(C) == p * C'.  So [c] is a cycle modulo [p], and [c'] is its
    image under the Bockstein homomorphism (every cycle modulo [p] arises in
    this way).  The Bockstein of a cohomology class is dual to this. *)
Definition bockstein_pair (p e : Z) (X : list Z -> Prop) (c c' : simp) : Prop :=
  exists C C', integral_chain X e C /\ integral_chain X (e - 1) C' /\
    same (simp_boundary 0 C) (scale 0 cls_simplicial p C') /\
    set_torsion cls_simplicial C p = Ok c /\ set_torsion cls_simplicial C' p = Ok c'.
