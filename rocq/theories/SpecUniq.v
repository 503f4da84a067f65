(** * Specification vocabulary for equivariant sequences (C111).  No proofs here. *)
From Coq Require Import List ZArith.
From Verif Require Import PyBase Dict FreeModule Symmetric Spec.
Open Scope Z_scope.

(** The element of the periodic resolution in degree [d]: N in even degrees, T in odd degrees. *)
Definition periodic_element (dt n t : Z) (d : nat) : res ring :=
  if Nat.even d then norm_element dt n (Some t) else transposition_element dt n (Some t).
(** [psi 0, ..., psi N] are well-formed elements of torsion [t] and attribute [a], [psi d] with basis elements in [C d],
    and for [d < N] the boundary of [psi (d + 1)] is N (when [d + 1] is even) or T (when it is odd) times [psi d]. *)
Definition equivariant_sequence {K A} `{PyKey K} (c : pycls K) (C : Z -> K -> Prop) (bnd : elt K A -> res (elt K A)) (act : ring -> elt K A -> res (elt K A))
  (dt n t : Z) (a : A) (N : nat) (psi : nat -> elt K A) : Prop :=
  (forall d, (d <= N)%nat -> wf c (psi d) /\ torsion (psi d) = t /\ attr (psi d) = a /\ keys_in (C (Z.of_nat d)) (psi d)) /\
  (forall d, (d < N)%nat -> same (bnd (psi (S d))) (let! u := periodic_element dt n t (S d) in act u (psi d))).
(** Up to degree [N] the two sequences differ by [h 0, h 1, ...]: psi 0 - psi' 0 == bnd (h 0), and
    psi (d + 1) - psi' (d + 1) == bnd (h (d + 1)) + (N or T) * h d. *)
Definition equivariant_homotopy {K A} `{PyKey K} (c : pycls K) (C : Z -> K -> Prop) (bnd : elt K A -> res (elt K A)) (act : ring -> elt K A -> res (elt K A))
  (dt n t : Z) (a : A) (N : nat) (psi psi' h : nat -> elt K A) : Prop :=
  (forall d, (d <= N)%nat -> wf c (h d) /\ torsion (h d) = t /\ attr (h d) = a /\ keys_in (C (Z.of_nat d + 1)) (h d)) /\
  same (sub dt c (psi 0%nat) (psi' 0%nat)) (bnd (h 0%nat)) /\
  (forall d, (d < N)%nat -> same (sub dt c (psi (S d)) (psi' (S d)))
    (let! b := bnd (h (S d)) in let! e := (let! u := periodic_element dt n t (S d) in act u (h d)) in add dt c b e)).
