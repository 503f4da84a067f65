(** * Property theorems.  Generated by tools/mkprop.py from the tagged lemmas of
    SurjLaws4.v: every theorem is closed by [exact]. *)
From Coq Require Import Znumtheory Sorting.Sorted.
From Verif Require Import PyBase Dict FreeModule Symmetric Simplicial Utils Surjection BarrattEccles Spec SpecChain SpecOperad SpecSurj SurjLaws4.

(** The list is complete, without repetitions, and contains only
    the non-degenerate surjections of the given arity and degree, within the
    complexity bound. *)
Theorem C55_basis : forall (dt : Z) (dc : conv) (r d : Z) (oc : option Z),
  0 <= dt -> dt <> 1 -> 1 <= r -> 1 <= r + d ->
  exists l, surj_basis dt dc r d oc = Ok l /\ NoDup l /\
    forall k, In k l <-> surj_cell r d k /\ ~ repeats k /\ (forall c, oc = Some c -> forall i j, switches i j k <= c).
Proof. exact @C55_basis_l. Qed.
Print Assumptions C55_basis.

(** When arity + degree is zero or negative the call fails. *)
Theorem C55_negative_degree : forall (dt : Z) (dc : conv) (r d : Z) (oc : option Z),
  r + d <= 0 -> surj_basis dt dc r d oc = Err ValueError.
Proof. exact @C55_negative_degree_l. Qed.
Print Assumptions C55_negative_degree.

(** If the class attribute [default_torsion] is 1, the basis is
    empty: all elements are zero. *)
Theorem C55_default_torsion_one : forall (dc : conv) (r d : Z) (oc : option Z),
  1 <= r -> 1 <= r + d -> surj_basis 1 dc r d oc = Ok [].
Proof. exact @C55_default_torsion_one_l. Qed.
Print Assumptions C55_default_torsion_one.

Example C55_example : surj_basis 0 BF 2 1 None = Ok [[1; 2; 1]; [2; 1; 2]] /\
  (exists l, surj_basis 0 MS 3 2 None = Ok l /\ zlen l = 42) /\ (exists l, surj_basis 0 MS 3 2 (Some 2) = Ok l /\ zlen l = 12) /\
  surj_basis 0 BF 3 (-1) None = Ok [] /\ surj_basis 0 BF 1 3 None = Ok [].
Proof. exact @C55_example_l. Qed.
