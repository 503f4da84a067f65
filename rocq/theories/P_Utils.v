(** * Property theorems.  Generated by tools/mkprop.py from the tagged lemmas of
    UtilsLaws.v: every theorem is closed by [exact]. *)
From Coq Require Import Znumtheory Sorting.Sorted.
From Verif Require Import PyBase Dict FreeModule Utils Spec SpecUtils UtilsLaws.

(** For [k >= 1]: exactly once each non-decreasing tuple,
    or each tuple when [ordered]. *)
Theorem C56_partitions : forall (n k a : Z) (ob : option Z) (ordered : bool),
  1 <= k ->
  let b := match ob with Some b => b | None => n end in
  exists l, partitions n k a ob ordered = Ok l /\ NoDup l /\
    forall p, In p l <-> summands n k a b p /\ (ordered = false -> nondecreasing p).
Proof. exact @C56_partitions_l. Qed.
Print Assumptions C56_partitions.

(** For [k <= 0] the recursion never ends, unless the range of
    the values is empty. *)
Theorem C56_no_parts : forall (n k a : Z) (ob : option Z) (ordered : bool),
  k <= 0 ->
  partitions n k a ob ordered = if a <=? match ob with Some b => b | None => n end then Err RecursionError else Ok [].
Proof. exact @C56_no_parts_l. Qed.
Print Assumptions C56_no_parts.

(** Each decomposition x[:i1+1], ..., x[ik:] with
    i1 <= ... <= ik exactly once. *)
Theorem C56_decompositions : forall {B} (x : list B) (k : Z),
  x <> [] -> 0 <= k ->
  exists l, decompositions x k = Ok l /\ NoDup l /\
    forall d, In d l <-> exists is, zlen is = k /\ nondecreasing is /\ (forall i, In i is -> 0 <= i < zlen x) /\ d = overlapping x is.
Proof. exact @C56_decompositions_l. Qed.
Print Assumptions C56_decompositions.

Example C56_example : partitions 5 3 1 None false = Ok [[1; 1; 3]; [1; 2; 2]] /\
  (exists l, partitions 5 3 1 (Some 2) true = Ok l /\ Permutation l [[1; 2; 2]; [2; 1; 2]; [2; 2; 1]]) /\
  partitions 2 2 (-1) (Some 3) false = Ok [[-1; 3]; [0; 2]; [1; 1]] /\
  decompositions [5; 7] 2 = Ok [[[5]; [5]; [5; 7]]; [[5]; [5; 7]; [7]]; [[5; 7]; [7]; [7]]] /\
  overlapping [5; 7] [0; 1] = [[5]; [5; 7]; [7]].
Proof. exact @C56_example_l. Qed.
