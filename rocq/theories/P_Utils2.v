(** * Property theorems.  Generated by tools/mkprop.py from the tagged lemmas of
    UtilsLaws2.v: every theorem is closed by [exact]. *)
From Coq Require Import Znumtheory Sorting.Sorted.
From Verif Require Import PyBase Dict FreeModule Utils Spec SpecUtils UtilsLaws2.

(** The generator terminates; it yields every
    distinct [r]-permutation of the items exactly once (all permutations if
    [r] is not given), in increasing order. *)
Theorem C60_distinct_permutations : forall (l : list Z) (o : option Z),
  let r := match o with Some r => r | None => zlen l end in
  exists L, (exists fuel0, forall fuel, (fuel0 <= fuel)%nat -> distinct_permutations fuel l o = Ok L) /\
    StronglySorted tuple_lt L /\ NoDup L /\ forall p, In p L <-> arrangement l r p.
Proof. exact @C60_distinct_permutations_l. Qed.
Print Assumptions C60_distinct_permutations.

Example C60_example : distinct_permutations 20 [2; 1; 2; 1] None = Ok [[1; 1; 2; 2]; [1; 2; 1; 2]; [1; 2; 2; 1]; [2; 1; 1; 2]; [2; 1; 2; 1]; [2; 2; 1; 1]] /\
  distinct_permutations 20 [2; 1; 3; 1] (Some 2) = Ok [[1; 1]; [1; 2]; [1; 3]; [2; 1]; [2; 3]; [3; 1]; [3; 2]] /\
  distinct_permutations 20 [] None = Ok [[]] /\ distinct_permutations 20 [1; 2] (Some 3) = Ok [].
Proof. exact @C60_example_l. Qed.
