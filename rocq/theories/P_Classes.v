(** * Property theorems.  Generated by tools/mkprop.py from the tagged lemmas of
    ClassFacts.v: every theorem is closed by [exact]. *)
From Coq Require Import Znumtheory Sorting.Sorted.
From Verif Require Import PyBase Dict FreeModule Symmetric Simplicial Cubical Utils Surjection BarrattEccles Spec ClassFacts.

(** The generic theorems apply to every class of elements of the library. *)
Theorem C01_classes : cls_ok cls_ring /\ cls_ok cls_simplicial /\ cls_ok cls_cubical /\
  cls_ok cls_surj /\ cls_ok cls_be /\ cls_ok (cls_free Z) /\ cls_ok (cls_free (list bkey)).
Proof. exact @C01_classes_l. Qed.
Print Assumptions C01_classes.

(** What the classes declare degenerate: a key of a
    canonical element has, for simplices, no factor that is empty or repeats
    a vertex consecutively; for surjections, values exactly {1..max} and no
    two equal consecutive values; for Barratt-Eccles, no two equal
    consecutive permutations. *)
Theorem C01_degenerate_keys : (forall (x : simp) k, wf cls_simplicial x -> In k (dkeys (data x)) ->
     forall s, In s k -> s <> [] /\ forall l a b r, s = l ++ a :: b :: r -> a <> b) /\
  (forall (x : surj) k, wf cls_surj x -> In k (dkeys (data x)) ->
     k <> [] /\ (exists m, 1 <= m /\ forall v, In v k <-> 1 <= v <= m) /\
     forall l a b r, k = l ++ a :: b :: r -> a <> b) /\
  (forall (x : bee) k, wf cls_be x -> In k (dkeys (data x)) ->
     k <> [] /\ forall l a b r, k = l ++ a :: b :: r -> a <> b).
Proof. exact @C01_degenerate_keys_l. Qed.
Print Assumptions C01_degenerate_keys.

(** The hypotheses of C01-C09 are met by surjection elements
    of torsion 5 with two terms, for [default_torsion] 0 and 5. *)
Example C01_example : let x : surj := mkElt [([1;2;1], 3); ([1;2;3;1], 4)] 5 BF in
  let y : surj := mkElt [([2;1;2], 1); ([1;2;1], 2)] 5 BF in
  cls_ok cls_surj /\ wf cls_surj x /\ wf cls_surj y /\ torsion y = torsion x /\ attr y = attr x /\
  dt_ok 0 (torsion x) /\ dt_ok 5 (torsion x) /\
  add 0 cls_surj x y = Ok (mkElt [([1;2;3;1], 4); ([2;1;2], 1)] 5 BF) /\
  new 0 cls_surj [([1;2;1], -7); ([1;1;2], 4); ([1;2], 5)] (Some 5) BF = Ok (mkElt [([1;2;1], 3)] 5 BF).
Proof. exact @C01_example_l. Qed.
