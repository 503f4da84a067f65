(** * Property theorems.  Generated by tools/mkprop.py from the tagged lemmas of
    CompEquiv.v: every theorem is closed by [exact]. *)
From Coq Require Import Znumtheory Sorting.Sorted.
From Verif Require Import PyBase Dict FreeModule Symmetric Simplicial Utils Surjection BarrattEccles Spec SpecChain SpecOperad SpecSurj CompEquiv.

(** (sigma x) o_{sigma(i)} (tau y) = (sigma o_{sigma(i)} tau) (x o_i y)
    for permutations. *)
Theorem C64_group : forall (n s i : Z) (sigma tau x y : list Z),
  1 <= i <= n -> 1 <= s -> perm n sigma -> perm s tau -> perm n x -> perm s y ->
  exists r, perm (n + s - 1) r /\
    (let! a := sg_mul sigma x in let! b := sg_mul tau y in sg_compose a b (image sigma i)) = Ok r /\
    (let! rho := sg_compose sigma tau (image sigma i) in let! z := sg_compose x y i in sg_mul rho z) = Ok r.
Proof. exact @C64_group_l. Qed.
Print Assumptions C64_group.

(** The same for surjection elements, for elements a, b, c of
    the symmetric ring that consist of sigma, tau and sigma o_{sigma(i)} tau. *)
Theorem C64_surjection : forall (dt n1 n2 i : Z) (sigma tau rho : list Z) (a b c : ring) (x y : surj),
  1 <= i <= n1 -> 1 <= n2 -> perm n1 sigma -> perm n2 tau -> sg_compose sigma tau (image sigma i) = Ok rho ->
  data a = [(SGE sigma, 1)] -> data b = [(SGE tau, 1)] -> data c = [(SGE rho, 1)] ->
  wf cls_ring a -> wf cls_ring b -> wf cls_ring c -> torsion a = torsion x -> torsion b = torsion x -> torsion c = torsion x ->
  wf cls_surj x -> wf cls_surj y -> torsion y = torsion x -> dt_ok dt (torsion x) ->
  attr x = BF /\ attr y = BF \/ torsion x = 2 /\ (attr x = BF \/ attr x = MS) /\ (attr y = BF \/ attr y = MS) ->
  keys_in (onto n1) x -> keys_in (onto n2) y ->
  same (let! z := surj_compose dt x y i in extended dt cls_surj (surj_act dt) c z)
       (let! u := extended dt cls_surj (surj_act dt) a x in let! v := extended dt cls_surj (surj_act dt) b y in surj_compose dt u v (image sigma i)).
Proof. exact @C64_surjection_l. Qed.
Print Assumptions C64_surjection.

(** The same for Barratt-Eccles elements. *)
Theorem C64_barratt_eccles : forall (dt n1 n2 p q i : Z) (sigma tau rho : list Z) (a b c : ring) (x y : bee),
  1 <= i <= n1 -> 1 <= n2 -> perm n1 sigma -> perm n2 tau -> sg_compose sigma tau (image sigma i) = Ok rho ->
  data a = [(SGE sigma, 1)] -> data b = [(SGE tau, 1)] -> data c = [(SGE rho, 1)] ->
  wf cls_ring a -> wf cls_ring b -> wf cls_ring c -> torsion a = torsion x -> torsion b = torsion x -> torsion c = torsion x ->
  wf cls_be x -> wf cls_be y -> torsion y = torsion x -> dt_ok dt (torsion x) ->
  keys_in (be_cell n1 p) x -> keys_in (be_cell n2 q) y ->
  same (let! z := extended dt cls_be (fun x y => be_compose dt x y i) x y in extended dt cls_be (be_act dt) c z)
       (let! u := extended dt cls_be (be_act dt) a x in let! v := extended dt cls_be (be_act dt) b y in extended dt cls_be (fun x y => be_compose dt x y (image sigma i)) u v).
Proof. exact @C64_barratt_eccles_l. Qed.
Print Assumptions C64_barratt_eccles.

(** An instance with seven terms; the hypotheses hold. *)
Example C64_example : let a := mkElt [(SGE [2; 3; 1], 1)] 0 tt : ring in let b := mkElt [(SGE [2; 1], 1)] 0 tt : ring in let c := mkElt [(SGE [3; 2; 4; 1], 1)] 0 tt : ring in
  let x := mkElt [([1; 2; 1; 3; 1], 2); ([2; 3; 1; 2; 3], -1)] 0 BF : surj in let y := mkElt [([1; 2; 1], 3)] 0 BF : surj in
  perm 3 [2; 3; 1] /\ perm 2 [2; 1] /\ sg_compose [2; 3; 1] [2; 1] (image [2; 3; 1] 1) = Ok [3; 2; 4; 1] /\ wf cls_ring a /\ wf cls_ring b /\ wf cls_ring c /\ wf cls_surj x /\ wf cls_surj y /\
  keys_in (surj_cell 3 2) x /\ keys_in (surj_cell 2 1) y /\
  exists z, (let! u := extended 0 cls_surj (surj_act 0) a x in let! v := extended 0 cls_surj (surj_act 0) b y in surj_compose 0 u v 2) = Ok z /\ zlen (data z) = 7.
Proof. exact @C64_example_l. Qed.
