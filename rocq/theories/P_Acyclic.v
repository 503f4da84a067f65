(** * Property theorems.  Generated by tools/mkprop.py from the tagged lemmas of
    AcyclicLaws.v: every theorem is closed by [exact]. *)
From Coq Require Import Znumtheory Sorting.Sorted.
From Verif Require Import PyBase Dict FreeModule Symmetric Surjection BarrattEccles Spec SpecChain SpecOperad SpecSurj AcyclicLaws.

(** Every cycle of positive degree is a boundary. *)
Theorem C69_barratt_eccles : forall (dt n d : Z) (x : bee),
  0 <= n -> 1 <= d -> wf cls_be x -> dt_ok dt (torsion x) -> keys_in (be_cell n d) x ->
  (exists z, be_boundary dt x = Ok z /\ is_zero z) ->
  exists y, wf cls_be y /\ torsion y = torsion x /\ keys_in (be_cell n (d + 1)) y /\ same (be_boundary dt y) (Ok x).
Proof. exact @C69_barratt_eccles_l. Qed.
Print Assumptions C69_barratt_eccles.

(** An element of degree 0 is a boundary if and only if the sum of its coefficients is 0 modulo the torsion. *)
Theorem C69_barratt_eccles_zero : forall (dt n : Z) (x : bee),
  0 <= n -> wf cls_be x -> dt_ok dt (torsion x) -> keys_in (be_cell n 0) x ->
  (exists y, wf cls_be y /\ torsion y = torsion x /\ keys_in (be_cell n 1) y /\ same (be_boundary dt y) (Ok x)) <->
  (torsion x | zsum (map snd (data x))).
Proof. exact @C69_barratt_eccles_zero_l. Qed.
Print Assumptions C69_barratt_eccles_zero.

Theorem C69_surjection : forall (dt n d : Z) (x : surj),
  1 <= n -> 1 <= d -> wf cls_surj x -> dt_ok dt (torsion x) -> attr x = BF \/ attr x = MS \/ torsion x = 2 -> keys_in (surj_cell n d) x ->
  (exists z, surj_boundary dt x = Ok z /\ is_zero z) ->
  exists y, wf cls_surj y /\ torsion y = torsion x /\ attr y = attr x /\ keys_in (surj_cell n (d + 1)) y /\ same (surj_boundary dt y) (Ok x).
Proof. exact @C69_surjection_l. Qed.
Print Assumptions C69_surjection.

Theorem C69_surjection_zero : forall (dt n : Z) (x : surj),
  1 <= n -> wf cls_surj x -> dt_ok dt (torsion x) -> attr x = BF \/ attr x = MS \/ torsion x = 2 -> keys_in (surj_cell n 0) x ->
  (exists y, wf cls_surj y /\ torsion y = torsion x /\ attr y = attr x /\ keys_in (surj_cell n 1) y /\ same (surj_boundary dt y) (Ok x)) <->
  (torsion x | zsum (map snd (data x))).
Proof. exact @C69_surjection_zero_l. Qed.
Print Assumptions C69_surjection_zero.

(** A cycle of degree 1 that is not obviously a boundary, and an element of degree 0 that bounds modulo 3 only. *)
Example C69_example : let x : surj := mkElt [([1; 2; 1; 3], 1); ([2; 1; 2; 3], 1)] 0 BF in
  let u : surj := mkElt [([2; 1], 1); ([1; 2], 2)] 3 MS in
  let b : bee := mkElt [([[1; 2]; [2; 1]], 1); ([[2; 1]; [1; 2]], 1)] 0 tt in
  (wf cls_surj x /\ keys_in (surj_cell 3 1) x /\ exists z, surj_boundary 0 x = Ok z /\ is_zero z) /\
  (wf cls_surj u /\ keys_in (surj_cell 2 0) u /\ (torsion u | zsum (map snd (data u)))) /\
  (wf cls_be b /\ keys_in (be_cell 2 1) b /\ exists z, be_boundary 0 b = Ok z /\ is_zero z).
Proof. exact @C69_example_l. Qed.

(** The action of the group ring on a basis element is injective: the complexes are free over the group ring. *)
Theorem C70_surjection : forall (dt n : Z) (a b : ring) (x : surj) (k : list Z),
  1 <= n -> wf cls_ring a -> wf cls_ring b -> wf cls_surj x -> torsion a = torsion x -> torsion b = torsion x -> dt_ok dt (torsion x) -> attr x = BF \/ attr x = MS ->
  keys_in (fun k => perm n (kval k)) a -> keys_in (fun k => perm n (kval k)) b -> onto n k -> data x = [(k, 1)] ->
  same (extended dt cls_surj (surj_act dt) a x) (extended dt cls_surj (surj_act dt) b x) -> elt_eqb a b = true.
Proof. exact @C70_surjection_l. Qed.
Print Assumptions C70_surjection.

Theorem C70_barratt_eccles : forall (dt n : Z) (a b : ring) (x : bee) (k : list (list Z)),
  1 <= n -> wf cls_ring a -> wf cls_ring b -> wf cls_be x -> torsion a = torsion x -> torsion b = torsion x -> dt_ok dt (torsion x) ->
  keys_in (fun k => is_sge k = true /\ perm n (kval k)) a -> keys_in (fun k => is_sge k = true /\ perm n (kval k)) b -> be_simplex n k -> data x = [(k, 1)] ->
  same (extended dt cls_be (be_act dt) a x) (extended dt cls_be (be_act dt) b x) -> elt_eqb a b = true.
Proof. exact @C70_barratt_eccles_l. Qed.
Print Assumptions C70_barratt_eccles.

(** The hypotheses are met by the basis element (1,2,1,3) and the element 2*(2,3,1) - (1,2,3); acting gives two terms. *)
Example C70_example : let x : surj := mkElt [([1; 2; 1; 3], 1)] 0 BF in
  let a : ring := mkElt [(SGE [2; 3; 1], 2); (SGE [1; 2; 3], -1)] 0 tt in
  let b : bee := mkElt [([[1; 2; 3]; [1; 3; 2]], 1)] 0 tt in
  wf cls_surj x /\ wf cls_be b /\ wf cls_ring a /\ keys_in (fun k => is_sge k = true /\ perm 3 (kval k)) a /\ onto 3 [1; 2; 1; 3] /\ be_simplex 3 [[1; 2; 3]; [1; 3; 2]] /\
  surj_act 0 a x = Ok (mkElt [([2; 3; 2; 1], 2); ([1; 2; 1; 3], -1)] 0 BF) /\
  be_act 0 a b = Ok (mkElt [([[2; 3; 1]; [2; 1; 3]], 2); ([[1; 2; 3]; [1; 3; 2]], -1)] 0 tt).
Proof. exact @C70_example_l. Qed.
