(** * Property theorems.  Generated by tools/mkprop.py from the tagged lemmas of
    GroupLaws.v: every theorem is closed by [exact]. *)
From Coq Require Import Znumtheory Sorting.Sorted.
From Verif Require Import PyBase Dict FreeModule Symmetric Simplicial Cubical Surjection BarrattEccles GroupMul Spec SpecChain SpecOperad SpecSurj SpecCube GroupLaws.

(** A permutation times a simplicial element permutes the factors with the Koszul sign; it is a left action, and raises [TypeError] on zero. *)
Theorem C73_simplicial : forall (dt n : Z) (g h : list Z) (x : simp),
  1 <= n -> perm n g -> perm n h -> wf cls_simplicial x -> dt_ok dt (torsion x) -> keys_in (fun k => zlen k = n) x ->
  (~ is_zero x -> gives cls_simplicial (group_mul_simp dt g x) (torsion x) tt (extend (fun k => koszul spx_dim g k) x)) /\
  (exists gh, sg_mul g h = Ok gh /\ same (extended1 dt cls_simplicial (group_mul_simp dt gh) x) (let! y := extended1 dt cls_simplicial (group_mul_simp dt h) x in extended1 dt cls_simplicial (group_mul_simp dt g) y)) /\
  same (extended1 dt cls_simplicial (group_mul_simp dt (zrange 1 (n + 1))) x) (Ok x) /\
  (is_zero x -> torsion x <> 1 -> group_mul_simp dt g x = Err TypeError).
Proof. exact @C73_simplicial_l. Qed.
Print Assumptions C73_simplicial.

(** The same for cubical elements. *)
Theorem C73_cubical : forall (dt n : Z) (g h : list Z) (x : cubc),
  1 <= n -> perm n g -> perm n h -> wf cls_cubical x -> dt_ok dt (torsion x) -> keys_in (fun k => zlen k = n) x ->
  (~ is_zero x -> gives cls_cubical (group_mul_cub dt g x) (torsion x) tt (extend (fun k => koszul dim g k) x)) /\
  (exists gh, sg_mul g h = Ok gh /\ same (extended1 dt cls_cubical (group_mul_cub dt gh) x) (let! y := extended1 dt cls_cubical (group_mul_cub dt h) x in extended1 dt cls_cubical (group_mul_cub dt g) y)) /\
  same (extended1 dt cls_cubical (group_mul_cub dt (zrange 1 (n + 1))) x) (Ok x) /\
  (is_zero x -> torsion x <> 1 -> group_mul_cub dt g x = Err TypeError).
Proof. exact @C73_cubical_l. Qed.
Print Assumptions C73_cubical.

(** The same for Barratt-Eccles elements. *)
Theorem C73_be : forall (dt n : Z) (g h : list Z) (x : bee),
  1 <= n -> perm n g -> perm n h -> wf cls_be x -> dt_ok dt (torsion x) -> keys_in (be_simplex n) x ->
  (~ is_zero x -> gives cls_be (group_mul_be dt g x) (torsion x) tt (extend (fun k => [(be_move g k, 1)]) x)) /\
  (exists gh, sg_mul g h = Ok gh /\ same (extended1 dt cls_be (group_mul_be dt gh) x) (let! y := extended1 dt cls_be (group_mul_be dt h) x in extended1 dt cls_be (group_mul_be dt g) y)) /\
  same (extended1 dt cls_be (group_mul_be dt (zrange 1 (n + 1))) x) (Ok x) /\
  (is_zero x -> torsion x <> 1 -> group_mul_be dt g x = Err TypeError).
Proof. exact @C73_be_l. Qed.
Print Assumptions C73_be.

(** The same for surjection elements, in both conventions. *)
Theorem C73_surjection : forall (dt n : Z) (g h : list Z) (x : surj),
  1 <= n -> perm n g -> perm n h -> wf cls_surj x -> dt_ok dt (torsion x) -> attr x = BF \/ attr x = MS -> keys_in (onto n) x ->
  (~ is_zero x -> gives cls_surj (group_mul_surj dt g x) (torsion x) (attr x) (extend (fun k => surj_move (attr x) g k) x)) /\
  (exists gh, sg_mul g h = Ok gh /\ same (extended1 dt cls_surj (group_mul_surj dt gh) x) (let! y := extended1 dt cls_surj (group_mul_surj dt h) x in extended1 dt cls_surj (group_mul_surj dt g) y)) /\
  same (extended1 dt cls_surj (group_mul_surj dt (zrange 1 (n + 1))) x) (Ok x) /\
  (is_zero x -> torsion x <> 1 -> group_mul_surj dt g x = Err TypeError).
Proof. exact @C73_surjection_l. Qed.
Print Assumptions C73_surjection.

Example C73_example : perm 3 [2; 3; 1] /\ onto 3 [1; 2; 1; 3] /\ wf cls_surj (mkElt [([1; 2; 1; 3], 2)] 0 MS) /\
  group_mul_surj 0 [2; 3; 1] (mkElt [([1; 2; 1; 3], 2)] 0 MS) = Ok (mkElt [([2; 3; 2; 1], 2)] 0 MS) /\
  group_mul_simp 0 [2; 1] (mkElt [([[0; 1]; [1; 2]], 1)] 3 tt) = Ok (mkElt [([[1; 2]; [0; 1]], 2)] 3 tt) /\
  group_mul_be 0 [2; 1] (mkElt [([[1; 2]; [2; 1]], 1)] 0 tt) = Ok (mkElt [([[2; 1]; [1; 2]], 1)] 0 tt) /\
  group_mul_cub 0 [2; 1] (mkElt [] 0 tt) = Err TypeError.
Proof. exact @C73_example_l. Qed.
