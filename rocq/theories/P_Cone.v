(** * Property theorems.  Generated by tools/mkprop.py from the tagged lemmas of
    ConeLaws.v: every theorem is closed by [exact]. *)
From Coq Require Import Znumtheory Sorting.Sorted.
From Verif Require Import PyBase Dict FreeModule Simplicial Cubical Spec SpecChain SpecCube SpecCone ConeLaws.

(** Let [C] be a cone.  In the tensor powers of its chains every cycle of positive degree is a boundary. *)
Theorem C98_cone : forall (dt v r d : Z) (C : list Z -> Prop) (x : simp),
  cone_on v C -> 1 <= d -> wf cls_simplicial x -> dt_ok dt (torsion x) -> keys_in (simp_cell C r d) x ->
  (exists z, simp_boundary dt x = Ok z /\ is_zero z) ->
  exists y, wf cls_simplicial y /\ torsion y = torsion x /\ keys_in (simp_cell C r (d + 1)) y /\ same (simp_boundary dt y) (Ok x).
Proof. exact @C98_cone_l. Qed.
Print Assumptions C98_cone.

(** In degree 0 an element is a boundary exactly if the torsion divides the sum of its coefficients. *)
Theorem C98_cone_zero : forall (dt v r : Z) (C : list Z -> Prop) (x : simp),
  cone_on v C -> wf cls_simplicial x -> dt_ok dt (torsion x) -> keys_in (simp_cell C r 0) x ->
  (exists y, wf cls_simplicial y /\ torsion y = torsion x /\ keys_in (simp_cell C r 1) y /\ same (simp_boundary dt y) (Ok x)) <-> (torsion x | zsum (map snd (data x))).
Proof. exact @C98_cone_zero_l. Qed.
Print Assumptions C98_cone_zero.

(** In the tensor powers of the chains of the standard simplex every cycle of positive degree is a boundary. *)
Theorem C98_simplex : forall (dt m r d : Z) (x : simp),
  0 <= m -> 1 <= d -> wf cls_simplicial x -> dt_ok dt (torsion x) -> keys_in (simp_cell (simplex_face m) r d) x ->
  (exists z, simp_boundary dt x = Ok z /\ is_zero z) ->
  exists y, wf cls_simplicial y /\ torsion y = torsion x /\ keys_in (simp_cell (simplex_face m) r (d + 1)) y /\ same (simp_boundary dt y) (Ok x).
Proof. exact @C98_simplex_l. Qed.
Print Assumptions C98_simplex.

Theorem C98_simplex_zero : forall (dt m r : Z) (x : simp),
  0 <= m -> wf cls_simplicial x -> dt_ok dt (torsion x) -> keys_in (simp_cell (simplex_face m) r 0) x ->
  (exists y, wf cls_simplicial y /\ torsion y = torsion x /\ keys_in (simp_cell (simplex_face m) r 1) y /\ same (simp_boundary dt y) (Ok x)) <-> (torsion x | zsum (map snd (data x))).
Proof. exact @C98_simplex_zero_l. Qed.
Print Assumptions C98_simplex_zero.

(** In the tensor powers of the chains of the standard cube of dimension [m] every cycle of positive degree is a boundary. *)
Theorem C98_cube : forall (dt m r d : Z) (x : cubc),
  0 <= m -> 1 <= d -> wf cls_cubical x -> dt_ok dt (torsion x) -> keys_in (cub_cell m r d) x ->
  (exists z, cub_boundary dt x = Ok z /\ is_zero z) ->
  exists y, wf cls_cubical y /\ torsion y = torsion x /\ keys_in (cub_cell m r (d + 1)) y /\ same (cub_boundary dt y) (Ok x).
Proof. exact @C98_cube_l. Qed.
Print Assumptions C98_cube.

Theorem C98_cube_zero : forall (dt m r : Z) (x : cubc),
  0 <= m -> wf cls_cubical x -> dt_ok dt (torsion x) -> keys_in (cub_cell m r 0) x ->
  (exists y, wf cls_cubical y /\ torsion y = torsion x /\ keys_in (cub_cell m r 1) y /\ same (cub_boundary dt y) (Ok x)) <-> (torsion x | zsum (map snd (data x))).
Proof. exact @C98_cube_zero_l. Qed.
Print Assumptions C98_cube_zero.

Example C98_example : let x : simp := mkElt [([[1]; [0; 2]], 1); ([[0]; [0; 2]], -1); ([[0; 1]; [2]], -1); ([[0; 1]; [0]], 1)] 0 tt in
  let y : cubc := mkElt [([[1; 2]], 1); ([[0; 2]], 4); ([[2; 1]], 4); ([[2; 0]], 1)] 5 tt in
  wf cls_simplicial x /\ keys_in (simp_cell (simplex_face 2) 2 1) x /\ simp_boundary 0 x = Ok (mkElt [] 0 tt) /\ simp_boundary 0 (mkElt [([[0; 1]; [0; 2]], 1)] 0 tt) = Ok x /\
  wf cls_cubical y /\ keys_in (cub_cell 2 1 1) y /\ cub_boundary 0 y = Ok (mkElt [] 5 tt).
Proof. exact @C98_example_l. Qed.
