(** * Property theorems.  Generated by tools/mkprop.py from the tagged lemmas of
    SerreOntoLaws.v: every theorem is closed by [exact]. *)
From Coq Require Import Znumtheory Sorting.Sorted.
From Verif Require Import PyBase Dict FreeModule Simplicial Cubical Spec SpecChain SpecCube SpecCone SerreOntoLaws.

(** The Cartan-Serre map sends the tensor products of r faces of the cube of dimension m of total degree d to combinations of
    tensor products of r faces of the simplex of dimension m of total degree d. *)
Theorem C101_cells : forall (dt m r d : Z) (x : cubc),
  wf cls_cubical x -> dt_ok dt (torsion x) -> keys_in (cub_cell m r d) x ->
  exists y, cub_cartan_serre dt x = Ok y /\ wf cls_simplicial y /\ torsion y = torsion x /\ keys_in (simp_cell (simplex_face m) r d) y.
Proof. exact @C101_cells_l. Qed.
Print Assumptions C101_cells.

(** The Cartan-Serre map is onto, in every dimension, number of factors and degree: every element of the simplicial side is the
    image of an element of the cubical side with the same number of terms and the same coefficients. *)
Theorem C101_onto : forall (dt m r d : Z) (y : simp),
  0 <= m -> wf cls_simplicial y -> dt_ok dt (torsion y) -> keys_in (simp_cell (simplex_face m) r d) y ->
  exists x, wf cls_cubical x /\ torsion x = torsion y /\ keys_in (cub_cell m r d) x /\ map snd (data x) = map snd (data y) /\ same (cub_cartan_serre dt x) (Ok y).
Proof. exact @C101_onto_l. Qed.
Print Assumptions C101_onto.

(** Every cycle of the simplicial side is the image of a cycle of the cubical side. *)
Theorem C101_cycles : forall (dt m r d : Z) (y : simp),
  0 <= m -> 0 <= d -> wf cls_simplicial y -> dt_ok dt (torsion y) -> keys_in (simp_cell (simplex_face m) r d) y -> (exists z, simp_boundary dt y = Ok z /\ is_zero z) ->
  exists x, wf cls_cubical x /\ torsion x = torsion y /\ keys_in (cub_cell m r d) x /\ (exists z, cub_boundary dt x = Ok z /\ is_zero z) /\ same (cub_cartan_serre dt x) (Ok y).
Proof. exact @C101_cycles_l. Qed.
Print Assumptions C101_cycles.

(** A cycle of the cubical side is a boundary if and only if its image is a boundary. *)
Theorem C101_boundaries : forall (dt m r d : Z) (x : cubc) (y : simp),
  0 <= m -> 0 <= d -> wf cls_cubical x -> dt_ok dt (torsion x) -> keys_in (cub_cell m r d) x -> (exists z, cub_boundary dt x = Ok z /\ is_zero z) -> cub_cartan_serre dt x = Ok y ->
  (exists v, wf cls_cubical v /\ torsion v = torsion x /\ keys_in (cub_cell m r (d + 1)) v /\ same (cub_boundary dt v) (Ok x)) <->
  (exists w, wf cls_simplicial w /\ torsion w = torsion x /\ keys_in (simp_cell (simplex_face m) r (d + 1)) w /\ same (simp_boundary dt w) (Ok y)).
Proof. exact @C101_boundaries_l. Qed.
Print Assumptions C101_boundaries.

(** The Cartan-Serre map sends the standard element of the cube to the standard element of the simplex. *)
Theorem C101_top : forall (dt m r t : Z) (ot : option Z),
  0 <= m -> t = match ot with Some u => u | None => dt end -> 0 <= t -> t <> 1 -> dt_ok dt t ->
  same (let! x := cub_standard_element dt m r ot in cub_cartan_serre dt x) (simp_standard_element dt m r ot).
Proof. exact @C101_top_l. Qed.
Print Assumptions C101_top.

(** A cycle of the square of the simplex of dimension 2 and the cycle of the square of the cube of dimension 2 over it. *)
Example C101_example : let y : simp := mkElt [([[1]; [0; 2]], 1); ([[0]; [0; 2]], -1); ([[0; 1]; [2]], -1); ([[0; 1]; [0]], 1)] 0 tt in
  let x : cubc := mkElt [([[1; 0]; [2; 1]], 1); ([[0; 0]; [2; 1]], -1); ([[2; 0]; [1; 1]], -1); ([[2; 0]; [0; 1]], 1)] 0 tt in
  wf cls_simplicial y /\ keys_in (simp_cell (simplex_face 2) 2 1) y /\ simp_boundary 0 y = Ok (mkElt [] 0 tt) /\ wf cls_cubical x /\ keys_in (cub_cell 2 2 1) x /\ cub_boundary 0 x = Ok (mkElt [] 0 tt) /\ cub_cartan_serre 0 x = Ok y.
Proof. exact @C101_example_l. Qed.
