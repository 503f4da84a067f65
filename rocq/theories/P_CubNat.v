(** * Property theorems.  Generated by tools/mkprop.py from the tagged lemmas of
    CubNat.v: every theorem is closed by [exact]. *)
From Coq Require Import Znumtheory Sorting.Sorted.
From Verif Require Import PyBase Dict FreeModule Symmetric Simplicial Cubical Utils Surjection Spec SpecChain SpecOperad SpecSurj SpecAction SpecCube SpecCubAction SpecCubCup SpecCubNat CubNat.

(** Every chain has an image under every face inclusion and every projection,
    unique up to ==. *)
Theorem C107_image : forall (m : cube_map) (x : cubc),
  proper m -> wf cls_cubical x ->
  (exists y, is_cube_image m x y) /\ (forall y y', is_cube_image m x y -> is_cube_image m x y' -> same (Ok y) (Ok y')).
Proof. exact @C107_image_l. Qed.
Print Assumptions C107_image.

(** Images of sums and multiples are the sums and multiples of the images. *)
Theorem C107_linear : forall (dt n : Z) (m : cube_map) (x x' y y' : cubc),
  proper m -> wf cls_cubical x -> wf cls_cubical x' -> torsion x' = torsion x -> dt_ok dt (torsion x) ->
  is_cube_image m x y -> is_cube_image m x' y' ->
  exists s s' p p', add dt cls_cubical x x' = Ok s /\ add dt cls_cubical y y' = Ok s' /\ is_cube_image m s s' /\
    scale dt cls_cubical n x = Ok p /\ scale dt cls_cubical n y = Ok p' /\ is_cube_image m p p'.
Proof. exact @C107_linear_l. Qed.
Print Assumptions C107_linear.

(** The boundary of the image is the image of the boundary. *)
Theorem C107_boundary : forall (dt : Z) (m : cube_map) (x y : cubc),
  proper m -> wf cls_cubical x -> dt_ok dt (torsion x) -> is_cube_image m x y ->
  exists bx by', cub_boundary dt x = Ok bx /\ cub_boundary dt y = Ok by' /\ is_cube_image m bx by'.
Proof. exact @C107_boundary_l. Qed.
Print Assumptions C107_boundary.

(** The iterated diagonal of the image is the image of the iterated diagonal,
    for every number of iterations and every coordinate (extended by 0: the code refuses the
    zero element, and the image may be zero). *)
Theorem C107_diagonal : forall (dt n e times coord : Z) (m : cube_map) (x y : cubc),
  proper m -> wf cls_cubical x -> dt_ok dt (torsion x) -> 1 <= coord <= n -> 0 <= times ->
  keys_in (fun k => zlen k = n /\ cube_degree k = e) x -> is_cube_image m x y ->
  exists dx dy, extended1 dt cls_cubical (fun z => cub_iterated_diagonal dt z times coord) x = Ok dx /\
    extended1 dt cls_cubical (fun z => cub_iterated_diagonal dt z times coord) y = Ok dy /\ is_cube_image m dx dy.
Proof. exact @C107_diagonal_l. Qed.
Print Assumptions C107_diagonal.

(** The action of the symmetric ring commutes with images. *)
Theorem C107_symmetric : forall (dt n : Z) (m : cube_map) (a : ring) (x y : cubc),
  proper m -> 1 <= n -> wf cls_ring a -> wf cls_cubical x -> torsion a = torsion x -> dt_ok dt (torsion x) ->
  keys_in (fun k => perm n (kval k)) a -> keys_in (fun k => zlen k = n) x -> is_cube_image m x y ->
  exists ax ay, extended dt cls_cubical (cub_act dt) a x = Ok ax /\ extended dt cls_cubical (cub_act dt) a y = Ok ay /\ is_cube_image m ax ay.
Proof. exact @C107_symmetric_l. Qed.
Print Assumptions C107_symmetric.

(** The join of the images is the image of the join. *)
Theorem C107_join : forall (dt N n d : Z) (m : cube_map) (x y : cubc),
  proper m -> 1 <= n -> wf cls_cubical x -> dt_ok dt (torsion x) ->
  keys_in (fun k => zlen k = n /\ cube_degree k = d /\ forall c, In c k -> zlen c = N) x -> is_cube_image m x y ->
  exists jx jy, cub_join dt x = Ok jx /\ cub_join dt y = Ok jy /\ is_cube_image m jx jy.
Proof. exact @C107_join_l. Qed.
Print Assumptions C107_join.

(** The action of every element of the surjection operad, under either sign
    convention, hence every cubical cup-i product and Steenrod operation that the code
    computes, commutes with images. *)
Theorem C107_surjection : forall (dt r d n e coord : Z) (m : cube_map) (u : surj) (x y : cubc),
  proper m ->
  1 <= r -> 1 <= coord <= n -> wf cls_surj u -> wf cls_cubical x -> torsion x = torsion u -> dt_ok dt (torsion u) ->
  keys_in (surj_cell r d) u -> keys_in (fun k => zlen k = n /\ cube_degree k = e) x -> is_cube_image m x y ->
  exists ux uy, surj_call_cubical dt u x coord = Ok ux /\ surj_call_cubical dt u y coord = Ok uy /\ is_cube_image m ux uy.
Proof. exact @C107_surjection_l. Qed.
Print Assumptions C107_surjection.

(** Forgetting the coordinate that a face inclusion inserted gives back the
    chain: the projection is a left inverse of the face inclusions. *)
Theorem C107_retraction : forall (p : nat) (e : Z) (x y : cubc),
  e = 0 \/ e = 1 -> wf cls_cubical x ->
  keys_in (fun k => forall c, In c k -> Z.of_nat p <= zlen c) x -> is_cube_image (FaceInclusion p e) x y -> is_cube_image (Projection p) y x.
Proof. exact @C107_retraction_l. Qed.
Print Assumptions C107_retraction.

(** On cochains the maps induce the pull back: it commutes with the coboundary
    and preserves cocycles; the value of a cochain, or of a pair of cochains, on the image of a
    chain is the value of the pull backs on the chain; and so the products of a pair of cochains
    that an element of the surjection operad of arity two defines are natural: the product of
    the pull backs is the pull back of the product. *)
Theorem C107_cochains : forall (m : cube_map) (a b : list Z -> Z),
  proper m ->
  (forall c, cub_coboundary (cube_pull_back m a) c = cube_pull_back m (cub_coboundary a) c) /\
  (forall x y : cubc, wf cls_cubical x -> is_cube_image m x y ->
     (torsion x | cub_value (on_single a) y - cub_value (on_single (cube_pull_back m a)) x) /\
     (torsion x | cub_value (on_pair a b) y - cub_value (on_pair (cube_pull_back m a) (cube_pull_back m b)) x)) /\
  (forall (dt d e : Z) (u : surj) (x y ux uy : cubc), wf cls_surj u -> wf cls_cubical x -> torsion x = torsion u -> dt_ok dt (torsion u) ->
     keys_in (surj_cell 2 d) u -> keys_in (fun k => zlen k = 1 /\ cube_degree k = e) x -> is_cube_image m x y ->
     surj_call_cubical dt u x 1 = Ok ux -> surj_call_cubical dt u y 1 = Ok uy ->
     (torsion x | cub_value (on_pair a b) uy - cub_value (on_pair (cube_pull_back m a) (cube_pull_back m b)) ux)).
Proof. exact @C107_cochains_l. Qed.
Print Assumptions C107_cochains.

Example C107_example : let x := mkElt [([[2; 0; 2]; [0; 2; 1]], 1)] 0 tt in
  let z := mkElt [([[2; 0; 1; 2]; [0; 2; 1; 1]], 1)] 0 tt in
  let u := mkElt [([[2; 0; 0]; [0; 1; 1]], 1)] 0 tt in
  let y := mkElt [([[2; 0]; [0; 1]], 1)] 0 tt in
  let ju := mkElt [([[2; 2; 1]], -1); ([[2; 0; 2]], -1)] 0 tt in
  let jy := mkElt [([[2; 2]], -1)] 0 tt in
  wf cls_cubical x /\ wf cls_cubical u /\ is_cube_image (FaceInclusion 2 1) x z /\ is_cube_image (Projection 1) u y /\
  is_cube_image (Projection 1) x (mkElt [] 0 tt) /\
  cub_join 0 u = Ok ju /\ cub_join 0 y = Ok jy /\ is_cube_image (Projection 1) ju jy.
Proof. exact @C107_example_l. Qed.
