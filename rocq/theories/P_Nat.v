(** * Property theorems.  Generated by tools/mkprop.py from the tagged lemmas of
    NatLaws.v: every theorem is closed by [exact]. *)
From Coq Require Import Znumtheory Sorting.Sorted.
From Verif Require Import PyBase Dict FreeModule Symmetric Simplicial Utils Surjection Spec SpecChain SpecOperad SpecSurj SpecCochain SpecSimpCup SpecSquares SpecCupAlg SpecNat NatLaws.

(** Every chain has an image under every map f of vertices, unique up to
    ==; images compose, and the identity map changes nothing. *)
Theorem C85_image : forall (f g : Z -> Z) (x : simp),
  wf cls_simplicial x ->
  (exists y, is_image f x y) /\ (forall y y', is_image f x y -> is_image f x y' -> same (Ok y) (Ok y')) /\
  (forall y z, is_image f x y -> is_image g y z -> is_image (fun v => g (f v)) x z) /\ is_image (fun v => v) x x.
Proof. exact @C85_image_l. Qed.
Print Assumptions C85_image.

(** Images of sums and multiples are the sums and multiples of the images. *)
Theorem C85_linear : forall (dt n : Z) (f : Z -> Z) (x x' y y' : simp),
  wf cls_simplicial x -> wf cls_simplicial x' -> torsion x' = torsion x -> dt_ok dt (torsion x) ->
  is_image f x y -> is_image f x' y' ->
  exists s s' m m', add dt cls_simplicial x x' = Ok s /\ add dt cls_simplicial y y' = Ok s' /\ is_image f s s' /\
    scale dt cls_simplicial n x = Ok m /\ scale dt cls_simplicial n y = Ok m' /\ is_image f m m'.
Proof. exact @C85_linear_l. Qed.
Print Assumptions C85_linear.

(** The boundary of the image is the image of the boundary. *)
Theorem C85_boundary : forall (dt : Z) (f : Z -> Z) (x y : simp),
  wf cls_simplicial x -> dt_ok dt (torsion x) -> is_image f x y ->
  exists bx by', simp_boundary dt x = Ok bx /\ simp_boundary dt y = Ok by' /\ is_image f bx by'.
Proof. exact @C85_boundary_l. Qed.
Print Assumptions C85_boundary.

(** The iterated diagonal of the image is the image of the iterated diagonal,
    for every number of iterations and every coordinate (extended by 0: the code refuses the
    zero element, and the image may be zero). *)
Theorem C85_diagonal : forall (dt n e times coord : Z) (f : Z -> Z) (x y : simp),
  wf cls_simplicial x -> dt_ok dt (torsion x) -> 1 <= coord <= n -> 0 <= times ->
  keys_in (fun k => zlen k = n /\ total_degree k = e) x -> is_image f x y ->
  exists dx dy, extended1 dt cls_simplicial (fun z => simp_iterated_diagonal dt z times coord) x = Ok dx /\
    extended1 dt cls_simplicial (fun z => simp_iterated_diagonal dt z times coord) y = Ok dy /\ is_image f dx dy.
Proof. exact @C85_diagonal_l. Qed.
Print Assumptions C85_diagonal.

(** The action of the symmetric ring commutes with images. *)
Theorem C85_symmetric : forall (dt n : Z) (f : Z -> Z) (a : ring) (x y : simp),
  1 <= n -> wf cls_ring a -> wf cls_simplicial x -> torsion a = torsion x -> dt_ok dt (torsion x) ->
  keys_in (fun k => perm n (kval k)) a -> keys_in (fun k => zlen k = n) x -> is_image f x y ->
  exists ax ay, extended dt cls_simplicial (simp_act dt) a x = Ok ax /\ extended dt cls_simplicial (simp_act dt) a y = Ok ay /\ is_image f ax ay.
Proof. exact @C85_symmetric_l. Qed.
Print Assumptions C85_symmetric.

(** The action of every element of the surjection operad, hence every
    cup-i product and every Steenrod operation that the code computes, commutes with images. *)
Theorem C85_surjection : forall (dt r d n e coord : Z) (f : Z -> Z) (u : surj) (x y : simp),
  1 <= r -> 1 <= coord <= n -> wf cls_surj u -> wf cls_simplicial x -> torsion x = torsion u -> dt_ok dt (torsion u) -> attr u = MS ->
  keys_in (surj_cell r d) u -> keys_in (fun k => zlen k = n /\ total_degree k = e) x -> is_image f x y ->
  exists ux uy, surj_call_simplicial dt u x coord = Ok ux /\ surj_call_simplicial dt u y coord = Ok uy /\ is_image f ux uy.
Proof. exact @C85_surjection_l. Qed.
Print Assumptions C85_surjection.

(** So does the quotient by the tensors with a 1-dimensional factor. *)
Theorem C85_one_reduced : forall (dt : Z) (f : Z -> Z) (x y : simp),
  wf cls_simplicial x -> dt_ok dt (torsion x) -> is_image f x y ->
  exists rx ry, simp_one_reduced dt x = Ok rx /\ simp_one_reduced dt y = Ok ry /\ is_image f rx ry.
Proof. exact @C85_one_reduced_l. Qed.
Print Assumptions C85_one_reduced.

(** The induced map on cochains preserves degree, coboundary, the cup
    product over every Z/t and Z, and the Steenrod squares, all on the nose. *)
Theorem C85_cohomology : forall (dt t m n k : Z) (dc : conv) (f : Z -> Z) (a b ab sa : list Z -> Z),
  0 <= t -> dt_ok dt t -> 0 <= m -> 0 <= n -> cochain m a -> cochain n b ->
  cochain m (pull_back f a) /\ (forall s, simp_coboundary (pull_back f a) s = pull_back f (simp_coboundary a) s) /\
  (cup_is dt t a b ab -> cup_is dt t (pull_back f a) (pull_back f b) (pull_back f ab)) /\
  (dt_ok dt 2 -> is_square dt dc k m a sa -> is_square dt dc k m (pull_back f a) (pull_back f sa)).
Proof. exact @C85_cohomology_l. Qed.
Print Assumptions C85_cohomology.

(** A map that identifies two vertices of a triangulated circle: one edge
    becomes degenerate, the others are relabelled. *)
Example C85_example : let f := fun v => if v =? 3 then 0 else v in
  let x := mkElt [([[0; 1]], 1); ([[1; 2]], 1); ([[2; 3]], 1); ([[0; 3]], -1)] 0 tt in
  let y := mkElt [([[0; 1]], 1); ([[1; 2]], 1); ([[2; 0]], 1)] 0 tt in
  wf cls_simplicial x /\ dt_ok 0 0 /\ is_image f x y /\ keys_in (fun k => zlen k = 1 /\ total_degree k = 1) x.
Proof. exact @C85_example_l. Qed.
