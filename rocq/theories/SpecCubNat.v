(** * Specification vocabulary for maps of cubes.  No proofs here. *)
From Verif Require Import PyBase Dict FreeModule Cubical Spec SpecCube.

(** The cube with the entry [e] inserted at place [p] (counted from 0; at the end if the
    cube is shorter): the inclusion of a face of a larger cube. *)
Fixpoint insert_at (p : nat) (e : Z) (c : list Z) : list Z :=
  match p, c with
  | O, _ => e :: c
  | S _, [] => [e]
  | S p', a :: c' => a :: insert_at p' e c'
  end.
(** The cube with the entry at place [p] deleted (if it has one), and nothing if this entry
    is an interval, because the image then has a smaller dimension: the projection that
    forgets one coordinate. *)
Fixpoint forget_at (p : nat) (c : list Z) : option (list Z) :=
  match c with
  | [] => Some []
  | a :: c' =>
      match p with
      | O => if a =? 2 then None else Some c'
      | S p' => match forget_at p' c' with Some d => Some (a :: d) | None => None end
      end
  end.
Inductive cube_map : Type :=
| FaceInclusion (p : nat) (e : Z)
| Projection (p : nat).
(** The inserted entry is one of the end points 0 and 1. *)
Definition proper (m : cube_map) : Prop :=
  match m with FaceInclusion _ e => e = 0 \/ e = 1 | Projection _ => True end.
Definition cube_image (m : cube_map) (c : list Z) : option (list Z) :=
  match m with FaceInclusion p e => Some (insert_at p e c) | Projection p => forget_at p c end.
(** Tensor products of cubes: every factor is mapped; nothing if one of the factors has no image. *)
Fixpoint tensor_image (m : cube_map) (k : list (list Z)) : option (list (list Z)) :=
  match k with
  | [] => Some []
  | c :: k' => match cube_image m c, tensor_image m k' with Some d, Some l => Some (d :: l) | _, _ => None end
  end.
(** The chain [y] is the image of the chain [x]. *)
Definition is_cube_image (m : cube_map) (x y : cubc) : Prop :=
  wf cls_cubical y /\ torsion y = torsion x /\
  represents cls_cubical y (extend (fun k => match tensor_image m k with Some l => [(l, 1)] | None => [] end) x).
(** The cochain [a] pulled back along the map: its value on a cube is the value of [a] on the
    image of the cube, and 0 if there is no image. *)
Definition cube_pull_back (m : cube_map) (a : list Z -> Z) (c : list Z) : Z :=
  match cube_image m c with Some c' => a c' | None => 0 end.
