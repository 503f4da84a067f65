(** * Specification vocabulary for cochains on cubes and cubical cup-i
    products.  No proofs here. *)
From Verif Require Import PyBase Dict FreeModule Cubical Spec SpecChain SpecCube.

(** Sets of cubes that are closed under faces: an interval may be replaced by
    either of its ends. *)
Definition cubical_set (X : list Z -> Prop) : Prop :=
  forall l1 e l2, e = 0 \/ e = 1 -> X (l1 ++ 2 :: l2) -> X (l1 ++ e :: l2).
(** Value of a chain of tensors under a function of tensors. *)
Definition cub_value (g : list (list Z) -> Z) (x : cubc) : Z := zsum (map (fun kv => snd kv * g (fst kv)) (data x)).
(** Tensor product of two cochains. *)
Definition on_pair (a b : list Z -> Z) (k : list (list Z)) : Z := match k with [u; v] => a u * b v | _ => 0 end.
Definition on_single (a : list Z -> Z) (k : list (list Z)) : Z := match k with [u] => a u | _ => 0 end.
(** Coboundary of a cochain. *)
Definition cub_coboundary (a : list Z -> Z) (c : list Z) : Z := zsum (map (fun f => snd f * a (fst f)) (cube_faces c)).
(** Cocycles modulo 2 on the set [X]. *)
Definition cub_cocycle (X : list Z -> Prop) (a : list Z -> Z) : Prop := forall c, X c -> cub_coboundary a c mod 2 = 0.
(** Cubes of dimension [e] in [X], as keys of chains. *)
Definition cub_cell (X : list Z -> Prop) (e : Z) (k : list (list Z)) : Prop := exists c, k = [c] /\ X c /\ is_cube c /\ dim c = e.
