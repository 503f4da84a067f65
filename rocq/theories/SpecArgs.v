(** * Specification of out-of-range arguments (C96) *)
From Verif Require Import PyBase Spec SpecCube.

(** The counit in the factor [coord] of a tensor of cubes: a vertex (a cube
    without intervals) is dropped, other cubes go to zero. *)
Definition counit_at (coord : Z) (k : list (list Z)) : list (list (list Z) * Z) :=
  flat_map (fun '(l1, c, l2) => if zlen l1 =? coord - 1 then (if dim c =? 0 then [(l1 ++ l2, 1)] else []) else []) (cuts k).
