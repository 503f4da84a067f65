(** * Specification vocabulary for counits and subcomplexes (C109).  No proofs here. *)
From Coq Require Import List ZArith.
From Verif Require Import PyBase Spec SpecChain SpecCube.

(** The augmentation of the factor number [coord] of a tensor of simplices: a vertex (a simplex of one vertex) is
    dropped, other simplices go to zero. *)
Definition drop_vertex (coord : Z) (k : list (list Z)) : list (list (list Z) * Z) :=
  flat_map (fun '(l1, s, l2) => if zlen l1 =? coord - 1 then (if zlen s - 1 =? 0 then [(l1 ++ l2, 1)] else []) else []) (cuts k).
(** A set of simplices (given by their lists of vertices) with all their faces: a simplicial complex, as a decidable set. *)
Definition subcomplex (C : list Z -> Prop) : Prop :=
  (forall s, C s \/ ~ C s) /\ C [] /\ (forall l1 a l2, C (l1 ++ a :: l2) -> C (l1 ++ l2)).
(** A set of cubes with all their faces, as a decidable set: an interval (2) of a cube may be replaced by either of its ends. *)
Definition cubical_subcomplex (C : list Z -> Prop) : Prop :=
  (forall c, C c \/ ~ C c) /\ (forall l1 e l2, e = 0 \/ e = 1 -> C (l1 ++ 2 :: l2) -> C (l1 ++ e :: l2)).
(** Tensor products of [r] cubes in [C], of total degree [d]. *)
Definition cube_cell (C : list Z -> Prop) (r d : Z) (k : list (list Z)) : Prop := zlen k = r /\ cube_degree k = d /\ forall c, In c k -> C c.
