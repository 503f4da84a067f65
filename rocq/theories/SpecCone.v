(** * Specification vocabulary for contractible complexes.  No proofs here. *)
From Coq Require Import List ZArith Sorting.Sorted.
From Verif Require Import PyBase Spec SpecChain SpecCube.

(** A set of simplices (given by their lists of vertices) with all their faces which, with each simplex, contains the
    one with [v] as additional first vertex; a decidable set. *)
Definition cone_on (v : Z) (C : list Z -> Prop) : Prop :=
  (forall s, C s \/ ~ C s) /\ C [] /\ (forall l1 a l2, C (l1 ++ a :: l2) -> C (l1 ++ l2)) /\ (forall s, C s -> C (v :: s)).
(** The faces of the standard simplex with vertices 0, ..., m. *)
Definition simplex_face (m : Z) (s : list Z) : Prop := s <> [] /\ StronglySorted Z.lt s /\ forall a, In a s -> 0 <= a <= m.
(** Tensor products of [r] factors in [C], of total degree [d]. *)
Definition simp_cell (C : list Z -> Prop) (r d : Z) (k : list (list Z)) : Prop := zlen k = r /\ total_degree k = d /\ forall s, In s k -> C s.
(** Tensor products of [r] faces of the standard cube of dimension [m], of total degree [d]. *)
Definition cub_cell (m r d : Z) (k : list (list Z)) : Prop := zlen k = r /\ cube_degree k = d /\ forall c, In c k -> is_cube c /\ zlen c = m.
