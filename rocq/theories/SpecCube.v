(** * Specification vocabulary for cubical chains.

    Small definitions, independent of the proofs.  No proofs here.  A cube is
    a list over 0, 1 (vertices) and 2 (the interval). *)
From Verif Require Import PyBase Dict FreeModule Spec SpecChain.

(** Number of intervals. *)
Fixpoint dim (c : list Z) : Z :=
  match c with
  | [] => 0
  | a :: c' => (if a =? 2 then 1 else 0) + dim c'
  end.
Definition is_cube (c : list Z) : Prop := forall a, In a c -> a = 0 \/ a = 1 \/ a = 2.
(** Degree of a tensor product of cubes. *)
Definition cube_degree (k : list (list Z)) : Z := zsum (map dim k).
(** Boundary of a cube: each interval, in turn, is replaced by its end 1 minus
    its end 0, with sign given by the number of intervals before it. *)
Definition cube_faces (c : list Z) : list (list Z * Z) :=
  flat_map (fun '(l1, a, l2) => if a =? 2 then [(l1 ++ 1 :: l2, sgn (dim l1)); (l1 ++ 0 :: l2, - sgn (dim l1))] else []) (cuts c).
(** Boundary of a tensor product of cubes. *)
Definition cub_faces (k : list (list Z)) : list (list (list Z) * Z) :=
  flat_map (fun '(l1, c, l2) => map (fun '(c', e) => (l1 ++ c' :: l2, sgn (cube_degree l1) * e)) (cube_faces c)) (cuts k).

(** Serre diagonal: 0 -> 0 x 0, 1 -> 1 x 1, interval -> interval x 1 + 0 x interval,
    multiplicatively with the Koszul sign. *)
Fixpoint serre_pairs (c : list Z) : list (list Z * list Z * Z) :=
  match c with
  | [] => [([], [], 1)]
  | a :: c' =>
      flat_map (fun '(f, b, e) => if a =? 2 then [(2 :: f, 1 :: b, e); (0 :: f, 2 :: b, sgn (dim f) * e)] else [(a :: f, a :: b, e)])
               (serre_pairs c')
  end.
(** Its iteration on the last factor. *)
Fixpoint serre (times : nat) (c : list Z) : list (list (list Z) * Z) :=
  match times with
  | O => [([c], 1)]
  | S t => flat_map (fun '(f, b, e) => map (fun '(u, e') => (f :: u, e * e')) (serre t b)) (serre_pairs c)
  end.
(** The same in the factor number [coord] of a tensor product. *)
Definition serre_at (times : nat) (coord : Z) (k : list (list Z)) : list (list (list Z) * Z) :=
  flat_map (fun '(l1, c, l2) => if zlen l1 =? coord - 1 then map (fun '(u, e) => (l1 ++ u ++ l2, e)) (serre times c) else []) (cuts k).

(** Join of two cubes of the same length: at each place [i] after the
    intervals of the first and before those of the second where the first cube is 0
    and the second is 1 (sign +) or vice versa (sign -), with the sign of the
    dimension of the first cube. *)
Definition join2 (c1 c2 : list Z) : list (list Z * Z) :=
  flat_map (fun '((l1, a, l2), (m1, b, m2)) =>
      if (dim (a :: l2) =? 0) && (dim (m1 ++ [b]) =? 0)
      then if (a =? 0) && (b =? 1) then [(l1 ++ 2 :: m2, sgn (dim l1))]
           else if (a =? 1) && (b =? 0) then [(l1 ++ 2 :: m2, - sgn (dim l1))] else []
      else [])
    (combine (cuts c1) (cuts c2)).
(** Iterated join, from the left. *)
Definition joins (k : list (list Z)) : list (list Z * Z) :=
  match k with
  | [] => []
  | c :: k' => fold_left (fun acc c' => flat_map (fun '(b, e) => map (fun '(b', e') => (b', e * e')) (join2 b c')) acc) k' [(c, 1)]
  end.
(** Augmentation. *)
Definition augmentation (c : list Z) : Z := if dim c =? 0 then 1 else 0.

(** Cartan-Serre map: positions of the intervals before the first 0, then the
    position of the first 0 (the length if there is none); zero when there is
    an interval after the first 0.  [o] is the position of the first entry. *)
Fixpoint collapse (o : Z) (c : list Z) : option (list Z) :=
  match c with
  | [] => Some [o]
  | a :: c' =>
      if a =? 0 then (if dim c' =? 0 then Some [o] else None)
      else match collapse (o + 1) c' with
           | Some s => Some (if a =? 2 then o :: s else s)
           | None => None
           end
  end.
Fixpoint collapses (k : list (list Z)) : option (list (list Z)) :=
  match k with
  | [] => Some []
  | c :: k' => match collapse 0 c, collapses k' with Some s, Some r => Some (s :: r) | _, _ => None end
  end.
Definition cub_collapse (k : list (list Z)) : list (list (list Z) * Z) :=
  match collapses k with Some r => [(r, 1)] | None => [] end.
