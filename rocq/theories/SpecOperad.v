(** * Specification vocabulary for the operad classes.  No proofs here. *)
From Verif Require Import PyBase Dict FreeModule Symmetric Spec.

(** ** Barratt-Eccles: basis elements are tuples of permutations *)

(** All the entries are permutations of (1, ..., n). *)
Definition be_simplex (n : Z) (k : list (list Z)) : Prop := forall p, In p k -> perm n p.
(** The basis elements of arity [n] and degree [d]. *)
Definition be_cell (n d : Z) (k : list (list Z)) : Prop := be_simplex n k /\ zlen k = d + 1.
(** Faces: delete one permutation, with alternating signs. *)
Definition be_faces (k : list (list Z)) : list (list (list Z) * Z) := map (fun '(l1, _, l2) => (l1 ++ l2, sgn (zlen l1))) (cuts k).
(** Two equal consecutive entries. *)
Definition repeats {B} (k : list B) : Prop := exists l1 p l2, k = l1 ++ p :: p :: l2.
(** The action of a permutation: compose it with every entry. *)
Definition be_move (p : list Z) (k : list (list Z)) : list (list Z) := map (fun q => map (image p) q) k.

(** ** Orbits *)
(** Position (starting with 1) of the first occurrence of [v]. *)
Fixpoint position (l : list Z) (v : Z) : Z :=
  match l with
  | [] => 0
  | a :: l' => if a =? v then 1 else position l' v + 1
  end.
(** The inverse of a permutation. *)
Definition inverse (p : list Z) : list Z := map (position p) (zrange 1 (zlen p + 1)).
(** The representative of the orbit of a tuple of permutations: the one that
    starts with the identity. *)
Definition be_normal (k : list (list Z)) : list (list Z) :=
  match k with [] => [] | k0 :: _ => be_move (inverse k0) k end.

(** ** Diagonal *)
(** Cut the factor number [j] (counting from 0) of a tensor product in [s + 1] overlapping pieces. *)
Definition split_factor (s : nat) (j : Z) (m : list (list (list Z))) : list (list (list (list Z)) * Z) :=
  flat_map (fun '(u1, b, u2) => if zlen u1 =? j then map (fun w => (u1 ++ w ++ u2, 1)) (front_back s b) else []) (cuts m).

(** ** Complexity *)
(** Does [i] come before [j] in the permutation? *)
Definition before (i j : Z) (p : list Z) : bool := position p i <? position p j.
(** The number of times that the relative order of [i] and [j] changes along
    a sequence of permutations. *)
Fixpoint order_changes (i j : Z) (k : list (list Z)) : Z :=
  match k with
  | p :: (q :: _) as k' => (if Bool.eqb (before i j p) (before i j q) then 0 else 1) + order_changes i j k'
  | _ => 0
  end.

(** ** Composition: lattice paths *)
(** The lattice paths in the grid [A x B], from the first to the last corner,
    with steps to the right (next element of [A]) or up (next element of [B]).
    A path is given by the values of [f] at its vertices and its sign: the
    parity of the number of pairs of a step up and a later step to the right. *)
Fixpoint grid_paths {X Y W} (f : X -> Y -> W) (A : list X) : list Y -> list (list W * Z) :=
  match A with
  | [] => fun _ => []
  | a :: A' =>
      fix up (B : list Y) : list (list W * Z) :=
        match B with
        | [] => []
        | b :: B' =>
            match A', B' with [], [] => [([f a b], 1)] | _, _ => [] end ++
            map (fun '(w, s) => (f a b :: w, s)) (grid_paths f A' B) ++
            map (fun '(w, s) => (f a b :: w, sgn (zlen A') * s)) (up B')
        end
  end.
(** The operadic composite of two permutations: the entry [i] of [a] is
    replaced with the block [b] (see [graft]). *)
Definition insert_at (i : Z) (a b : list Z) : list Z := flat_map (graft b i) a.
