(** * Specification vocabulary for the action of the surjection operad on
    cubical chains.  No proofs here. *)
From Verif Require Import PyBase Dict FreeModule Symmetric Simplicial Cubical Surjection Spec SpecChain SpecOperad SpecSurj SpecAction SpecCube.

(** The entries with letter [i], in order. *)
Definition grouped {A} (i : Z) (l : list (Z * A)) : list A := map snd (filter (fun p => fst p =? i) l).
(** Tensor product of chains. *)
Fixpoint tensor_chains (l : list (list (list Z * Z))) : list (list (list Z) * Z) :=
  match l with
  | [] => [([], 1)]
  | c :: l' => flat_map (fun '(b, e) => map (fun '(w, e') => (b :: w, e * e')) (tensor_chains l')) c
  end.
(** Exponent of the additional sign of the joins, for a word with weights.  For
    arity at most two: every join operation of a letter passes the first
    piece of the letter, and the operations of 1 and 2 pass each other when the
    word starts with 2.  For higher arities: every piece counts with the number of
    later pieces with the same letter, plus the number of joins. *)
Definition join_exponent (r : Z) (l : list (Z * Z)) : Z :=
  if r <=? 2 then
    zsum (map (fun i => (zlen (grouped i l) - 1) * hd 0 (grouped i l)) (zrange 1 (r + 1))) +
    (if (r =? 2) && (hd 0 (map fst l) =? 2) then (zlen (grouped 1 l) - 1) * (zlen (grouped 2 l) - 1) else 0)
  else
    zsum (map (fun i => zsum (map (fun '(idx, w) => (zlen (grouped i l) - 1 - idx) * w) (enumerate (grouped i l))) + (zlen (grouped i l) - 1)) (zrange 1 (r + 1))).
(** The action of the word [k], of arity [r] and degree [d], on the factor
    number [coord] of [K]: apply the iterated Serre diagonal to the cube, to get one
    piece for every letter of the word, and join the pieces with equal letters. *)
Definition cub_acts (r d coord : Z) (k : list Z) (K : list (list Z)) : list (list (list Z) * Z) :=
  flat_map (fun '(l1, s, l2) =>
    if zlen l1 =? coord - 1 then
      flat_map (fun '(u, e) =>
        map (fun '(w, e') => (l1 ++ w ++ l2,
               sgn (cube_degree l1 * d) * (e * (sgn (action_exponent r (combine k (map dim u)) + join_exponent r (combine k (map dim u))) * e'))))
            (tensor_chains (map (fun i => joins (grouped i (combine k u))) (zrange 1 (r + 1)))))
        (serre (length k - 1) s)
    else []) (cuts K).
(** The failure of the chain map identity over the integers for one word. *)
Definition chain_map_fails (cv : conv) (k : list Z) (r d : Z) (K : list (list Z)) : Prop :=
  exists x y z dz dx u dy v w s, surj_new 0 cv [(k, 1)] None (Some cv) = Ok x /\ cub_new 0 [(K, 1)] None = Ok y /\ keys_in (surj_cell r d) x /\
    surj_call_cubical 0 x y 1 = Ok z /\ cub_boundary 0 z = Ok dz /\
    surj_boundary 0 x = Ok dx /\ surj_call_cubical 0 dx y 1 = Ok u /\ cub_boundary 0 y = Ok dy /\ surj_call_cubical 0 x dy 1 = Ok v /\
    scale 0 cls_cubical (sgn d) v = Ok w /\ add 0 cls_cubical u w = Ok s /\ exists K', dget (data dz) K' <> dget (data s) K'.
