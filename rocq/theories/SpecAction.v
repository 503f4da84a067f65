(** * Specification vocabulary for the action of the surjection operad on
    simplicial chains.  No proofs here. *)
From Verif Require Import PyBase Dict FreeModule Symmetric Simplicial Surjection Spec SpecChain SpecOperad SpecSurj.

(** A word with weights: the letter of each place with the dimension of the
    piece of the simplex that stands there. *)
(** Exponent of the sign of the action of a word of arity [r].  The sign brings
    the pieces into the order of their letters: a piece of dimension [v] with
    letter [a] passes the later pieces, of dimension [w], with smaller letters.
    In addition, the join operations (one for every repetition of a letter)
    have degree one and pass the pieces to their left. *)
Fixpoint action_exponent (r : Z) (l : list (Z * Z)) : Z :=
  match l with
  | [] => 0
  | (a, v) :: l' =>
      v * (r - a) + zsum (map (fun '(b, w) => if b <? a then v * w + w else v) l') + action_exponent r l'
  end.
(** The pieces with letter [i], joined. *)
Definition joined (i : Z) (l : list (Z * list Z)) : list Z := concat (map snd (filter (fun p => fst p =? i) l)).
(** The action of the word [k], of arity [r] and degree [d], on the factor
    number [coord] of [K]: the simplex is cut into consecutive pieces
    that share their end vertices, one for every letter of the word, and the
    pieces with equal letters are joined. *)
Definition simp_acts (r d coord : Z) (k : list Z) (K : list (list Z)) : list (list (list Z) * Z) :=
  flat_map (fun '(l1, s, l2) =>
    if zlen l1 =? coord - 1 then
      map (fun u => (l1 ++ map (fun i => joined i (combine k u)) (zrange 1 (r + 1)) ++ l2,
                     sgn (total_degree l1 * d) * sgn (action_exponent r (combine k (map (fun b => zlen b - 1) u)))))
          (front_back (length k - 1) s)
    else []) (cuts K).
