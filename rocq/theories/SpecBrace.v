(** * Specification vocabulary for braces in the surjection operad.  No proofs here. *)
From Verif Require Import PyBase Dict FreeModule Surjection Spec SpecSurj.

(** The word a l_1 a l_2 a ... l_n a. *)
Definition braced (a : Z) (l : list Z) : list Z := a :: flat_map (fun b => [b; a]) l.
(** The brace operation of arity n + 1 and degree n: the word 1 2 1 3 1 ... (n+1) 1. *)
Definition brace (n : Z) : list Z := braced 1 (zrange 2 (n + 2)).
(** The word [brace n] without its (j+1)-th letter 1. *)
Definition brace_face (n j : Z) : list Z :=
  flat_map (fun q => (if q =? j then [] else [1]) ++ (if q <? n then [q + 2] else [])) (zrange 0 (n + 1)).
(** All the ways to distribute the letters [zs], in their order, over the letters of the word [y]: a letter [c] of [y] that
    receives z, ..., z' becomes c z c ... z' c.  A letter [z] given to [c] contributes to the sign the number of caesuras
    (letters that occur again later) before [c]; [e] is the number of caesuras before [y]. *)
Fixpoint distribute (e : Z) (y zs : list Z) : list (list Z * Z) :=
  match y with
  | [] => match zs with [] => [([], 1)] | _ => [] end
  | c :: y' =>
      flat_map (fun q => map (fun '(w, v) => (braced c (firstn q zs) ++ w, sgn (Z.of_nat q * e) * v))
                             (distribute (e + (if mem c y' then 1 else 0)) y' (skipn q zs))) (seq 0 (S (length zs)))
  end.
