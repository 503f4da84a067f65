(** * Specification vocabulary for the surjection operad.  No proofs here. *)
From Verif Require Import PyBase Dict FreeModule Symmetric Surjection Spec SpecChain SpecOperad.

(** The word [k] is a surjection onto {1, ..., r}. *)
Definition onto (r : Z) (k : list Z) : Prop := forall j, In j k <-> 1 <= j <= r.
(** The basis elements of arity [r] and degree [d] (possibly degenerate). *)
Definition surj_cell (r d : Z) (k : list Z) : Prop := onto r k /\ zlen k = r + d.
(** How many times the value [a] occurs in [k]. *)
Fixpoint times_in (a : Z) (k : list Z) : Z :=
  match k with [] => 0 | b :: k' => (if b =? a then 1 else 0) + times_in a k' end.

(** ** Boundary *)
(** The number of caesuras in the first part of the word [u ++ v]: entries
    whose value occurs again later. *)
Fixpoint caesuras_in (u v : list Z) : Z :=
  match u with
  | [] => 0
  | b :: u' => (if mem b (u' ++ v) then 1 else 0) + caesuras_in u' v
  end.
(** The part of [l] before the last occurrence of [a]. *)
Fixpoint before_last (a : Z) (l : list Z) : list Z :=
  match l with
  | [] => []
  | b :: l' => if mem a l' then b :: before_last a l' else []
  end.
(** Berger-Fresse sign of the face that deletes [a] from [l1 ++ a :: l2]: the
    signs of the caesuras alternate, and the last occurrence of a value has
    the opposite sign of the occurrence before it. *)
Definition bf_face_sign (l1 : list Z) (a : Z) (l2 : list Z) : Z :=
  if mem a l2 then sgn (caesuras_in l1 (a :: l2))
  else let u := before_last a l1 in - sgn (caesuras_in u (skipn (length u) l1 ++ a :: l2)).
(** McClure-Smith sign: the word is the tensor product over the values [j] of
    simplices of dimension [times_in j k - 1]; sign of the face of a tensor
    product of simplices. *)
Definition ms_face_sign (l1 : list Z) (a : Z) (l2 : list Z) : Z :=
  sgn (zsum (map (fun j => times_in j (l1 ++ a :: l2) - 1) (zrange 1 a)) + times_in a l1).
(** The faces: delete an entry whose value occurs elsewhere. *)
Definition surj_faces (cv : conv) (k : list Z) : list (list Z * Z) :=
  flat_map (fun '(l1, a, l2) =>
              if mem a (l1 ++ l2) then
                [(l1 ++ l2, match cv with BF => bf_face_sign l1 a l2 | MS => ms_face_sign l1 a l2 | OtherConv => 0 end)]
              else []) (cuts k).

(** ** Composition *)
(** The terms of the composite of the words [u] and [y] at the value [i], where
    [y] has arity [s].  The occurrences of [i] in [u] are replaced, from left to
    right, by consecutive pieces of [y] that overlap in their end letters and
    together cover [y]; the letters of [y] are shifted by [i - 1], the letters
    of [u] above [i] by [s - 1].  Sign: the caesuras of the piece of [y] jump
    over the caesuras of [u] from the replaced letter on. *)
Fixpoint surj_composites (i s : Z) (u y : list Z) : list (list Z * Z) :=
  match u with
  | [] => [([], 1)]
  | a :: u' =>
      if a =? i then
        if mem i u' then
          flat_map (fun '(A, b, B) =>
            map (fun '(w, v) => (map (fun c => c + i - 1) (A ++ [b]) ++ w, sgn (caesuras_in A (b :: B) * caesuras_in u []) * v))
                (surj_composites i s u' (b :: B))) (cuts y)
        else [(map (fun c => c + i - 1) y ++ map (fun c => if c <? i then c else c + s - 1) u', sgn (caesuras_in y [] * caesuras_in u []))]
      else map (fun '(w, v) => ((if a <? i then a else a + s - 1) :: w, v)) (surj_composites i s u' y)
  end.

(** ** Symmetric action *)
(** The permutation [p] replaces every value [a] by [p(a)], with no sign
    (Berger-Fresse) or (McClure-Smith) with the Koszul sign of the
    permutation of the simplices of dimension [times_in j k - 1]. *)
Definition surj_move (cv : conv) (p k : list Z) : list (list Z * Z) :=
  [(map (image p) k,
    match cv with
    | MS => sgn (crossings (combine p (map (fun j => times_in j k - 1) (zrange 1 (zlen p + 1)))))
    | _ => 1
    end)].
(** The values in the order of their first occurrences. *)
Fixpoint firsts (k : list Z) : list Z :=
  match k with [] => [] | a :: k' => a :: filter (fun b => negb (b =? a)) (firsts k') end.
(** The permutation that renames the values so that the first occurrences are
    in increasing order. *)
Definition surj_rename (k : list Z) : list Z := inverse (firsts k).

(** ** Complexity *)
(** How often consecutive letters of a word differ. *)
Fixpoint changes (l : list Z) : Z :=
  match l with
  | a :: ((b :: _) as l') => (if a =? b then 0 else 1) + changes l'
  | _ => 0
  end.
(** The number of times the word [k], read only at the letters [i] and [j],
    switches between [i] and [j]. *)
Definition switches (i j : Z) (k : list Z) : Z := changes (filter (fun a => (a =? i) || (a =? j)) k).
(** The sum of the switches over the pairs 1 <= i < j <= r. *)
Definition all_switches (r : Z) (k : list Z) : Z :=
  zsum (map (fun i => zsum (map (fun j => switches i j k) (zrange (i + 1) (r + 1)))) (zrange 1 (r + 1))).

(** ** Table reduction *)
(** The words that can be read off a table of permutations, skipping the
    letters of [rm], which are used up.  Of every row but the last one reads an
    initial part A b: the last letter b may be read again in later rows, the
    letters of A are used up.  The last row is read to its end. *)
Fixpoint table_words (rm : list Z) (rows : list (list Z)) : list (list Z) :=
  match rows with
  | [] => []
  | r :: rest =>
      let left := filter (fun j => negb (mem j rm)) r in
      match rest with
      | [] => [left]
      | _ => flat_map (fun '(A, b, _) => map (fun w => A ++ b :: w) (table_words (A ++ rm) rest)) (cuts left)
      end
  end.
