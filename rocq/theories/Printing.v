(** * Printing: [str] of the elements and [_latex_].

    Model file: definitions only.  A Python [str] is a list of (ASCII)
    characters. *)
From Coq Require Import DecimalString.
From Coq Require Import Ascii String.
From Verif Require Import PyBase Dict FreeModule Symmetric Simplicial Cubical Surjection BarrattEccles.
Export Ascii.AsciiSyntax String.StringSyntax.
Import ListNotations.

Definition pystr := list ascii.
Definition lit (s : string) : pystr := list_ascii_of_string s.

(** [str(z)] for an int: decimal digits, with a leading minus sign. *)
Definition str_int (z : Z) : pystr := lit (NilZero.string_of_int (Z.to_int z)).

(** [sep.join(l)] *)
Fixpoint join (sep : pystr) (l : list pystr) : pystr :=
  match l with
  | [] => []
  | a :: l' => match l' with [] => a | _ => a ++ sep ++ join sep l' end
  end.

(** [tuple.__repr__], from the representations of the entries (separator
    [', ']; a tuple with one entry prints a trailing comma). *)
Definition tup_with (sep : pystr) (l : list pystr) : pystr :=
  match l with
  | [a] => lit "(" ++ a ++ lit ",)"
  | _ => lit "(" ++ join sep l ++ lit ")"
  end.
Definition repr_tuple (l : list pystr) : pystr := tup_with (lit ", ") l.

(** [s.replace(old, new)] with [old] not empty: leftmost occurrences that do
    not overlap.  [skip] is the number of characters of an occurrence that are
    still to be passed over. *)
Fixpoint prefixb (p s : pystr) : bool :=
  match p, s with
  | [], _ => true
  | a :: p', b :: s' => Ascii.eqb a b && prefixb p' s'
  | _ :: _, [] => false
  end.
Fixpoint replace_from (old new : pystr) (skip : nat) (s : pystr) : pystr :=
  match s with
  | [] => []
  | c :: s' =>
      match skip with
      | S n => replace_from old new n s'
      | O => if prefixb old s then new ++ replace_from old new (length old - 1) s' else c :: replace_from old new 0 s'
      end
  end.
Definition replace (old new : string) (s : pystr) : pystr := replace_from (lit old) (lit new) 0 s.

(** free_module.py:58-76 (the [for] loop, then [answer[0]], [answer[2:]] and
    [answer[:-1]]); [fkey] is [f'{key}']. *)
Definition str_step {K} (fkey : K -> pystr) (answer : pystr) (kv : K * Z) : pystr :=
  let '(key, value) := kv in
  if value <? -1 then answer ++ lit "- " ++ str_int (Z.abs value) ++ fkey key ++ lit " "
  else if value =? -1 then answer ++ lit "- " ++ fkey key ++ lit " "
  else if value =? 1 then answer ++ lit "+ " ++ fkey key ++ lit " "
  else if 1 <? value then answer ++ lit "+ " ++ str_int value ++ fkey key ++ lit " "
  else answer.
Definition str_dict {K} (fkey : K -> pystr) (d : dict K) : res pystr :=
  match d with
  | [] => Ok (lit "0")
  | _ =>
      let answer := fold_left (str_step fkey) d [] in
      match answer with
      | [] => Err IndexError
      | c :: _ =>
          let answer := if Ascii.eqb c "+"%char then skipn 2 answer else answer in
          Ok (removelast answer)
      end
  end.

(** Representations of keys.  An entry of a tuple is printed by [repr], which
    none of the tuple classes overrides; [f'{key}'] of a tuple is its
    [__repr__], of a [SymmetricGroupElement] its [__str__]. *)
Definition repr_ints (l : list Z) : pystr := repr_tuple (map str_int l).
Definition repr_tuples (l : list (list Z)) : pystr := repr_tuple (map repr_ints l).

(** simplicial.py:31-32, cubical.py:34-35, symmetric.py:34-36 *)
Definition str_simplex (s : list Z) : pystr := replace ", " "," (repr_ints s).
Definition str_cube (s : list Z) : pystr := replace ", " "," (repr_ints s).
Definition str_sg (p : list Z) : pystr := replace ", " "," (repr_ints p).

(** simplicial.py:260-262 *)
Definition str_simplicial (x : simp) : res pystr := let! s := str_dict repr_tuples (data x) in Ok (replace ", " "," s).
(** cubical.py:197-199 *)
Definition str_cubical (x : cubc) : res pystr := let! s := str_dict repr_tuples (data x) in Ok (replace ", " "," s).
(** symmetric.py:330-332 *)
Definition str_ring (x : ring) : res pystr :=
  let! s := str_dict (fun k => if is_sge k then str_sg (kval k) else repr_ints (kval k)) (data x) in Ok (replace ", " "," s).
(** surjection.py:85-87 *)
Definition str_surj (x : surj) : res pystr := let! s := str_dict repr_ints (data x) in Ok (replace ", " "," s).
(** barratt_eccles.py:81-83 *)
Definition str_be (x : bee) : res pystr := let! s := str_dict repr_tuples (data x) in Ok (replace ", " "," s).

(** simplicial.py:264-286 *)
Definition latex_simplicial (x : simp) : res pystr :=
  let! string := str_simplicial x in
  let string := replace ",),(" "] \otimes [" string in
  let string := replace "),(" "] \otimes [" string in
  let string := replace "((" "[" string in
  let string := replace "),)" "]" (replace ",))" "]" string) in
  let string := replace "))" "]" string in
  Ok string.
(** cubical.py:201-226 *)
Definition latex_cubical (x : cubc) : res pystr :=
  let! string := str_cubical x in
  let string := replace "0" "[0]" (replace "1" "[1]" string) in
  let string := replace ",2" ",[01]" (replace "2," "[01]," string) in
  let string := replace ",),(" " \otimes " string in
  let string := replace "),(" " \otimes " string in
  let string := replace "((" "" (replace ")" "" string) in
  let string := replace "))" "" (replace ")" "" string) in
  let string := replace "," "" string in
  Ok string.

(** barratt_eccles.py:387-388 *)
Definition be_suspension (x : bee) : res bee := Err NotImplementedError.
