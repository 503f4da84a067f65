(** * Specification of the printed forms. *)
From Coq Require Import Ascii String.
From Verif Require Import PyBase Printing.
Import ListNotations.

(** A sum of terms: coefficient first, coefficients 1 and -1 not written, a
    leading plus sign not written, [0] for the empty sum. *)
Definition shown_coef (v : Z) : pystr := if Z.abs v =? 1 then [] else str_int (Z.abs v).
Definition shown_first {K} (key : K -> pystr) (kv : K * Z) : pystr :=
  (if snd kv <? 0 then lit "- " else []) ++ shown_coef (snd kv) ++ key (fst kv).
Definition shown_next {K} (key : K -> pystr) (kv : K * Z) : pystr :=
  (if snd kv <? 0 then lit " - " else lit " + ") ++ shown_coef (snd kv) ++ key (fst kv).
Definition shown {K} (key : K -> pystr) (d : list (K * Z)) : pystr :=
  match d with
  | [] => lit "0"
  | kv :: d' => shown_first key kv ++ concat (map (shown_next key) d')
  end.

(** Tuples without spaces. *)
Definition shown_ints (l : list Z) : pystr := tup_with (lit ",") (map str_int l).
Definition shown_tuples (k : list (list Z)) : pystr := tup_with (lit ",") (map shown_ints k).

(** LaTeX: [[0,1] \otimes [2]] and [[01][0] \otimes [1][01]]. *)
Definition latex_simplex (s : list Z) : pystr := lit "[" ++ join (lit ",") (map str_int s) ++ lit "]".
Definition latex_simplices (k : list (list Z)) : pystr := join (lit " \otimes ") (map latex_simplex k).
Definition latex_interval (e : Z) : pystr := if e =? 2 then lit "[01]" else if e =? 1 then lit "[1]" else lit "[0]".
Definition latex_cube (s : list Z) : pystr := concat (map latex_interval s).
Definition latex_cubes (k : list (list Z)) : pystr := join (lit " \otimes ") (map latex_cube k).

(** No digit 0 and no digit 1 in the printed coefficient. *)
Definition no_binary_digit (v : Z) : Prop := ~ In "0"%char (shown_coef v) /\ ~ In "1"%char (shown_coef v).
