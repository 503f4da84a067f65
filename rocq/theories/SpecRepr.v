(** * Specification of [repr] *)
From Coq Require Import Ascii String Permutation Sorting.Sorted.
From Verif Require Import PyBase Printing.
Import ListNotations.

(** The items with count [v], in order. *)
Definition with_count {K} (v : Z) (d : list (K * Z)) : list (K * Z) := filter (fun p => snd p =? v) d.

(** [l] lists the items of [d] from the highest to the lowest count, and items
    with the same count in the order of [d]. *)
Definition by_count {K} (d l : list (K * Z)) : Prop :=
  Permutation d l /\ StronglySorted (fun p q => snd q <= snd p) l /\ forall v, with_count v l = with_count v d.

(** [{k1: v1, k2: v2}] *)
Definition braces {K} (rkey : K -> pystr) (l : list (K * Z)) : pystr :=
  lit "{" ++ join (lit ", ") (map (fun p => rkey (fst p) ++ lit ": " ++ str_int (snd p)) l) ++ lit "}".
