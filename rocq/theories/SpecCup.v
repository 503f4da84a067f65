(** * Specification vocabulary for the cup-i products.  No proofs here. *)
From Verif Require Import PyBase.

(** The word of length [n] in the letters 1 and 2 that alternates and starts with [a]. *)
Fixpoint altw (a : Z) (n : nat) : list Z := match n with O => [] | Datatypes.S n' => a :: altw (3 - a) n' end.
(** The sign with which the alternating word of degree [d] sends a simplex of dimension [d] to its square. *)
Definition alt_sign (d : Z) : Z := sgn (d / 2 * (d / 2 + 1) / 2 + d * (d / 2)).
(** The simplex with [n] vertices that alternates between the identity and the transposition of two letters; it starts with
    the identity if [a] is 1. *)
Definition alt_simplex (a : Z) (n : nat) : list (list Z) := map (fun b => if b =? 1 then [1; 2] else [2; 1]) (altw a n).
