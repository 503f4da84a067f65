(** * Specification vocabulary for the comparison of the cubical and the
    simplicial action along the Cartan-Serre map.  No proofs here. *)
From Verif Require Import PyBase Dict FreeModule Surjection Spec SpecChain SpecOperad SpecSurj.

(** The constant sign by which the two actions of the word [k], of arity [r],
    differ.  Arity at least three: every letter that occurs m times
    contributes (-1)^(m(m-1)/2).  Arity at most two: the joins of 1 pass
    those of 2 when the word starts with 2. *)
Definition comparison_sign (r : Z) (k : list Z) : Z :=
  if r <=? 2 then (if hd 0 k =? 2 then sgn ((times_in 1 k - 1) * (times_in 2 k - 1)) else 1)
  else sgn (zsum (map (fun i => times_in i k * (times_in i k - 1) / 2) (zrange 1 (r + 1)))).
(** The words for which the signs of the code are compatible with the
    Cartan-Serre map up to a constant: every word in arity at least three,
    words without a letter that occurs three times in arity at most two. *)
Definition comparable (r : Z) (k : list Z) : Prop := 3 <= r \/ forall i, times_in i k <= 2.
