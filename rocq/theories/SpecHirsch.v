(** * Specification vocabulary for the cup-i products of cochains that the code computes.  No proofs here. *)
From Verif Require Import PyBase Dict FreeModule Symmetric Simplicial Surjection Spec SpecChain SpecCochain SpecSimpCup SpecCupAlg.

(** The cochain [f] is a u_i b with coefficients in Z/t (in Z for t = 0): on each simplex [s], the value of a (x) b on what
    [may_steenrod_structure(2, i)], in the McClure-Smith convention, makes of [s] is [f s] modulo [t]. *)
Definition cupi_is (dt : Z) (dc : conv) (t i : Z) (a b f : list Z -> Z) : Prop := forall s, s <> [] ->
  exists S x y, surj_may_steenrod dt dc 2 i (Some t) (Some MS) = Ok S /\ simp_new dt [([s], 1)] (Some t) = Ok x /\
    surj_call_simplicial dt S x 1 = Ok y /\ congruent t (simp_value (simp_pair a b) y) (f s).
(** Steenrod's formula for a u_1 c, the degrees being [m] and [n]: on v_0 ... v_(m+n-1) the sum over [i] < [m] of
    (-1)^(i + n (m-1-i)) a(v_0 ... v_i v_(i+n) ... v_(m+n-1)) c(v_i ... v_(i+n)). *)
Definition cup1 (m n : nat) (a c : list Z -> Z) (s : list Z) : Z :=
  if (length s =? m + n)%nat
  then zsum (map (fun i => sgn (Z.of_nat i + Z.of_nat n * (Z.of_nat m - 1 - Z.of_nat i)) *
                           (a (firstn (1 + i) s ++ skipn (i + n) s) * c (firstn (1 + n) (skipn i s)))) (seq 0 m))
  else 0.
