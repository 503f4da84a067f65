(** * Specification vocabulary for the Steenrod operations.  No proofs here. *)
From Coq Require Import Factorial.
From Verif Require Import PyBase.

(** [c] is a valid value for the coefficient (-1)^s nu(q) modulo [p], where
    nu(q) = (-1)^(q (q - 1) m / 2) (m!)^q and m = (p - 1) / 2 (see the docstring
    of [steenrod_operation]).  For [q < 0] the power of m! is moved to the
    other side. *)
Definition steenrod_sign_nu (p s q c : Z) : Prop :=
  let m := (p - 1) / 2 in
  let M := Z.of_nat (fact (Z.to_nat m)) in
  (p | c * M ^ Z.max 0 (- q) - sgn (s + q * (q - 1) / 2 * m) * M ^ Z.max 0 q).

(** The arguments for which the coefficient is computed with ints, or with a
    float that holds m! exactly. *)
Definition exact_coefficient (p s q : Z) : Prop :=
  Z.even q = true \/ 0 <= q / 2 + s \/ (p - 1) / 2 <= 22.

(** The integers that an IEEE double represents, and those with an even
    (normalised) significand. *)
Definition double (b : Z) : Prop := exists x f, Z.abs x < 2 ^ 53 /\ 0 <= f <= 971 /\ b = x * 2 ^ f.
Definition even_double (b : Z) : Prop := exists x f, Z.abs x < 2 ^ 52 /\ 0 <= f <= 972 /\ b = x * 2 ^ f.
(** [b] is the double nearest to the int [n], ties broken to even. *)
Definition nearest_double (n b : Z) : Prop :=
  double b /\
  forall c, double c -> Z.abs (n - b) <= Z.abs (n - c) /\ (Z.abs (n - b) = Z.abs (n - c) -> c <> b -> even_double b).

(** The arguments for which the float conversion of m! overflows. *)
Definition coefficient_overflows (p s q : Z) : Prop :=
  Z.odd q = true /\ q / 2 + s < 0 /\ 170 < (p - 1) / 2.
