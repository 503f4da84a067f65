(** * Property theorems.  Generated by tools/mkprop.py from the tagged lemmas of
    CupiLaws.v: every theorem is closed by [exact]. *)
From Coq Require Import Znumtheory Sorting.Sorted.
From Verif Require Import PyBase Dict FreeModule Symmetric Simplicial Surjection Spec SpecChain SpecCochain SpecSimpCup SpecCup SpecCupAlg SpecHirsch SpecCupi CupiLaws.

(** For every i >= 0 and all cochains a, b of degrees m, n, with coefficients in Z/t
    or Z, the cup-i product computed by the code is, up to congruence and only up to congruence,
    Steenrod's sum over the cuts of the simplex, with the sign (-1)^[(i+1)/4]; it is a normalised cochain of degree m + n - i. *)
Theorem C100_formula : forall (dt t m n i : Z) (dc : conv) (a b : list Z -> Z),
  0 <= t -> t <> 1 -> dt_ok dt t -> 0 <= m -> 0 <= n -> 0 <= i -> cochain m a -> cochain n b ->
  let f := fun s => sgn ((i + 1) / 4) * cupi (Z.to_nat i) a b s in
  cochain (m + n - i) f /\ forall g, cupi_is dt dc t i a b g <-> cochain_eq t g f.
Proof. exact @C100_formula_l. Qed.
Print Assumptions C100_formula.

(** A cup-i product is 0 if i is larger than the degree of one of the factors. *)
Theorem C100_vanishing : forall (dt t m n i : Z) (dc : conv) (a b f : list Z -> Z),
  0 <= t -> t <> 1 -> dt_ok dt t -> 0 <= m -> 0 <= n -> cochain m a -> cochain n b ->
  m < i \/ n < i -> cupi_is dt dc t i a b f <-> cochain_eq t f (fun _ => 0).
Proof. exact @C100_vanishing_l. Qed.
Print Assumptions C100_vanishing.

(** For two cochains of the same degree n, the cup-n product is the product of their values,
    up to a sign that depends only on n. *)
Theorem C100_top : forall (dt t n : Z) (dc : conv) (a b f : list Z -> Z),
  0 <= t -> t <> 1 -> dt_ok dt t -> 0 <= n -> cochain n a -> cochain n b ->
  cupi_is dt dc t n a b f <-> cochain_eq t f (fun s => sgn ((n + 1) / 4) * alt_sign n * (a s * b s)).
Proof. exact @C100_top_l. Qed.
Print Assumptions C100_top.

(** Steenrod's coboundary formula as an identity of cochains, for i >= 1:
    (-1)^i d(a u_i b) = da u_i b + (-1)^m a u_i db - (-1)^i a u_(i-1) b - (-1)^(mn) b u_(i-1) a. *)
Theorem C100_coboundary : forall (dt t m n i : Z) (dc : conv) (a b f p q g h : list Z -> Z),
  0 <= t -> t <> 1 -> dt_ok dt t -> 0 <= m -> 0 <= n -> 1 <= i -> cochain m a -> cochain n b ->
  cupi_is dt dc t i a b f -> cupi_is dt dc t i (simp_coboundary a) b p -> cupi_is dt dc t i a (simp_coboundary b) q ->
  cupi_is dt dc t (i - 1) a b g -> cupi_is dt dc t (i - 1) b a h ->
  forall s, 2 <= zlen s -> congruent t (sgn i * simp_coboundary f s) (p s + sgn m * q s - sgn i * g s - sgn (m * n) * h s).
Proof. exact @C100_coboundary_l. Qed.
Print Assumptions C100_coboundary.

(** The hypotheses hold for cochains of degree 2 with coefficients in Z/5, i = 1 and i = 2; the values are not 0. *)
Example C100_example : let a := fun s => match s with [x; y; z] => y * (y - x) * (z - y) | _ => 0 end in
  let f := fun i s => sgn ((i + 1) / 4) * cupi (Z.to_nat i) a a s in
  cochain 2 a /\ dt_ok 0 5 /\ cupi_is 0 BF 5 1 a a (f 1) /\ cupi_is 0 BF 5 2 a a (f 2) /\
  f 1 [1; 2; 4; 7] = -96 /\ f 2 [1; 2; 4] = -16 /\ simp_coboundary (f 2) [1; 2; 4; 7] = 636 /\ f 2 [1; 2; 4; 7] = 0.
Proof. exact @C100_example_l. Qed.
