(** * Property theorems.  Generated by tools/mkprop.py from the tagged lemmas of
    CupAlgLaws.v: every theorem is closed by [exact]. *)
From Coq Require Import Znumtheory Sorting.Sorted.
From Verif Require Import PyBase Dict FreeModule Symmetric Simplicial Spec SpecChain SpecCochain SpecSimpCup SpecCupAlg CupAlgLaws.

(** For cochains a, b of degrees m, n with coefficients in Z/t or Z, the cup
    product computed by the code is, up to congruence and only up to congruence, the cochain
    of degree m + n whose value on v_0 ... v_(m+n) is a(v_0 ... v_m) b(v_m ... v_(m+n)). *)
Theorem C84_formula : forall (dt t m n : Z) (a b : list Z -> Z),
  0 <= t -> dt_ok dt t -> 0 <= m -> 0 <= n -> cochain m a -> cochain n b ->
  let f := fun s => if zlen s - 1 =? m + n then a (firstn (Z.to_nat (m + 1)) s) * b (skipn (Z.to_nat m) s) else 0 in
  cochain (m + n) f /\ forall g, cup_is dt t a b g <-> cochain_eq t g f.
Proof. exact @C84_formula_l. Qed.
Print Assumptions C84_formula.

(** The cup product of cochains is associative on the nose, not only up
    to homotopy: (a u b) u c = a u (b u c), over Z and every Z/t. *)
Theorem C84_associative : forall (dt t m n p : Z) (a b c ab bc l r : list Z -> Z),
  0 <= t -> dt_ok dt t -> 0 <= m -> 0 <= n -> 0 <= p -> cochain m a -> cochain n b -> cochain p c ->
  cup_is dt t a b ab -> cup_is dt t b c bc -> cup_is dt t ab c l -> cup_is dt t a bc r -> cochain_eq t l r.
Proof. exact @C84_associative_l. Qed.
Print Assumptions C84_associative.

(** The cochain with value 1 on every vertex is a two-sided unit. *)
Theorem C84_unit : forall (dt t m : Z) (a : list Z -> Z),
  0 <= t -> dt_ok dt t -> 0 <= m -> cochain m a ->
  cochain 0 unit_cochain /\ cup_is dt t unit_cochain a a /\ cup_is dt t a unit_cochain a.
Proof. exact @C84_unit_l. Qed.
Print Assumptions C84_unit.

(** The coboundary is a derivation of the cochain algebra:
    d(a u b) = da u b + (-1)^m a u db as cochains. *)
Theorem C84_leibniz : forall (dt t m n : Z) (a b ab p q : list Z -> Z),
  0 <= t -> dt_ok dt t -> 0 <= m -> 0 <= n -> cochain m a -> cochain n b ->
  cup_is dt t a b ab -> cup_is dt t (simp_coboundary a) b p -> cup_is dt t a (simp_coboundary b) q ->
  forall s, 2 <= zlen s -> congruent t (simp_coboundary ab s) (p s + sgn m * q s).
Proof. exact @C84_leibniz_l. Qed.
Print Assumptions C84_leibniz.

(** The hypotheses hold with coefficients in Z/3 for a cochain of degree 1
    with itself; the product is not 0 and its coboundary is not 0. *)
Example C84_example : let a := fun s => match s with [x; y] => y * (y - x) | _ => 0 end in
  cochain 1 a /\ dt_ok 0 3 /\ cup_is 0 3 a a (fun s => match s with [x; y; z] => y * (y - x) * (z * (z - y)) | _ => 0 end) /\
  simp_coboundary (fun s => match s with [x; y; z] => y * (y - x) * (z * (z - y)) | _ => 0 end) [1; 2; 4; 0] = -16.
Proof. exact @C84_example_l. Qed.
