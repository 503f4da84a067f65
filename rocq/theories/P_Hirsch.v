(** * Property theorems.  Generated by tools/mkprop.py from the tagged lemmas of
    HirschLaws.v: every theorem is closed by [exact]. *)
From Coq Require Import Znumtheory Sorting.Sorted.
From Verif Require Import PyBase Dict FreeModule Symmetric Simplicial Surjection Spec SpecChain SpecCochain SpecSimpCup SpecCupAlg SpecHirsch HirschLaws.

(** The cup-0 product is the cup product: whether it is computed by
    [may_steenrod_structure(2, 0)] or by the diagonal makes no difference. *)
Theorem C99_zero : forall (dt t m n : Z) (dc : conv) (a b f : list Z -> Z),
  0 <= t -> t <> 1 -> dt_ok dt t -> 0 <= m -> 0 <= n -> cochain m a -> cochain n b ->
  cupi_is dt dc t 0 a b f <-> cup_is dt t a b f.
Proof. exact @C99_zero_l. Qed.
Print Assumptions C99_zero.

(** For cochains a, c of degrees m, n with coefficients in Z/t or Z, the cup-1
    product computed by the code is, up to congruence and only up to congruence, the
    cochain of degree m + n - 1 of Steenrod's formula. *)
Theorem C99_formula : forall (dt t : Z) (dc : conv) (m n : nat) (a c : list Z -> Z),
  0 <= t -> t <> 1 -> dt_ok dt t -> cochain (Z.of_nat m) a -> cochain (Z.of_nat n) c ->
  cochain (Z.of_nat m + Z.of_nat n - 1) (cup1 m n a c) /\ forall f, cupi_is dt dc t 1 a c f <-> cochain_eq t f (cup1 m n a c).
Proof. exact @C99_formula_l. Qed.
Print Assumptions C99_formula.

(** Hirsch's formula, on the nose for all cochains a, b, c of degrees m, p, n,
    over Z and every Z/t: (a u b) u_1 c = (-1)^m a u (b u_1 c) + (-1)^(np) (a u_1 c) u b. *)
Theorem C99_hirsch : forall (dt t m p n : Z) (dc : conv) (a b c ab bc ac l r r' : list Z -> Z),
  0 <= t -> t <> 1 -> dt_ok dt t -> 0 <= m -> 0 <= p -> 0 <= n -> cochain m a -> cochain p b -> cochain n c ->
  cup_is dt t a b ab -> cupi_is dt dc t 1 b c bc -> cupi_is dt dc t 1 a c ac ->
  cupi_is dt dc t 1 ab c l -> cup_is dt t a bc r -> cup_is dt t ac b r' ->
  cochain_eq t l (fun s => sgn m * r s + sgn (n * p) * r' s).
Proof. exact @C99_hirsch_l. Qed.
Print Assumptions C99_hirsch.

(** The cup-1 product of cochains is a graded pre-Lie product on the nose: for a, b, c
    of degrees m, n, p, over Z and every Z/t, the associator
    (a u_1 b) u_1 c + (-1)^m a u_1 (b u_1 c) changes by the sign -(-1)^(np) if b and c are exchanged. *)
Theorem C99_pre_lie : forall (dt t m n p : Z) (dc : conv) (a b c ab ac bc cb l r l' r' : list Z -> Z),
  0 <= t -> t <> 1 -> dt_ok dt t -> 0 <= m -> 0 <= n -> 0 <= p -> cochain m a -> cochain n b -> cochain p c ->
  cupi_is dt dc t 1 a b ab -> cupi_is dt dc t 1 a c ac -> cupi_is dt dc t 1 b c bc -> cupi_is dt dc t 1 c b cb ->
  cupi_is dt dc t 1 ab c l -> cupi_is dt dc t 1 a bc r -> cupi_is dt dc t 1 ac b l' -> cupi_is dt dc t 1 a cb r' ->
  cochain_eq t (fun s => l s + sgn m * r s) (fun s => - sgn (n * p) * (l' s + sgn m * r' s)).
Proof. exact @C99_pre_lie_l. Qed.
Print Assumptions C99_pre_lie.

(** The hypotheses hold with coefficients in Z/7 for a cochain of degree 2 and one of
    degree 1; no term of the two identities is 0. *)
Example C99_example : let a := fun s => match s with [x; y; z] => y * (y - x) * (z - y) | _ => 0 end in
  let b := fun s => match s with [x; y] => (1 + y * y * y) * (y - x) | _ => 0 end in
  cochain 2 a /\ cochain 1 b /\ dt_ok 0 7 /\
  cupi_is 0 BF 7 1 a b (cup1 2 1 a b) /\ cupi_is 0 BF 7 1 b a (cup1 1 2 b a) /\ cup_is 0 7 a b (fun s => match s with [x; y; z; w] => a [x; y; z] * b [z; w] | _ => 0 end) /\
  cup1 2 1 a b [1; 2; 4] = -556 /\ cup1 1 2 b a [1; 2; 4] = 780 /\ cup1 2 2 (cup1 2 1 a b) a [1; 2; 4; 9] = 1943840.
Proof. exact @C99_example_l. Qed.
