(** * Property theorems.  Generated by tools/mkprop.py from the tagged lemmas of
    SymmetricLaws.v: every theorem is closed by [exact]. *)
From Coq Require Import Znumtheory Sorting.Sorted.
From Verif Require Import PyBase Dict FreeModule Symmetric Spec SymmetricLaws.

(** The product of two permutations is the
    composition of the two bijections, and is a permutation. *)
Theorem C10_product_is_composition : forall (n : Z) (a b : list Z),
  1 <= n -> perm n a -> perm n b ->
  exists c, sg_mul a b = Ok c /\ perm n c /\ forall i, 1 <= i <= n -> image c i = image a (image b i).
Proof. exact @C10_product_is_composition_l. Qed.
Print Assumptions C10_product_is_composition.

Theorem C10_associative : forall (n : Z) (a b c : list Z),
  1 <= n -> perm n a -> perm n b -> perm n c ->
  exists d, (let! ab := sg_mul a b in sg_mul ab c) = Ok d /\ (let! bc := sg_mul b c in sg_mul a bc) = Ok d.
Proof. exact @C10_associative_l. Qed.
Print Assumptions C10_associative.

(** The identity of arity [n] is (1,...,n), two-sided unit. *)
Theorem C10_identity : forall (n : Z) (a : list Z),
  1 <= n -> perm n a ->
  perm n (zrange 1 (n + 1)) /\ sg_mul (zrange 1 (n + 1)) a = Ok a /\ sg_mul a (zrange 1 (n + 1)) = Ok a.
Proof. exact @C10_identity_l. Qed.
Print Assumptions C10_identity.

(** [a.inverse()] is a permutation and a two-sided inverse. *)
Theorem C10_inverse : forall (n : Z) (a : list Z),
  1 <= n -> perm n a ->
  exists b, sg_inverse a = Ok b /\ perm n b /\
    sg_mul a b = Ok (zrange 1 (n + 1)) /\ sg_mul b a = Ok (zrange 1 (n + 1)).
Proof. exact @C10_inverse_l. Qed.
Print Assumptions C10_inverse.

(** [a ** 0] is the identity, [a ** 1] is [a] and
    [a ** (m + k) = (a ** m) * (a ** k)] for all [m, k >= 0]. *)
Theorem C10_power : forall (n : Z) (a : list Z) (m k : Z),
  1 <= n -> perm n a -> 0 <= m -> 0 <= k ->
  sg_pow a 0 = Ok (zrange 1 (n + 1)) /\ sg_pow a 1 = Ok a /\
  exists p q r, sg_pow a m = Ok p /\ sg_pow a k = Ok q /\ sg_pow a (m + k) = Ok r /\ perm n p /\ sg_mul p q = Ok r.
Proof. exact @C10_power_l. Qed.
Print Assumptions C10_power.

(** A negative exponent is silently ignored: the result
    is [a] itself, not a power of the inverse. *)
Theorem C10_negative_power : forall (a : list Z) (m : Z),
  m < 0 -> sg_pow a m = Ok a.
Proof. exact @C10_negative_power_l. Qed.
Print Assumptions C10_negative_power.

Theorem C10_unequal_arities : forall (n m : Z) (a b : list Z),
  1 <= n -> 1 <= m -> n <> m -> perm n a -> perm m b -> sg_mul a b = Err TypeError.
Proof. exact @C10_unequal_arities_l. Qed.
Print Assumptions C10_unequal_arities.

Example C10_example : perm 4 [3; 1; 4; 2] /\ sg_mul [3; 1; 4; 2] [2; 1; 4; 3] = Ok [1; 3; 2; 4] /\
  sg_inverse [3; 1; 4; 2] = Ok [2; 4; 1; 3] /\ sg_pow [3; 1; 4; 2] 3 = Ok [2; 4; 1; 3].
Proof. exact @C10_example_l. Qed.

Theorem C11_sign_counts_inversions : forall (n : Z) (p : list Z),
  0 <= n -> perm n p -> sg_sign p = Ok (if Z.even (inversions p) then 1 else -1).
Proof. exact @C11_sign_counts_inversions_l. Qed.
Print Assumptions C11_sign_counts_inversions.

Theorem C11_multiplicative : forall (n : Z) (a b : list Z),
  1 <= n -> perm n a -> perm n b ->
  exists ab s t, sg_mul a b = Ok ab /\ sg_sign a = Ok s /\ sg_sign b = Ok t /\ sg_sign ab = Ok (s * t).
Proof. exact @C11_multiplicative_l. Qed.
Print Assumptions C11_multiplicative.

Theorem C11_defined_exactly_on_permutations : forall (p : list Z),
  (perm (zlen p) p <-> exists s, sg_sign p = Ok s) /\ (~ perm (zlen p) p -> sg_sign p = Err TypeError).
Proof. exact @C11_defined_exactly_on_permutations_l. Qed.
Print Assumptions C11_defined_exactly_on_permutations.

(** Exchanging two entries changes the sign. *)
Theorem C11_transposition : forall (n : Z) (l1 l2 l3 : list Z) (a b s : Z),
  0 <= n -> perm n (l1 ++ a :: l2 ++ b :: l3) -> sg_sign (l1 ++ a :: l2 ++ b :: l3) = Ok s ->
  sg_sign (l1 ++ b :: l2 ++ a :: l3) = Ok (- s).
Proof. exact @C11_transposition_l. Qed.
Print Assumptions C11_transposition.

Example C11_example : sg_sign [3; 1; 4; 2] = Ok (-1) /\ inversions [3; 1; 4; 2] = 3 /\ sg_sign [2; 2] = Err TypeError.
Proof. exact @C11_example_l. Qed.

(** [to_cycles] terminates on every permutation.  It returns
    cycles of the permutation (each entry is sent to the next one, the last
    to the first), disjoint; with [singletons=True] they partition {1..n},
    and the default only omits the cycles of length one. *)
Theorem C12_cycles : forall (n : Z) (p : list Z),
  0 <= n -> perm n p ->
  exists cs, to_cycles p true = Ok cs /\
    to_cycles p false = Ok (filter (fun cy => 1 <? zlen cy) cs) /\
    (forall cy, In cy cs -> is_cycle p cy) /\ perm n (concat cs).
Proof. exact @C12_cycles_l. Qed.
Print Assumptions C12_cycles.

(** Outside permutations [to_cycles] need not terminate: on
    (2,2) the [while] loop never ends, whatever the number of iterations. *)
Theorem C12_diverges : forall (fuel : nat),
  to_cycles_fuel fuel [2; 2] true = Err Diverges.
Proof. exact @C12_diverges_l. Qed.
Print Assumptions C12_diverges.

Example C12_example : to_cycles [2; 1; 5; 3; 4; 6] true = Ok [[1; 2]; [3; 5; 4]; [6]] /\
  to_cycles [2; 1; 5; 3; 4; 6] false = Ok [[1; 2]; [3; 5; 4]].
Proof. exact @C12_example_l. Qed.

(** [a.compose(b, i)] is the substitution of [b] for the
    entry [i] of [a]; it is a permutation of arity r+s-1. *)
Theorem C13_composition : forall (r s : Z) (a b : list Z) (i : Z),
  1 <= r -> 1 <= s -> perm r a -> perm s b -> 1 <= i <= r ->
  sg_compose a b i = Ok (flat_map (graft b i) a) /\ perm (r + s - 1) (flat_map (graft b i) a).
Proof. exact @C13_composition_l. Qed.
Print Assumptions C13_composition.

Theorem C13_sequential : forall (r s t : Z) (a b c : list Z) (i j : Z),
  1 <= r -> 1 <= s -> 1 <= t -> perm r a -> perm s b -> perm t c -> 1 <= i <= r -> 1 <= j <= s ->
  exists d, (let! ab := sg_compose a b i in sg_compose ab c (i - 1 + j)) = Ok d /\
            (let! bc := sg_compose b c j in sg_compose a bc i) = Ok d.
Proof. exact @C13_sequential_l. Qed.
Print Assumptions C13_sequential.

Theorem C13_parallel : forall (r s t : Z) (a b c : list Z) (i k : Z),
  1 <= r -> 1 <= s -> 1 <= t -> perm r a -> perm s b -> perm t c -> 1 <= i < k -> k <= r ->
  exists d, (let! ab := sg_compose a b i in sg_compose ab c (k - 1 + s)) = Ok d /\
            (let! ac := sg_compose a c k in sg_compose ac b i) = Ok d.
Proof. exact @C13_parallel_l. Qed.
Print Assumptions C13_parallel.

(** The permutation (1) is the unit of the operad. *)
Theorem C13_unit : forall (r : Z) (a : list Z) (i : Z),
  1 <= r -> perm r a -> 1 <= i <= r -> sg_compose a [1] i = Ok a /\ sg_compose [1] a 1 = Ok a.
Proof. exact @C13_unit_l. Qed.
Print Assumptions C13_unit.

Theorem C13_position_rejected : forall (r : Z) (a b : list Z) (i : Z),
  perm r a -> ~ (1 <= i <= r) -> sg_compose a b i = Err ValueError.
Proof. exact @C13_position_rejected_l. Qed.
Print Assumptions C13_position_rejected.

Example C13_example : sg_compose [1; 3; 2] [2; 1] 2 = Ok [1; 4; 3; 2] /\ sg_compose [1; 3; 2] [2; 1] 4 = Err ValueError.
Proof. exact @C13_example_l. Qed.

(** [SymmetricGroup.all(n)] lists each permutation of
    (1..n) exactly once. *)
Theorem C14_all_permutations : forall (n : Z),
  NoDup (sg_all n) /\ forall p, In p (sg_all n) <-> perm n p.
Proof. exact @C14_all_permutations_l. Qed.
Print Assumptions C14_all_permutations.

(** [shuffles(i, j)] lists exactly once each permutation of
    (1..i+j) that increases on its first [i] and on its last [j] entries. *)
Theorem C14_shuffles : forall (i j : Z),
  0 <= i -> 0 <= j ->
  NoDup (sg_shuffles i j) /\
  forall p, In p (sg_shuffles i j) <->
    perm (i + j) p /\ Sorted Z.lt (firstn (Z.to_nat i) p) /\ Sorted Z.lt (skipn (Z.to_nat i) p).
Proof. exact @C14_shuffles_l. Qed.
Print Assumptions C14_shuffles.

Example C14_example : sg_shuffles 1 2 = [[1; 2; 3]; [2; 1; 3]; [3; 1; 2]] /\ length (sg_all 4) = 24%nat.
Proof. exact @C14_example_l. Qed.
