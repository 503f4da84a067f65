(** * Property theorems.  Generated by tools/mkprop.py from the tagged lemmas of
    RingLaws.v: every theorem is closed by [exact]. *)
From Coq Require Import Znumtheory Sorting.Sorted.
From Verif Require Import PyBase Dict FreeModule Symmetric Spec RingLaws.

(** The product extends the product of
    permutations bilinearly: the coefficient of [p] in [x * y] is the sum of
    the products of the coefficients of [a] in [x] and [b] in [y] over the
    pairs with [a * b = p] (modulo the torsion); its basis elements are
    permutations of the same arity. *)
Theorem C15_product_coefficients : forall (dt n : Z) (x y : ring),
  1 <= n -> wf cls_ring x -> wf cls_ring y -> torsion y = torsion x ->
  keys_in (fun k => perm n (kval k)) x -> keys_in (fun k => perm n (kval k)) y ->
  exists z, ring_mul dt x y = Ok z /\ wf cls_ring z /\ torsion z = torsion x /\ keys_in (fun k => perm n (kval k)) z /\
    forall p, (torsion x | dget (data z) (SGE p) -
      zsum (map (fun '((a, va), (b, vb)) => match sg_mul (kval a) (kval b) with
                                             | Ok q => if tup_eqb q p then va * vb else 0
                                             | Err _ => 0 end) (list_prod (data x) (data y)))).
Proof. exact @C15_product_coefficients_l. Qed.
Print Assumptions C15_product_coefficients.

Theorem C15_associative : forall (dt n : Z) (x y z : ring),
  1 <= n -> wf cls_ring x -> wf cls_ring y -> wf cls_ring z -> torsion y = torsion x -> torsion z = torsion x ->
  keys_in (fun k => perm n (kval k)) x -> keys_in (fun k => perm n (kval k)) y -> keys_in (fun k => perm n (kval k)) z ->
  same (let! xy := ring_mul dt x y in ring_mul dt xy z) (let! yz := ring_mul dt y z in ring_mul dt x yz).
Proof. exact @C15_associative_l. Qed.
Print Assumptions C15_associative.

Theorem C15_distributive : forall (dt n : Z) (x y z : ring),
  1 <= n -> wf cls_ring x -> wf cls_ring y -> wf cls_ring z -> torsion y = torsion x -> torsion z = torsion x -> dt_ok dt (torsion x) ->
  keys_in (fun k => perm n (kval k)) x -> keys_in (fun k => perm n (kval k)) y -> keys_in (fun k => perm n (kval k)) z ->
  same (let! s := add dt cls_ring x y in ring_mul dt s z)
       (let! p := ring_mul dt x z in let! q := ring_mul dt y z in add dt cls_ring p q) /\
  same (let! s := add dt cls_ring y z in ring_mul dt x s)
       (let! p := ring_mul dt x y in let! q := ring_mul dt x z in add dt cls_ring p q).
Proof. exact @C15_distributive_l. Qed.
Print Assumptions C15_distributive.

Theorem C15_unit : forall (dt n : Z) (x : ring),
  1 <= n -> wf cls_ring x -> dt_ok dt (torsion x) -> keys_in (fun k => perm n (kval k)) x ->
  same (let! e := identity_element dt n (Some (torsion x)) in ring_mul dt e x) (Ok x) /\
  same (let! e := identity_element dt n (Some (torsion x)) in ring_mul dt x e) (Ok x).
Proof. exact @C15_unit_l. Qed.
Print Assumptions C15_unit.

Theorem C15_torsion_mismatch : forall (dt : Z) (x y : ring),
  torsion x <> torsion y -> ring_mul dt x y = Err TypeError.
Proof. exact @C15_torsion_mismatch_l. Qed.
Print Assumptions C15_torsion_mismatch.

Example C15_example : let x := mkElt [(SGE [2; 1; 3], 1); (SGE [2; 3; 1], -2)] 0 tt in
  wf cls_ring x /\ keys_in (fun k => perm 3 (kval k)) x /\
  ring_mul 0 x x = Ok (mkElt [(Tup [1; 2; 3], 1); (Tup [1; 3; 2], -2); (Tup [3; 2; 1], -2); (Tup [3; 1; 2], 4)] 0 tt).
Proof. exact @C15_example_l. Qed.

(** For torsion not 1: rotation_element(n) is the permutation
    i -> i+1 (mod n); its k-th power is i -> i+k (mod n), so its order is [n]. *)
Theorem C16_rotation : forall (dt n t : Z),
  1 <= n -> 0 <= t -> t <> 1 -> dt_ok dt t ->
  exists x, rotation_element dt n (Some t) = Ok x /\
    forall k, 0 <= k ->
      (exists p, perm n p /\ (forall i, 1 <= i <= n -> image p i = (i - 1 + k) mod n + 1) /\
                 same (ring_pow dt x k) (Ok (mkElt [(SGE p, 1)] t tt))) /\
      (same (ring_pow dt x k) (identity_element dt n (Some t)) <-> k mod n = 0).
Proof. exact @C16_rotation_l. Qed.
Print Assumptions C16_rotation.

(** For arity at least 2. *)
Theorem C16_transposition : forall (dt n t : Z),
  2 <= n -> 0 <= t -> dt_ok dt t ->
  same (transposition_element dt n (Some t))
       (let! r := rotation_element dt n (Some t) in let! e := identity_element dt n (Some t) in sub dt cls_ring r e).
Proof. exact @C16_transposition_l. Qed.
Print Assumptions C16_transposition.

(** In arity 1 transposition_element is minus the
    identity, not rho - id = 0, and T * N is not zero. *)
Theorem C16_transposition_refuted : ~ same (transposition_element 0 1 (Some 0))
       (let! r := rotation_element 0 1 (Some 0) in let! e := identity_element 0 1 (Some 0) in sub 0 cls_ring r e) /\
  ~ same (let! T := transposition_element 0 1 (Some 0) in let! N := norm_element 0 1 (Some 0) in ring_mul 0 T N)
         (let! N := norm_element 0 1 (Some 0) in zero 0 cls_ring N).
Proof. exact @C16_transposition_refuted_l. Qed.
Print Assumptions C16_transposition_refuted.

(** norm_element(n) is the sum of the [n] powers of the rotation
    (pairwise different permutations). *)
Theorem C16_norm : forall (dt n t : Z),
  1 <= n -> 0 <= t -> t <> 1 -> dt_ok dt t ->
  same (norm_element dt n (Some t))
       (ring_new dt (map (fun k => (map (fun i => (i - 1 + k) mod n + 1) (zrange 1 (n + 1)), 1)) (zrange 0 n)) (Some t)).
Proof. exact @C16_norm_l. Qed.
Print Assumptions C16_norm.

(** T * N == N * T == 0 for arity at least 2 and torsion not 1. *)
Theorem C16_products_vanish : forall (dt n t : Z),
  2 <= n -> 0 <= t -> t <> 1 -> dt_ok dt t ->
  same (let! T := transposition_element dt n (Some t) in let! N := norm_element dt n (Some t) in ring_mul dt T N)
       (let! N := norm_element dt n (Some t) in zero dt cls_ring N) /\
  same (let! T := transposition_element dt n (Some t) in let! N := norm_element dt n (Some t) in ring_mul dt N T)
       (let! N := norm_element dt n (Some t) in zero dt cls_ring N).
Proof. exact @C16_products_vanish_l. Qed.
Print Assumptions C16_products_vanish.

Example C16_example : norm_element 0 3 (Some 0) = Ok (mkElt [(SGE [1; 2; 3], 1); (SGE [2; 3; 1], 1); (SGE [3; 1; 2], 1)] 0 tt) /\
  transposition_element 0 3 (Some 3) = Ok (mkElt [(SGE [2; 3; 1], 1); (SGE [1; 2; 3], 2)] 3 tt).
Proof. exact @C16_example_l. Qed.

(** The power of a ring element with a single basis
    element and coefficient 1 is the iterated product. *)
Theorem C17_single_element : forall (dt n t m : Z) (p : list Z),
  1 <= n -> 0 <= t -> t <> 1 -> dt_ok dt t -> perm n p -> 0 <= m ->
  let x := mkElt [(SGE p, 1)] t tt in
  same (ring_pow dt x 0) (identity_element dt n (Some t)) /\
  same (ring_pow dt x (m + 1)) (let! y := ring_pow dt x m in ring_mul dt y x).
Proof. exact @C17_single_element_l. Qed.
Print Assumptions C17_single_element.

(** The power raises every basis element to the power instead
    of multiplying: (p + 2 e) ** 2 = 3 e although (p + 2 e)*(p + 2 e) = 5 e + 4 p. *)
Theorem C17_refuted : exists x : ring, wf cls_ring x /\ keys_in (fun k => perm 4 (kval k)) x /\
  ~ same (ring_pow 0 x 2) (ring_mul 0 x x) /\
  ring_pow 0 x 2 = Ok (mkElt [(SGE [1; 2; 3; 4], 3)] 0 tt) /\
  ring_mul 0 x x = Ok (mkElt [(Tup [1; 2; 3; 4], 5); (Tup [4; 3; 2; 1], 4)] 0 tt).
Proof. exact @C17_refuted_l. Qed.
Print Assumptions C17_refuted.

(** A product of ring elements is not first class: composing
    it raises AttributeError, its square (as a power) raises TypeError;
    multiplying a ring element by a group element, in any order, raises
    TypeError. *)
Theorem C18_refuted : exists (x p : ring) (g : list Z), wf cls_ring x /\ keys_in (fun k => perm 2 (kval k)) x /\ perm 2 g /\
  ring_mul 0 x x = Ok p /\ wf cls_ring p /\ p <> mkElt [] 0 tt /\
  ring_compose 0 p x 1 = Err AttributeError /\ ring_pow 0 p 2 = Err TypeError /\
  ring_mul_group x g = Err TypeError /\ group_mul_ring 0 g x = Err TypeError /\
  (exists q, ring_compose 0 x x 1 = Ok q) /\ (exists q, ring_pow 0 x 2 = Ok q).
Proof. exact @C18_refuted_l. Qed.
Print Assumptions C18_refuted.

(** What does hold: products can be added,
    scaled, compared, and multiplied again with ring elements (C15), and
    re-creating a product restores its keys, after which it can be composed. *)
Theorem C18_products_as_arguments : forall (dt r s i : Z) (x y z : ring) (p : ring),
  1 <= r -> 1 <= s -> 1 <= i <= r -> wf cls_ring x -> wf cls_ring y -> wf cls_ring z -> torsion y = torsion x -> torsion z = torsion x -> dt_ok dt (torsion x) ->
  keys_in (fun k => perm r (kval k)) x -> keys_in (fun k => perm r (kval k)) y -> keys_in (fun k => perm s (kval k)) z ->
  ring_mul dt x y = Ok p ->
  exists q, create dt cls_ring p (data p) = Ok q /\ elt_eqb q p = true /\ (exists c, ring_compose dt q z i = Ok c).
Proof. exact @C18_products_as_arguments_l. Qed.
Print Assumptions C18_products_as_arguments.

Theorem C19_bilinear : forall (dt r s i : Z) (x x' y y' : ring),
  1 <= r -> 1 <= s -> 1 <= i <= r -> wf cls_ring x -> wf cls_ring x' -> wf cls_ring y -> wf cls_ring y' ->
  torsion x' = torsion x -> torsion y = torsion x -> torsion y' = torsion x -> dt_ok dt (torsion x) ->
  keys_in (fun k => is_sge k = true /\ perm r (kval k)) x -> keys_in (fun k => is_sge k = true /\ perm r (kval k)) x' ->
  keys_in (fun k => perm s (kval k)) y -> keys_in (fun k => perm s (kval k)) y' ->
  same (let! s := add dt cls_ring x x' in ring_compose dt s y i)
       (let! p := ring_compose dt x y i in let! q := ring_compose dt x' y i in add dt cls_ring p q) /\
  same (let! s := add dt cls_ring y y' in ring_compose dt x s i)
       (let! p := ring_compose dt x y i in let! q := ring_compose dt x y' i in add dt cls_ring p q).
Proof. exact @C19_bilinear_l. Qed.
Print Assumptions C19_bilinear.

Theorem C19_sequential : forall (dt r s u i j : Z) (x y z : ring),
  1 <= r -> 1 <= s -> 1 <= u -> 1 <= i <= r -> 1 <= j <= s -> wf cls_ring x -> wf cls_ring y -> wf cls_ring z ->
  torsion y = torsion x -> torsion z = torsion x -> dt_ok dt (torsion x) ->
  keys_in (fun k => is_sge k = true /\ perm r (kval k)) x -> keys_in (fun k => is_sge k = true /\ perm s (kval k)) y ->
  keys_in (fun k => perm u (kval k)) z ->
  same (let! xy := ring_compose dt x y i in ring_compose dt xy z (i - 1 + j))
       (let! yz := ring_compose dt y z j in ring_compose dt x yz i).
Proof. exact @C19_sequential_l. Qed.
Print Assumptions C19_sequential.

Theorem C19_parallel : forall (dt r s u i k : Z) (x y z : ring),
  1 <= r -> 1 <= s -> 1 <= u -> 1 <= i < k -> k <= r -> wf cls_ring x -> wf cls_ring y -> wf cls_ring z ->
  torsion y = torsion x -> torsion z = torsion x -> dt_ok dt (torsion x) ->
  keys_in (fun k => is_sge k = true /\ perm r (kval k)) x -> keys_in (fun k => perm s (kval k)) y ->
  keys_in (fun k => perm u (kval k)) z ->
  same (let! xy := ring_compose dt x y i in ring_compose dt xy z (k - 1 + s))
       (let! xz := ring_compose dt x z k in ring_compose dt xz y i).
Proof. exact @C19_parallel_l. Qed.
Print Assumptions C19_parallel.

Theorem C19_unit : forall (dt r i : Z) (x : ring),
  1 <= r -> 1 <= i <= r -> wf cls_ring x -> torsion x <> 1 -> dt_ok dt (torsion x) ->
  keys_in (fun k => is_sge k = true /\ perm r (kval k)) x ->
  same (let! e := identity_element dt 1 (Some (torsion x)) in ring_compose dt x e i) (Ok x) /\
  same (let! e := identity_element dt 1 (Some (torsion x)) in ring_compose dt e x 1) (Ok x).
Proof. exact @C19_unit_l. Qed.
Print Assumptions C19_unit.

(** The constructor and [compose] only produce basis elements of
    class SymmetricGroupElement, as the previous theorems require. *)
Theorem C19_keys : forall (dt : Z),
  (forall d ot x, ring_new dt d ot = Ok x -> keys_in (fun k => is_sge k = true) x) /\
  (forall x y i z, keys_in (fun k => is_sge k = true) x -> ring_compose dt x y i = Ok z -> keys_in (fun k => is_sge k = true) z).
Proof. exact @C19_keys_l. Qed.
Print Assumptions C19_keys.

Example C19_example : let x := mkElt [(SGE [2; 3; 1], 1); (SGE [1; 2; 3], -1)] 0 tt in
  let y := mkElt [(SGE [2; 1], 1); (SGE [1; 2], 1)] 0 tt in
  wf cls_ring x /\ wf cls_ring y /\
  ring_compose 0 x y 2 = Ok (mkElt [(SGE [3; 2; 4; 1], 1); (SGE [2; 3; 4; 1], 1); (SGE [1; 3; 2; 4], -1); (SGE [1; 2; 3; 4], -1)] 0 tt).
Proof. exact @C19_example_l. Qed.
