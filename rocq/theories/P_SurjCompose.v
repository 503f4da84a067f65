(** * Property theorems.  Generated by tools/mkprop.py from the tagged lemmas of
    SurjLaws6.v: every theorem is closed by [exact]. *)
From Coq Require Import Znumtheory Sorting.Sorted.
From Verif Require Import PyBase Dict FreeModule Symmetric Simplicial Utils Surjection Spec SpecChain SpecOperad SpecSurj SurjLaws6.

(** [x.compose(y, i)] is the bilinear extension of the
    composition of words described by [surj_composites]; the convention is
    Berger-Fresse or the coefficients are mod 2.  The words of [x] contain the
    value [i]; they may have different arities and degrees.  The words of [y]
    have arity [n2]; they may have different degrees. *)
Theorem C48_compose_formula : forall (dt n2 i : Z) (x y : surj),
  1 <= n2 -> wf cls_surj x -> wf cls_surj y -> torsion y = torsion x -> dt_ok dt (torsion x) ->
  attr x = BF \/ torsion x = 2 -> keys_in (fun k => In i k) x -> keys_in (onto n2) y ->
  gives cls_surj (surj_compose dt x y i) (torsion x) (attr x) (extend2 (surj_composites i n2) x y).
Proof. exact @C48_compose_formula_l. Qed.
Print Assumptions C48_compose_formula.

(** When the words of [y] have different arities: at the last
    position of [x] the composition is still given by that formula (no value of
    [x] has to be shifted); at every other position [TypeError] is raised. *)
Theorem C48_mixed : forall (dt n i s : Z) (x y : surj),
  wf cls_surj x -> wf cls_surj y -> torsion y = torsion x -> dt_ok dt (torsion x) -> 1 <= n -> keys_in (onto n) x ->
  (attr x = BF \/ torsion x = 2 -> gives cls_surj (surj_compose dt x y n) (torsion x) (attr x) (extend2 (surj_composites n s) x y)) /\
  (forall k k' v v' m m', In (k, v) (data y) -> In (k', v') (data y) -> onto m k -> onto m' k' -> m <> m' ->
     ~ is_zero x -> 1 <= i < n -> surj_compose dt x y i = Err TypeError).
Proof. exact @C48_mixed_l. Qed.
Print Assumptions C48_mixed.

(** The composite has arity n1 + n2 - 1 and degree p + q. *)
Theorem C48_compose_degree : forall (dt n1 n2 p q i : Z) (x y : surj),
  1 <= i <= n1 -> 1 <= n2 -> wf cls_surj x -> wf cls_surj y -> torsion y = torsion x -> dt_ok dt (torsion x) ->
  attr x = BF \/ torsion x = 2 -> keys_in (surj_cell n1 p) x -> keys_in (surj_cell n2 q) y ->
  exists z, surj_compose dt x y i = Ok z /\ wf cls_surj z /\ torsion z = torsion x /\ attr z = attr x /\ keys_in (surj_cell (n1 + n2 - 1) (p + q)) z.
Proof. exact @C48_compose_degree_l. Qed.
Print Assumptions C48_compose_degree.

(** Composition is additive in both arguments. *)
Theorem C48_bilinear : forall (dt n1 n2 i : Z) (x x' y y' : surj),
  1 <= i <= n1 -> 1 <= n2 -> wf cls_surj x -> wf cls_surj x' -> wf cls_surj y -> wf cls_surj y' ->
  torsion x' = torsion x -> torsion y = torsion x -> torsion y' = torsion x -> dt_ok dt (torsion x) ->
  attr x = BF \/ torsion x = 2 -> attr x' = attr x -> attr y' = attr y ->
  keys_in (onto n1) x -> keys_in (onto n1) x' -> keys_in (onto n2) y -> keys_in (onto n2) y' ->
  same (let! s := add dt cls_surj x x' in surj_compose dt s y i) (let! u := surj_compose dt x y i in let! v := surj_compose dt x' y i in add dt cls_surj u v) /\
  same (let! s := add dt cls_surj y y' in surj_compose dt x s i) (let! u := surj_compose dt x y i in let! v := surj_compose dt x y' i in add dt cls_surj u v).
Proof. exact @C48_bilinear_l. Qed.
Print Assumptions C48_bilinear.

(** d(x o_i y) == dx o_i y + (-1)^p x o_i dy, in the
    Berger-Fresse convention or mod 2 (any convention). *)
Theorem C48_chain_map : forall (dt n1 n2 p q i : Z) (x y : surj),
  1 <= i <= n1 -> 1 <= n2 -> wf cls_surj x -> wf cls_surj y -> torsion y = torsion x -> dt_ok dt (torsion x) ->
  attr x = BF /\ attr y = BF \/ torsion x = 2 -> keys_in (surj_cell n1 p) x -> keys_in (surj_cell n2 q) y ->
  same (let! z := surj_compose dt x y i in surj_boundary dt z)
       (let! dx := surj_boundary dt x in let! u := surj_compose dt dx y i in
        let! dy := surj_boundary dt y in let! v := surj_compose dt x dy i in let! w := scale dt cls_surj (sgn p) v in add dt cls_surj u w).
Proof. exact @C48_chain_map_l. Qed.
Print Assumptions C48_chain_map.

(** In the McClure-Smith convention the composition of
    nonzero elements raises NotImplementedError unless the torsion is 2. *)
Theorem C48_ms_not_implemented : forall (dt n1 n2 p q i : Z) (x y : surj),
  1 <= i <= n1 -> 1 <= n2 -> wf cls_surj x -> wf cls_surj y -> dt_ok dt (torsion x) -> attr x = MS -> torsion x <> 2 ->
  keys_in (surj_cell n1 p) x -> keys_in (surj_cell n2 q) y -> ~ is_zero x -> ~ is_zero y ->
  surj_compose dt x y i = Err NotImplementedError.
Proof. exact @C48_ms_not_implemented_l. Qed.
Print Assumptions C48_ms_not_implemented.

(** The hypotheses hold for x = (1,2,1), of arity 2 and degree 1;
    the composite x o_1 x has three terms. *)
Example C48_example : exists x z, surj_new 0 BF [([1; 2; 1], 1)] None None = Ok x /\ wf cls_surj x /\ attr x = BF /\ keys_in (surj_cell 2 1) x /\ surj_compose 0 x x 1 = Ok z /\
    data z = [([1; 3; 1; 2; 1], 1); ([1; 2; 3; 2; 1], -1); ([1; 2; 1; 3; 1], -1)].
Proof. exact @C48_example_l. Qed.

(** [x] has words of degrees 0 and 1, [y] has words of arities 1 and 2:
    the composition at position 2 is defined, at position 1 it raises [TypeError]. *)
Example C48_mixed_example : let x := mkElt [([1; 2], 1); ([2; 1; 2], 3)] 0 BF : surj in let y := mkElt [([1], 5); ([2; 1], 1)] 0 BF : surj in
  wf cls_surj x /\ wf cls_surj y /\ keys_in (onto 2) x /\ onto 1 [1] /\ onto 2 [2; 1] /\ surj_compose 0 x y 1 = Err TypeError /\
  exists z, surj_compose 0 x y 2 = Ok z /\ data z = [([1; 2], 5); ([1; 3; 2], 1); ([2; 1; 2], 15); ([3; 1; 3; 2], 3); ([3; 2; 1; 2], 3)].
Proof. exact @C48_mixed_example_l. Qed.

(** (x o_i y) o_{i-1+j} z == x o_i (y o_j z). *)
Theorem C49_sequential : forall (dt n1 n2 n3 i j : Z) (x y z : surj),
  1 <= i <= n1 -> 1 <= j <= n2 -> 1 <= n3 ->
  wf cls_surj x -> wf cls_surj y -> wf cls_surj z -> torsion y = torsion x -> torsion z = torsion x -> dt_ok dt (torsion x) ->
  attr x = BF /\ attr y = BF \/ torsion x = 2 ->
  keys_in (onto n1) x -> keys_in (onto n2) y -> keys_in (onto n3) z ->
  same (let! xy := surj_compose dt x y i in surj_compose dt xy z (i - 1 + j)) (let! yz := surj_compose dt y z j in surj_compose dt x yz i).
Proof. exact @C49_sequential_l. Qed.
Print Assumptions C49_sequential.

(** (x o_i y) o_{k-1+n2} z == (-1)^{|y||z|} (x o_k z) o_i y for i < k. *)
Theorem C49_parallel : forall (dt n1 n2 n3 p q r i k : Z) (x y z : surj),
  1 <= i -> i < k <= n1 -> 1 <= n2 -> 1 <= n3 ->
  wf cls_surj x -> wf cls_surj y -> wf cls_surj z -> torsion y = torsion x -> torsion z = torsion x -> dt_ok dt (torsion x) ->
  attr x = BF \/ torsion x = 2 ->
  keys_in (surj_cell n1 p) x -> keys_in (surj_cell n2 q) y -> keys_in (surj_cell n3 r) z ->
  same (let! xy := surj_compose dt x y i in surj_compose dt xy z (k - 1 + n2)) (let! xz := surj_compose dt x z k in let! w := surj_compose dt xz y i in scale dt cls_surj (sgn (q * r)) w).
Proof. exact @C49_parallel_l. Qed.
Print Assumptions C49_parallel.

(** The basis element (1) is a unit for composition, at every position. *)
Theorem C49_unit : forall (dt : Z) (dc : conv) (n i : Z) (x : surj),
  1 <= i <= n -> wf cls_surj x -> dt_ok dt (torsion x) -> attr x = BF \/ torsion x = 2 -> keys_in (onto n) x ->
  same (let! e := surj_new dt dc [([1], 1)] (Some (torsion x)) (Some (attr x)) in surj_compose dt x e i) (Ok x) /\
  same (let! e := surj_new dt dc [([1], 1)] (Some (torsion x)) (Some (attr x)) in surj_compose dt e x 1) (Ok x).
Proof. exact @C49_unit_l. Qed.
Print Assumptions C49_unit.
