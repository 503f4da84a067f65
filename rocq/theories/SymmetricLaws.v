(** * Laws of the symmetric groups (C10-C14). *)
From Coq Require Import Setoid Morphisms Sorting.Sorted.
From Verif Require Import PyBase Dict FreeModule Symmetric Eqm Spec FreeModuleFacts FreeModuleLaws ListFacts ClassFacts SymmetricFacts CycleFacts.

(** #C10_product_is_composition# The product of two permutations is the
    composition of the two bijections, and is a permutation. *)
Lemma C10_product_is_composition_l (n : Z) (a b : list Z) :
  1 <= n -> perm n a -> perm n b ->
  exists c, sg_mul a b = Ok c /\ perm n c /\ forall i, 1 <= i <= n -> image c i = image a (image b i).
Proof.
  intros Hn Ha Hb. exists (pmul a b). split; [now apply (sg_mul_ok n)|]. split; [apply perm_pmul; auto; lia|].
  intros i Hi. now apply (image_pmul n).
Qed.
(** #C10_associative# *)
Lemma C10_associative_l (n : Z) (a b c : list Z) :
  1 <= n -> perm n a -> perm n b -> perm n c ->
  exists d, (let! ab := sg_mul a b in sg_mul ab c) = Ok d /\ (let! bc := sg_mul b c in sg_mul a bc) = Ok d.
Proof.
  intros Hn Ha Hb Hc. exists (pmul (pmul a b) c). assert (0 <= n) by lia.
  rewrite (sg_mul_ok n a b), (sg_mul_ok n b c) by auto. cbn [bind].
  rewrite !(sg_mul_ok n) by (auto; now apply perm_pmul). split; [reflexivity|]. now rewrite (pmul_assoc n).
Qed.
(** #C10_identity# The identity of arity [n] is (1,...,n), two-sided unit. *)
Lemma C10_identity_l (n : Z) (a : list Z) :
  1 <= n -> perm n a ->
  perm n (zrange 1 (n + 1)) /\ sg_mul (zrange 1 (n + 1)) a = Ok a /\ sg_mul a (zrange 1 (n + 1)) = Ok a.
Proof.
  intros Hn Ha. pose proof (perm_id n) as Hid. split; [exact Hid|]. rewrite !(sg_mul_ok n) by auto.
  rewrite pmul_id_l, pmul_id_r by (auto; lia). auto.
Qed.
(** #C10_inverse# [a.inverse()] is a permutation and a two-sided inverse. *)
Lemma C10_inverse_l (n : Z) (a : list Z) :
  1 <= n -> perm n a ->
  exists b, sg_inverse a = Ok b /\ perm n b /\
    sg_mul a b = Ok (zrange 1 (n + 1)) /\ sg_mul b a = Ok (zrange 1 (n + 1)).
Proof.
  intros Hn Ha. assert (0 <= n) by lia. exists (pinv a). pose proof (perm_pinv n a H Ha).
  split; [now apply (sg_inverse_ok n)|]. split; [assumption|]. rewrite !(sg_mul_ok n) by auto.
  rewrite (pinv_r n), (pinv_l n) by auto. auto.
Qed.
(** #C10_power# [a ** 0] is the identity, [a ** 1] is [a] and
    [a ** (m + k) = (a ** m) * (a ** k)] for all [m, k >= 0]. *)
Lemma C10_power_l (n : Z) (a : list Z) (m k : Z) :
  1 <= n -> perm n a -> 0 <= m -> 0 <= k ->
  sg_pow a 0 = Ok (zrange 1 (n + 1)) /\ sg_pow a 1 = Ok a /\
  exists p q r, sg_pow a m = Ok p /\ sg_pow a k = Ok q /\ sg_pow a (m + k) = Ok r /\ perm n p /\ sg_mul p q = Ok r.
Proof.
  intros Hn Ha Hm Hk. assert (Hn0 : 0 <= n) by lia.
  rewrite !(sg_pow_ok n) by (auto; lia). split; [reflexivity|]. split; [f_equal; now apply ppow_1|].
  eexists _, _, _. do 3 (split; [reflexivity|]). split; [now apply perm_ppow|].
  rewrite (sg_mul_ok n) by (auto; now apply perm_ppow). f_equal. rewrite <- ppow_add by auto. f_equal. lia.
Qed.
(** #C10_negative_power# A negative exponent is silently ignored: the result
    is [a] itself, not a power of the inverse. *)
Lemma C10_negative_power_l (a : list Z) (m : Z) : m < 0 -> sg_pow a m = Ok a.
Proof.
  intros Hm. unfold sg_pow. destruct (Z.eqb_spec m 0); [lia|]. now rewrite zrange_nil by lia.
Qed.
(** #C10_unequal_arities# *)
Lemma C10_unequal_arities_l (n m : Z) (a b : list Z) :
  1 <= n -> 1 <= m -> n <> m -> perm n a -> perm m b -> sg_mul a b = Err TypeError.
Proof.
  intros Hn Hm N Ha Hb. unfold sg_mul, sg_arity. rewrite (perm_max n a), (perm_max m b) by auto. cbn.
  now destruct (Z.eqb_spec n m).
Qed.
(** #C10_example# *)
Example C10_example_l : perm 4 [3; 1; 4; 2] /\ sg_mul [3; 1; 4; 2] [2; 1; 4; 3] = Ok [1; 3; 2; 4] /\
  sg_inverse [3; 1; 4; 2] = Ok [2; 4; 1; 3] /\ sg_pow [3; 1; 4; 2] 3 = Ok [2; 4; 1; 3].
Proof.
  repeat split. apply perm_of_incl; [lia|reflexivity|]. intros i Hi.
  assert (i = 1 \/ i = 2 \/ i = 3 \/ i = 4) as [-> | [-> | [-> | ->]]] by lia; cbn; tauto.
Qed.

(** #C11_sign_counts_inversions# *)
Lemma C11_sign_counts_inversions_l (n : Z) (p : list Z) :
  0 <= n -> perm n p -> sg_sign p = Ok (if Z.even (inversions p) then 1 else -1).
Proof. exact (sg_sign_ok n p). Qed.
(** #C11_multiplicative# *)
Lemma C11_multiplicative_l (n : Z) (a b : list Z) :
  1 <= n -> perm n a -> perm n b ->
  exists ab s t, sg_mul a b = Ok ab /\ sg_sign a = Ok s /\ sg_sign b = Ok t /\ sg_sign ab = Ok (s * t).
Proof.
  intros Hn Ha Hb. assert (0 <= n) by lia. exists (pmul a b), (psgn a), (psgn b).
  split; [now apply (sg_mul_ok n)|]. rewrite !(sg_sign_ok n) by (auto; now apply perm_pmul).
  rewrite (psgn_pmul n) by auto. auto.
Qed.
(** #C11_defined_exactly_on_permutations# *)
Lemma C11_defined_exactly_on_permutations_l (p : list Z) :
  (perm (zlen p) p <-> exists s, sg_sign p = Ok s) /\ (~ perm (zlen p) p -> sg_sign p = Err TypeError).
Proof.
  assert (G : ~ perm (zlen p) p -> sg_sign p = Err TypeError).
  { intros Hp. unfold sg_sign. destruct (set_eqb p (zrange 1 (zlen p + 1))) eqn:E; [|reflexivity].
    apply set_eqb_perm in E. contradiction. }
  split; [|exact G]. split.
  - intros Hp. exists (psgn p). apply (sg_sign_ok (zlen p)); auto. apply zlen_nonneg.
  - intros [s Hs]. destruct (set_eqb p (zrange 1 (zlen p + 1))) eqn:E; [now apply set_eqb_perm|].
    unfold sg_sign in Hs. rewrite E in Hs. discriminate.
Qed.
(** #C11_transposition# Exchanging two entries changes the sign. *)
Lemma C11_transposition_l (n : Z) (l1 l2 l3 : list Z) (a b s : Z) :
  0 <= n -> perm n (l1 ++ a :: l2 ++ b :: l3) -> sg_sign (l1 ++ a :: l2 ++ b :: l3) = Ok s ->
  sg_sign (l1 ++ b :: l2 ++ a :: l3) = Ok (- s).
Proof.
  intros Hn Hp E. rewrite (sg_sign_ok n _ Hn Hp) in E. injection E as <-.
  rewrite (sg_sign_ok n _ Hn).
  - f_equal. apply psgn_swap. eapply perm_nodup; eauto.
  - unfold perm in *. rewrite <- Hp. apply Permutation_app_head.
    rewrite (Permutation_app_comm (b :: l2) (a :: l3)). cbn. apply perm_skip.
    rewrite Permutation_app_comm. cbn. now rewrite <- Permutation_middle.
Qed.
(** #C11_example# *)
Example C11_example_l : sg_sign [3; 1; 4; 2] = Ok (-1) /\ inversions [3; 1; 4; 2] = 3 /\ sg_sign [2; 2] = Err TypeError.
Proof. repeat split. Qed.

(** #C12_cycles# [to_cycles] terminates on every permutation.  It returns
    cycles of the permutation (each entry is sent to the next one, the last
    to the first), disjoint; with [singletons=True] they partition {1..n},
    and the default only omits the cycles of length one. *)
Lemma C12_cycles_l (n : Z) (p : list Z) :
  0 <= n -> perm n p ->
  exists cs, to_cycles p true = Ok cs /\
    to_cycles p false = Ok (filter (fun cy => 1 <? zlen cy) cs) /\
    (forall cy, In cy cs -> is_cycle p cy) /\ perm n (concat cs).
Proof.
  intros Hn Hp. destruct (to_cycles_ok n p true Hn Hp) as (cs & E1 & E2 & E3).
  exists cs. assert (Ef : filter (keep true) cs = cs).
  { clear. induction cs as [|c cs IH]; cbn; [reflexivity|]. now rewrite IH. }
  rewrite Ef in E1. split; [exact E1|]. split; [|split; assumption].
  assert (G : forall fuel l (st st' : list cell * list (list Z)), (let (p1, c1) := st in let (p2, c2) := st' in p1 = p2 /\ c2 = filter (fun cy => 1 <? zlen cy) c1) ->
     forall r, for_ l st (cycles_step fuel true) = Ok r ->
     for_ l st' (cycles_step fuel false) = Ok (fst r, filter (fun cy => 1 <? zlen cy) (snd r))).
  { clear. intros fuel. induction l as [|i l IH]; intros [p1 c1] [p2 c2] [-> ->] r Er; cbn [for_] in *.
    - injection Er as <-. reflexivity.
    - unfold cycles_step at 1 in Er. unfold cycles_step at 1.
      destruct (py_get p2 i) as [[v|]|]; cbn [bind] in *; [| |discriminate].
      + destruct (py_set p2 i None) as [q|]; cbn [bind] in *; [|discriminate].
        destruct (cycle_loop fuel (i + 1) q (Some v) [i + 1]) as [[q2 cy]|]; cbn [bind orb] in *; [|discriminate].
        eapply IH; [|exact Er]. cbn. split; [reflexivity|]. rewrite filter_app. cbn.
        destruct (1 <? zlen cy); [reflexivity|]. now rewrite app_nil_r.
      + eapply IH; [|exact Er]. cbn. auto. }
  unfold to_cycles, to_cycles_fuel in *.
  destruct (for_ (zrange 0 (zlen p)) (map Some p, []) (cycles_step (S (length p)) true)) as [r|] eqn:Er; [|discriminate].
  cbn in E1. injection E1 as <-. rewrite (G _ _ (map Some p, []) (map Some p, [])) with (r := r); cbn; auto.
Qed.
(** #C12_diverges# Outside permutations [to_cycles] need not terminate: on
    (2,2) the [while] loop never ends, whatever the number of iterations. *)
Lemma C12_diverges_l (fuel : nat) : to_cycles_fuel fuel [2; 2] true = Err Diverges.
Proof.
  unfold to_cycles_fuel. change (zrange 0 (zlen [2; 2])) with [0; 1]. cbn [for_ cycles_step map bind].
  unfold cycles_step at 1. change (py_get [Some 2; Some 2] 0) with (Ok (Some 2)). cbn [bind].
  change (py_set [Some 2; Some 2] 0 None) with (Ok [@None Z; Some 2]). cbn [bind].
  assert (G : forall fuel cy q, q = [@None Z; Some 2] \/ q = [@None Z; None] -> forall nx, nx = Some 2 \/ nx = None ->
     cycle_loop fuel (0 + 1) q nx cy = Err Diverges).
  { clear. induction fuel as [|fuel IH]; intros cy q Hq nx Hnx; [reflexivity|].
    destruct Hq as [-> | ->], Hnx as [-> | ->]; cbn; apply IH; auto. }
  rewrite G; auto.
Qed.
(** #C12_example# *)
Example C12_example_l : to_cycles [2; 1; 5; 3; 4; 6] true = Ok [[1; 2]; [3; 5; 4]; [6]] /\
  to_cycles [2; 1; 5; 3; 4; 6] false = Ok [[1; 2]; [3; 5; 4]].
Proof. repeat split. Qed.

(** ** Composition *)
Lemma graft_notin b i l : ~ In i l -> flat_map (graft b i) l = map (fun x => if i <? x then x + (zlen b - 1) else x) l.
Proof.
  induction l as [|x l IH]; intros Hn; cbn; [reflexivity|]. rewrite IH by (intros X; apply Hn; now right).
  unfold graft at 1. destruct (Z.eqb_spec x i); [exfalso; apply Hn; now left|]. destruct (i <? x); cbn; f_equal; lia.
Qed.
Lemma sg_compose_ok a b i : NoDup a -> In i a -> sg_compose a b i = Ok (flat_map (graft b i) a).
Proof.
  intros ND Hin. apply in_split in Hin. destruct Hin as (l1 & l2 & ->). apply NoDup_remove_2 in ND.
  assert (N1 : ~ In i l1) by (intros X; apply ND, in_or_app; now left).
  assert (N2 : ~ In i l2) by (intros X; apply ND, in_or_app; now right).
  unfold sg_compose. rewrite py_index_app by assumption. cbn [bind]. rewrite map_app. cbn [map].
  set (f := fun x => if i <? x then x + (zlen b - 1) else x).
  replace (zlen l1) with (zlen (map f l1)) by now rewrite zlen_map.
  rewrite slice_to_app, slice_from_app_S. rewrite flat_map_app. cbn [flat_map].
  rewrite !graft_notin by assumption. unfold graft. rewrite Z.eqb_refl. reflexivity.
Qed.
Definition gcomp (a b : list Z) (i : Z) : list Z := flat_map (graft b i) a.
Lemma sg_compose_perm n a b i : perm n a -> 1 <= i <= n -> sg_compose a b i = Ok (gcomp a b i).
Proof. intros Ha Hi. apply sg_compose_ok; [eapply perm_nodup; eauto|]. now apply (perm_in n a). Qed.
Lemma perm_gcomp r s a b i : 0 <= s -> perm r a -> perm s b -> 1 <= i <= r -> perm (r + s - 1) (gcomp a b i).
Proof.
  intros Hs Ha Hb Hi. unfold gcomp, perm. rewrite (Permutation_flat_map _ Ha).
  rewrite (zrange_split 1 (r + 1) i) by lia. rewrite flat_map_app. cbn [flat_map].
  rewrite !graft_notin by (rewrite in_zrange; lia). unfold graft. rewrite Z.eqb_refl. rewrite (perm_len s b Hs Hb).
  rewrite (zrange_app 1 i (r + s - 1 + 1)), (zrange_app i (i + s) (r + s - 1 + 1)) by lia.
  apply Permutation_app; [|apply Permutation_app].
  - rewrite (map_ext_in _ (fun x => x)); [now rewrite map_id|]. intros x Hx. apply in_zrange in Hx. destruct (Z.ltb_spec i x); lia.
  - unfold perm in Hb. rewrite (Permutation_map _ Hb). replace (zrange i (i + s)) with (zrange (1 + (i - 1)) (s + 1 + (i - 1))) by (f_equal; lia).
    rewrite zrange_shift. apply Permutation_refl'. apply map_ext. intros; lia.
  - rewrite (map_ext_in _ (fun x => x + (s - 1))).
    + replace (zrange (i + s) (r + s - 1 + 1)) with (zrange (i + 1 + (s - 1)) (r + 1 + (s - 1))) by (f_equal; lia).
      now rewrite (zrange_shift (i + 1) (r + 1) (s - 1)).
    + intros x Hx. apply in_zrange in Hx. destruct (Z.ltb_spec i x); lia.
Qed.
Lemma flat_map_flat_map {A B C} (f : B -> list C) (g : A -> list B) l :
  flat_map f (flat_map g l) = flat_map (fun x => flat_map f (g x)) l.
Proof. induction l as [|a l IH]; cbn; [reflexivity|]. now rewrite flat_map_app, IH. Qed.
Lemma flat_map_ext_in {A B} (f g : A -> list B) l : (forall x, In x l -> f x = g x) -> flat_map f l = flat_map g l.
Proof.
  induction l as [|a l IH]; intros H; cbn; [reflexivity|]. rewrite (H a) by now left. rewrite IH; [reflexivity|].
  intros; apply H; now right.
Qed.
Lemma flat_map_single {A B} (f : A -> B) l : flat_map (fun x => [f x]) l = map f l.
Proof. induction l as [|a l IH]; cbn; [reflexivity|]. now rewrite IH. Qed.
Lemma flat_map_map {A B C} (f : B -> list C) (g : A -> B) l : flat_map f (map g l) = flat_map (fun x => f (g x)) l.
Proof. induction l as [|a l IH]; cbn; [reflexivity|]. now rewrite IH. Qed.
Lemma map_flat_map {A B C} (f : B -> C) (g : A -> list B) l : map f (flat_map g l) = flat_map (fun x => map f (g x)) l.
Proof. induction l as [|a l IH]; cbn; [reflexivity|]. now rewrite map_app, IH. Qed.

Lemma gcomp_len s j b c : perm s b -> 1 <= j <= s -> zlen (gcomp b c j) = s + zlen c - 1.
Proof.
  intros Hb Hj. unfold gcomp. pose proof (perm_nodup _ _ Hb) as ND. apply (perm_in s b j Hb) in Hj as Hin.
  pose proof (perm_len s b ltac:(lia) Hb) as L.
  apply in_split in Hin. destruct Hin as (l1 & l2 & ->). apply NoDup_remove_2 in ND.
  rewrite flat_map_app. cbn [flat_map]. rewrite !graft_notin by (intros X; apply ND, in_or_app; auto).
  rewrite !zlen_app, !zlen_map in *. unfold graft. rewrite Z.eqb_refl, zlen_map. rewrite zlen_cons in L. lia.
Qed.
Lemma gcomp_seq r s a b c i j : perm r a -> perm s b -> 1 <= i <= r -> 1 <= j <= s ->
  gcomp (gcomp a b i) c (i - 1 + j) = gcomp a (gcomp b c j) i.
Proof.
  intros Ha Hb Hi Hj. unfold gcomp at 1 2 3. rewrite flat_map_flat_map. apply flat_map_ext_in. intros x Hx.
  pose proof (perm_len s b ltac:(lia) Hb) as L. pose proof (gcomp_len s j b c Hb Hj) as L2. pose proof (zlen_nonneg c).
  unfold graft at 2 3. destruct (Z.eqb_spec x i) as [->|N].
  - unfold gcomp. rewrite flat_map_map, map_flat_map. apply flat_map_ext_in. intros y Hy.
    unfold graft. destruct (Z.eqb_spec (y + i - 1) (i - 1 + j)), (Z.eqb_spec y j); try lia.
    + rewrite map_map. apply map_ext. intros; lia.
    + destruct (Z.ltb_spec (i - 1 + j) (y + i - 1)), (Z.ltb_spec j y); try lia; cbn; f_equal; lia.
  - destruct (Z.ltb_spec i x); cbn [flat_map]; rewrite app_nil_r; unfold graft.
    + destruct (Z.eqb_spec (x + zlen b - 1) (i - 1 + j)); [lia|].
      destruct (Z.ltb_spec (i - 1 + j) (x + zlen b - 1)); [|lia]. f_equal. lia.
    + destruct (Z.eqb_spec x (i - 1 + j)); [lia|]. destruct (Z.ltb_spec (i - 1 + j) x); [lia|]. reflexivity.
Qed.
Lemma gcomp_par r s t a b c i k : perm r a -> perm s b -> perm t c -> 0 <= s -> 0 <= t -> 1 <= i -> i < k <= r ->
  gcomp (gcomp a b i) c (k - 1 + s) = gcomp (gcomp a c k) b i.
Proof.
  intros Ha Hb Hc Hs Ht Hi Hk. unfold gcomp. rewrite !flat_map_flat_map. apply flat_map_ext_in. intros x Hx.
  pose proof (perm_len s b ltac:(lia) Hb) as L. pose proof (perm_len t c ltac:(lia) Hc) as L2. 
  unfold graft at 2 4. destruct (Z.eqb_spec x i) as [->|N].
  - destruct (Z.eqb_spec i k); [lia|]. destruct (Z.ltb_spec k i); [lia|]. cbn [flat_map]. rewrite app_nil_r.
    unfold graft at 2. rewrite Z.eqb_refl. rewrite flat_map_map. rewrite <- flat_map_single. apply flat_map_ext_in. intros y Hy.
    apply (perm_in s b y Hb) in Hy. unfold graft. destruct (Z.eqb_spec (y + i - 1) (k - 1 + s)); [lia|].
    destruct (Z.ltb_spec (k - 1 + s) (y + i - 1)); [lia|]. reflexivity.
  - destruct (Z.eqb_spec x k) as [->|N2].
    + destruct (Z.ltb_spec i k); [|lia]. cbn [flat_map]. rewrite app_nil_r. unfold graft at 1.
      destruct (Z.eqb_spec (k + zlen b - 1) (k - 1 + s)); [|lia].
      rewrite flat_map_map. rewrite <- flat_map_single. apply flat_map_ext_in. intros y Hy. apply (perm_in t c y Hc) in Hy.
      unfold graft. destruct (Z.eqb_spec (y + k - 1) i); [lia|]. destruct (Z.ltb_spec i (y + k - 1)); [|lia]. f_equal. lia.
    + destruct (Z.ltb_spec i x), (Z.ltb_spec k x); cbn [flat_map]; rewrite ?app_nil_r; unfold graft; try lia;
      repeat match goal with |- context [?a =? ?b] => destruct (Z.eqb_spec a b); try lia | |- context [?a <? ?b] => destruct (Z.ltb_spec a b); try lia end;
      try reflexivity; f_equal; lia.
Qed.
Lemma gcomp_unit_r a i : gcomp a [1] i = a.
Proof.
  unfold gcomp. rewrite <- (map_id a) at 2. rewrite <- flat_map_single. apply flat_map_ext_in. intros x _. unfold graft.
  change (zlen [1]) with 1. destruct (Z.eqb_spec x i); [subst; cbn [map]; f_equal; lia|]. destruct (i <? x); f_equal; lia.
Qed.
Lemma gcomp_unit_l b : gcomp [1] b 1 = b.
Proof. unfold gcomp. cbn. rewrite app_nil_r. rewrite <- (map_id b) at 2. apply map_ext. intros; lia. Qed.

(** #C13_composition# [a.compose(b, i)] is the substitution of [b] for the
    entry [i] of [a]; it is a permutation of arity r+s-1. *)
Lemma C13_composition_l (r s : Z) (a b : list Z) (i : Z) :
  1 <= r -> 1 <= s -> perm r a -> perm s b -> 1 <= i <= r ->
  sg_compose a b i = Ok (flat_map (graft b i) a) /\ perm (r + s - 1) (flat_map (graft b i) a).
Proof.
  intros Hr Hs Ha Hb Hi. split; [now apply (sg_compose_perm r)|]. apply perm_gcomp; auto; lia.
Qed.
(** #C13_sequential# *)
Lemma C13_sequential_l (r s t : Z) (a b c : list Z) (i j : Z) :
  1 <= r -> 1 <= s -> 1 <= t -> perm r a -> perm s b -> perm t c -> 1 <= i <= r -> 1 <= j <= s ->
  exists d, (let! ab := sg_compose a b i in sg_compose ab c (i - 1 + j)) = Ok d /\
            (let! bc := sg_compose b c j in sg_compose a bc i) = Ok d.
Proof.
  intros Hr Hs Ht Ha Hb Hc Hi Hj. exists (gcomp (gcomp a b i) c (i - 1 + j)).
  rewrite (sg_compose_perm r a b i), (sg_compose_perm s b c j) by auto. cbn [bind]. split.
  - apply (sg_compose_perm (r + s - 1)); [apply perm_gcomp; auto; lia|lia].
  - rewrite (sg_compose_perm r) by auto. f_equal. symmetry. now apply (gcomp_seq r s).
Qed.
(** #C13_parallel# *)
Lemma C13_parallel_l (r s t : Z) (a b c : list Z) (i k : Z) :
  1 <= r -> 1 <= s -> 1 <= t -> perm r a -> perm s b -> perm t c -> 1 <= i < k -> k <= r ->
  exists d, (let! ab := sg_compose a b i in sg_compose ab c (k - 1 + s)) = Ok d /\
            (let! ac := sg_compose a c k in sg_compose ac b i) = Ok d.
Proof.
  intros Hr Hs Ht Ha Hb Hc Hi Hk. exists (gcomp (gcomp a b i) c (k - 1 + s)).
  rewrite (sg_compose_perm r a b i), (sg_compose_perm r a c k) by (auto; lia). cbn [bind]. split.
  - apply (sg_compose_perm (r + s - 1)); [apply perm_gcomp; auto; lia|lia].
  - rewrite (sg_compose_perm (r + t - 1)); [|apply perm_gcomp; auto; lia|lia]. f_equal. symmetry. apply (gcomp_par r s t); auto; lia.
Qed.
(** #C13_unit# The permutation (1) is the unit of the operad. *)
Lemma C13_unit_l (r : Z) (a : list Z) (i : Z) :
  1 <= r -> perm r a -> 1 <= i <= r -> sg_compose a [1] i = Ok a /\ sg_compose [1] a 1 = Ok a.
Proof.
  intros Hr Ha Hi. rewrite (sg_compose_perm r) by auto. rewrite gcomp_unit_r. split; [reflexivity|].
  rewrite (sg_compose_perm 1) by (exact (perm_id 1) || lia). now rewrite gcomp_unit_l.
Qed.
(** #C13_position_rejected# *)
Lemma C13_position_rejected_l (r : Z) (a b : list Z) (i : Z) :
  perm r a -> ~ (1 <= i <= r) -> sg_compose a b i = Err ValueError.
Proof.
  intros Ha Hi. unfold sg_compose. rewrite py_index_notin; [reflexivity|]. intros X. apply Hi. now apply (perm_in r a).
Qed.
(** #C13_example# *)
Example C13_example_l : sg_compose [1; 3; 2] [2; 1] 2 = Ok [1; 4; 3; 2] /\ sg_compose [1; 3; 2] [2; 1] 4 = Err ValueError.
Proof. repeat split. Qed.

(** ** Enumerations *)
Lemma selects_in {A} (l : list A) a r : In (a, r) (selects l) -> Permutation (a :: r) l.
Proof.
  revert a r. induction l as [|b l IH]; intros a r; cbn; [tauto|]. intros [[= <- <-]|Hin]; [reflexivity|].
  apply in_map_iff in Hin. destruct Hin as ([a' r'] & [= <- <-] & Hin). apply IH in Hin. cbn.
  rewrite perm_swap. now apply perm_skip.
Qed.
Lemma selects_ex {A} (l : list A) a : In a l -> exists r, In (a, r) (selects l).
Proof.
  induction l as [|b l IH]; [intros []|]. intros [<-|Hin]; cbn; [eauto|]. destruct (IH Hin) as [r Hr].
  exists (b :: r). right. apply in_map_iff. exists (a, r). auto.
Qed.
Lemma selects_fst {A} (l : list A) : map fst (selects l) = l.
Proof. induction l as [|b l IH]; cbn; [reflexivity|]. rewrite map_map. cbn. f_equal. exact IH. Qed.
Lemma perms_fuel_in {A} n : forall (l p : list A), length l = n -> (In p (perms_fuel n l) <-> Permutation p l).
Proof.
  induction n as [|n IH]; intros l p HL; cbn.
  - destruct l; [|discriminate]. split; [intros [<-|[]]; reflexivity|]. intros HP. apply Permutation_sym, Permutation_nil in HP. auto.
  - rewrite in_flat_map. split.
    + intros ([a r] & Hin & Hp). apply selects_in in Hin. cbn in Hp. apply in_map_iff in Hp. destruct Hp as (q & <- & Hq).
      apply IH in Hq; [|apply Permutation_length in Hin; cbn in Hin; lia]. now rewrite Hq.
    + intros HP. destruct p as [|a q]; [apply Permutation_length in HP; cbn in HP; lia|].
      destruct (selects_ex l a) as [r Hr]; [apply (Permutation_in a HP); now left|].
      exists (a, r). split; [exact Hr|]. cbn. apply in_map_iff. exists q. split; [reflexivity|].
      apply selects_in in Hr. apply IH; [apply Permutation_length in Hr; cbn in Hr; lia|].
      apply Permutation_cons_inv with a. now rewrite HP, Hr.
Qed.
Lemma NoDup_flat_map_disj {A B} (f : A -> list B) l : NoDup l -> (forall x, In x l -> NoDup (f x)) ->
  (forall x y b, In x l -> In y l -> In b (f x) -> In b (f y) -> x = y) -> NoDup (flat_map f l).
Proof.
  induction l as [|x l IH]; intros ND H1 H2; cbn; [constructor|]. inversion ND as [|? ? Hn ND']; subst.
  assert (NDl : NoDup (flat_map f l)).
  { apply IH; auto; [intros; apply H1; now right|]. intros a b e Ha Hb. apply H2; now right. }
  assert (G : forall m, NoDup m -> (forall b, In b m -> In b (f x)) -> NoDup (m ++ flat_map f l)).
  { induction m as [|b m IHm]; intros NDm Hm; cbn; [exact NDl|]. inversion NDm; subst. constructor.
    - rewrite in_app_iff. intros [X|X]; [contradiction|]. apply in_flat_map in X. destruct X as (y & Hy & Hb).
      apply Hn. replace x with y; [exact Hy|]. symmetry. apply (H2 x y b); [now left|now right|apply Hm; now left|exact Hb].
    - apply IHm; auto. intros; apply Hm; now right. }
  apply G; [apply H1; now left|auto].
Qed.
Lemma NoDup_map_inj {A B} (f : A -> B) l : (forall x y, In x l -> In y l -> f x = f y -> x = y) -> NoDup l -> NoDup (map f l).
Proof.
  induction l as [|x l IH]; intros H ND; cbn; [constructor|]. inversion ND; subst. constructor.
  - intros X. apply in_map_iff in X. destruct X as (y & E & Hy). apply H in E; [subst; contradiction|now right|now left].
  - apply IH; auto. intros; apply H; auto; now right.
Qed.
Lemma perms_fuel_nodup {A} n : forall (l : list A), length l = n -> NoDup l -> NoDup (perms_fuel n l).
Proof.
  induction n as [|n IH]; intros l HL ND; cbn; [constructor; [intros []|constructor]|].
  assert (NDs : NoDup (selects l)) by (apply (NoDup_map_inv fst); now rewrite selects_fst).
  apply NoDup_flat_map_disj; auto.
  - intros [a r] Hin. apply selects_in in Hin. cbn. apply NoDup_map_inj; [intros; congruence|].
    apply IH; [apply Permutation_length in Hin; cbn in Hin; lia|]. apply (Permutation_NoDup (Permutation_sym Hin)) in ND.
    now inversion ND.
  - intros [a r] [a' r'] b H1 H2 X1 X2. apply in_map_iff in X1, X2. destruct X1 as (q & <- & _), X2 as (q' & [= <- <-] & _).
    assert (Huniq : forall (s : list (A * list A)), NoDup (map fst s) -> forall a r r', In (a, r) s -> In (a, r') s -> r = r').
    { clear. induction s as [|[a0 r0] s IH]; intros ND a r r'; cbn; [tauto|]. cbn in ND. inversion ND; subst.
      intros [[= <- <-]|X] [[= <-]|Y]; auto.
      - exfalso. apply H1. now apply (in_map fst) in Y.
      - subst. exfalso. apply H1. now apply (in_map fst) in X.
      - eapply IH; eauto. }
    f_equal. eapply (Huniq (selects l)); eauto. now rewrite selects_fst.
Qed.

(** #C14_all_permutations# [SymmetricGroup.all(n)] lists each permutation of
    (1..n) exactly once. *)
Lemma C14_all_permutations_l (n : Z) :
  NoDup (sg_all n) /\ forall p, In p (sg_all n) <-> perm n p.
Proof.
  unfold sg_all, permutations. split; [apply perms_fuel_nodup; auto; apply NoDup_zrange|].
  intros p. now apply perms_fuel_in.
Qed.
Lemma forallb_sorted l : forallb (fun xy => fst xy <? snd xy) (pairwise l) = true <-> Sorted Z.lt l.
Proof.
  induction l as [|a l IH]; [split; [constructor|reflexivity]|]. destruct l as [|b l].
  - split; [repeat constructor|reflexivity].
  - rewrite pairwise_cons. cbn [forallb fst snd]. rewrite andb_true_iff, IH, Z.ltb_lt. split.
    + intros [H1 H2]. constructor; [exact H2|]. now constructor.
    + intros H. inversion H as [|? ? H1 H2]; subst. inversion H2; subst. auto.
Qed.
(** #C14_shuffles# [shuffles(i, j)] lists exactly once each permutation of
    (1..i+j) that increases on its first [i] and on its last [j] entries. *)
Lemma C14_shuffles_l (i j : Z) : 0 <= i -> 0 <= j ->
  NoDup (sg_shuffles i j) /\
  forall p, In p (sg_shuffles i j) <->
    perm (i + j) p /\ Sorted Z.lt (firstn (Z.to_nat i) p) /\ Sorted Z.lt (skipn (Z.to_nat i) p).
Proof.
  intros Hi Hj. unfold sg_shuffles. split.
  - apply NoDup_filter. apply (C14_all_permutations_l (i + j)).
  - intros p. rewrite filter_In, andb_true_iff, !forallb_sorted. rewrite slice_to_firstn, slice_from_skipn by assumption.
    rewrite (proj2 (C14_all_permutations_l (i + j)) p). tauto.
Qed.
(** #C14_example# *)
Example C14_example_l : sg_shuffles 1 2 = [[1; 2; 3]; [2; 1; 3]; [3; 1; 2]] /\ length (sg_all 4) = 24%nat.
Proof. repeat split. Qed.
