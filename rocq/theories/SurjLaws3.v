(** * Property theorems of the surjection operad: complexity. *)
From Coq Require Import Setoid Morphisms.
From Verif Require Import PyBase Dict FreeModule Symmetric Simplicial Utils Surjection BarrattEccles Eqm Spec SpecChain SpecOperad SpecSurj FreeModuleFacts FreeModuleLaws ListFacts
  ClassFacts LinearFacts SymmetricFacts CycleFacts SymmetricLaws RingFacts RingLaws Tensor TensorAct KoszulFacts LoopFacts ActGeneric SimplicialLaws BEFacts BEOrbit BELaws BELaws2
  SurjFacts SurjBoundary SurjLaws SurjAct SurjOrbit SurjLaws2.

Lemma gives_keys {K A} `{KO : KeyOk K} (c : pycls K) (r : res (elt K A)) t a l z k v : gives c r t a l -> r = Ok z -> In (k, v) (data z) ->
  exists k' s, In (k', s) l /\ keqb k' k = true.
Proof.
  intros (z' & E & (T0 & D & C) & Ht & _ & R) Ez Hin. assert (z' = z) as -> by congruence.
  destruct (C k v Hin) as [[Nv Cv] Hb]. specialize (R k Hb). rewrite (dget_in _ _ _ D Hin) in R.
  destruct (existsb (fun p => keqb (fst p) k) l) eqn:Ex.
  - apply existsb_exists in Ex. destruct Ex as ([k' s] & Hl & Hk). now exists k', s.
  - exfalso. assert (coef l k = 0) as E0.
    { apply (sumf_0 (fun p => if keqb (fst p) k then snd p else 0)). intros p Hp. destruct (keqb (fst p) k) eqn:Ek; [|reflexivity]. exfalso.
      assert (existsb (fun p => keqb (fst p) k) l = true) by (apply existsb_exists; now exists p). congruence. }
    rewrite E0, Z.sub_0_r in R. destruct R as [q R]. destruct (Z.eq_dec (torsion z) 0) as [Hz|Hz]; [rewrite Hz, Z.mul_0_r in R; congruence|].
    specialize (Cv ltac:(lia)). rewrite R in Cv. destruct (Z_le_gt_dec q 0); nia.
Qed.
Lemma changes_cons2 a b l : changes (a :: b :: l) = (if a =? b then 0 else 1) + changes (b :: l). Proof. reflexivity. Qed.
Lemma changes_tl a l : 0 <= changes l <= changes (a :: l).
Proof.
  revert a. induction l as [|b l IH]; intros a; [cbn; lia|]. specialize (IH b). rewrite (changes_cons2 a b l). destruct (a =? b); lia.
Qed.
Lemma changes_hd a b l : changes (a :: l) <= (if a =? b then 0 else 1) + changes (b :: l).
Proof.
  destruct l as [|c l]; [cbn; destruct (a =? b); lia|]. rewrite !changes_cons2. destruct (Z.eqb_spec a c), (Z.eqb_spec b c), (Z.eqb_spec a b); lia.
Qed.
Lemma changes_del u : forall a v, changes (u ++ v) <= changes (u ++ a :: v).
Proof.
  induction u as [|b u IH]; intros a v; [apply changes_tl|]. destruct u as [|c u].
  - cbn [app]. rewrite changes_cons2. apply changes_hd.
  - specialize (IH a v). cbn [app] in *. rewrite !changes_cons2. lia.
Qed.
Lemma changes_len l : l <> [] -> changes l <= zlen l - 1.
Proof.
  induction l as [|a l IH]; [congruence|]. intros _. destruct l as [|b l]; [cbn; unfold zlen; cbn; lia|]. rewrite changes_cons2, zlen_cons. specialize (IH ltac:(discriminate)). destruct (a =? b); lia.
Qed.
Lemma changes_map (f : Z -> Z) l : (forall a b, In a l -> In b l -> f a = f b -> a = b) -> changes (map f l) = changes l.
Proof.
  induction l as [|a l IH]; intros Hf; [reflexivity|]. destruct l as [|b l]; [reflexivity|]. cbn [map]. rewrite !changes_cons2. cbn [map] in IH. rewrite IH by (intros; apply Hf; cbn [In] in *; tauto).
  destruct (Z.eqb_spec (f a) (f b)) as [E|E], (Z.eqb_spec a b) as [E'|E']; try reflexivity; [apply Hf in E; cbn [In]; auto; contradiction|congruence].
Qed.
Lemma changes_const a l : (forall b, In b l -> b = a) -> changes l = 0.
Proof.
  induction l as [|b l IH]; intros Hl; [reflexivity|]. destruct l as [|c l]; [reflexivity|]. rewrite changes_cons2, IH by (intros; apply Hl; now right).
  rewrite (Hl b), (Hl c) by (cbn [In]; auto). now rewrite Z.eqb_refl.
Qed.
Lemma alternations_switches i j k : alternations i j k = switches i j k.
Proof.
  unfold alternations, switches. generalize (filter (fun x => (x =? i) || (x =? j)) k) as l. clear. induction l as [|a l IH]; [reflexivity|]. destruct l as [|b l]; [reflexivity|].
  rewrite pairwise_cons, changes_cons2, <- IH. cbn [filter fst snd]. destruct (a =? b); cbn [negb]; [lia|]. rewrite zlen_cons. lia.
Qed.
Lemma switches_del i j u a v : switches i j (u ++ v) <= switches i j (u ++ a :: v).
Proof. unfold switches. rewrite !filter_app. cbn [filter]. destruct ((a =? i) || (a =? j)); [apply changes_del|lia]. Qed.
Lemma switches_nonneg i j k : 0 <= switches i j k.
Proof. unfold switches. generalize (filter (fun a => (a =? i) || (a =? j)) k). intros [|a l]; [reflexivity|]. pose proof (changes_tl a l). lia. Qed.
Lemma switches_sym i j k : switches i j k = switches j i k.
Proof. unfold switches. f_equal. apply filter_ext. intros a. apply orb_comm. Qed.
Lemma filter_map_image n p i j k : perm n p -> 1 <= i <= n -> 1 <= j <= n -> (forall a, In a k -> 1 <= a <= n) ->
  filter (fun a => (a =? image p i) || (a =? image p j)) (map (image p) k) = map (image p) (filter (fun a => (a =? i) || (a =? j)) k).
Proof.
  intros Hp Hi Hj. induction k as [|a k IH]; intros Hk; [reflexivity|]. cbn [map filter]. rewrite IH by (intros; apply Hk; now right). pose proof (Hk a (or_introl eq_refl)) as Ha.
  assert (E : forall c, 1 <= c <= n -> (image p a =? image p c) = (a =? c)).
  { intros c Hc. destruct (Z.eqb_spec (image p a) (image p c)) as [E|E], (Z.eqb_spec a c) as [E'|E']; try reflexivity; [exfalso; apply E'; now apply (image_inj n p)|congruence]. }
  rewrite !E by assumption. destruct ((a =? i) || (a =? j)); reflexivity.
Qed.
Lemma switches_move n p i j k : perm n p -> 1 <= i <= n -> 1 <= j <= n -> onto n k -> switches (image p i) (image p j) (map (image p) k) = switches i j k.
Proof.
  intros Hp Hi Hj Hk. unfold switches. rewrite (filter_map_image n) by (auto; intros a Ha; now apply Hk). apply changes_map. intros a b Ha Hb.
  apply filter_In in Ha, Hb. apply (image_inj n p); auto; now apply Hk.
Qed.
Lemma switches_out i j k : (forall b, In b k -> b = i \/ b = j -> b = i) \/ (forall b, In b k -> b = i \/ b = j -> b = j) -> switches i j k = 0.
Proof.
  intros [Hk|Hk]; unfold switches; [apply (changes_const i)|apply (changes_const j)]; intros b Hb; apply filter_In in Hb; destruct Hb as [Hb E]; apply Hk; auto;
    apply orb_true_iff in E; destruct E as [E|E]; apply Z.eqb_eq in E; auto.
Qed.
Lemma nested_max (ks : list (list Z)) : (forall k, In k ks -> exists r, 1 <= r /\ onto r k) -> forall c, 0 <= c ->
  exists m, for_ ks c (fun complexity k => let! m := py_max k in for_ (pairs_upto m) complexity (fun complexity '(i, j) => Ok (Z.max (alternations i j k) complexity))) = Ok m /\
    c <= m /\ (forall k i j, In k ks -> switches i j k <= m) /\
    (m = c \/ exists k i j, In k ks /\ 1 <= i < j /\ In i k /\ In j k /\ switches i j k = m).
Proof.
  induction ks as [|k ks IH]; intros Hks c Hc; cbn [for_ bind].
  - exists c. repeat split; auto; [lia|intros ? ? ? []].
  - destruct (Hks k (or_introl eq_refl)) as (r & Hr & Ho). rewrite (onto_max r) by assumption. cbn [bind].
    destruct (max_loop (pairs_upto r) (fun '(i, j) => switches i j k) c) as (m1 & E1 & H1 & H2 & H3).
    rewrite (for_ext _ _ (fun c '(i, j) => Ok (Z.max (switches i j k) c))) by (intros ? [? ?] _; now rewrite alternations_switches).
    rewrite (for_ext _ _ (fun c a => Ok (Z.max ((fun '(i, j) => switches i j k) a) c))) by (now intros ? [? ?] _).
    rewrite E1. cbn [bind]. destruct (IH ltac:(intros; apply Hks; now right) m1 ltac:(lia)) as (m & E & G1 & G2 & G3).
    exists m. split; [exact E|]. split; [lia|]. split.
    + intros k' i j [<-|Hk']; [|auto]. apply Z.le_trans with m1; [|exact G1].
      assert (P : forall i j, 1 <= i < j -> j <= r -> switches i j k <= m1). { intros i' j' Hi Hj. apply (H2 (i', j')). rewrite in_pairs_upto. lia. }
      destruct (in_dec Z.eq_dec i k) as [Hi|Hi]; [|rewrite switches_out; [lia|right; intros b Hb [-> | ->]; [contradiction|reflexivity]]].
      destruct (in_dec Z.eq_dec j k) as [Hj|Hj]; [|rewrite switches_out; [lia|left; intros b Hb [-> | ->]; [reflexivity|contradiction]]].
      apply Ho in Hi, Hj. destruct (Z.lt_trichotomy i j) as [L|[->|L]]; [apply P; lia| |rewrite switches_sym; apply P; lia].
      rewrite switches_out; [lia|left; intros; tauto].
    + destruct G3 as [->|(k' & i & j & Hk' & G3)]; [|right; exists k', i, j; split; [now right|exact G3]].
      destruct H3 as [H3|([i j] & Hij & H3)]; [now left|right]. exists k, i, j. split; [now left|]. apply in_pairs_upto in Hij. repeat split; try lia; apply Ho; lia.
Qed.
Lemma wf_keys_onto (x : surj) : wf cls_surj x -> forall k, In k (dkeys (data x)) -> exists r, 1 <= r /\ onto r k.
Proof.
  intros Wx k Hk. unfold dkeys in Hk. apply in_map_iff in Hk. destruct Hk as ([k' v] & <- & Hin). destruct (wf_onto x _ v Wx Hin) as (r & Hr & Ho & _). now exists r.
Qed.
Lemma in_dkeys {K} (d : dict K) k : In k (dkeys d) <-> exists v, In (k, v) d.
Proof. unfold dkeys. rewrite in_map_iff. split; [intros ([k' v] & <- & H); now exists v|intros (v & H); now exists (k, v)]. Qed.
(** #C54_complexity_value# The complexity is the maximum, over the basis
    elements and the pairs of values [i], [j], of the number of switches
    between [i] and [j]; it is 0 if there are none. *)
Lemma C54_complexity_value_l (x : surj) : wf cls_surj x ->
  exists c, surj_complexity x = Ok c /\
    (forall k v i j, In (k, v) (data x) -> switches i j k <= c) /\
    (c = 0 \/ exists k v i j, In (k, v) (data x) /\ 1 <= i < j /\ In i k /\ In j k /\ switches i j k = c).
Proof.
  intros Wx. destruct (nested_max (dkeys (data x)) (wf_keys_onto x Wx) 0 ltac:(lia)) as (c & E & H0 & H1 & H2). exists c. split; [exact E|]. split.
  - intros k v i j Hin. apply H1. apply in_dkeys. now exists v.
  - destruct H2 as [H2|(k & i & j & Hk & H2)]; [now left|right]. apply in_dkeys in Hk. destruct Hk as [v Hk]. now exists k, v, i, j.
Qed.
Lemma complexity_le (x y : surj) : wf cls_surj x -> wf cls_surj y ->
  (forall k v i j, In (k, v) (data y) -> 1 <= i < j -> In i k -> In j k -> exists k' v' i' j', In (k', v') (data x) /\ switches i j k <= switches i' j' k') ->
  exists c c', surj_complexity x = Ok c /\ surj_complexity y = Ok c' /\ c' <= c.
Proof.
  intros Wx Wy H. destruct (nested_max (dkeys (data x)) (wf_keys_onto x Wx) 0 ltac:(lia)) as (c & E & H0 & H1 & H2).
  destruct (C54_complexity_value_l y Wy) as (c' & E' & H1' & H2'). exists c, c'. split; [exact E|]. split; [exact E'|].
  destruct H2' as [->|(k & v & i & j & Hin & Hij & Hi & Hj & <-)]; [lia|]. destruct (H k v i j Hin Hij Hi Hj) as (k' & v' & i' & j' & Hin' & Hle).
  apply Z.le_trans with (1 := Hle). apply H1. apply in_dkeys. now exists v'.
Qed.
(** #C54_boundary# The boundary does not increase the complexity. *)
Lemma C54_boundary_l (dt : Z) (x : surj) : wf cls_surj x -> dt_ok dt (torsion x) ->
  attr x = BF \/ attr x = MS \/ torsion x = 2 ->
  exists y c c', surj_boundary dt x = Ok y /\ surj_complexity x = Ok c /\ surj_complexity y = Ok c' /\ c' <= c.
Proof.
  intros Wx Hdt HK.
  assert (G : exists cv, gives cls_surj (surj_boundary dt x) (torsion x) (attr x) (extend (surj_faces cv) x)).
  { destruct HK as [E|[E|E]]; [exists BF|exists MS|exists BF]; apply C45_boundary_formula_l; auto. }
  destruct G as [cv G]. pose proof G as (y & E & Wy & _). exists y.
  destruct (complexity_le x y Wx Wy) as (c & c' & Ec & Ec' & Hle); [|now exists c, c'].
  intros k v i j Hin _ _ _. destruct (gives_keys _ _ _ _ _ _ _ _ G E Hin) as (k' & s & Hl & Hk). apply keqb_eq in Hk. subst k'.
  unfold extend in Hl. apply in_flat_map in Hl. destruct Hl as ([k0 v0] & Hin0 & Hl). apply in_map_iff in Hl. destruct Hl as ([k1 s1] & [= <- _] & Hf).
  cbn [fst] in Hf. unfold surj_faces in Hf. apply in_flat_map in Hf. destruct Hf as ([[l1 a] l2] & Hc & Hf). destruct (mem a (l1 ++ l2)); [|destruct Hf]. destruct Hf as [[= <- _]|[]].
  exists k0, v0, i, j. split; [exact Hin0|]. rewrite cuts_splits in Hc. apply splits_in in Hc. subst k0. apply switches_del.
Qed.
(** #C54_action# The symmetric action does not increase the complexity (so
    it preserves it under single permutations). *)
Lemma C54_action_l (dt n : Z) (a : ring) (x : surj) :
  1 <= n -> wf cls_ring a -> wf cls_surj x -> torsion a = torsion x -> dt_ok dt (torsion x) -> attr x = BF \/ attr x = MS ->
  keys_in (fun k => perm n (kval k)) a -> keys_in (onto n) x -> ~ is_zero a -> ~ is_zero x ->
  exists y c c', surj_act dt a x = Ok y /\ surj_complexity x = Ok c /\ surj_complexity y = Ok c' /\ c' <= c.
Proof.
  intros Hn Wa Wx Ta Hdt Hcv Ka Kx Na Nx. pose proof (C46_action_formula_l dt n a x Hn Wa Wx Ta Hdt Hcv Ka Kx Na Nx) as G.
  pose proof G as (y & E & Wy & _). exists y. destruct (complexity_le x y Wx Wy) as (c & c' & Ec & Ec' & Hle); [|now exists c, c'].
  intros k v i j Hin _ Hi Hj. destruct (gives_keys _ _ _ _ _ _ _ _ G E Hin) as (k' & s & Hl & Hk). apply keqb_eq in Hk. subst k'.
  unfold extend2 in Hl. apply in_flat_map in Hl. destruct Hl as ([p v0] & Hin0 & Hl). apply in_flat_map in Hl. destruct Hl as ([k0 v1] & Hin1 & Hl).
  apply in_map_iff in Hl. destruct Hl as ([k1 s1] & [= <- _] & Hf). destruct Hf as [[= <- _]|[]]. cbn [fst] in *.
  pose proof (Ka _ _ Hin0) as Hp. pose proof (Kx _ _ Hin1) as Ho. cbn beta in Hp. apply in_map_iff in Hi, Hj. destruct Hi as (i' & <- & Hi), Hj as (j' & <- & Hj).
  exists k0, v1, i', j'. split; [exact Hin1|]. apply Ho in Hi, Hj. rewrite (switches_move n) by assumption. lia.
Qed.
Lemma zlen_sum_times r k : 0 <= r -> onto r k -> zlen k = sumf (fun j => times_in j k) (zrange 1 (r + 1)).
Proof.
  intros Hr Ho. pose proof (sumf_count (fun _ => 1) k r (fun a Ha => proj1 (Ho a) Ha)) as E.
  assert (L : sumf (fun _ : Z => 1) k = zlen k). { clear. induction k as [|a k IH]; [reflexivity|]. rewrite sumf_cons, zlen_cons, IH. lia. }
  rewrite <- L, E. apply sumf_ext. intros; lia.
Qed.
Lemma zlen_filter2 i j k : i <> j -> zlen (filter (fun a => (a =? i) || (a =? j)) k) = times_in i k + times_in j k.
Proof.
  intros N. induction k as [|a k IH]; [reflexivity|]. cbn [filter times_in]. destruct (Z.eqb_spec a i), (Z.eqb_spec a j); cbn [orb]; rewrite ?zlen_cons; lia.
Qed.
Lemma sum_ge (f : Z -> Z) l : NoDup l -> (forall a, In a l -> 1 <= f a) -> forall i j, In i l -> In j l -> i <> j -> f i + f j + zlen l - 2 <= sumf f l.
Proof.
  intros ND Hf i j Hi Hj Nij. apply in_split in Hi. destruct Hi as (l1 & l2 & ->). pose proof (Permutation_middle l1 l2 i) as PM.
  rewrite <- (sumf_perm f _ _ PM). assert (Hj' : In j (l1 ++ l2)). { rewrite in_app_iff in *. cbn [In] in Hj. destruct Hj as [?|[?|?]]; auto; contradiction. }
  assert (Z1 : zlen (l1 ++ i :: l2) = zlen (l1 ++ l2) + 1) by (rewrite !zlen_app, zlen_cons; lia). rewrite Z1, sumf_cons.
  assert (G : forall l', In j l' -> (forall a, In a l' -> In a (l1 ++ l2)) -> f j + zlen l' - 1 <= sumf f l').
  { clear - Hf. assert (B : forall l', (forall a, In a l' -> In a (l1 ++ l2)) -> zlen l' <= sumf f l').
    { induction l' as [|a l' IH]; intros Hl; [reflexivity|]. rewrite zlen_cons, sumf_cons. assert (1 <= f a). { apply Hf. specialize (Hl a (or_introl eq_refl)). rewrite in_app_iff in *. cbn [In]. tauto. }
      specialize (IH (fun b Hb => Hl b (or_intror Hb))). lia. }
    induction l' as [|a l' IH]; intros Hj Hl; [destruct Hj|]. rewrite zlen_cons, sumf_cons. destruct Hj as [->|Hj].
    - specialize (B l' (fun b Hb => Hl b (or_intror Hb))). lia.
    - specialize (IH Hj (fun b Hb => Hl b (or_intror Hb))). assert (1 <= f a). { apply Hf. specialize (Hl a (or_introl eq_refl)). rewrite in_app_iff in *. cbn [In]. tauto. } lia. }
  specialize (G (l1 ++ l2) Hj' (fun a H => H)). lia.
Qed.
Lemma switches_bound r d i j k : 1 <= r -> surj_cell r d k -> i <> j -> In i k -> In j k -> switches i j k <= d + 1.
Proof.
  intros Hr [Ho L] N Hi Hj. unfold switches. assert (Ne : filter (fun a => (a =? i) || (a =? j)) k <> []).
  { intros E. assert (In i []) as []. rewrite <- E. apply filter_In. split; [exact Hi|]. now rewrite Z.eqb_refl. }
  pose proof (changes_len _ Ne) as C. rewrite zlen_filter2 in C by exact N.
  pose proof (sum_ge (fun a => times_in a k) (zrange 1 (r + 1)) (NoDup_zrange _ _)) as S. rewrite <- zlen_sum_times in S by (auto; lia).
  rewrite zlen_zrange in S by lia. specialize (S ltac:(intros a Ha; apply times_in_pos, Ho; apply in_zrange in Ha; lia) i j).
  apply Ho in Hi, Hj. specialize (S ltac:(apply in_zrange; lia) ltac:(apply in_zrange; lia) N). lia.
Qed.
(** #C54_bound# The complexity of an element of degree [d] is at most [d + 1],
    and 0 in arity 1. *)
Lemma C54_bound_l (r d c : Z) (x : surj) : 1 <= r -> 0 <= d -> wf cls_surj x -> keys_in (surj_cell r d) x ->
  surj_complexity x = Ok c -> 0 <= c <= d + 1 /\ (r = 1 -> c = 0).
Proof.
  intros Hr Hd Wx Kx E. destruct (C54_complexity_value_l x Wx) as (c' & E' & _ & H). assert (c' = c) as -> by congruence.
  destruct H as [->|(k & v & i & j & Hin & Hij & Hi & Hj & <-)]; [lia|]. pose proof (Kx _ _ Hin) as Hk. split.
  - split; [apply switches_nonneg|]. apply (switches_bound r d); auto. lia.
  - intros ->. apply (proj1 Hk) in Hi, Hj. lia.
Qed.
Lemma pairs_upto_sum (f : Z -> Z -> Z) r : 0 <= r -> zsum (map (fun '(i, j) => f i j) (pairs_upto r)) =
  zsum (map (fun i => zsum (map (fun j => f i j) (zrange (i + 1) (r + 1)))) (zrange 1 (r + 1))).
Proof.
  intros Hr. unfold pairs_upto. fold (sumf (fun '(i, j) => f i j) (flat_map (fun l => match l with [i; j] => [(i, j)] | _ => [] end) (combinations 2 (zrange 1 (r + 1))))).
  fold (sumf (fun i => zsum (map (fun j => f i j) (zrange (i + 1) (r + 1)))) (zrange 1 (r + 1))).
  rewrite sumf_flat_map.
  assert (G : forall n a, (Z.to_nat (r + 1 - a) = n)%nat ->
     sumf (fun l => sumf (fun '(i, j) => f i j) (match l with [i; j] => [(i, j)] | _ => [] end)) (combinations 2 (zrange a (r + 1))) =
     sumf (fun i => zsum (map (fun j => f i j) (zrange (i + 1) (r + 1)))) (zrange a (r + 1))); [|now apply (G _ 1 eq_refl)].
  assert (C1 : forall l : list Z, combinations 1 l = map (fun b => [b]) l). { intros l. change (combinations 1 l) with ((fix go (l : list Z) : list (list Z) := match l with [] => [] | a :: l' => map (cons a) [[]] ++ go l' end) l). induction l as [|b l IH]; [reflexivity|]. cbn [map app]. now f_equal. }
  induction n as [|n IH]; intros a Ha; [rewrite zrange_nil by lia; reflexivity|]. rewrite zrange_cons by lia.
  change (combinations 2 (a :: zrange (a + 1) (r + 1))) with (map (cons a) (combinations 1 (zrange (a + 1) (r + 1))) ++ combinations 2 (zrange (a + 1) (r + 1))).
  rewrite sumf_app, (IH (a + 1)) by lia. rewrite sumf_cons. f_equal. rewrite C1, map_map, sumf_map. apply sumf_ext. intros b _. rewrite sumf_cons, sumf_nil. lia.
Qed.
(** #C54_filtration_value# The filtration is the maximum over the basis
    elements of the total number of switches; the boundary does not increase
    it. *)
Lemma C54_filtration_value_l (r : Z) (x : surj) : 1 <= r -> wf cls_surj x -> keys_in (onto r) x ->
  exists f, surj_filtration x = Ok f /\ 0 <= f /\
    (forall k v, In (k, v) (data x) -> all_switches r k <= f) /\
    (f = 0 \/ exists k v, In (k, v) (data x) /\ all_switches r k = f).
Proof.
  intros Hr Wx Kx. destruct (max_loop (dkeys (data x)) (all_switches r) 0) as (m & E & H0 & H1 & H2).
  exists m. split.
  - unfold surj_filtration. rewrite (for_ext _ _ (fun c a => Ok (Z.max (all_switches r a) c))); [exact E|].
    intros c k Hk. apply in_dkeys in Hk. destruct Hk as [v Hk]. rewrite (onto_max r) by (auto; exact (Kx _ _ Hk)). cbn [bind]. f_equal. rewrite Z.max_comm. f_equal. unfold all_switches. rewrite <- pairs_upto_sum by lia.
    f_equal. apply map_ext. intros [i j]. apply alternations_switches.
  - split; [exact H0|]. split.
    + intros k v Hin. apply H1. apply in_dkeys. now exists v.
    + destruct H2 as [->|(k & Hk & H2)]; [now left|right]. apply in_dkeys in Hk. destruct Hk as [v Hk]. now exists k, v.
Qed.
Lemma all_switches_del r u a v : all_switches r (u ++ v) <= all_switches r (u ++ a :: v).
Proof.
  unfold all_switches. assert (M : forall (f g : Z -> Z) l, (forall b, f b <= g b) -> zsum (map f l) <= zsum (map g l)).
  { intros f g l Hfg. induction l as [|b l IH]; [reflexivity|]. change (f b + zsum (map f l) <= g b + zsum (map g l)). specialize (Hfg b). lia. }
  apply M. intros i. apply M. intros j. apply switches_del.
Qed.
(** #C54_filtration_boundary# *)
Lemma C54_filtration_boundary_l (dt r : Z) (x : surj) : 1 <= r -> wf cls_surj x -> keys_in (onto r) x -> dt_ok dt (torsion x) ->
  attr x = BF \/ attr x = MS \/ torsion x = 2 ->
  exists y f f', surj_boundary dt x = Ok y /\ surj_filtration x = Ok f /\ surj_filtration y = Ok f' /\ f' <= f.
Proof.
  intros Hr Wx Kx Hdt HK.
  assert (G : exists cv, gives cls_surj (surj_boundary dt x) (torsion x) (attr x) (extend (surj_faces cv) x)).
  { destruct HK as [E|[E|E]]; [exists BF|exists MS|exists BF]; apply C45_boundary_formula_l; auto. }
  destruct G as [cv G]. pose proof G as (y & E & Wy & _). exists y.
  assert (F : forall k v, In (k, v) (data y) -> exists k0 v0 l1 a l2, In (k0, v0) (data x) /\ k0 = l1 ++ a :: l2 /\ k = l1 ++ l2 /\ mem a (l1 ++ l2) = true).
  { intros k v Hin. destruct (gives_keys _ _ _ _ _ _ _ _ G E Hin) as (k' & s & Hl & Hk). apply keqb_eq in Hk. subst k'.
    unfold extend in Hl. apply in_flat_map in Hl. destruct Hl as ([k0 v0] & Hin0 & Hl). apply in_map_iff in Hl. destruct Hl as ([k1 s1] & [= <- _] & Hf).
    cbn [fst] in Hf. unfold surj_faces in Hf. apply in_flat_map in Hf. destruct Hf as ([[l1 a] l2] & Hc & Hf). destruct (mem a (l1 ++ l2)) eqn:Em; [|destruct Hf]. destruct Hf as [[= <- _]|[]].
    rewrite cuts_splits in Hc. apply splits_in in Hc. now exists k0, v0, l1, a, l2. }
  assert (Ky : keys_in (onto r) y).
  { intros k v Hin. destruct (F k v Hin) as (k0 & v0 & l1 & a & l2 & Hin0 & -> & -> & Hm). pose proof (Kx _ _ Hin0) as Ho. intros j. rewrite <- (Ho j), !in_app_iff. cbn [In].
    apply mem_in in Hm. rewrite in_app_iff in Hm. split; [tauto|]. intros [?|[<-|?]]; tauto. }
  destruct (C54_filtration_value_l r x Hr Wx Kx) as (f & Ef & H0 & H1 & _). destruct (C54_filtration_value_l r y Hr Wy Ky) as (f' & Ef' & _ & _ & H2).
  exists f, f'. split; [exact E|]. split; [exact Ef|]. split; [exact Ef'|]. destruct H2 as [->|(k & v & Hin & <-)]; [exact H0|].
  destruct (F k v Hin) as (k0 & v0 & l1 & a & l2 & Hin0 & -> & -> & _). apply Z.le_trans with (1 := all_switches_del r l1 a l2). exact (H1 _ _ Hin0).
Qed.
(** #C54_example# *)
Example C54_example_l :
  let x := mkElt [([1; 2; 1; 3; 1; 3], 1); ([1; 2; 3; 1; 2; 3], 5)] 0 MS in
  wf cls_surj x /\ keys_in (surj_cell 3 3) x /\ surj_complexity x = Ok 3 /\ surj_filtration x = Ok 9 /\
  switches 1 3 [1; 2; 1; 3; 1; 3] = 3 /\ all_switches 3 [1; 2; 3; 1; 2; 3] = 9 /\ all_switches 3 [1; 2; 1; 3; 1; 3] = 6.
Proof.
  cbn zeta. split; [apply wfb_wf; reflexivity|]. split; [|repeat split; reflexivity].
  intros k v [[= <- <-]|[[= <- <-]|[]]]; (split; [ontotac|reflexivity]).
Qed.
