(** * Exactness of the periodic resolution: the contraction, for any free cyclic action.  Proof library. *)
From Coq Require Import Setoid Morphisms.
From Verif Require Import PyBase Dict FreeModule Symmetric Simplicial Utils Surjection BarrattEccles Eqm Spec SpecOperad FreeModuleFacts FreeModuleLaws ListFacts
  ClassFacts LinearFacts SymmetricFacts CycleFacts SymmetricLaws RingFacts RingLaws TensorAct LoopFacts ActGeneric BEFacts BEOrbit BELaws BEDiag MayFacts CongFacts.

Lemma sumf_tel (h : Z -> Z) j : 0 <= j -> sumf (fun m => h (m + 1) - h m) (zrange 0 j) = h j - h 0.
Proof.
  intros Hj. rewrite <- (Z2Nat.id j) by lia. generalize (Z.to_nat j). clear. induction n as [|n IH]; [rewrite zrange_nil by lia; rewrite sumf_nil; cbn; ring|].
  rewrite Nat2Z.inj_succ, <- Z.add_1_r. rewrite sumf_zrange_snoc by lia. rewrite IH. ring.
Qed.
Lemma sumf_pick (h : Z -> Z) n j : 0 <= j < n -> sumf (fun m => (if m =? j then 1 else 0) * h m) (zrange 0 n) = h j.
Proof.
  intros Hj. assert (G : forall N, (Z.of_nat N <= j -> sumf (fun m => (if m =? j then 1 else 0) * h m) (zrange 0 (Z.of_nat N)) = 0) /\
    (j < Z.of_nat N -> sumf (fun m => (if m =? j then 1 else 0) * h m) (zrange 0 (Z.of_nat N)) = h j)).
  { induction N as [|N [I1 I2]]; [split; [intros _; reflexivity|lia]|]. rewrite Nat2Z.inj_succ, <- Z.add_1_r. rewrite sumf_zrange_snoc by lia.
    split; intros HN.
    - rewrite I1 by lia. destruct (Z.eqb_spec (Z.of_nat N) j); [lia|]. ring.
    - destruct (Z.eqb_spec (Z.of_nat N) j) as [E|N0]; [rewrite I1 by lia; rewrite E; ring|rewrite I2 by lia; ring]. }
  rewrite <- (Z2Nat.id n) by lia. apply G. lia.
Qed.
Lemma mod_zero_iff n i m : 0 <= i < n -> 0 <= m < n -> ((i + m) mod n =? 0) = (m =? (n - i) mod n).
Proof.
  intros Hi Hm. destruct (Z.eq_dec i 0) as [->|Ni].
  - rewrite Z.sub_0_r, Z.mod_same, Z.add_0_l, Z.mod_small by lia. reflexivity.
  - rewrite (Z.mod_small (n - i)) by lia. destruct (Z_lt_le_dec (i + m) n) as [L|G].
    + rewrite Z.mod_small by lia. destruct (Z.eqb_spec (i + m) 0), (Z.eqb_spec m (n - i)); lia.
    + replace (i + m) with (i + m - n + 1 * n) by ring. rewrite Z.mod_add, Z.mod_small by lia. destruct (Z.eqb_spec (i + m - n) 0), (Z.eqb_spec m (n - i)); lia.
Qed.

Section Per.
Context {K A : Type} `{KO : KeyOk K}.
Variable c : pycls K.
Hypothesis okc : cls_ok c.
Variable a : A.
Variables (dt n : Z).
Hypothesis Hn : 2 <= n.
Variable P : K -> Prop.
Hypothesis KP : kpred P.
Hypothesis okP : forall k, P k -> okey c k.
Variable act : ring -> elt K A -> res (elt K A).
Variable Pact : (K -> Z) -> skey -> K -> Z.
Variable t : Z.
Hypothesis Ht : 0 <= t.
Hypothesis Nt : t <> 1.
Hypothesis Hdt : dt_ok dt t.
Hypothesis bil : bilop cls_ring c c t tt a a (pk n) P Pact act.
Hypothesis rep_act : rep2 (pk n) P P Pact.
Hypothesis adm_act : adm2 cls_ring c c (pk n) P P Pact.
Hypothesis val_act : forall g k2 k2' k1, kval k2 = kval k2' -> Pact g k2 k1 = Pact g k2' k1.
(** the rotation on keys *)
Variable mv : Z -> K -> K.
Variable sg : Z -> K -> Z.
Variable iota : K -> Z.
Hypothesis act_rot : forall g m k, P k -> Pact g (SGE (rot n m)) k = sg m k * g (mv m k).
Hypothesis mv_P : forall m k, P k -> P (mv m k).
Hypothesis mv_add : forall m m' k, P k -> mv m (mv m' k) = mv (m + m') k.
Hypothesis sg_add : forall m m' k, P k -> sg m' k * sg m (mv m' k) = sg (m + m') k.
Hypothesis mv_0 : forall k, P k -> keqb (mv 0 k) k = true.
Hypothesis sg_0 : forall k, P k -> sg 0 k = 1.
Hypothesis iota_eq : forall k k', keqb k k' = true -> iota k = iota k'.
Hypothesis iota_range : forall k, P k -> 0 <= iota k < n.
Hypothesis iota_mv : forall m k, P k -> iota (mv m k) = (iota k + m) mod n.

Lemma Hn1 : 1 <= n. Proof. lia. Qed.
Definition R (m : Z) (g : K -> Z) (k : K) : Z := sg m k * g (mv m k).
Lemma R_per m g k : P k -> R (m + n) g k = R m g k.
Proof. intros Hk. unfold R. rewrite <- !act_rot by exact Hk. now rewrite rot_period by lia. Qed.
Lemma R_R m m' g k : P k -> sg m' k * R m g (mv m' k) = R (m + m') g k.
Proof. intros Hk. unfold R. rewrite mv_add by exact Hk. rewrite <- (sg_add m m') by exact Hk. ring. Qed.
Lemma R_0 g k : admP c P g -> P k -> R 0 g k = g k.
Proof. intros [Hg _] Hk. unfold R. rewrite sg_0 by exact Hk. rewrite (Hg (mv 0 k) k); [ring|now apply mv_0|now apply mv_P]. Qed.
Lemma R_adm m g : admP c P g -> admP c P (R m g).
Proof.
  intros Hg. destruct (adm_act g Hg) as [_ HA]. specialize (HA (SGE (rot n m)) (perm_rot n m Hn1) eq_refl). destruct HA as [H1 H2]. destruct KP as [_ KP2]. split.
  - intros k k' E Hk. pose proof (H1 k k' E Hk) as Q. rewrite !act_rot in Q; [exact Q|exact (KP2 _ _ E Hk)|exact Hk].
  - intros k Hk Hb. pose proof (H2 k Hk Hb) as Q. now rewrite act_rot in Q.
Qed.
Definition DH (g : K -> Z) (k : K) : Z := sumf (fun m => R m g k) (zrange 0 (n - iota k)).
Definition Dpi (j : Z) (g : K -> Z) (k : K) : Z := (if iota k =? j then 1 else 0) * g k.
Definition DN (g : K -> Z) (k : K) : Z := sumf (fun m => R m g k) (zrange 0 n).
Definition DT (g : K -> Z) (k : K) : Z := R 1 g k - R 0 g k.
Lemma rep_DH : rep P P DH.
Proof.
  intros k Hk. exists (map (fun m => (mv m k, sg m k)) (zrange 0 (n - iota k))). split.
  - intros k' v Hin. apply in_map_iff in Hin. destruct Hin as (m & [= <- <-] & _). now apply mv_P.
  - intros g. unfold ev, DH. rewrite sumf_map. apply sumf_ext. intros m _. reflexivity.
Qed.
Lemma rep_Dpi j : rep P P (Dpi j).
Proof.
  intros k Hk. exists [(k, if iota k =? j then 1 else 0)]. split; [now intros ? ? [[= <- <-]|[]]|]. intros g. rewrite ev_cons, ev_nil. unfold Dpi. ring.
Qed.
Lemma adm_Dpi j g : admP c P g -> admP c P (Dpi j g).
Proof.
  intros [H1 H2]. split.
  - intros k k' E Hk. unfold Dpi. rewrite (iota_eq k k' E). f_equal. now apply H1.
  - intros k Hk Hb. unfold Dpi. rewrite (H2 k Hk Hb). ring.
Qed.
Lemma adm_DH g : admP c P g -> admP c P (DH g).
Proof.
  intros Hg. split.
  - intros k k' E Hk. unfold DH. rewrite (iota_eq k k' E). apply sumf_ext. intros m _. now apply (proj1 (R_adm m g Hg)).
  - intros k Hk Hb. apply sumf_0. intros m _. now apply (proj2 (R_adm m g Hg)).
Qed.
(** the two identities of the contraction *)
Lemma contract_N g k : admP c P g -> P k -> g k = DN (Dpi 0 g) k - DH (DT g) k.
Proof.
  intros Hg Hk. pose proof (iota_range k Hk) as Hi. unfold DN, DH.
  rewrite (sumf_ext (fun m => R m (Dpi 0 g) k) (fun m => (if m =? (n - iota k) mod n then 1 else 0) * R m g k)).
  2:{ intros m Hm. apply in_zrange in Hm. unfold R, Dpi. rewrite iota_mv by exact Hk. rewrite mod_zero_iff by lia. ring. }
  rewrite sumf_pick by (apply Z.mod_pos_bound; lia).
  rewrite (sumf_ext (fun m => R m (DT g) k) (fun m => R (m + 1) g k - R m g k)).
  2:{ intros m _. unfold R at 1, DT. rewrite Z.mul_sub_distr_l, !R_R by exact Hk. now rewrite Z.add_0_l, (Z.add_comm 1 m). }
  rewrite (sumf_tel (fun m => R m g k)) by lia. rewrite (R_0 g k) by assumption.
  assert (E : R ((n - iota k) mod n) g k = R (n - iota k) g k).
  { destruct (Z.eq_dec (iota k) 0) as [E|N0]; [|now rewrite Z.mod_small by lia]. rewrite E, Z.sub_0_r, Z.mod_same by lia. rewrite <- (R_per 0) by exact Hk. reflexivity. }
  rewrite E. ring.
Qed.
Lemma contract_T g k : admP c P g -> P k -> g k = Dpi (n - 1) (DN g) k - DT (DH g) k.
Proof.
  intros Hg Hk. pose proof (iota_range k Hk) as Hi. unfold DT. rewrite (R_0 (DH g) k) by (auto; now apply adm_DH). unfold R at 1, DH at 1. rewrite iota_mv by exact Hk.
  rewrite <- sumf_scal. rewrite (sumf_ext _ (fun m => R (m + 1) g k)) by (intros m _; now apply R_R).
  unfold Dpi. destruct (Z.eqb_spec (iota k) (n - 1)) as [E|N0].
  - unfold DH. rewrite E. replace (n - 1 + 1) with (1 * n) by ring. rewrite Z.mod_mul by lia. rewrite Z.sub_0_r. replace (n - (n - 1)) with (0 + 1) by ring. rewrite sumf_zrange_snoc by lia. rewrite (zrange_nil 0 0) by lia. rewrite sumf_nil, R_0 by assumption.
    pose proof (sumf_tel (fun m => R m g k) n ltac:(lia)) as T. rewrite sumf_sub in T. pose proof (R_per 0 g k Hk) as Q. rewrite Z.add_0_l in Q. cbv beta in T. rewrite Q in T.
    unfold DN. lia.
  - rewrite Z.mod_small by lia. unfold DH.
    pose proof (sumf_tel (fun m => R m g k) (n - (iota k + 1)) ltac:(lia)) as T. rewrite sumf_sub in T. cbv beta in T.
    replace (n - iota k) with (n - (iota k + 1) + 1) by ring. rewrite sumf_zrange_snoc by lia. rewrite (R_0 g k) in T by assumption. lia.
Qed.
(** ** elements *)
Lemma linop_evP f D (x y : elt K A) g : linop c c t a a P P D f -> rep P P D -> admop c c P P D -> wf c x -> torsion x = t -> attr x = a -> keys_in P x -> f x = Ok y ->
  admP c P g -> eqm t (ev g (data y)) (ev (D g) (data x)).
Proof.
  intros L Rp Ad Wx Tx Ax Kx E Hg. destruct (L x Wx Tx Ax Kx) as (y' & E' & Dy & Ky). rewrite E in E'. injection E' as <-.
  destruct (local_list P P D (data x) (rep_local _ _ _ Rp) Kx) as (l & Hl & El).
  apply (den_ev_on c okc t a _ y P g l KP Dy Ky Hg). intros h Hh. apply eqm_eq. apply El. intros k' Hk'. apply Hh; auto.
Qed.
Lemma exists_op D (x : elt K A) : rep P P D -> wf c x -> torsion x = t -> attr x = a -> keys_in P x ->
  exists y, wf c y /\ torsion y = t /\ attr y = a /\ keys_in P y /\ forall g, admP c P g -> eqm t (ev g (data y)) (ev (D g) (data x)).
Proof.
  intros Rp Wx Tx Ax Kx. assert (E : exists T : dict K, (forall k v, In (k, v) T -> P k) /\ forall g, ev (D g) (data x) = ev g T).
  { clear - Rp Kx. unfold keys_in in Kx. induction (data x) as [|[k v] d IH]; [exists []; split; [intros ? ? []|intros g; now rewrite !ev_nil]|].
    destruct IH as (T & T1 & T2); [intros; eapply Kx; right; eauto|]. destruct (Rp k (Kx k v (or_introl eq_refl))) as (T' & T1' & T2').
    exists (map (fun kv => (fst kv, v * snd kv)) T' ++ T). split.
    - intros k' v' Hin. apply in_app_or in Hin. destruct Hin as [Hin|Hin]; [|eauto]. apply in_map_iff in Hin. destruct Hin as ([k0 v0] & [= <- <-] & Hin). eauto.
    - intros g. rewrite ev_cons, ev_app, T2, T2'. f_equal. unfold ev. rewrite sumf_map, <- sumf_scal. apply sumf_ext. intros [k0 v0] _. cbn [fst snd]. ring. }
  destruct E as (T & T1 & T2).
  assert (Q : returns (let! y0 := zero dt c x in for_ T y0 (fun y kv => add_term dt c x y (fst kv) (snd kv))) (den c t a (fun g => ev g T))).
  { eapply returns_bind; [apply (zero_den c okc dt t); auto|]. intros y0 Hy0. rewrite Ax in Hy0. eapply returns_mono.
    - apply (loop_den c okc t a T _ (fun k g => g k)); [|exact Hy0]. intros k v F y Hin Hy. cbn [fst snd]. eapply (add_term_den c okc dt t); eauto.
    - intros z Hz. eapply den_ext; [|exact Hz]. intros g _. apply eqm_eq. reflexivity. }
  destruct Q as (y & _ & Dy).
  assert (Ky : keys_in P y).
  { apply (den_keys c okc t a _ y P Ht KP Dy). intros g _ H0. apply eqm_eq. apply ev_zero. intros k v Hin. eauto. }
  exists y. split; [eapply den_wf; eauto|]. split; [exact (proj1 Dy)|]. split; [exact (proj1 (proj2 Dy))|]. split; [exact Ky|].
  intros g Hg. rewrite T2. apply (den_ev_on c okc t a _ y P g (dkeys T) KP Dy Ky Hg). intros h Hh. apply eqm_eq. apply ev_ext. intros k v Hin. apply Hh; [eauto|]. now apply (in_map fst) in Hin.
Qed.
Lemma wf_zero (x : elt K A) g : is_zero x -> ev g (data x) = 0.
Proof. unfold is_zero. now intros ->. Qed.

(** an element of the group ring that acts through the operator [D] *)
Definition acts (u : ring) (D : (K -> Z) -> K -> Z) : Prop :=
  wf cls_ring u /\ torsion u = t /\ keys_in (pk n) u /\ forall g k, P k -> eqm t (DBL Pact u g k) (D g k).
Lemma ma_acts d (u : ring) : ma dt n d (Some t) = Ok u -> acts u (fun g k => RA n d (fun p => Pact g (SGE p) k)).
Proof.
  intros E. destruct (ma_den dt n t d (Some t) eq_refl Hn Ht Nt Hdt) as (u' & E' & D & Ku). rewrite E in E'. injection E' as <-.
  split; [eapply den_wf; [exact Ht|exact D]|]. split; [exact (proj1 D)|]. split; [intros k v Hin; exact (proj2 (Ku k v Hin))|].
  intros g k Hk. apply (proj2 (proj2 (proj2 D)) (fun k2 => Pact g k2 k)). apply ring_adm. intros k2 k2' E2. cbn in E2. apply tup_eqb_eq in E2. now apply val_act.
Qed.
Lemma acts_linop u D : acts u D -> linop c c t a a P P (DBL Pact u) (act u) /\ rep P P (DBL Pact u) /\ admop c c P P (DBL Pact u).
Proof.
  intros (Wu & Tu & Ku & _). split; [exact (ga_linop c okc a n P KP act Pact t Ht bil rep_act u Wu Tu Ku)|]. split; [exact (rep2_L _ _ _ Pact u rep_act Ku)|exact (DBL_admop cls_ring c c _ _ _ Pact adm_act u Ku Wu)].
Qed.
Lemma sum_ev D D' (x : elt K A) : keys_in P x -> (forall k, P k -> eqm t (D k) (D' k)) -> eqm t (ev D (data x)) (ev D' (data x)).
Proof. intros Kx HD. apply ev_eqm. intros k v Hin. apply HD. eapply Kx; eauto. Qed.
(** [u] kills [x] and the contraction: then [x] is a multiple of [v] *)
Lemma exact_from u v Du Dv D D2 (x z : elt K A) : acts u Du -> acts v Dv -> rep P P D -> (forall g, admP c P g -> admP c P (D2 g)) ->
  (forall g k, admP c P g -> P k -> g k = D (Dv g) k + Du (D2 g) k) ->
  wf c x -> torsion x = t -> attr x = a -> keys_in P x -> act u x = Ok z -> is_zero z ->
  exists y, wf c y /\ torsion y = t /\ attr y = a /\ keys_in P y /\ same (act v y) (Ok x).
Proof.
  intros Au Av RD AD2 Hid Wx Tx Ax Kx Ez Zz. destruct (exists_op D x RD Wx Tx Ax Kx) as (y & Wy & Ty & Ay & Ky & Ey).
  exists y. split; [exact Wy|]. split; [exact Ty|]. split; [exact Ay|]. split; [exact Ky|].
  destruct (acts_linop v Dv Av) as (Lv & Rv & Adv). destruct (acts_linop u Du Au) as (Lu & Ru & Adu).
  destruct (Lv y Wy Ty Ay Ky) as (w & Ew & Dw & Kw).
  eapply (same_den c okc t a); [exact Ht|exists w; split; [exact Ew|exact Dw]|exists x; split; [reflexivity|]; pose proof (den_self c x Wx) as Q; rewrite Tx, Ax in Q; exact Q|].
  intros g Hg. apply (adm_admP c P) in Hg. cbn beta. rewrite (Ey (DBL Pact v g)) by now apply Adv.
  assert (E0 : eqm t (ev (DBL Pact u (D2 g)) (data x)) 0).
  { rewrite <- (linop_evP (act u) (DBL Pact u) x z (D2 g) Lu Ru Adu Wx Tx Ax Kx Ez (AD2 g Hg)). apply eqm_eq. now apply wf_zero. }
  rewrite (sum_ev g (fun k => D (Dv g) k + Du (D2 g) k) x Kx) by (intros k Hk; apply eqm_eq; now apply Hid).
  rewrite ev_add. rewrite (sum_ev (Du (D2 g)) (DBL Pact u (D2 g)) x Kx) by (intros k Hk; symmetry; now apply Au). rewrite E0.
  rewrite (sum_ev (D (DBL Pact v g)) (D (Dv g)) x Kx).
  - apply eqm_eq. ring.
  - intros k Hk. apply (rep_eqm P P D t _ _ k RD Hk). intros k' Hk'. now apply Av.
Qed.
Lemma exact_back u v Du Dv (x y : elt K A) : acts u Du -> acts v Dv -> (forall g k, admP c P g -> P k -> Dv (Du g) k = 0) ->
  rep P P Dv ->
  wf c x -> torsion x = t -> attr x = a -> keys_in P x -> wf c y -> torsion y = t -> attr y = a -> keys_in P y -> same (act v y) (Ok x) ->
  same (act u x) (zero dt c x).
Proof.
  intros Au Av Hid RDv Wx Tx Ax Kx Wy Ty Ay Ky (w & x' & Ew & Ex & E & _). injection Ex as <-.
  destruct (acts_linop v Dv Av) as (Lv & Rv & Adv). destruct (acts_linop u Du Au) as (Lu & Ru & Adu).
  destruct (Lv y Wy Ty Ay Ky) as (w' & Ew' & Dw & Kw). rewrite Ew in Ew'. injection Ew' as <-. pose proof (den_wf c t a _ w Ht Dw) as Ww.
  destruct (Lu x Wx Tx Ax Kx) as (z & Ez & Dz & Kz).
  eapply (same_den c okc t a); [exact Ht|exists z; split; [exact Ez|exact Dz]|pose proof (zero_den c okc dt t x Ht Hdt Tx) as Q; rewrite Ax in Q; exact Q|].
  intros g Hg. apply (adm_admP c P) in Hg. cbn beta.
  assert (E1 : eqm t (ev (DBL Pact u g) (data w)) 0).
  { rewrite (linop_evP (act v) (DBL Pact v) y w (DBL Pact u g) Lv Rv Adv Wy Ty Ay Ky Ew (Adu g Hg)).
    rewrite (sum_ev _ (fun _ => 0) y Ky); [apply eqm_eq; now apply ev_zero|]. intros k Hk. rewrite (proj2 (proj2 (proj2 Av)) _ k Hk).
    rewrite (rep_eqm P P Dv t _ (Du g) k RDv Hk) by (intros k' Hk'; now apply Au). apply eqm_eq. now apply Hid. }
  rewrite <- E1. apply eqm_eq. destruct (Adu g Hg) as [G1 G2].
  (* [w == x] *)
  destruct (clip c okc P (DBL Pact u g) (dkeys (data x) ++ dkeys (data w)) KP (conj G1 G2)) as (h & Hh1 & Hh2 & Hh3).
  rewrite (ev_ext _ h (data x)), (ev_ext _ h (data w)).
  - symmetry. apply (eqb_ev' c); auto. apply Hh1.
  - intros k v0 Hin. symmetry. apply Hh2; [exact (Kw _ _ Hin)|]. apply in_or_app. right. now apply (in_map fst) in Hin.
  - intros k v0 Hin. symmetry. apply Hh2; [exact (Kx _ _ Hin)|]. apply in_or_app. left. now apply (in_map fst) in Hin.
Qed.
Lemma rep_DN : rep P P DN.
Proof.
  intros k Hk. exists (map (fun m => (mv m k, sg m k)) (zrange 0 n)). split.
  - intros k' v Hin. apply in_map_iff in Hin. destruct Hin as (m & [= <- <-] & _). now apply mv_P.
  - intros g. unfold ev, DN. rewrite sumf_map. apply sumf_ext. intros m _. reflexivity.
Qed.
Lemma rep_DT : rep P P DT.
Proof.
  intros k Hk. exists [(mv 1 k, sg 1 k); (mv 0 k, - sg 0 k)]. split.
  - intros k' v [[= <- <-]|[[= <- <-]|[]]]; now apply mv_P.
  - intros g. rewrite !ev_cons, ev_nil. unfold DT, R. ring.
Qed.
Lemma rep_neg D : rep P P D -> rep P P (fun g k => - D g k).
Proof.
  intros HD k Hk. destruct (HD k Hk) as (T & T1 & T2). exists (map (fun kv => (fst kv, - snd kv)) T). split.
  - intros k' v Hin. apply in_map_iff in Hin. destruct Hin as ([k0 v0] & [= <- <-] & Hin). eauto.
  - intros g. rewrite T2. unfold ev. rewrite sumf_map, <- sumf_opp. apply sumf_ext. intros [k0 v0] _. cbn [fst snd]. ring.
Qed.
Lemma DN_DT g k : P k -> DN (DT g) k = 0.
Proof.
  intros Hk. unfold DN. rewrite (sumf_ext _ (fun m => R (m + 1) g k - R m g k)).
  - rewrite (sumf_tel (fun m => R m g k)) by lia. rewrite <- (R_per 0) by exact Hk. rewrite Z.add_0_l. ring.
  - intros m _. unfold R at 1, DT. rewrite Z.mul_sub_distr_l, !R_R by exact Hk. now rewrite Z.add_0_l, (Z.add_comm 1 m).
Qed.
Lemma DT_DN g k : P k -> DT (DN g) k = 0.
Proof.
  intros Hk. unfold DT. unfold R at 1 2. unfold DN. rewrite <- !sumf_scal, <- sumf_sub.
  rewrite (sumf_ext _ (fun m => R (m + 1) g k - R m g k)).
  - rewrite (sumf_tel (fun m => R m g k)) by lia. rewrite <- (R_per 0) by exact Hk. rewrite Z.add_0_l. ring.
  - intros m _. rewrite !R_R by exact Hk. now rewrite Z.add_0_r.
Qed.
Lemma acts_ext u D D' : acts u D -> (forall g k, P k -> D g k = D' g k) -> acts u D'.
Proof. intros (W & T & Ku & E) E'. split; [exact W|]. split; [exact T|]. split; [exact Ku|]. intros g k Hk. rewrite <- E' by exact Hk. now apply E. Qed.
Lemma act_T : exists u, transposition_element dt n (Some t) = Ok u /\ acts u DT.
Proof.
  destruct (ma_den dt n t 1 (Some t) eq_refl Hn Ht Nt Hdt) as (u & E & _). exists u. split; [exact E|]. apply (acts_ext u _ DT (ma_acts 1 u E)).
  intros g k Hk. cbn [RA Nat.even]. unfold RA. cbn [Nat.even]. now rewrite !act_rot by exact Hk.
Qed.
Lemma act_N : exists u, norm_element dt n (Some t) = Ok u /\ acts u DN.
Proof.
  destruct (ma_den dt n t 0 (Some t) eq_refl Hn Ht Nt Hdt) as (u & E & _). exists u. split; [exact E|]. apply (acts_ext u _ DN (ma_acts 0 u E)).
  intros g k Hk. unfold RA. cbn [Nat.even]. unfold DN. apply sumf_ext. intros m _. now rewrite act_rot by exact Hk.
Qed.
Lemma zero_is u x z : act u x = Ok z -> wf c z -> same (Ok z) (zero dt c x) -> is_zero z.
Proof.
  intros E W (z' & o & [= <-] & Eo & Eq & _). rewrite zero_data in Eo. injection Eo as <-. unfold is_zero. destruct (data z) as [|[k v] l] eqn:D; [reflexivity|]. exfalso.
  unfold elt_eqb in Eq. rewrite D in Eq. cbn [data] in Eq. rewrite dict_eqb_dget in Eq. specialize (Eq k). cbn [dget] in Eq. rewrite keqb_refl in Eq.
  destruct W as (_ & _ & Cv). destruct (Cv k v) as [[Nv _] _]; [rewrite D; now left|]. auto.
Qed.
Lemma exact_gen u v Du Dv D D2 (x : elt K A) : acts u Du -> acts v Dv -> rep P P D -> rep P P Dv -> (forall g, admP c P g -> admP c P (D2 g)) ->
  (forall g k, admP c P g -> P k -> g k = D (Dv g) k + Du (D2 g) k) -> (forall g k, P k -> Dv (Du g) k = 0) ->
  wf c x -> torsion x = t -> attr x = a -> keys_in P x ->
  (same (act u x) (zero dt c x) <-> exists y, wf c y /\ torsion y = t /\ attr y = a /\ keys_in P y /\ same (act v y) (Ok x)).
Proof.
  intros Au Av RD RDv AD2 Hid Hz Wx Tx Ax Kx. split.
  - intros S. destruct (acts_linop u Du Au) as (Lu & Ru & Adu). destruct (Lu x Wx Tx Ax Kx) as (z & Ez & Dz & Kz). rewrite Ez in S.
    exact (exact_from u v Du Dv D D2 x z Au Av RD AD2 Hid Wx Tx Ax Kx Ez (zero_is u x z Ez (den_wf c t a _ z Ht Dz) S)).
  - intros (y & Wy & Ty & Ay & Ky & S). apply (exact_back u v Du Dv x y Au Av); auto.
Qed.
Lemma exact_T (x : elt K A) : wf c x -> torsion x = t -> attr x = a -> keys_in P x ->
  (same (let! e := transposition_element dt n (Some t) in act e x) (zero dt c x) <->
   exists y, wf c y /\ torsion y = t /\ attr y = a /\ keys_in P y /\ same (let! e := norm_element dt n (Some t) in act e y) (Ok x)).
Proof.
  intros Wx Tx Ax Kx. destruct act_T as (u & Eu & Au), act_N as (v & Ev & Av). rewrite Eu, Ev. cbn [bind].
  apply (exact_gen u v DT DN (Dpi (n - 1)) (fun g k => - DH g k) x Au Av (rep_Dpi _) rep_DN); auto.
  - intros g Hg. destruct (adm_DH g Hg) as [H1 H2]. split; [intros k k' E Hk; now rewrite (H1 k k' E Hk)|intros k Hk Hb; now rewrite (H2 k Hk Hb)].
  - intros g k Hg Hk. rewrite (contract_T g k Hg Hk) at 1. unfold DT, R. ring.
  - intros g k Hk. now apply DN_DT.
Qed.
Lemma exact_N (x : elt K A) : wf c x -> torsion x = t -> attr x = a -> keys_in P x ->
  (same (let! e := norm_element dt n (Some t) in act e x) (zero dt c x) <->
   exists y, wf c y /\ torsion y = t /\ attr y = a /\ keys_in P y /\ same (let! e := transposition_element dt n (Some t) in act e y) (Ok x)).
Proof.
  intros Wx Tx Ax Kx. destruct act_T as (u & Eu & Au), act_N as (v & Ev & Av). rewrite Eu, Ev. cbn [bind].
  apply (exact_gen v u DN DT (fun g k => - DH g k) (Dpi 0) x Av Au (rep_neg DH rep_DH) rep_DT); auto.
  - intros g Hg. now apply adm_Dpi.
  - intros g k Hg Hk. rewrite (contract_N g k Hg Hk) at 1. ring.
  - intros g k Hk. now apply DT_DN.
Qed.
Lemma act_R : exists u, rotation_element dt n (Some t) = Ok u /\ acts u (R 1).
Proof.
  unfold rotation_element. rewrite rot_1 by lia. rewrite (new_basis dt (Some t) t) by auto. eexists. split; [reflexivity|].
  split; [now apply wf_basis|]. split; [reflexivity|]. split; [intros k v [[= <- <-]|[]]; apply perm_rot; lia|].
  intros g k Hk. unfold DBL. cbn [data]. rewrite ev_cons, ev_nil, act_rot by exact Hk. apply eqm_eq. unfold R. ring.
Qed.
(** [u] fixes [x] *)
Lemma fixes u D (x : elt K A) : acts u D -> wf c x -> torsion x = t -> attr x = a -> keys_in P x ->
  (same (act u x) (Ok x) <-> forall g, adm c g -> eqm t (ev (D g) (data x)) (ev g (data x))).
Proof.
  intros Au Wx Tx Ax Kx. destruct (acts_linop u D Au) as (Lu & Ru & Adu). destruct (Lu x Wx Tx Ax Kx) as (w & Ew & Dw & Kw). rewrite Ew.
  assert (E : forall g, eqm t (ev (DBL Pact u g) (data x)) (ev (D g) (data x))) by (intros g; apply sum_ev; [exact Kx|]; intros k Hk; now apply Au).
  split.
  - intros (w' & x' & [= <-] & [= <-] & Q & _) g Hg. rewrite <- E. rewrite <- (proj2 (proj2 (proj2 Dw)) g Hg). apply eqm_eq. apply (eqb_ev' c); auto; [apply Hg|eapply den_wf; eauto].
  - intros H0. eapply (same_den c okc t a); [exact Ht|exists w; split; [reflexivity|exact Dw]|exists x; split; [reflexivity|]; pose proof (den_self c x Wx) as Q; rewrite Tx, Ax in Q; exact Q|].
    intros g Hg. cbn beta. rewrite E. now apply H0.
Qed.
Lemma kills u D (x : elt K A) : acts u D -> wf c x -> torsion x = t -> attr x = a -> keys_in P x ->
  (same (act u x) (zero dt c x) <-> forall g, adm c g -> eqm t (ev (D g) (data x)) 0).
Proof.
  intros Au Wx Tx Ax Kx. destruct (acts_linop u D Au) as (Lu & Ru & Adu). destruct (Lu x Wx Tx Ax Kx) as (w & Ew & Dw & Kw).
  assert (E : forall g, eqm t (ev (DBL Pact u g) (data x)) (ev (D g) (data x))) by (intros g; apply sum_ev; [exact Kx|]; intros k Hk; now apply Au).
  split.
  - intros Q g Hg. rewrite <- E. rewrite <- (proj2 (proj2 (proj2 Dw)) g Hg). apply eqm_eq. apply wf_zero. rewrite Ew in Q. exact (zero_is u x w Ew (den_wf c t a _ w Ht Dw) Q).
  - intros H0. eapply (same_den c okc t a); [exact Ht|exists w; split; [exact Ew|exact Dw]|pose proof (zero_den c okc dt t x Ht Hdt Tx) as Q; rewrite Ax in Q; exact Q|].
    intros g Hg. cbn beta. rewrite E. now apply H0.
Qed.
Lemma exact_inv (x : elt K A) : wf c x -> torsion x = t -> attr x = a -> keys_in P x ->
  (same (let! e := rotation_element dt n (Some t) in act e x) (Ok x) <->
   exists y, wf c y /\ torsion y = t /\ attr y = a /\ keys_in P y /\ same (let! e := norm_element dt n (Some t) in act e y) (Ok x)).
Proof.
  intros Wx Tx Ax Kx. rewrite <- (exact_T x Wx Tx Ax Kx). destruct act_R as (r & Er & Ar), act_T as (u & Eu & Au). rewrite Er, Eu. cbn [bind].
  rewrite (fixes r (R 1) x), (kills u DT x) by assumption.
  assert (E : forall g, adm c g -> eqm t (ev (DT g) (data x)) (ev (R 1 g) (data x) - ev g (data x))).
  { intros g Hg. rewrite <- ev_sub. apply sum_ev; [exact Kx|]. intros k Hk. apply eqm_eq. unfold DT. rewrite (R_0 g k (adm_admP c P g Hg) Hk). reflexivity. }
  split; intros H0 g Hg; specialize (H0 g Hg); specialize (E g Hg).
  - rewrite E, H0. apply eqm_eq. ring.
  - rewrite E in H0. unfold eqm in *. now rewrite Z.sub_0_r in H0.
Qed.
End Per.
