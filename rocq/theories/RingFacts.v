(** * Group ring: proof library for Symmetric.v *)
From Coq Require Import Setoid Morphisms.
From Verif Require Import PyBase Dict FreeModule Symmetric Eqm Spec FreeModuleFacts FreeModuleLaws ListFacts ClassFacts LinearFacts
  SymmetricFacts CycleFacts SymmetricLaws.

Lemma perm_dec n p : perm n p \/ ~ perm n p.
Proof.
  destruct (in_dec (list_eq_dec Z.eq_dec) p (sg_all n)) as [H|H]; rewrite (proj2 (C14_all_permutations_l n)) in H; auto.
Qed.
Definition pk (n : Z) (k : skey) : Prop := perm n (kval k).
Lemma kpred_pk n : kpred (pk n).
Proof. split; [intros k; apply perm_dec|]. intros k k'. cbn. rewrite tup_eqb_eq. unfold pk. now intros ->. Qed.
Lemma ring_okey (k : skey) : okey cls_ring k. Proof. now exists false. Qed.
Lemma ring_adm (g : skey -> Z) : adm cls_ring g <-> resp g.
Proof. split; [now intros [? _]|]. intros H. split; [exact H|]. intros k. discriminate. Qed.
Lemma ring_resp (g : skey -> Z) k k' : resp g -> kval k = kval k' -> g k = g k'.
Proof. intros Hg E. apply Hg. now apply tup_eqb_eq. Qed.

Lemma ring_mul_den dt n t x y : 0 <= n -> 0 <= t -> wf cls_ring x -> wf cls_ring y -> torsion x = t -> torsion y = t ->
  keys_in (pk n) x -> keys_in (pk n) y ->
  returns (ring_mul dt x y) (fun z => den cls_ring t tt (fun g => ev (fun k1 => ev (fun k2 => g (SGE (pmul (kval k1) (kval k2)))) (data y)) (data x)) z).
Proof.
  intros Hn Ht Hx Hy Ex Ey Kx Ky. unfold ring_mul. rewrite Ex, Ey, Z.eqb_refl. cbn [negb].
  rewrite zero_data. cbn [bind data].
  set (h := fun (d : dict skey) (p : (skey * Z) * (skey * Z)) =>
     let k := Tup (pmul (kval (fst (fst p))) (kval (fst (snd p)))) in dset d k (dget d k + snd (fst p) * snd (snd p))).
  rewrite (for_pure _ _ h).
  2:{ intros d [[k1 v1] [k2 v2]] Hin. apply in_prod_iff in Hin. destruct Hin as [H1 H2].
      rewrite (gets_pmul n); [reflexivity|exact (Kx _ _ H1)|]. intros i Hi. apply Ky in H2. now apply (perm_in n (kval k2)). }
  cbn [bind]. rewrite pref_ok by (intros; apply ring_okey). cbn [bind]. apply returns_ok.
  assert (G : forall l d, kdistinct (dkeys d) -> kdistinct (dkeys (fold_left h l d)) /\
     forall g, resp g -> ev g (fold_left h l d) = ev g d + sumf (fun p => snd (fst p) * snd (snd p) * g (SGE (pmul (kval (fst (fst p))) (kval (fst (snd p)))))) l).
  { induction l as [|p l IH]; intros d Hd; cbn [fold_left].
    - split; [exact Hd|]. intros g _. rewrite sumf_nil. ring.
    - destruct (IH (h d p)) as [I1 I2]; [now apply dset_distinct|]. split; [exact I1|]. intros g Hg.
      rewrite I2 by exact Hg. rewrite sumf_cons. unfold h at 1. cbn zeta. rewrite ev_dset by exact Hg.
      rewrite (ring_resp g (Tup _) (SGE (pmul (kval (fst (fst p))) (kval (fst (snd p))))) Hg) by reflexivity. ring. }
  destruct (G (list_prod (data x) (data y)) [] I) as [G1 G2].
  split; [|split; [|split]]; auto.
  - cbn [data]. apply prefd_canonical; auto. intros; apply ring_okey.
  - intros g Hg. cbn [data]. rewrite ev_prefd by exact Hg. apply ring_adm in Hg. rewrite G2 by exact Hg. rewrite ev_nil.
    apply eqm_eq. rewrite sumf_list_prod. unfold ev at 1. rewrite Z.add_0_l. apply sumf_ext. intros [k1 v1] _. cbn [fst snd].
    unfold ev. rewrite <- sumf_scal. apply sumf_ext. intros [k2 v2] _. cbn [fst snd]. ring.
Qed.

(** multiplication as a bilinear operation *)
Definition Pmul (g : skey -> Z) (k1 k2 : skey) : Z := g (SGE (pmul (kval k1) (kval k2))).
Lemma bilop_mul dt n t : 0 <= n -> 0 <= t -> bilop cls_ring cls_ring cls_ring t tt tt tt (pk n) (pk n) Pmul (ring_mul dt).
Proof. intros Hn Ht x y Wx Tx _ Kx Wy Ty _ Ky. now apply (ring_mul_den dt n t x y). Qed.
Lemma rep_mul n : 0 <= n -> rep2 (pk n) (pk n) (pk n) Pmul.
Proof.
  intros Hn k1 k2 H1 H2. exists [(SGE (pmul (kval k1) (kval k2)), 1)]. split.
  - intros k v [[= <- <-]|[]]. unfold pk. cbn. now apply perm_pmul.
  - intros g. rewrite ev_cons, ev_nil. unfold Pmul. ring.
Qed.
Lemma adm_mul n : 0 <= n -> adm2 cls_ring cls_ring cls_ring (pk n) (pk n) (pk n) Pmul.
Proof.
  intros Hn g [Hg1 _]. split; intros k0 H0 _; (split; [|discriminate]); intros k k' E Hk; cbn in E; apply tup_eqb_eq in E;
    unfold Pmul; now rewrite E.
Qed.

(** composition; [rc] is [ring_compose] without the test of the class of keys *)
Definition rc (dt : Z) (x y : ring) (i : Z) : res ring :=
  if dempty (data x) then zero dt cls_ring x else
  if negb (torsion x =? torsion y) then Err TypeError else
  let! answer := zero dt cls_ring x in
  for_ (list_prod (data x) (data y)) answer
    (fun answer '((k1, v1), (k2, v2)) =>
         let! new_k := sg_compose (kval k1) (kval k2) i in
         add_term dt cls_ring x answer (SGE new_k) (v1 * v2)).
Definition sge (k : skey) : Prop := is_sge k = true.
Lemma for_ext {S B} (l : list B) (f g : S -> B -> res S) : (forall s b, In b l -> f s b = g s b) -> forall s, for_ l s f = for_ l s g.
Proof.
  induction l as [|b l IH]; intros H s; cbn; [reflexivity|]. rewrite (H s b) by now left.
  destruct (g s b); cbn; [|reflexivity]. apply IH. intros; apply H; now right.
Qed.
Lemma ring_compose_rc dt x y i : keys_in sge x -> ring_compose dt x y i = rc dt x y i.
Proof.
  intros Hx. unfold ring_compose, rc. destruct (dempty (data x)); [reflexivity|]. destruct (negb _); [reflexivity|].
  destruct (zero dt cls_ring x); cbn; [|reflexivity]. apply for_ext. intros s [[k1 v1] [k2 v2]] Hin. apply in_prod_iff in Hin.
  destruct Hin as [Hin _]. apply Hx in Hin. unfold sge in Hin. now rewrite Hin.
Qed.
Lemma rc_sge dt x y i z : rc dt x y i = Ok z -> keys_in sge z.
Proof.
  unfold rc. rewrite zero_data. destruct (dempty (data x)).
  - intros [= <-] k v [].
  - destruct (negb _); [discriminate|]. cbn [bind]. apply (for_inv (keys_in sge)).
    + intros s [[k1 v1] [k2 v2]] s' _ Hs E. destruct (sg_compose _ _ _) as [k|]; cbn in E; [|discriminate].
      eapply add_term_keys; eauto. reflexivity.
    + intros k v [].
Qed.
Lemma new_sge dt d ot z : new dt cls_ring d ot tt = Ok z -> keys_in sge z.
Proof.
  unfold new. destruct (pref _ _ _) as [d'|] eqn:E; cbn; [|discriminate]. intros [= <-] k v Hin. cbn in Hin.
  apply (pref_keys _ _ _ _ _ _ E) in Hin. revert Hin. unfold convert. apply dict_of_Forall. intros k0 Hk0.
  unfold dkeys in Hk0. rewrite map_map in Hk0. apply in_map_iff in Hk0. destruct Hk0 as (p & <- & _). reflexivity.
Qed.
Definition Pcomp (i : Z) (g : skey -> Z) (k1 k2 : skey) : Z := g (SGE (gcomp (kval k1) (kval k2) i)).
Lemma bilop_comp dt r s t i : 0 <= t -> dt_ok dt t -> 1 <= i <= r ->
  bilop cls_ring cls_ring cls_ring t tt tt tt (pk r) (pk s) (Pcomp i) (fun x y => rc dt x y i).
Proof.
  intros Ht Hdt Hi x y Wx Tx _ Kx Wy Ty _ Ky. unfold rc. destruct (data x) as [|p d] eqn:Ed.
  - cbn. eapply returns_mono; [apply (zero_den cls_ring ok_ring dt t); auto|]. intros z Hz. destruct (attr x). eapply den_ext; [|exact Hz].
    intros g _. reflexivity.
  - cbn [dempty]. rewrite <- Ed. rewrite Tx, Ty, Z.eqb_refl. cbn [negb]. eapply returns_bind; [apply (zero_den cls_ring ok_ring dt t); auto|].
    intros ans Hans. destruct (attr x). cbn beta. 
    eapply returns_mono.
    + apply (pair_loop_den cls_ring ok_ring t tt (data x) (data y) _ (fun k1 k2 g => Pcomp i g k1 k2)); [|exact Hans].
      intros k1 v1 k2 v2 F w H1 H2 Hw. rewrite (sg_compose_perm r) by (auto; exact (Kx _ _ H1)). cbn [bind].
      apply (add_term_den cls_ring ok_ring dt t); auto. apply ring_okey.
    + intros z Hz. eapply den_ext; [|exact Hz]. intros g _. cbn beta. now rewrite Z.add_0_l.
Qed.
Lemma rep_comp r s i : 0 <= s -> 1 <= i <= r -> rep2 (pk r) (pk s) (pk (r + s - 1)) (Pcomp i).
Proof.
  intros Hn Hi k1 k2 H1 H2. exists [(SGE (gcomp (kval k1) (kval k2) i), 1)]. split.
  - intros k v [[= <- <-]|[]]. unfold pk. cbn. now apply perm_gcomp.
  - intros g. rewrite ev_cons, ev_nil. unfold Pcomp. ring.
Qed.
Lemma adm_comp r s q i : adm2 cls_ring cls_ring cls_ring (pk r) (pk s) (pk q) (Pcomp i).
Proof.
  intros g [Hg1 _]. split; intros k0 H0 _; (split; [|discriminate]); intros k k' E Hk; cbn in E; apply tup_eqb_eq in E;
    unfold Pcomp; now rewrite E.
Qed.

(** constants *)
Lemma ring_new_den dt t (ot : option Z) d : t = match ot with Some t => t | None => dt end -> 0 <= t ->
  kdistinct (dkeys d) -> returns (new dt cls_ring d ot tt) (den cls_ring t tt (fun g => ev g d)).
Proof. intros. apply (new_den cls_ring ok_ring dt t); auto. intros; apply ring_okey. Qed.
Lemma den_keys_ring n t d F (y : ring) : 0 <= t -> den cls_ring t tt F y -> (forall g, F g = ev g d) ->
  (forall k v, In (k, v) d -> perm n (kval k)) -> keys_in (pk n) y.
Proof.
  intros Ht Hy E Hd. eapply (den_keys cls_ring ok_ring t tt _ y (pk n) Ht (kpred_pk n) Hy). intros g Hg H0.
  apply eqm_eq. rewrite E. apply ev_zero. intros k v Hin. apply H0. eapply Hd; eauto.
Qed.

(** rotations *)
Definition rot (n k : Z) : list Z := map (fun i => (i - 1 + k) mod n + 1) (zrange 1 (n + 1)).
Lemma image_rot n k i : 1 <= i <= n -> image (rot n k) i = (i - 1 + k) mod n + 1.
Proof.
  intros Hi. unfold rot. rewrite image_map by (rewrite zlen_zrange; lia). now rewrite image_zrange.
Qed.
Lemma rot_len n k : 0 <= n -> zlen (rot n k) = n.
Proof. intros Hn. unfold rot. rewrite zlen_map, zlen_zrange. lia. Qed.
Lemma perm_rot n k : 1 <= n -> perm n (rot n k).
Proof.
  intros Hn. apply perm_of_nodup; [lia|apply rot_len; lia| |].
  - unfold rot. apply NoDup_map_inj; [|apply NoDup_zrange]. intros x y Hx Hy E. apply in_zrange in Hx, Hy.
    assert (Em : (x - 1 + k) mod n = (y - 1 + k) mod n) by lia.
    assert (D : eqm n (x - 1) (y - 1)).
    { pose proof (eqm_mod n (x - 1 + k) ltac:(lia)) as E1. pose proof (eqm_mod n (y - 1 + k) ltac:(lia)) as E2. rewrite Em in E1.
      assert (eqm n (x - 1 + k) (y - 1 + k)) by (rewrite <- E1; exact E2). unfold eqm in *. now replace (x - 1 - (y - 1)) with (x - 1 + k - (y - 1 + k)) by ring. }
    apply eqm_small in D; lia.
  - intros i Hi. unfold rot in Hi. apply in_map_iff in Hi. destruct Hi as (x & <- & _). pose proof (Z.mod_pos_bound (x - 1 + k) n). lia.
Qed.
Lemma rot_0 n : rot n 0 = zrange 1 (n + 1).
Proof.
  unfold rot. rewrite <- map_id. apply map_ext_in. intros i Hi. apply in_zrange in Hi. rewrite Z.mod_small by lia. lia.
Qed.
Lemma rot_period n k : 1 <= n -> rot n (k + n) = rot n k.
Proof.
  intros Hn. unfold rot. apply map_ext_in. intros i _. f_equal. replace (i - 1 + (k + n)) with (i - 1 + k + 1 * n) by ring.
  apply Z.mod_add. lia.
Qed.
Lemma rot_1 n : 1 <= n -> zrange 2 (n + 1) ++ [1] = rot n 1.
Proof.
  intros Hn. apply list_image_ext.
  - pose proof (rot_len n 1 ltac:(lia)) as L. unfold zlen in L. rewrite app_length, zrange_length. cbn. lia.
  - intros i Hi. rewrite zlen_app, zlen_zrange in Hi. change (zlen [1]) with 1 in Hi. rewrite image_rot by lia.
    unfold image. destruct (Z.eq_dec i n) as [->|N].
    + rewrite app_nth2 by (rewrite zrange_length; lia). rewrite zrange_length. replace (Z.to_nat (n - 1) - Z.to_nat (n + 1 - 2))%nat with 0%nat by lia.
      cbn. replace (n - 1 + 1) with n by lia. rewrite Z.mod_same by lia. reflexivity.
    + rewrite app_nth1 by (rewrite zrange_length; lia). rewrite Z.mod_small by lia. unfold zrange.
      rewrite nth_indep with (d' := 2 + Z.of_nat 0) by (rewrite map_length, seq_length; lia).
      rewrite (map_nth (fun m => 2 + Z.of_nat m)), seq_nth by lia. lia.
Qed.
Lemma rot_add n j k : 1 <= n -> pmul (rot n j) (rot n k) = rot n (j + k).
Proof.
  intros Hn. unfold pmul. unfold rot at 2. rewrite map_map. unfold rot at 2. apply map_ext_in. intros i Hi. apply in_zrange in Hi.
  pose proof (Z.mod_pos_bound (i - 1 + k) n). rewrite image_rot by lia. f_equal.
  replace ((i - 1 + k) mod n + 1 - 1 + j) with ((i - 1 + k) mod n + j) by ring. rewrite Z.add_mod_idemp_l by lia. f_equal. ring.
Qed.
Lemma ppow_rot n m : 1 <= n -> ppow n (rot n 1) m = rot n (Z.of_nat m).
Proof.
  intros Hn. induction m as [|m IH]; cbn [ppow]; [symmetry; apply rot_0|]. rewrite IH, rot_add by assumption. f_equal. lia.
Qed.
Lemma rot_inj n j k : 1 <= n -> 0 <= j < n -> 0 <= k < n -> rot n j = rot n k -> j = k.
Proof.
  intros Hn Hj Hk E. apply (f_equal (fun p => image p 1)) in E. rewrite !image_rot in E by lia.
  rewrite !Z.mod_small in E by lia. lia.
Qed.

(** the element with one basis element, of coefficient one *)
Lemma new_basis dt ot t p : t = match ot with Some t => t | None => dt end -> 0 <= t -> t <> 1 ->
  new dt cls_ring [(SGE p, 1)] ot tt = Ok (mkElt [(SGE p, 1)] t tt).
Proof.
  intros Et Ht N. unfold new. rewrite <- Et. unfold convert. cbn. unfold reduce.
  destruct (Z.eqb_spec t 0); cbn; [reflexivity|]. rewrite Z.mod_small by lia. reflexivity.
Qed.
Lemma wf_basis t p : 0 <= t -> t <> 1 -> wf cls_ring (mkElt [(SGE p, 1)] t tt : ring).
Proof.
  intros Ht N. split; [exact Ht|]. split; [cbn; tauto|]. intros k v [[= <- <-]|[]]. split; [|reflexivity]. unfold canon_coef. cbn. lia.
Qed.
Lemma ring_pow_basis dt t n p m : 1 <= n -> 0 <= t -> t <> 1 -> dt_ok dt t -> perm n p -> 0 <= m ->
  returns (ring_pow dt (mkElt [(SGE p, 1)] t tt) m) (den cls_ring t tt (fun g => g (SGE (ppow n p (Z.to_nat m))))).
Proof.
  intros Hn Ht N Hdt Hp Hm. unfold ring_pow. destruct (Z.eqb_spec m 0) as [->|Nm].
  - unfold ring_arity. cbn [data dempty dkeys map mapM fst]. change (kval (SGE p)) with p. rewrite (perm_max n p) by auto.
    cbn [bind zset nodup in_dec list_rect]. unfold identity_element. eapply returns_mono; [apply (ring_new_den dt t); auto; split; [intros ? []|exact I]|].
    intros y Hy. eapply den_ext; [|exact Hy]. intros g _. cbn beta. rewrite ev_cons, ev_nil. apply eqm_eq. cbn [ppow Z.to_nat]. lia.
  - eapply returns_bind; [apply (zero_den cls_ring ok_ring dt t); auto|]. intros ans Hans. cbn [data for_ is_sge SGE kval].
    rewrite (sg_pow_ok n) by auto. cbn [bind]. eapply returns_bind.
    + eapply (add_term_den cls_ring ok_ring dt t); eauto. apply ring_okey.
    + intros z Hz. apply returns_ok. eapply den_ext; [|exact Hz]. intros g _. cbn beta. apply eqm_eq. unfold SGE. lia.
Qed.
Lemma norm_den dt n t ot : t = match ot with Some t => t | None => dt end -> 1 <= n -> 0 <= t -> t <> 1 -> dt_ok dt t ->
  returns (norm_element dt n ot) (den cls_ring t tt (fun g => sumf (fun k => g (SGE (rot n k))) (zrange 0 n))).
Proof.
  intros Et Hn Ht N Hdt. unfold norm_element, rotation_element. rewrite (new_basis dt ot t) by auto. cbn [bind].
  eapply returns_bind; [apply (ring_new_den dt t ot []); auto; exact I|]. intros ans Hans.
  eapply returns_mono.
  - apply (for_den cls_ring t (zrange 0 n) _ (fun k g => g (SGE (rot n k))) tt); [|exact Hans].
    intros k F y Hk Hy. apply in_zrange in Hk. eapply returns_bind.
    + apply (ring_pow_basis dt t n); auto; [|lia]. rewrite rot_1 by lia. now apply perm_rot.
    + intros p Dp. eapply returns_mono; [eapply (iadd_den cls_ring t); eauto|]. intros z Hz. eapply den_ext; [|exact Hz].
      intros g _. cbn beta. rewrite rot_1, ppow_rot by lia. rewrite Z2Nat.id by lia. reflexivity.
  - intros z Hz. eapply den_ext; [|exact Hz]. intros g _. cbn beta. rewrite ev_nil. reflexivity.
Qed.
Lemma transposition_den dt n t ot : t = match ot with Some t => t | None => dt end -> 2 <= n -> 0 <= t ->
  returns (transposition_element dt n ot) (den cls_ring t tt (fun g => g (SGE (rot n 1)) - g (SGE (rot n 0)))).
Proof.
  intros Et Hn Ht. unfold transposition_element. rewrite rot_1, <- rot_0 by lia.
  assert (ND : kdistinct (dkeys [(SGE (rot n 1), 1); (SGE (rot n 0), -1)])).
  { split; [|split; [intros ? []|exact I]]. intros k [<-|[]]. cbn [fst]. destruct (keqb _ _) eqn:E; [|reflexivity].
    cbn in E. apply tup_eqb_eq in E. apply rot_inj in E; lia. }
  rewrite dict_of_id by exact ND. eapply returns_mono; [apply (ring_new_den dt t); auto|].
  intros y Hy. eapply den_ext; [|exact Hy]. intros g _. cbn beta. rewrite !ev_cons, ev_nil. apply eqm_eq. ring.
Qed.
Lemma den_supp_ring n t F (y : ring) (l : list (list Z)) : 0 <= t -> den cls_ring t tt F y ->
  (forall g, (forall p, In p l -> g (SGE p) = 0) -> F g = 0) -> (forall p, In p l -> perm n p) -> keys_in (pk n) y.
Proof.
  intros Ht Hy E Hd. eapply (den_keys cls_ring ok_ring t tt _ y (pk n) Ht (kpred_pk n) Hy). intros g Hg H0.
  apply eqm_eq. apply E. intros p Hin. apply H0. now apply Hd.
Qed.
