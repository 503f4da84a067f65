(** * The cyclic elements T and N, and the May-Steenrod elements of Barratt-Eccles.  Proof library. *)
From Coq Require Import Setoid Morphisms.
From Verif Require Import PyBase Dict FreeModule Symmetric Simplicial Utils Surjection BarrattEccles Eqm Spec SpecOperad FreeModuleFacts FreeModuleLaws ListFacts
  ClassFacts LinearFacts SymmetricFacts CycleFacts SymmetricLaws RingFacts RingLaws TensorAct LoopFacts ActGeneric BEFacts BEOrbit BELaws BEDiag.

(** T in odd degrees, N in even degrees *)
Definition RA (n : Z) (d : nat) (h : list Z -> Z) : Z :=
  if Nat.even d then sumf (fun k => h (rot n k)) (zrange 0 n) else h (rot n 1) - h (rot n 0).
Definition ma (dt n : Z) (d : nat) (ot : option Z) : res ring := if Nat.even d then norm_element dt n ot else transposition_element dt n ot.
Lemma RA_tel n (h : list Z -> Z) : 1 <= n -> sumf (fun k => h (rot n (k + 1)) - h (rot n k)) (zrange 0 n) = 0.
Proof.
  intros Hn. assert (G : forall m, (Z.of_nat m <= n) -> sumf (fun k => h (rot n (k + 1)) - h (rot n k)) (zrange 0 (Z.of_nat m)) = h (rot n (Z.of_nat m)) - h (rot n 0)).
  { induction m as [|m IH]; intros Hm; [rewrite zrange_nil by lia; rewrite sumf_nil; cbn; ring|].
    rewrite Nat2Z.inj_succ, <- Z.add_1_r. rewrite sumf_zrange_snoc, IH by lia. ring. }
  specialize (G (Z.to_nat n) ltac:(lia)). rewrite Z2Nat.id in G by lia. rewrite G.
  replace (rot n n) with (rot n 0); [ring|]. rewrite <- (rot_period n 0) by lia. reflexivity.
Qed.
Lemma RA_RA n d h : 1 <= n -> RA n (S d) (fun p => RA n d (fun q => h (pmul p q))) = 0.
Proof.
  intros Hn. unfold RA. rewrite Nat.even_succ, <- Nat.negb_even. destruct (Nat.even d); cbn [negb].
  - rewrite <- sumf_sub. etransitivity; [|exact (RA_tel n h Hn)]. apply sumf_ext. intros k _. rewrite !rot_add by lia. now rewrite (Z.add_comm 1 k), Z.add_0_l.
  - etransitivity; [|exact (RA_tel n h Hn)]. apply sumf_ext. intros k _. rewrite !rot_add by lia. now rewrite Z.add_0_r.
Qed.
Lemma RA_ext n d h h' : 1 <= n -> (forall p, perm n p -> h p = h' p) -> RA n d h = RA n d h'.
Proof.
  intros Hn E. unfold RA. destruct (Nat.even d); [apply sumf_ext; intros k _|f_equal]; apply E; now apply perm_rot.
Qed.
Lemma RA_sub n d h h' : RA n d (fun p => h p - h' p) = RA n d h - RA n d h'.
Proof. unfold RA. destruct (Nat.even d); [apply sumf_sub|ring]. Qed.
Lemma RA_list n d : 1 <= n -> exists T : dict (list Z), (forall p v, In (p, v) T -> perm n p) /\ forall h, RA n d h = ev h T.
Proof.
  intros Hn. unfold RA. destruct (Nat.even d).
  - exists (map (fun k => (rot n k, 1)) (zrange 0 n)). split.
    + intros p v Hin. apply in_map_iff in Hin. destruct Hin as (k & [= <- <-] & _). now apply perm_rot.
    + intros h. unfold ev. rewrite sumf_map. apply sumf_ext. intros k _. cbn [fst snd]. ring.
  - exists [(rot n 1, 1); (rot n 0, -1)]. split.
    + intros p v [[= <- <-]|[[= <- <-]|[]]]; now apply perm_rot.
    + intros h. rewrite !ev_cons, ev_nil. ring.
Qed.
Lemma ring_pow_sge dt (x y : ring) k : ring_pow dt x k = Ok y -> keys_in sge y.
Proof.
  unfold ring_pow. destruct (k =? 0).
  - destruct (ring_arity x) as [[n|]|]; cbn [bind]; try discriminate. unfold identity_element. apply new_sge.
  - rewrite zero_data. cbn [bind]. intros E. refine (for_inv (keys_in sge) _ _ _ _ _ _ E).
    + intros s [k0 v] s' _ Hs E'. destruct (is_sge k0); [|discriminate]. destruct (sg_pow _ _) as [kt|]; cbn [bind] in E'; [|discriminate].
      eapply (add_term_keys cls_ring dt); eauto. reflexivity.
    + intros ? ? [].
Qed.
Lemma ma_den dt n t d ot : t = match ot with Some t => t | None => dt end -> 2 <= n -> 0 <= t -> t <> 1 -> dt_ok dt t ->
  returns (ma dt n d ot) (fun a => den cls_ring t tt (fun g => RA n d (fun p => g (SGE p))) a /\ keys_in (rpk n) a).
Proof.
  intros Et Hn Ht N Hdt.
  assert (D : returns (ma dt n d ot) (den cls_ring t tt (fun g => RA n d (fun p => g (SGE p))))).
  { unfold ma, RA. destruct (Nat.even d); [apply norm_den; auto; lia|apply transposition_den; auto]. }
  destruct D as (a & Ea & Da). exists a. split; [exact Ea|]. split; [exact Da|].
  assert (S1 : keys_in sge a).
  { unfold ma in Ea. destruct (Nat.even d).
    - unfold norm_element in Ea. destruct (rotation_element dt n ot) as [r|]; cbn [bind] in Ea; [|discriminate].
      destruct (new dt cls_ring [] ot tt) as [z|] eqn:Ez; cbn [bind] in Ea; [|discriminate].
      refine (for_inv (keys_in sge) _ _ _ _ _ _ Ea); [|eapply new_sge; eauto].
      intros s k s' _ Hs E'. destruct (ring_pow dt r k) as [rk|] eqn:Er; cbn [bind] in E'; [|discriminate].
      eapply (iadd_keys cls_ring); eauto. eapply ring_pow_sge; eauto.
    - unfold transposition_element in Ea. eapply new_sge; eauto. }
  assert (P1 : keys_in (pk n) a).
  { destruct (RA_list n d ltac:(lia)) as (T & HT1 & HT2). apply (den_keys cls_ring ok_ring t tt _ a (pk n) Ht (kpred_pk n) Da).
    intros g Hg H0. apply eqm_eq. rewrite HT2. apply ev_zero. intros p v Hin. apply H0. exact (HT1 _ _ Hin). }
  intros k v Hin. split; [exact (S1 _ _ Hin)|exact (P1 _ _ Hin)].
Qed.

(** ** the functional *)
Notation idp n := (zrange 1 (n + 1)).
Fixpoint Fpsi (n : Z) (d : nat) (g : bkey -> Z) : Z :=
  match d with
  | O => g [idp n]
  | S d' => RA n (S d') (fun p => Fpsi n d' (fun k => g (idp n :: map (pmul p) k)))
  end.
Definition bpsi (n : Z) (d : nat) (k : bkey) : Prop := be_cell n (Z.of_nat d) k /\ exists k', k = idp n :: k'.
Lemma kpred_bpsi n d : kpred (bpsi n d).
Proof.
  apply kpred_eq. intros k. unfold bpsi. destruct (proj1 (kpred_bdeg n (Z.of_nat d)) k); [|tauto].
  destruct k as [|p k]; [right; intros [_ [? ?]]; discriminate|]. destruct (list_eq_dec Z.eq_dec p (idp n)) as [->|N]; [left; eauto|right; intros [_ [? ?]]; congruence].
Qed.
Lemma Fpsi_list n d : 1 <= n -> exists T : dict bkey, (forall k v, In (k, v) T -> bpsi n d k) /\ forall g, Fpsi n d g = ev g T.
Proof.
  intros Hn. induction d as [|d IH]; cbn [Fpsi].
  - exists [([idp n], 1)]. split.
    + intros k v [[= <- <-]|[]]. split; [|eauto]. split; [|reflexivity]. intros p [<-|[]]. apply perm_id.
    + intros g. rewrite ev_cons, ev_nil. ring.
  - destruct IH as (T & T1 & T2). destruct (RA_list n (S d) Hn) as (R & R1 & R2).
    exists (flat_map (fun pv => map (fun kv => (idp n :: map (pmul (fst pv)) (fst kv), snd pv * snd kv)) T) R). split.
    + intros k v Hin. apply in_flat_map in Hin. destruct Hin as ([p pv] & Hp & Hin). apply in_map_iff in Hin. destruct Hin as ([k0 v0] & [= <- <-] & Hin).
      cbn [fst snd]. destruct (T1 _ _ Hin) as [[B1 B2] _]. split; [|eauto]. split.
      * intros q [<-|Hq]; [apply perm_id|]. revert q Hq. apply bsim_move; [lia|exact (R1 _ _ Hp)|exact B1].
      * rewrite zlen_cons, zlen_map. lia.
    + intros g. rewrite R2. unfold ev. rewrite sumf_flat_map. apply sumf_ext. intros [p pv] _. cbn [fst snd]. rewrite T2, sumf_map. unfold ev. rewrite <- sumf_scal.
      apply sumf_ext. intros [k v] _. cbn [fst snd]. ring.
Qed.
Lemma Fpsi_ext n d g h : 1 <= n -> (forall k, bpsi n d k -> g k = h k) -> Fpsi n d g = Fpsi n d h.
Proof. intros Hn E. destruct (Fpsi_list n d Hn) as (T & T1 & T2). rewrite !T2. apply ev_ext. intros k v Hin. apply E. eauto. Qed.
Lemma Fpsi_sub n d g h : 1 <= n -> Fpsi n d (fun k => g k - h k) = Fpsi n d g - Fpsi n d h.
Proof.
  intros Hn. destruct (Fpsi_list n d Hn) as (T & T1 & T2). rewrite !T2. unfold ev. rewrite <- sumf_sub. apply sumf_ext. intros; ring.
Qed.
Lemma Fpsi_RA n d d' (G : list Z -> bkey -> Z) : 1 <= n -> Fpsi n d (fun k => RA n d' (fun p => G p k)) = RA n d' (fun p => Fpsi n d (G p)).
Proof.
  intros Hn. destruct (Fpsi_list n d Hn) as (T & T1 & T2), (RA_list n d' Hn) as (R & R1 & R2). rewrite T2, R2.
  rewrite (ev_ext_all (fun k => RA n d' _) (fun k => ev (fun p => G p k) R)) by (intros; apply R2).
  rewrite (ev_ext_all (fun p => Fpsi n d (G p)) (fun p => ev (G p) T)) by (intros; apply T2). apply (ev_exch (fun k p => G p k)).
Qed.
Lemma Fpsi_boundary n d : 1 <= n -> forall g, Fpsi n (S d) (fdB g) = RA n (S d) (fun p => Fpsi n d (fun k => g (map (pmul p) k))).
Proof.
  intros Hn. induction d as [|d IH]; intros g.
  - cbn [Fpsi]. unfold RA. cbn [Nat.even map]. rewrite !fdB_cons. cbn [fdB fbB]. rewrite !fdB_nil.
    rewrite !(pmul_id_r n) by (try lia; now apply perm_rot). ring.
  - set (e := S d) in *. change (Fpsi n (S e) (fdB g)) with (RA n (S e) (fun p => Fpsi n e (fun k => fdB g (idp n :: map (pmul p) k)))).
    rewrite (RA_ext n (S e) _ (fun p => Fpsi n e (fun k => g (map (pmul p) k)) - RA n e (fun q => Fpsi n d (fun k => g (idp n :: map (pmul (pmul p q)) k))))) by
     (exact Hn || (intros p Hp;
      rewrite (Fpsi_ext n e _ (fun k => g (map (pmul p) k) - fdB (fun k' => g (idp n :: map (pmul p) k')) k)) by
        (exact Hn || (intros k _; rewrite fdB_cons; f_equal; apply fdB_map));
      rewrite Fpsi_sub by exact Hn; f_equal; unfold e; rewrite IH; apply RA_ext; [exact Hn|]; intros q Hq; apply Fpsi_ext; [exact Hn|];
      intros k [[Hk _] _]; do 2 f_equal; rewrite map_map; apply map_ext_in; intros r Hr; symmetry; apply (pmul_assoc n); auto)).
    rewrite RA_sub. rewrite (RA_RA n e (fun p => Fpsi n d (fun k => g (idp n :: map (pmul p) k))) Hn). ring.
Qed.
(** the distinguished basis element *)
Fixpoint kap (n : Z) (d : nat) : bkey := match d with O => [idp n] | S d' => idp n :: map (pmul (rot n 1)) (kap n d') end.
Lemma bpsi_kap n d : 1 <= n -> bpsi n d (kap n d).
Proof.
  intros Hn. induction d as [|d [[IH1 IH2] IH3]]; cbn [kap].
  - split; [|eauto]. split; [|reflexivity]. intros p [<-|[]]. apply perm_id.
  - split; [|eauto]. split.
    + intros q [<-|Hq]; [apply perm_id|]. revert q Hq. apply bsim_move; [lia|now apply perm_rot|exact IH1].
    + rewrite zlen_cons, zlen_map. lia.
Qed.
Lemma pmul_rot_head n j k : 1 <= n -> (exists k', k = idp n :: k') -> hd [] (map (pmul (rot n j)) k) = rot n j.
Proof. intros Hn [k' ->]. cbn. apply (pmul_id_r n); [lia|now apply perm_rot]. Qed.
Lemma map_pmul_inj n p k k' : 0 <= n -> perm n p -> be_simplex n k -> be_simplex n k' -> map (pmul p) k = map (pmul p) k' -> k = k'.
Proof.
  intros Hn Hp. revert k'. induction k as [|q k IH]; intros [|q' k'] Hk Hk' E; try discriminate; [reflexivity|]. cbn in E. injection E as E1 E2. f_equal.
  - apply (pmul_cancel_l n) in E1; auto; [apply Hk; now left|apply Hk'; now left].
  - apply IH; auto; intros r Hr; [apply Hk|apply Hk']; now right.
Qed.
Lemma Fpsi_kap n d : 2 <= n -> Fpsi n d (ind (kap n d)) = 1.
Proof.
  intros Hn. induction d as [|d IH].
  - cbn [Fpsi kap]. unfold ind. now rewrite keqb_refl.
  - cbn [Fpsi].
    assert (G : forall j, 0 <= j < n -> Fpsi n d (fun k => ind (kap n (S d)) (idp n :: map (pmul (rot n j)) k)) = if j =? 1 then 1 else 0).
    { intros j Hj. destruct (Z.eqb_spec j 1) as [->|N].
      - etransitivity; [|exact IH]. apply Fpsi_ext; [lia|]. intros k [[Hk _] _]. unfold ind. cbn [kap].
        destruct (keqb k (kap n d)) eqn:E.
        + apply keqb_eq in E. subst k. now rewrite keqb_refl.
        + match goal with |- (if ?b then _ else _) = _ => destruct b eqn:E' end; [|reflexivity]. apply keqb_eq in E'. injection E' as E'. apply (map_pmul_inj n) in E'; try lia; auto.
          * subst k. now rewrite keqb_refl in E.
          * apply perm_rot; lia.
          * apply bpsi_kap. lia.
      - rewrite (Fpsi_ext n d _ (fun _ => 0 - 0)); [rewrite Fpsi_sub by lia; ring|lia|]. intros k Hk. unfold ind. destruct (keqb _ _) eqn:E; [|reflexivity].
        apply keqb_eq in E. cbn [kap] in E. injection E as E. apply (f_equal (hd [])) in E.
        rewrite !pmul_rot_head in E by (try lia; try apply Hk; apply bpsi_kap; lia). apply rot_inj in E; lia. }
    unfold RA. destruct (Nat.even (S d)).
    + rewrite (sumf_ext _ (fun j => if j =? 1 then 1 else 0)) by (intros j Hj; apply in_zrange in Hj; apply G; lia).
      rewrite (zrange_cons 0), (zrange_cons (0 + 1)) by lia. rewrite !sumf_cons. cbn [Z.eqb Z.add]. rewrite sumf_0; [reflexivity|].
      intros j Hj. apply in_zrange in Hj. destruct (Z.eqb_spec j 1); [lia|reflexivity].
    + rewrite !G by lia. reflexivity.
Qed.

(** ** the code *)
Lemma nonbad_bpsi n d k : bpsi n d k -> bbad k = bdup k.
Proof. intros [_ [k' ->]]. reflexivity. Qed.
Lemma kap_bdup n d : 2 <= n -> bdup (kap n d) = false.
Proof.
  intros Hn. induction d as [|d IH]; [reflexivity|]. cbn [kap].
  destruct (kap n d) as [|k0 k] eqn:Ek; [reflexivity|]. cbn [map]. rewrite bdup_cons2. apply orb_false_iff. split.
  - destruct (tup_eqb _ _) eqn:E; [|reflexivity]. apply tup_eqb_eq in E. exfalso. destruct (bpsi_kap n d ltac:(lia)) as [_ [k' Ek']]. rewrite Ek in Ek'.
    injection Ek' as -> _. rewrite (pmul_id_r n) in E by (try lia; apply perm_rot; lia). rewrite <- rot_0 in E. apply rot_inj in E; lia.
  - change (bdup (map (pmul (rot n 1)) (k0 :: k)) = false). rewrite (bdup_map n); [exact IH|lia|apply perm_rot; lia|]. rewrite <- Ek. apply bpsi_kap. lia.
Qed.
Lemma psi_nonzero n t d (y : bee) : 2 <= n -> 0 <= t -> t <> 1 -> den cls_be t tt (Fpsi n d) y -> data y <> [].
Proof.
  intros Hn Ht N1 Dy. apply (den_nonzero cls_be t tt _ y (ind (kap n d)) Dy).
  - apply (adm_ind cls_be ok_be). rewrite be_bad, (nonbad_bpsi n d) by (apply bpsi_kap; lia). now rewrite kap_bdup.
  - rewrite Fpsi_kap by exact Hn. intros [q Hq]. assert (t * q = 1) by lia. apply N1. destruct (Z.eq_mul_1 t q); lia.
Qed.
Lemma act_ma dt n t d (a : ring) F (y : bee) : 2 <= n -> 0 <= t -> t <> 1 -> dt_ok dt t ->
  den cls_ring t tt (fun g => RA n d (fun p => g (SGE p))) a -> keys_in (rpk n) a ->
  den cls_be t tt F y -> keys_in (be_simplex n) y -> data y <> [] ->
  returns (be_act dt a y) (den cls_be t tt (fun g => RA n d (fun p => ev (fun k => g (map (pmul p) k)) (data y)))).
Proof.
  intros Hn Ht N Hdt Da Ka Dy Ky Ny.
  assert (Na : data a <> []).
  { apply (den_nonzero cls_ring t tt _ a (fun k => if tup_eqb (kval k) (rot n 1) then 1 else 0) Da).
    - split; [|discriminate]. intros k k' E. cbn in E. apply tup_eqb_eq in E. now rewrite E.
    - cbn [kval SGE]. assert (E : forall j, 0 <= j < n -> (if tup_eqb (rot n j) (rot n 1) then 1 else 0) = if j =? 1 then 1 else 0).
      { intros j Hj. destruct (Z.eqb_spec j 1) as [->|Nj]; [now rewrite tup_refl|]. destruct (tup_eqb _ _) eqn:E; [|reflexivity]. apply tup_eqb_eq, rot_inj in E; lia. }
      assert (E1 : RA n d (fun p => if tup_eqb p (rot n 1) then 1 else 0) = 1).
      { unfold RA. destruct (Nat.even d).
        - rewrite (sumf_ext _ (fun j => if j =? 1 then 1 else 0)) by (intros j Hj; apply in_zrange in Hj; apply E; lia).
          rewrite (zrange_cons 0), (zrange_cons (0 + 1)) by lia. rewrite !sumf_cons. cbn [Z.eqb Z.add]. rewrite sumf_0; [reflexivity|].
          intros j Hj. apply in_zrange in Hj. destruct (Z.eqb_spec j 1); [lia|reflexivity].
        - rewrite !E by lia. reflexivity. }
      rewrite E1. intros [q Hq]. assert (t * q = 1) by lia. apply N. destruct (Z.eq_mul_1 t q); lia. }
  rewrite be_act_bact by now apply (rpk_sge n).
  eapply returns_mono; [apply (bact_den dt n t); auto; try lia; [exact (den_wf _ _ _ _ _ Ht Da)|exact (den_wf _ _ _ _ _ Ht Dy)|exact (proj1 Da)|exact (proj1 Dy)|now apply rpk_pk]|].
  intros z Hz. eapply den_ext; [|exact Hz]. intros g _. cbn beta. apply (den_ev _ _ _ _ _ (fun k2 => ev (fun k1 => PactB g k2 k1) (data y)) Da).
  split; [|discriminate]. intros k k' E. cbn in E. apply tup_eqb_eq in E. unfold PactB. now rewrite E.
Qed.
Lemma prepend_den dt n d F (z : bee) : 0 <= dt -> den cls_be dt tt F z -> keys_in (be_cell n d) z -> 0 <= d ->
  returns (be_new dt (map (fun kv => (idp n :: fst kv, snd kv)) (data z)) None) (den cls_be dt tt (fun g => ev (fun k => g (idp n :: k)) (data z))).
Proof.
  intros Ht Dz Kz Hd. unfold be_new.
  assert (KD : kdistinct (dkeys (map (fun kv => (idp n :: fst kv, snd kv)) (data z)))).
  { destruct Dz as (_ & _ & [Hk _] & _). unfold dkeys in *. rewrite map_map. cbn [fst].
    induction (data z) as [|[k v] l IH]; cbn [map fst kdistinct] in *; [exact I|]. destruct Hk as [H1 H2]. split.
    - intros k' Hin. apply in_map_iff in Hin. destruct Hin as ([k1 v1] & <- & Hin). destruct (keqb _ _) eqn:E; [|reflexivity]. apply keqb_eq in E. injection E as E.
      cbn in E. assert (In k (map fst l)) by (apply in_map_iff; exists (k1, v1); split; [now symmetry|exact Hin]). specialize (H1 _ H). now rewrite keqb_refl in H1.
    - now apply IH. }
  rewrite dict_of_id by exact KD. eapply returns_mono; [apply (new_den cls_be ok_be dt dt None tt); auto; intros; apply be_okey|].
  intros w Hw. eapply den_ext; [|exact Hw]. intros g _. cbn beta. apply eqm_eq. now rewrite ev_map_key.
Qed.
Lemma psi_ok dt n (T N : ring) : 2 <= n -> 0 <= dt -> dt <> 1 ->
  den cls_ring dt tt (fun g => RA n 1 (fun p => g (SGE p))) T -> keys_in (rpk n) T ->
  den cls_ring dt tt (fun g => RA n 2 (fun p => g (SGE p))) N -> keys_in (rpk n) N ->
  forall d, returns (be_psi dt N T n d) (fun y => den cls_be dt tt (Fpsi n d) y /\ keys_in (bpsi n d) y).
Proof.
  intros Hn Hdt N1 DT KT DN KN.
  assert (OK : dt_ok dt dt). { split; [exact Hdt|]. destruct (Z.eq_dec dt 0); [now left|right; split; [assumption|apply Z.divide_refl]]. }
  assert (KEYS : forall d y, den cls_be dt tt (Fpsi n d) y -> keys_in (bpsi n d) y).
  { intros d y Dy. apply (den_keys cls_be ok_be dt tt _ y (bpsi n d) Hdt (kpred_bpsi n d) Dy). intros g _ H0. apply eqm_eq.
    destruct (Fpsi_list n d ltac:(lia)) as (L & L1 & L2). rewrite L2. apply ev_zero. intros k v Hin. apply H0. eauto. }
  assert (G : forall d, returns (be_psi dt N T n d) (den cls_be dt tt (Fpsi n d))).
  { induction d as [|d IH]; cbn [be_psi].
    - unfold be_new. rewrite dict_of_id by (split; [intros ? []|exact I]). eapply returns_mono; [apply (new_den cls_be ok_be dt dt None tt); auto; [split; [intros ? []|exact I]|intros; apply be_okey]|].
      intros w Hw. eapply den_ext; [|exact Hw]. intros g _. cbn beta. apply eqm_eq. cbn [Fpsi]. rewrite ev_cons, ev_nil. ring.
    - eapply returns_bind; [exact IH|]. intros y Dy. pose proof (KEYS d y Dy) as Ky.
      assert (Ks : keys_in (be_simplex n) y) by (intros k v Hin; exact (proj1 (proj1 (Ky _ _ Hin)))).
      assert (Ny : data y <> []) by (eapply psi_nonzero; eauto).
      assert (DA : den cls_ring dt tt (fun g => RA n (S d) (fun p => g (SGE p))) (if Nat.even (S d) then N else T) /\ keys_in (rpk n) (if Nat.even (S d) then N else T)).
      { unfold RA in *. cbn [Nat.even] in DT, DN. destruct (Nat.even (S d)); split; assumption. }
      destruct DA as [DA KA]. eapply returns_bind; [exact (act_ma dt n dt (S d) _ _ y Hn Hdt N1 OK DA KA Dy Ks Ny)|].
      intros z Dz.
      assert (Kz : keys_in (be_cell n (Z.of_nat d)) z).
      { apply (den_keys cls_be ok_be dt tt _ z _ Hdt (kpred_bdeg n (Z.of_nat d)) Dz). intros g _ H0. apply eqm_eq.
        destruct (RA_list n (S d) ltac:(lia)) as (R & R1 & R2). rewrite R2. apply ev_zero. intros p v Hp. apply ev_zero. intros k v' Hk.
        apply H0. destruct (Ky _ _ Hk) as [[B1 B2] _]. split; [apply bsim_move; [lia|eauto|exact B1]|now rewrite zlen_map]. }
      eapply returns_mono; [apply (prepend_den dt n (Z.of_nat d) _ z Hdt Dz Kz); lia|].
      intros w Dw. eapply den_ext; [|exact Dw]. intros g Hg. cbn beta.
      destruct (RA_list n (S d) ltac:(lia)) as (R & R1 & R2).
      assert (Adm : admP cls_be (be_cell n (Z.of_nat d)) (fun k => g (idp n :: k))).
      { apply admP_keyeq. intros k [_ Lk] Hb. rewrite be_bad in Hb. injection Hb as Hb. apply Hg. rewrite be_bad. f_equal.
        destruct k as [|q k]; [rewrite zlen_nil in Lk; lia|]. cbn [bbad] in *. now apply bdup_tl. }
      rewrite (den_ev_on cls_be ok_be dt tt _ z (be_cell n (Z.of_nat d)) (fun k => g (idp n :: k))
        (flat_map (fun pv => map (fun kv => map (pmul (fst pv)) (fst kv)) (data y)) R) (kpred_bdeg n (Z.of_nat d)) Dz Kz Adm).
      + cbn [Fpsi]. rewrite !R2. apply ev_eqm. intros p v Hp.
        assert (Adm2 : admP cls_be (bpsi n d) (fun k => g (idp n :: map (pmul p) k))).
        { apply admP_keyeq. intros k Hk Hb. rewrite be_bad in Hb. injection Hb as Hb. rewrite (nonbad_bpsi n d) in Hb by exact Hk. apply Hg. rewrite be_bad. f_equal.
          cbn [bbad]. apply bdup_tl. rewrite (bdup_map n); [exact Hb|lia|eauto|apply Hk]. }
        destruct (Fpsi_list n d ltac:(lia)) as (L & L1 & L2).
        apply (den_ev_on cls_be ok_be dt tt _ y (bpsi n d) _ (dkeys L) (kpred_bpsi n d) Dy Ky Adm2).
        intros h Hh. apply eqm_eq. rewrite !L2. apply ev_ext. intros k v' Hin. apply Hh; [eauto|]. now apply (in_map fst) in Hin.
      + intros h Hh. apply eqm_eq. rewrite !R2. apply ev_ext. intros p v Hp. apply ev_ext. intros k v' Hk. apply Hh.
        * destruct (Ky _ _ Hk) as [[B1 B2] _]. split; [apply bsim_move; [lia|eauto|exact B1]|now rewrite zlen_map].
        * apply in_flat_map. exists (p, v). split; [exact Hp|]. apply in_map_iff. now exists (k, v'). }
  intros d. destruct (G d) as (y & Ey & Dy). exists y. split; [exact Ey|]. split; [exact Dy|]. now apply KEYS.
Qed.
