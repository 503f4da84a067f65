(** * Bocksteins of Steenrod operations.  Proof library for C86. *)
From Coq Require Import Setoid Morphisms Znumtheory Sorting.Sorted.
From Verif Require Import PyBase Dict FreeModule Symmetric Simplicial Utils Surjection BarrattEccles Eqm Spec SpecChain SpecOperad SpecSurj SpecAction SpecCochain FreeModuleFacts FreeModuleLaws ListFacts
  ClassFacts LinearFacts BilFacts SymmetricFacts CycleFacts SymmetricLaws RingFacts Tensor TensorAct KoszulFacts LoopFacts AW SimplicialFacts SimplicialDiag SimplicialLaws BEOrbit BEDiag MayFacts BELaws3 SurjFacts SurjBoundary SurjLaws SurjAct SurjMay
  SteenrodFacts SteenrodLaws ActFacts ActSign ActCore ActCode ActLaws EquivAct SteenrodAct StnLaws SteenrodWords SteenrodLin SteenrodClass.

(** ** words with one letter [1] *)
Definition uw (n : nat) (i : Z) : list (list Z) := repeat [0] (Z.to_nat i) ++ [1] :: repeat [0] (n - 1 - Z.to_nat i).
Lemma uw_0 n : uw (Datatypes.S n) 0 = [1] :: repeat [0] n.
Proof. unfold uw. change (Z.to_nat 0) with O. cbn [repeat app]. do 2 f_equal. lia. Qed.
Lemma uw_S n i : 0 <= i -> uw (Datatypes.S n) (i + 1) = [0] :: uw n i.
Proof. intros Hi. unfold uw. replace (Z.to_nat (i + 1)) with (Datatypes.S (Z.to_nat i)) by lia. cbn [repeat app]. do 4 f_equal. lia. Qed.
Lemma tD_zeros m h n : tD fbw (dgw m) h (repeat [0] n) = sumf (fun i => sgn (i * (1 - m)) * h (uw n i)) (zrange 0 (Z.of_nat n)).
Proof.
  revert h. induction n as [|n IH]; intros h; [reflexivity|]. cbn [repeat]. rewrite tD_cons, IH. rewrite Nat2Z.inj_succ, <- Z.add_1_r, sumf_zrange_S by lia.
  unfold fd. change (fbw [0]) with [([1], 1)]. rewrite ev_cons, ev_nil, uw_0, Z.mul_0_l, sgn_0. f_equal; [ring|]. rewrite <- sumf_scal. apply sumf_ext. intros i Hi. apply in_zrange in Hi.
  rewrite uw_S by lia. change (dgw m [0]) with (1 - m). replace ((i + 1) * (1 - m)) with ((1 - m) + i * (1 - m)) by ring. rewrite sgn_add. ring.
Qed.
Lemma rot_blocks n k : 0 <= k < n -> rot n k = zrange (k + 1) (n + 1) ++ zrange 1 (k + 1).
Proof.
  intros Hk. unfold rot. rewrite (zrange_app 1 (n - k + 1) (n + 1)) by lia. rewrite map_app. f_equal.
  - transitivity (map (fun i => i + k) (zrange 1 (n - k + 1))).
    + apply map_ext_in. intros i Hi. apply in_zrange in Hi. rewrite Z.mod_small by lia. ring.
    + rewrite <- Eqm.zrange_shift. f_equal; ring.
  - transitivity (map (fun i => i + (k - n)) (zrange (n - k + 1) (n + 1))).
    + apply map_ext_in. intros i Hi. apply in_zrange in Hi. replace (i - 1 + k) with (i - 1 + k - n + 1 * n) by ring. rewrite Z.mod_add, Z.mod_small by lia. ring.
    + rewrite <- Eqm.zrange_shift. f_equal; ring.
Qed.
Lemma map_const_repeat {A B} (b : B) (l : list A) : map (fun _ => b) l = repeat b (length l).
Proof. induction l as [|a l IH]; [reflexivity|]. cbn. now rewrite IH. Qed.
Lemma kinv_sorted f l : StronglySorted Z.lt l -> kinv l f = 0.
Proof.
  unfold kinv. induction 1 as [|a l _ IH Ha]; [reflexivity|]. cbn [pairsum]. rewrite IH, sumf_0; [reflexivity|]. intros b Hb. rewrite Forall_forall in Ha. specialize (Ha b Hb). destruct (Z.ltb_spec b a); [lia|reflexivity].
Qed.
Lemma kinv_rot f n k : 0 <= k < n -> kinv (rot n k) f = sumf f (zrange (k + 1) (n + 1)) * sumf f (zrange 1 (k + 1)).
Proof.
  intros Hk. rewrite rot_blocks by exact Hk. pose proof (kinv_sorted f _ (zrange_sorted (k + 1) (n + 1))) as E1. pose proof (kinv_sorted f _ (zrange_sorted 1 (k + 1))) as E2. unfold kinv in *. rewrite pairsum_app, E1, E2, !Z.add_0_l.
  rewrite <- sumf_scal_r. apply sumf_ext. intros a Ha. apply in_zrange in Ha. rewrite <- sumf_scal. apply sumf_ext. intros b Hb. apply in_zrange in Hb. destruct (Z.ltb_spec b a); [reflexivity|lia].
Qed.
Lemma w0_lab n k i : 0 <= k < Z.of_nat n -> 1 <= i <= Z.of_nat n -> lab (rot (Z.of_nat n) k) (uw n 0) i = if i =? k + 1 then [1] else [0].
Proof.
  intros Hk Hi. destruct n as [|n]; [lia|]. rewrite uw_0. set (N := Z.of_nat (Datatypes.S n)) in *. unfold lab.
  assert (Pr : perm N (rot N k)) by (apply perm_rot; lia). assert (E1 : image (rot N k) 1 = k + 1) by (rewrite image_rot by lia; rewrite Z.mod_small by lia; ring).
  destruct (Z.eqb_spec i (k + 1)) as [->|Ne].
  - rewrite <- E1, (posn_image N) by (auto; lia). reflexivity.
  - assert (Hin : In i (rot N k)) by (apply (Permutation_in _ (Permutation_sym Pr)); apply in_zrange; lia).
    destruct (posn_index _ _ Hin) as (_ & R & E). rewrite rot_len in R by lia. assert (posn (rot N k) i <> 1) by (intros P; rewrite P in E; congruence).
    unfold znth. replace (Z.to_nat (posn (rot N k) i - 1)) with (Datatypes.S (Z.to_nat (posn (rot N k) i - 2))) by lia. cbn [nth].
    assert (L : (Z.to_nat (posn (rot N k) i - 2) < n)%nat) by lia. revert L. generalize (Z.to_nat (posn (rot N k) i - 2)). clear. induction n as [|n IH]; intros [|j] L; try lia; [reflexivity|]. cbn [repeat nth]. apply IH. lia.
Qed.
Lemma w0_place n k : 0 <= k < Z.of_nat n -> placef (rot (Z.of_nat n) k) (uw n 0) = uw n k.
Proof.
  intros Hk. unfold placef. rewrite rot_len by lia. rewrite (zrange_app 1 (k + 1) (Z.of_nat n + 1)) by lia. rewrite (zrange_cons (k + 1)) by lia. rewrite map_app. cbn [map]. change (uw n k) with (repeat [0] (Z.to_nat k) ++ [1] :: repeat [0] (n - 1 - Z.to_nat k)). f_equal; [|f_equal].
  - transitivity (map (fun _ => [0]) (zrange 1 (k + 1))).
    + apply map_ext_in. intros i Hi. apply in_zrange in Hi. rewrite w0_lab by lia. destruct (Z.eqb_spec i (k + 1)); [lia|reflexivity].
    + rewrite map_const_repeat. f_equal. rewrite zrange_length. lia.
  - rewrite w0_lab by lia. now rewrite Z.eqb_refl.
  - transitivity (map (fun _ => [0]) (zrange (k + 1 + 1) (Z.of_nat n + 1))).
    + apply map_ext_in. intros i Hi. apply in_zrange in Hi. rewrite w0_lab by lia. destruct (Z.eqb_spec i (k + 1)); [lia|reflexivity].
    + rewrite map_const_repeat. f_equal. rewrite zrange_length. lia.
Qed.
Lemma sumf_delta (a c : Z) l x : NoDup l -> sumf (fun i => a + (if i =? x then c else 0)) l = a * zlen l + (if in_dec Z.eq_dec x l then c else 0).
Proof.
  induction l as [|b l IH]; intros ND; [rewrite sumf_nil; change (zlen []) with 0; cbn; ring|]. inversion ND as [|? ? Nb ND']; subst. rewrite sumf_cons, IH, zlen_cons by exact ND'.
  destruct (Z.eqb_spec b x) as [->|Ne]; destruct (in_dec Z.eq_dec x l); destruct (in_dec Z.eq_dec x (_ :: l)) as [I|I]; try ring; try contradiction; exfalso; try (apply I; cbn; tauto); destruct I; auto.
Qed.
(** the Koszul sign of the rotation that moves the letter [1] to place [k] *)
Lemma w0_sign m n k : 0 <= k < Z.of_nat n -> Z.even (Z.of_nat n) = false ->
  sgn (kinv (rot (Z.of_nat n) k) (fun i => dgw m (lab (rot (Z.of_nat n) k) (uw n 0) i))) = sgn (k * (1 - m)).
Proof.
  intros Hk Ho. rewrite (kinv_ext _ _ (fun i => (1 - m) + (if i =? k + 1 then -1 else 0))).
  2:{ intros i Hi. assert (Hi' : In i (zrange 1 (Z.of_nat n + 1))) by (apply (Permutation_in _ (perm_rot (Z.of_nat n) k ltac:(lia))); exact Hi). apply in_zrange in Hi'. rewrite w0_lab by lia. destruct (i =? k + 1); unfold dgw, isu; ring. }
  rewrite kinv_rot by exact Hk. rewrite !sumf_delta by apply NoDup_zrange. rewrite !zlen_zrange, !Z.max_r by lia.
  destruct (in_dec Z.eq_dec (k + 1) (zrange (k + 1) (Z.of_nat n + 1))) as [I|I]; [|exfalso; apply I, in_zrange; lia].
  destruct (in_dec Z.eq_dec (k + 1) (zrange 1 (k + 1))) as [I2|I2]; [apply in_zrange in I2; lia|]. apply sgn_eqm.
  set (N := Z.of_nat n) in *. assert (E : exists h, N = 2 * h + 1) by (destruct (Z.Even_or_Odd N) as [[h Eh]|[h Eh]]; [rewrite Eh, Z.even_mul in Ho; discriminate|now exists h]). destruct E as [h Eh].
  destruct (Z.Even_or_Odd k) as [[j Ej]|[j Ej]].
  - exists (((1 - m) * (N + 1 - (k + 1)) + -1) * (1 - m) * j - j * (1 - m)). rewrite Ej. ring.
  - exists ((((1 - m) * (h - j) - 1) * ((1 - m) * k))). rewrite Ej, Eh. ring.
Qed.
Section Bock.
Variables (p e m : Z) (X : list Z -> Prop) (alpha : list Z -> Z) (C C' c : simp).
Hypothesis Hp : prime p.
Hypothesis Hm : 0 <= m.
Hypothesis HX : simplicial_set X.
Hypothesis Ha : cocycle p m X alpha.
Hypothesis WC : wf cls_simplicial C.
Hypothesis TC : torsion C = 0.
Hypothesis KC : keys_in (fun k => exists s, k = [s] /\ X s /\ zlen s - 1 = e) C.
Hypothesis WC' : wf cls_simplicial C'.
Hypothesis TC' : torsion C' = 0.
Hypothesis KC' : keys_in (fun k => exists s, k = [s] /\ X s /\ zlen s - 1 = e - 1) C'.
Hypothesis HB : same (simp_boundary 0 C) (scale 0 cls_simplicial p C').
Hypothesis Ec : set_torsion cls_simplicial C p = Ok c.
Lemma Hp1 : 2 <= p.
Proof. exact (proj1 (prime_two_odd p Hp)). Qed.
Lemma Hp2 : p = 2 \/ Z.even p = false.
Proof. destruct (prime_two_odd p Hp) as [_ [?|[_ ?]]]; auto. Qed.

Lemma kd_of {n} (x : simp) : keys_in (fun k => exists s, k = [s] /\ X s /\ zlen s - 1 = n) x -> keys_in (kdegS 1 n) x.
Proof. intros Kx K v Hk. destruct (Kx _ _ Hk) as (s & -> & _ & Es). split; [reflexivity|]. rewrite tdeg_cons. change (tdeg spx_dim []) with 0. unfold spx_dim. lia. Qed.
Lemma resp_any (H : list (list Z) -> Z) : resp H.
Proof. intros k k' E. apply keqb_eq in E. now rewrite E. Qed.
Lemma bd_ev H : admP cls_simplicial (kdegS 1 (e - 1)) H -> ev (fun K => tDS H K) (data C) = p * ev H (data C').
Proof.
  intros AH.
  destruct (linop_bnd cls_simplicial sck fbS spx_dim 0 (simp_boundary 0) (fun t x => simp_boundary_den 0 t x) 0 _ _ ltac:(pose proof Hp1; lia) ltac:(split; [lia|now left]) (kpred_kdegS _ _) (tb_kdeg fbS spx_dim dim_fbS 1 e) C WC TC (s_attr' C) (kd_of C KC)) as (B & EB & DB & KB).
  pose proof (den_self cls_simplicial C' WC') as DC'. rewrite TC' in DC'.
  destruct (scale_den cls_simplicial ok_simplicial 0 0 ltac:(pose proof Hp1; lia) ltac:(split; [lia|now left]) _ _ p C' DC') as (D & ED & DD).
  destruct HB as (B2 & D2 & EB2 & ED2 & EQ & _). rewrite EB in EB2. injection EB2 as <-. rewrite ED in ED2. injection ED2 as <-.
  assert (KD : keys_in (kdegS 1 (e - 1)) D).
  { apply (den_keys cls_simplicial ok_simplicial 0 _ _ D _ ltac:(pose proof Hp1; lia) (kpred_kdegS _ _) DD). intros g _ H0. apply eqm_eq. rewrite ev_zero; [ring|]. intros K v HK. apply H0. exact (kd_of C' KC' K v HK). }
  assert (E0 : ev H (data B) = ev H (data D)).
  { apply dict_eqb_ev; [apply resp_any|apply DB|apply DD|exact EQ]. }
  pose proof (rep_tD fbS spx_dim (kdegS 1 e) (kdegS 1 (e - 1)) (tb_kdeg fbS spx_dim dim_fbS 1 e)) as R.
  destruct (local_list _ _ _ (data C) (rep_local _ _ _ R) (kd_of C KC)) as (l & Hl1 & Hl2).
  pose proof (den_ev_on cls_simplicial ok_simplicial 0 tt _ B (kdegS 1 (e - 1)) H l (kpred_kdegS _ _) DB KB AH) as E1.
  pose proof (den_ev_on cls_simplicial ok_simplicial 0 _ _ D (kdegS 1 (e - 1)) H (dkeys (data C')) (kpred_kdegS _ _) DD KD AH) as E2.
  assert (F1 : ev H (data B) = ev (fun K => tDS H K) (data C)).
  { apply eqm_0. apply E1. intros h Hh. apply eqm_eq. apply Hl2. intros k' Hk'. apply Hh; auto. }
  assert (F2 : ev H (data D) = p * ev H (data C')).
  { apply eqm_0. apply E2. intros h Hh. apply eqm_eq. f_equal. apply ev_ext. intros K v HK. apply Hh; [exact (kd_of C' KC' K v HK)|]. now apply (in_map fst) in HK. }
  transitivity (ev H (data B)); [now symmetry|]. transitivity (ev H (data D)); [exact E0|exact F2].
Qed.
Lemma QZ_step d G : adm cls_simplicial G ->
  QQ p C d (tDS G) = FpS MS p d (sd MS (fun k => ev (fun K => Phi p 1 G k K) (data C))) + sgn (Z.of_nat d) * (p * QQ p C' d G).
Proof.
  intros AG. unfold QQ. destruct (FpS_list MS p d ltac:(pose proof Hp1; lia)) as (T & T1 & T2). rewrite !T2. rewrite <- !ev_scal, <- ev_add. apply ev_ext. intros k v Hk. destruct (T1 _ _ Hk) as [Ck _].
  destruct (rep_sd MS _ _ (sface_cell p (Z.of_nat d)) k Ck) as (L & L1 & L2). rewrite L2.
  rewrite (ev_ext _ (fun K => ev (fun k' => Phi p 1 G k' K) L + sgn (Z.of_nat d) * tDS (fun K' => Phi p 1 G k K') K)).
  - rewrite ev_add, ev_scal. rewrite (ev_exch (fun K k' => Phi p 1 G k' K)). f_equal. f_equal. destruct (adj k) eqn:Ak.
    + rewrite (ev_zero (fun K => Phi p 1 G k K)) by (intros K v' _; now apply (Bd p Hp1 G k (Z.of_nat d))). rewrite Z.mul_0_r. apply ev_zero. intros K v' _. rewrite (tD_ext_all fbS spx_dim _ (fun _ => 0 * 0)) by (intros; now rewrite (Bd p Hp1 G k (Z.of_nat d))). rewrite tD_scal. ring.
    + apply (bd_ev (fun K => Phi p 1 G k K)). destruct (adm_Phi p (Z.of_nat d) 1 (e - 1) 1 ltac:(pose proof Hp1; lia) G (adm_admP _ _ _ AG)) as [_ B]. apply B; [exact Ck|].
      change (bad cls_surj k) with (surj_bad k). rewrite (surj_bad_onto p) by (try (pose proof Hp1; lia); apply Ck). now rewrite Ak.
  - intros K v' HK. destruct (key_c e X C WC KC _ _ HK) as (s & -> & Xs & Ns & _). rewrite <- L2. apply (Phi_chain p (Z.of_nat d) 1 G k [] s []); auto; pose proof Hp1; lia.
Qed.
Lemma QZ_0 G : adm cls_simplicial G -> QQ p C 0 (tDS G) = p * QQ p C' 0 G.
Proof.
  intros AG. rewrite QZ_step by exact AG. change (sgn (Z.of_nat 0)) with 1. rewrite Z.mul_1_l. rewrite <- (Z.add_0_l (p * _)) at 2. f_equal. destruct (FpS_list MS p 0 ltac:(pose proof Hp1; lia)) as (T & T1 & T2). rewrite T2. apply ev_zero. intros k v Hk. destruct (T1 _ _ Hk) as [Ck _].
  destruct (rep_sd MS _ _ (sface_cell p (Z.of_nat 0)) k Ck) as (L & L1 & L2). rewrite L2. apply ev_zero. intros k' v' Hk'. exfalso. destruct (L1 _ _ Hk') as [Ho Lk]. apply (onto_long p) in Ho; pose proof Hp1; lia.
Qed.
Lemma QZ_chain d G : adm cls_simplicial G ->
  QQ p C (Datatypes.S d) (tDS G) = RA p (Datatypes.S d) (fun r => QQ p C d (fun K => kact spx_dim G r K)) + sgn (Z.of_nat (Datatypes.S d)) * (p * QQ p C' (Datatypes.S d) G).
Proof.
  intros AG. rewrite QZ_step by exact AG. f_equal. rewrite FpS_boundary; [|pose proof Hp1; lia|].
  - apply RA_ext; [pose proof Hp1; lia|]. intros r Hr. apply FpS_ext; [pose proof Hp1; lia|]. intros k [Ck _]. rewrite <- ev_scal. apply ev_ext. intros K v HK. destruct (key_c e X C WC KC _ _ HK) as (s & -> & _). apply Phi_equiv; [pose proof Hp1; lia|exact Hr|apply Ck].
  - intros k Ck Ak. apply ev_zero. intros K v _. now apply (Bd p Hp1 G k (Z.of_nat d)).
Qed.
(** reduction modulo p *)
Lemma red_den : den cls_simplicial p (attr C) (fun g => ev g (data C)) c.
Proof. destruct (set_torsion_den cls_simplicial C p WC ltac:(pose proof Hp1; lia)) as (y & Ey & Dy). rewrite Ec in Ey. injection Ey as <-. exact Dy. Qed.
Lemma red_keys : keys_in (fun k => exists s, k = [s] /\ X s /\ zlen s - 1 = e) c.
Proof.
  assert (K : keys_in (fun k => In k (dkeys (data C))) c).
  { apply (den_keys cls_simplicial ok_simplicial p _ _ c _ ltac:(pose proof Hp1; lia)) with (2 := red_den).
    - apply kpred_eq. intros k. destruct (in_dec (list_eq_dec (list_eq_dec Z.eq_dec)) k (dkeys (data C))); auto.
    - intros g _ H0. apply eqm_eq. apply ev_zero. intros k v Hk. apply H0. now apply (in_map fst) in Hk. }
  intros k v Hk. apply K in Hk. apply in_map_iff in Hk. destruct Hk as ([k' v'] & <- & Hk). exact (KC _ _ Hk).
Qed.
Lemma QQ_red d G : adm cls_simplicial G -> eqm p (QQ p c d G) (QQ p C d G).
Proof.
  intros AG. unfold QQ. destruct (FpS_list MS p d ltac:(pose proof Hp1; lia)) as (T & T1 & T2). rewrite !T2. apply ev_eqm. intros k v Hk. destruct (T1 _ _ Hk) as [Ck _].
  destruct (adj k) eqn:Ak; [apply eqm_eq; rewrite !ev_zero; [reflexivity| |]; intros K v' _; now apply (Bd p Hp1 G k (Z.of_nat d))|].
  destruct (adm_Phi p (Z.of_nat d) 1 e 1 ltac:(pose proof Hp1; lia) G (adm_admP _ _ _ AG)) as [_ B].
  apply (den_ev_on cls_simplicial ok_simplicial p _ _ c (kdegS 1 e) (fun K => Phi p 1 G k K) (dkeys (data C)) (kpred_kdegS _ _) red_den (kd_of c red_keys)).
  - apply B; [exact Ck|]. change (bad cls_surj k) with (surj_bad k). rewrite (surj_bad_onto p) by (try (pose proof Hp1; lia); apply Ck). now rewrite Ak.
  - intros h Hh. apply eqm_eq. apply ev_ext. intros K v' HK. apply Hh; [exact (kd_of C KC K v' HK)|]. now apply (in_map fst) in HK.
Qed.
(** ** the coboundary of the cochain, divided by p *)
Definition bet (s : list Z) : Z := fdS alpha s / p.
Definition val (l b : list Z) : Z := if isu l then alpha b else bet b.
Lemma bet_X s : X s -> fdS alpha s = p * bet s.
Proof.
  intros Xs. destruct (alpha_cocycle p m X alpha Ha ltac:(pose proof Hp1; lia) s Xs) as [z Ez]. rewrite Z.sub_0_r in Ez. unfold bet. rewrite Ez. rewrite Z.div_mul by (pose proof Hp1; lia). ring.
Qed.
Lemma val_deg l b : spx_is_degenerate b = true -> val l b = 0.
Proof.
  intros D. unfold val. destruct (isu l); [now apply (alpha_deg p m X alpha Hm Ha)|]. unfold bet. rewrite fdS_bad; [apply Z.div_0_l; pose proof Hp1; lia| |exact D]. apply (alpha_deg p m X alpha Hm Ha).
Qed.
Lemma val_dim l b : eqm 2 (dgw (m + 1) l) (spx_dim b) \/ val l b = 0.
Proof.
  unfold val, dgw. destruct (isu l).
  - destruct (Z.eq_dec (spx_dim b) m) as [->|N]; [left; exists (- m); ring|]. right. apply (proj2 (proj1 Ha)). exact N.
  - destruct (Z.eq_dec (spx_dim b) (m + 1)) as [->|N]; [left; exists (- m - 1); ring|]. right. unfold bet. replace (fdS alpha b) with 0; [apply Z.div_0_l; pose proof Hp1; lia|]. symmetry. apply ev_zero. intros b' v Hb. apply (proj2 (proj1 Ha)). apply dim_fbS in Hb. unfold spx_dim in *. lia.
Qed.
Lemma bet_fd s : X s -> eqm p (fdS bet s) 0.
Proof.
  intros Xs. apply eqm_eq. destruct (Z.eq_dec (zlen s) (m + 3)) as [L|L].
  - apply (Z.mul_reg_l _ _ p); [pose proof Hp1; lia|]. rewrite Z.mul_0_r. rewrite <- (fdS_fdS alpha s). unfold fd at 1 2. rewrite <- ev_scal. apply ev_ext. intros b v Hb. symmetry. apply bet_X.
    unfold fbS in Hb. apply in_map_iff in Hb. destruct Hb as ([[l1 a] l2] & [= <- <-] & Hin). apply splits_in in Hin. subst s. apply (proj1 HX l1 a l2 Xs). intros E. apply app_eq_nil in E. destruct E as [-> ->]. change (zlen ([] ++ [a])) with 1 in L. lia.
  - apply ev_zero. intros b v Hb. unfold bet. replace (fdS alpha b) with 0; [apply Z.div_0_l; pose proof Hp1; lia|]. symmetry. apply ev_zero. intros b' v' Hb'. apply (proj2 (proj1 Ha)). apply dim_fbS in Hb, Hb'. unfold spx_dim in *. lia.
Qed.
Lemma val_fd l s : X s -> eqm p (fdS (val l) s) 0.
Proof. intros Xs. unfold val. destruct (isu l); [exact (alpha_cocycle p m X alpha Ha ltac:(pose proof Hp1; lia) s Xs)|exact (bet_fd s Xs)]. Qed.
Lemma tau_val_adm w : adm cls_simplicial (fun K => tau val w K).
Proof.
  split; [intros k k' E; apply keqb_eq in E; now rewrite E|]. intros K Hk. injection Hk as Hk. revert K Hk. induction w as [|l w IH]; intros [|b K] Hk; try reflexivity; [discriminate|].
  cbn [existsb] in Hk. cbn [tau]. apply orb_true_iff in Hk. destruct Hk as [Hk|Hk]; [rewrite val_deg by assumption; ring|]. rewrite IH by exact Hk. ring.
Qed.
Lemma tau_val_d w : forall K, (forall b, In b K -> X b) -> eqm p (tDS (fun K' => tau val w K') K) 0.
Proof.
  induction w as [|l w IH]; intros [|b K] HK; [reflexivity| |reflexivity|].
  - apply eqm_eq. rewrite tD_cons. rewrite (fd_ext_all fbS _ (fun b' => 0 * 0)) by reflexivity. rewrite fd_scal. rewrite (tD_ext_all fbS spx_dim _ (fun _ => 0 * 0)) by reflexivity. rewrite tD_scal. ring.
  - rewrite tD_cons. rewrite (fd_ext_all fbS _ (fun b' => tau val w K * val l b')) by (intros; cbn [tau]; ring). rewrite fd_scal, (val_fd l) by (apply HK; now left).
    rewrite (tD_ext_all fbS spx_dim _ (fun k' => val l b * tau val w k')) by reflexivity. rewrite tD_scal, IH by (intros; apply HK; now right). apply eqm_eq. ring.
Qed.
Lemma tau_zeros n : forall K, (forall b, In b K -> X b) -> tau (bval alpha) (repeat [0] n) K = tau val (repeat [0] n) K.
Proof. induction n as [|n IH]; intros [|b K] HK; try reflexivity. cbn [repeat tau]. rewrite IH by (intros; apply HK; now right). reflexivity. Qed.
Lemma tau_uw j n : forall K, (forall b, In b K -> X b) -> tau (bval alpha) (repeat [0] j ++ [1] :: repeat [0] n) K = p * tau val (repeat [0] j ++ [1] :: repeat [0] n) K.
Proof.
  induction j as [|j IH]; intros [|b K] HK; cbn [repeat app tau]; try ring.
  - rewrite tau_zeros by (intros; apply HK; now right). change (bval alpha [1] b) with (fdS alpha b). change (val [1] b) with (bet b). rewrite bet_X by (apply HK; now left). ring.
  - rewrite IH by (intros; apply HK; now right). change (bval alpha [0] b) with (val [0] b). ring.
Qed.
Definition Gr (K : list (list Z)) : Z := sumf (fun i => sgn (i * (1 - (m + 1))) * tau val (uw (Z.to_nat p) i) K) (zrange 0 p).
Lemma tDS_G K : zlen K = p -> (forall b, In b K -> X b) -> tDS (on_tensor alpha) K = p * Gr K.
Proof.
  intros LK HK. pose proof Hp1 as HP.
  assert (Hv : forall l b, eqm 2 (dgw (m + 1) l) (spx_dim b) \/ bval alpha l b = 0) by (apply (bval_dim (m + 1) alpha); replace (m + 1 - 1) with m by ring; apply Ha).
  transitivity (tDS (fun K' => tau (bval alpha) (repeat [0] (Z.to_nat p)) K') K).
  { apply tD_ext. intros K' v HK'. symmetry. apply tau_on; [intros l Hl b; apply repeat_spec in Hl; subst l; reflexivity|]. rewrite repeat_length. destruct (tb_kdeg fbS spx_dim dim_fbS p (tdeg spx_dim K) K K' v (conj LK eq_refl) HK') as [L' _]. unfold zlen in *. lia. }
  rewrite (tau_tD (bval alpha) fbw (dgw (m + 1)) Hv); [|rewrite repeat_length; unfold zlen in LK; lia|].
  - rewrite tD_zeros, Z2Nat.id by lia. unfold Gr. rewrite <- sumf_scal. apply sumf_ext. intros i _. unfold uw. rewrite tau_uw by exact HK. ring.
  - intros l b Hl. apply repeat_spec in Hl. subst l. apply bval_d. now left.
Qed.
Lemma QQ_extX d G G' : (forall K, zlen K = p -> (forall b, In b K -> X b) -> G K = G' K) -> QQ p C d G = QQ p C d G'.
Proof.
  intros E. unfold QQ. destruct (FpS_list MS p d ltac:(pose proof Hp1; lia)) as (T & T1 & T2). rewrite !T2. apply ev_ext. intros k v Hk. destruct (T1 _ _ Hk) as [Ck _].
  apply ev_ext. intros K v' HK. destruct (key_c e X C WC KC _ _ HK) as (s & -> & Xs & Ns & _). unfold Phi. apply ev_ext. intros w v'' Hw. apply E.
  - apply (Phi_len p ltac:(pose proof Hp1; lia) Hp1 (Z.of_nat d) k s w v'' Ck Hw).
  - apply (X_acts X p _ k s w v'' HX ltac:(pose proof Hp1; lia) (proj1 Ck) Ns Xs Hw).
Qed.
Definition av (d : nat) (w : list (list Z)) : Z := QQ p C d (fun K => tau val w K).
Notation N := (Z.to_nat p).
Notation dgm := (dgw (m + 1)).
Lemma pinv_rot' j : pinv (rot p j) = rot p (- j).
Proof. apply pinv_rot, Hp1. Qed.
Lemma av_RA d w : zlen w = p -> eqm p (RA p (Datatypes.S d) (fun r => kact dgm (av d) (pinv r) w)) 0.
Proof.
  intros Lw. pose proof Hp1 as HP. pose proof (QZ_chain d _ (tau_val_adm w)) as E.
  assert (E0 : eqm p (QQ p C (Datatypes.S d) (tDS (fun K => tau val w K))) 0).
  { rewrite (QQ_eqm p e X C HP HX WC KC _ _ (fun _ => 0 * 0)); [rewrite (QQ_scal p e X C HP WC KC); apply eqm_eq; ring|]. intros K _ HK. now apply tau_val_d. }
  pose proof (eq_ind _ (fun x => eqm p x 0) E0 _ E) as E1. cbn beta in E1. transitivity (RA p (Datatypes.S d) (fun r => QQ p C d (fun K => kact spx_dim (fun K' => tau val w K') r K))).
  - apply eqm_eq. apply RA_ext; [lia|]. intros r Hr. symmetry. exact (kact_QQ p e X C HP WC KC d val dgm r w val_dim Hr Lw).
  - etransitivity; [|exact E1]. match goal with |- eqm p ?a (?b + ?s * (p * ?q)) => change (eqm p a (a + s * (p * q))); exists (- (s * q)) end. ring.
Qed.
Lemma flip_sum (f : list Z -> Z) : sumf (fun j => f (rot p (- j))) (zrange 0 p) = sumf (fun j => f (rot p j)) (zrange 0 p).
Proof.
  pose proof Hp1 as HP. transitivity (sumf (fun j => f (rot p j)) (map (fun j => (- j) mod p) (zrange 0 p))).
  - rewrite sumf_map. apply sumf_ext. intros j Hj. apply in_zrange in Hj. f_equal. destruct (Z.eq_dec j 0) as [->|Ne]; [rewrite Z.mod_0_l by lia; reflexivity|].
    replace ((- j) mod p) with (- j + p) by (apply Z.mod_unique with (-1); lia). symmetry. apply rot_period. lia.
  - apply sumf_perm. apply NoDup_Permutation.
    + apply NoDup_map_inj; [|apply NoDup_zrange]. intros x y Hx Hy E. apply in_zrange in Hx, Hy. assert (E2 : (x - y) mod p = 0) by (replace (x - y) with (- y - - x) by ring; rewrite Zminus_mod, E, Z.sub_diag; apply Z.mod_0_l; lia).
      apply Z.mod_divide in E2; [|lia]. destruct E2 as [z Ez]. assert (z = 0) by (destruct (Z.lt_trichotomy z 0) as [?|[?|?]]; nia). subst z. lia.
    + apply NoDup_zrange.
    + intros x. rewrite in_map_iff. split.
      * intros (y & <- & _). apply in_zrange. apply Z.mod_pos_bound. lia.
      * intros Hx. apply in_zrange in Hx. exists ((- x) mod p). split; [|apply in_zrange; apply Z.mod_pos_bound; lia]. rewrite <- (Z.sub_0_l ((- x) mod p)), Zminus_mod_idemp_r. replace (0 - - x) with x by ring. apply Z.mod_small. lia.
Qed.
Lemma av_sum d w : zlen w = p -> eqm p (sumf (fun j => kact dgm (av d) (rot p j) w) (zrange 0 p)) 0.
Proof.
  intros Lw. pose proof Hp1 as HP. destruct (Nat.even (Datatypes.S d)) eqn:Ed.
  - pose proof (av_RA d w Lw) as E. unfold RA in E. rewrite Ed in E. rewrite <- (flip_sum (fun r => kact dgm (av d) r w)). rewrite <- E at 2. apply eqm_eq. apply sumf_ext. intros j _. now rewrite pinv_rot'.
  - assert (St : forall v, zlen v = p -> eqm p (kact dgm (av d) (rot p (-1)) v) (kact dgm (av d) (rot p 0) v)).
    { intros v Lv. pose proof (av_RA d v Lv) as E. unfold RA in E. rewrite Ed, !pinv_rot' in E. change (- (0)) with 0 in E. change (Z.opp 1) with (-1) in E. destruct E as [z E]. exists z. rewrite <- E. ring. }
    assert (It : forall j : nat, eqm p (kact dgm (av d) (rot p (- Z.of_nat j)) w) (kact dgm (av d) (rot p 0) w)).
    { induction j as [|j IH]; [reflexivity|]. rewrite <- IH. rewrite Nat2Z.inj_succ. replace (- Z.succ (Z.of_nat j)) with (-1 + - Z.of_nat j) by lia.
      rewrite <- rot_add by lia. rewrite <- (kact_pmul dgm p) by (try apply perm_rot; lia). unfold kact at 1. rewrite St by (apply (placef_len p); [lia|apply perm_rot; lia]).
      change (eqm p (kact dgm (fun u => kact dgm (av d) (rot p 0) u) (rot p (- Z.of_nat j)) w) (kact dgm (av d) (rot p (- Z.of_nat j)) w)). rewrite (kact_pmul dgm p) by (try apply perm_rot; lia). rewrite rot_add by lia. reflexivity. }
    rewrite (sumf_eqm p _ (fun _ => kact dgm (av d) (rot p 0) w * 1)).
    + rewrite sumf_scal, sumf_1, zlen_zrange. exists (kact dgm (av d) (rot p 0) w). rewrite Z.max_r by lia. ring.
    + intros j Hj. apply in_zrange in Hj. replace j with (- Z.of_nat (Z.to_nat (p - j)) + p) by lia. rewrite rot_period by lia. rewrite It. apply eqm_eq. ring.
Qed.
Lemma uw_len i : 0 <= i < p -> zlen (uw N i) = p.
Proof. intros Hi. unfold uw, zlen. rewrite app_length. cbn [length]. rewrite !repeat_length. lia. Qed.
Lemma QQ_Gr d : eqm p (QQ p C d Gr) 0.
Proof.
  pose proof Hp1 as HP. unfold Gr. rewrite (QQ_sumf p e X C HP WC KC d (fun i K => sgn (i * (1 - (m + 1))) * tau val (uw N i) K)).
  etransitivity; [|exact (av_sum d (uw N 0) (uw_len 0 ltac:(lia)))]. apply sumf_eqm. intros k Hk. apply in_zrange in Hk. rewrite (QQ_scal p e X C HP WC KC). change (QQ p C d (fun K => tau val (uw N k) K)) with (av d (uw N k)). unfold kact.
  pose proof (w0_place N k) as Ep. rewrite Z2Nat.id in Ep by lia. rewrite Ep by lia. destruct Hp2 as [E2|Ho].
  - assert (S2 : forall x, eqm p (sgn x) 1) by (intros x; rewrite E2; apply sgn_eqm2). rewrite !S2. reflexivity.
  - pose proof (w0_sign (m + 1) N k) as Es. rewrite Z2Nat.id in Es by lia. rewrite Es by (auto; lia). reflexivity.
Qed.
(** ** rotations of the tensor power, exactly *)
Lemma kact_G j K : 0 <= j -> zlen K = p -> kact spx_dim (on_tensor alpha) (rot p j) K = sgn (m * m * inversions (rot p j)) * on_tensor alpha K.
Proof.
  intros Hj LK. pose proof Hp1 as HP. unfold kact. assert (Pr : perm p (rot p j)) by (apply perm_rot; lia). rewrite (on_perm alpha _ K (placef_perm p (rot p j) K ltac:(lia) Pr LK)).
  destruct (Z.eq_dec (on_tensor alpha K) 0) as [->|NZ]; [ring|]. f_equal. rewrite <- kinv_const. apply sgn_eqm, kinv_eqm. intros i Hi. apply eqm_eq.
  destruct (Z.eq_dec (spx_dim (lab (rot p j) K i)) m) as [E|Ne]; [exact E|]. exfalso. apply NZ. apply (on_dim p m X alpha Ha (lab (rot p j) K i)); [|exact Ne].
  unfold lab, znth. apply nth_In. destruct (posn_index _ _ Hi) as (_ & R & _). rewrite (perm_len p) in R by (assumption || lia). unfold zlen in *. lia.
Qed.
Lemma rot_sgn_odd j : 0 <= j -> Z.even p = false -> sgn (m * m * inversions (rot p j)) = 1.
Proof.
  intros Hj Ho. pose proof Hp1. pose proof (psgn_rot p j ltac:(lia) Ho Hj) as E. unfold psgn in E.
  destruct (Z.even m) eqn:Em; [rewrite <- Z.mul_assoc; now rewrite sgn_mul_even|]. rewrite <- E. apply sgn_eqm.
  destruct (Z.Even_or_Odd m) as [[q Eq]|[q Eq]]; [rewrite Eq, Z.even_mul in Em; discriminate|]. exists ((2 * q * q + 2 * q) * inversions (rot p j)). rewrite Eq. ring.
Qed.
Lemma adm_G : adm cls_simplicial (on_tensor alpha).
Proof. exact (adm_on p m X alpha Hm Ha). Qed.
Lemma QQ_kact d j : 0 <= j -> QQ p C d (fun K => kact spx_dim (on_tensor alpha) (rot p j) K) = sgn (m * m * inversions (rot p j)) * QQ p C d (on_tensor alpha).
Proof. intros Hj. rewrite <- (QQ_scal p e X C Hp1 WC KC). apply (QQ_ext p e X C Hp1 WC KC). intros K LK. now apply kact_G. Qed.
Lemma QQ_dG d : QQ p C d (tDS (on_tensor alpha)) = p * QQ p C d Gr.
Proof. rewrite <- (QQ_scal p e X C Hp1 WC KC). apply QQ_extX. intros K LK HK. now apply tDS_G. Qed.
Lemma bock_0 : eqm p (QQ p C' 0 (on_tensor alpha)) 0.
Proof.
  pose proof (QZ_0 _ adm_G) as E. rewrite QQ_dG in E. apply Z.mul_reg_l in E; [|pose proof Hp1; lia]. rewrite <- E. apply QQ_Gr.
Qed.
Lemma bock_A d : (if p =? 2 then Z.even (Z.of_nat d) = negb (Z.even m) else Z.even (Z.of_nat d) = false) ->
  eqm p (QQ p C d (on_tensor alpha) + QQ p C' (Datatypes.S d) (on_tensor alpha)) 0.
Proof.
  intros Hd. pose proof Hp1 as HP. pose proof (QZ_chain d _ adm_G) as E. rewrite QQ_dG in E.
  assert (R : RA p (Datatypes.S d) (fun r => QQ p C d (fun K => kact spx_dim (on_tensor alpha) r K)) = p * (sgn (Z.of_nat (Datatypes.S d)) * QQ p C d (on_tensor alpha))).
  { unfold RA. unfold sgn at 1. rewrite even_of_nat. rewrite even_of_nat in Hd. rewrite Nat.even_succ, <- Nat.negb_even. destruct (Z.eqb_spec p 2) as [E2|N2].
    - rewrite Hd. destruct (Z.even m) eqn:Em; cbn [negb].
      + rewrite (sumf_ext _ (fun _ => QQ p C d (on_tensor alpha) * 1)); [rewrite sumf_scal, sumf_1, zlen_zrange, Z.max_r by lia; ring|].
        intros j Hj. apply in_zrange in Hj. rewrite QQ_kact by lia. rewrite <- Z.mul_assoc, sgn_mul_even by exact Em. ring.
      + rewrite !QQ_kact by lia. replace (inversions (rot p 1)) with 1 by (rewrite E2; reflexivity). replace (inversions (rot p 0)) with 0 by (rewrite E2; reflexivity). rewrite Z.mul_0_r, Z.mul_1_r, sgn_0. replace (sgn (m * m)) with (-1); [replace (p * (-1 * QQ p C d (on_tensor alpha))) with (2 * (-1 * QQ p C d (on_tensor alpha))) by (f_equal; congruence); ring|]. unfold sgn. rewrite Z.even_mul, Em. reflexivity.
    - destruct Hp2 as [E2|Ho]; [contradiction|]. rewrite Hd. cbn [negb]. rewrite (sumf_ext _ (fun _ => QQ p C d (on_tensor alpha) * 1)); [rewrite sumf_scal, sumf_1, zlen_zrange, Z.max_r by lia; ring|].
      intros j Hj. apply in_zrange in Hj. rewrite QQ_kact, rot_sgn_odd by (auto; lia). ring. }
  rewrite R in E. set (sg := sgn (Z.of_nat (Datatypes.S d))) in *. assert (E' : QQ p C (Datatypes.S d) Gr = sg * (QQ p C d (on_tensor alpha) + QQ p C' (Datatypes.S d) (on_tensor alpha))) by (apply (Z.mul_reg_l _ _ p); [lia|rewrite E; ring]).
  pose proof (QQ_Gr (Datatypes.S d)) as Z0. rewrite E' in Z0. rewrite <- (Z.mul_1_l (_ + _)). rewrite <- (sgn_sq (Z.of_nat (Datatypes.S d))). fold sg. rewrite <- Z.mul_assoc, Z0. apply eqm_eq. ring.
Qed.
Lemma bock_B d : (if p =? 2 then Z.even (Z.of_nat d) = Z.even m else Z.even (Z.of_nat d) = true) ->
  eqm p (QQ p C' (Datatypes.S d) (on_tensor alpha)) 0.
Proof.
  intros Hd. pose proof Hp1 as HP. pose proof (QZ_chain d _ adm_G) as E. rewrite QQ_dG in E.
  assert (R : RA p (Datatypes.S d) (fun r => QQ p C d (fun K => kact spx_dim (on_tensor alpha) r K)) = 0).
  { unfold RA. rewrite even_of_nat in Hd. rewrite Nat.even_succ, <- Nat.negb_even. destruct (Z.eqb_spec p 2) as [E2|N2].
    - rewrite Hd. destruct (Z.even m) eqn:Em; cbn [negb].
      + rewrite !QQ_kact by lia. rewrite <- !Z.mul_assoc, !sgn_mul_even by exact Em. ring.
      + replace (zrange 0 p) with [0; 1] by (rewrite E2; reflexivity). rewrite !sumf_cons, sumf_nil. rewrite !QQ_kact by lia. replace (inversions (rot p 1)) with 1 by (rewrite E2; reflexivity). replace (inversions (rot p 0)) with 0 by (rewrite E2; reflexivity). rewrite Z.mul_0_r, Z.mul_1_r, sgn_0. replace (sgn (m * m)) with (-1); [ring|]. unfold sgn. rewrite Z.even_mul, Em. reflexivity.
    - destruct Hp2 as [E2|Ho]; [contradiction|]. rewrite Hd. cbn [negb]. rewrite !QQ_kact, !rot_sgn_odd by (auto; lia). ring. }
  rewrite R, Z.add_0_l in E. set (sg := sgn (Z.of_nat (Datatypes.S d))) in *. assert (E' : QQ p C (Datatypes.S d) Gr = sg * QQ p C' (Datatypes.S d) (on_tensor alpha)) by (apply (Z.mul_reg_l _ _ p); [lia|rewrite E; ring]).
  pose proof (QQ_Gr (Datatypes.S d)) as Z0. rewrite E' in Z0. rewrite <- (Z.mul_1_l (QQ p C' _ _)). rewrite <- (sgn_sq (Z.of_nat (Datatypes.S d))). fold sg. rewrite <- Z.mul_assoc, Z0. apply eqm_eq. ring.
Qed.
End Bock.
