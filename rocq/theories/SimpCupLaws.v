(** * Steenrod's formula for cup-i products of simplicial cochains, over every ring (C80) *)
From Coq Require Import Setoid Morphisms.
From Verif Require Import PyBase Dict FreeModule Symmetric Simplicial Utils Surjection Eqm Spec SpecChain SpecOperad SpecSurj SpecAction SpecCochain SpecSimpCup FreeModuleFacts FreeModuleLaws ListFacts
  ClassFacts LinearFacts BilFacts SymmetricFacts CycleFacts SymmetricLaws RingFacts Tensor TensorAct KoszulFacts LoopFacts AW SimplicialFacts SimplicialDiag SimplicialLaws BELaws BEDiag MayFacts SurjFacts SurjBoundary SurjLaws SurjAct SurjLaws2 ActFacts ActSign ActCore ActCode ActLaws
  EquivAct EquivLaws SurjMay SteenrodAct CupI.

Definition U (d : nat) (g : list (list Z) -> Z) (K : list (list Z)) : Z := FpS MS 2 d (fun k => Phi 2 1 g k K).
Lemma call_may dt t d e (S : surj) (c : simp) : 0 <= t -> dt_ok dt t -> den cls_surj t MS (FpS MS 2 d) S -> wf cls_simplicial c -> torsion c = t -> keys_in (kdegS 1 e) c ->
  returns (surj_call_simplicial dt S c 1) (den cls_simplicial t tt (fun g => ev (U d g) (data c))).
Proof.
  intros Ht Hdt DS Wc Tc Kc.
  assert (KS : keys_in (surj_cell 2 (Z.of_nat d)) S) by (intros k v Hk; exact (proj1 (psiS_keys MS 2 d t S ltac:(lia) Ht DS k v Hk))).
  eapply returns_mono; [exact (bil_act dt t 2 (Z.of_nat d) 1 e 1 Ht Hdt ltac:(lia) ltac:(lia) S c (den_wf cls_surj t MS _ S Ht DS) (proj1 DS) (proj1 (proj2 DS)) KS Wc Tc (s_attr' c) Kc)|].
  intros z Dz. eapply den_ext; [|exact Dz]. intros g Hg. cbn beta.
  rewrite (psiS_ev MS 2 d t S (fun k => ev (fun K => Phi 2 1 g k K) (data c)) ltac:(lia) Ht DS).
  - apply eqm_eq. unfold U. destruct (FpS_list MS 2 d ltac:(lia)) as (L & _ & L2). rewrite L2. rewrite (ev_exch (fun k K => Phi 2 1 g k K)). apply ev_ext. intros K v _. now rewrite L2.
  - apply admP_keyeq. intros k Hk Hb. apply ev_zero. intros K v HK. destruct (adm_Phi 2 (Z.of_nat d) 1 e 1 ltac:(lia) g (adm_admP _ _ _ Hg)) as [A1 _].
    apply (A1 K (Kc _ _ HK)); [|exact Hk|exact Hb]. destruct Wc as (_ & _ & Wc). exact (proj2 (Wc _ _ HK)).
Qed.
Lemma Phi_adj g k d s : adm cls_simplicial g -> surj_cell 2 d k -> adj k = true -> Phi 2 1 g k [s] = 0.
Proof.
  intros Hg [Ho _] Ak. unfold Phi. apply ev_zero. intros w v Hin. apply Hg. cbn [bad cls_simplicial]. f_equal. refine (acts_bad 2 1 k [s] w v Ho _ (or_introl Ak) Hin). apply (onto_ne 2); [lia|exact Ho].
Qed.
Lemma U_formula d g s : adm cls_simplicial g -> s <> [] ->
  U (Datatypes.S d) (tDS g) [s] = U d (fun K => kact spx_dim g (rot 2 1) K) [s] + sgn (Z.of_nat (Datatypes.S d)) * U d g [s] + sgn (Z.of_nat (Datatypes.S d)) * tDS (U (Datatypes.S d) g) [s].
Proof.
  intros Hg Ns. set (D := Z.of_nat (Datatypes.S d)). unfold U at 1.
  rewrite (FpS_ext MS 2 (Datatypes.S d) _ (fun k => sd MS (fun k' => Phi 2 1 g k' [s]) k - (- sgn D) * tDS (fun K' => Phi 2 1 g k K') [s])); [|lia|].
  2:{ intros k [Hk _]. pose proof (Phi_chain 2 D 1 g k [] s [] ltac:(lia) Hk Hg Ns eq_refl) as E. cbn [app] in E. rewrite E. ring. }
  rewrite FpS_sub, FpS_scal by lia. rewrite FpS_boundary; [|lia|intros k Hk Ak; eapply Phi_adj; eauto].
  assert (E1 : FpS MS 2 (Datatypes.S d) (fun k => tDS (fun K' => Phi 2 1 g k K') [s]) = tDS (U (Datatypes.S d) g) [s]).
  { destruct (FpS_list MS 2 (Datatypes.S d) ltac:(lia)) as (L & _ & L2). rewrite L2. unfold tD. rewrite (ev_exch (fun k K => Phi 2 1 g k K)). apply ev_ext. intros K v _. unfold U. now rewrite L2. }
  rewrite E1.
  assert (P : forall j, 0 <= j -> FpS MS 2 d (fun k => asg MS (rot 2 j) k * Phi 2 1 g (map (image (rot 2 j)) k) [s]) = U d (fun K => kact spx_dim g (rot 2 j) K) [s]).
  { intros j Hj. unfold U. apply FpS_ext; [lia|]. intros k [Hk _]. apply Phi_equiv; [lia|apply perm_rot; lia|apply Hk]. }
  assert (P0 : FpS MS 2 d (fun k => asg MS (rot 2 0) k * Phi 2 1 g (map (image (rot 2 0)) k) [s]) = U d g [s]).
  { unfold U. apply FpS_ext; [lia|]. intros k [[Hk _] _]. assert (I0 : map (image (rot 2 0)) k = k).
    { rewrite rot_0. etransitivity; [|apply map_id]. apply map_ext_in. intros a Ha. apply Hk in Ha. assert (Ea : a = 1 \/ a = 2) by lia. destruct Ea as [-> | ->]; reflexivity. }
    unfold asg. rewrite I0, tw_sq. ring. }
  assert (Es : sgn D = if Nat.even (Datatypes.S d) then 1 else -1).
  { assert (Q : forall n, Z.even (Z.of_nat n) = Nat.even n) by (induction n as [|n IH]; [reflexivity|]; rewrite Nat2Z.inj_succ, Z.even_succ, <- Z.negb_even, IH, Nat.even_succ, <- Nat.negb_even; reflexivity). unfold D, sgn. now rewrite Q. }
  unfold RA. rewrite Es. destruct (Nat.even (Datatypes.S d)).
  - change (zrange 0 2) with [0; 1]. rewrite !sumf_cons, sumf_nil. rewrite P0, P by lia. ring.
  - rewrite P0, P by lia. ring.
Qed.
Lemma U_formula0 g s : adm cls_simplicial g -> s <> [] -> U 0 (tDS g) [s] = tDS (U 0 g) [s].
Proof.
  intros Hg Ns. unfold U at 1. rewrite (FpS_ext MS 2 0 _ (fun k => tDS (fun K' => Phi 2 1 g k K') [s])); [|lia|].
  2:{ intros k [Hk _]. pose proof (Phi_chain 2 0 1 g k [] s [] ltac:(lia) Hk Hg Ns eq_refl) as E. cbn [app] in E. rewrite E. rewrite sgn_0, Z.mul_1_l.
    destruct (rep_sd MS _ _ (sface_cell 2 0) k Hk) as (L & L1 & L2). rewrite L2. rewrite ev_zero; [ring|]. intros k' v' Hk'. exfalso. destruct (L1 _ _ Hk') as [Ho Lk]. apply (onto_long 2) in Ho; lia. }
  destruct (FpS_list MS 2 0 ltac:(lia)) as (L & _ & L2). rewrite L2. unfold tD. rewrite (ev_exch (fun k K => Phi 2 1 g k K)). apply ev_ext. intros K v _. unfold U. now rewrite L2.
Qed.
Lemma pair_adm m n a b : 0 <= m -> 0 <= n -> cochain m a -> cochain n b -> adm cls_simplicial (simp_pair a b).
Proof.
  intros Hm Hn [A1 A2] [B1 B2]. assert (Z0 : forall q f s, 0 <= q -> (forall l1 v l2, f (l1 ++ v :: v :: l2) = 0) -> (forall s, zlen s - 1 <> q -> f s = 0) -> spx_is_degenerate s = true -> f s = 0).
  { intros q f s Hq F1 F2 Hs. rewrite deg_dupb in Hs. destruct s as [|v s]; [apply F2; rewrite zlen_nil; lia|].
    assert (E : exists l1 u l2, v :: s = l1 ++ u :: u :: l2).
    { clear -Hs. revert v Hs. induction s as [|w s IH]; intros v Hs; [discriminate|]. rewrite dupb_cons2 in Hs. apply orb_true_iff in Hs. destruct Hs as [Hs|Hs]; [apply Z.eqb_eq in Hs; subst; exists [], w, s; reflexivity|].
      destruct (IH w Hs) as (l1 & u & l2 & ->). exists (v :: l1), u, l2. reflexivity. }
    destruct E as (l1 & u & l2 & ->). apply F1. }
  split; [intros k k' E; now apply keqb_eq in E; subst|]. intros k Hk. injection Hk as Hk. destruct k as [|u [|v [|w k]]]; try reflexivity. cbn [existsb] in Hk. cbn [simp_pair].
  rewrite orb_false_r in Hk. apply orb_true_iff in Hk. destruct Hk as [Hk|Hk]; [rewrite (Z0 m a u)|rewrite (Z0 n b v)]; auto; ring.
Qed.
Lemma cob_fdS a s : simp_coboundary a s = fdS a s.
Proof. unfold simp_coboundary, fd, ev, faces, fbS. rewrite cuts_splits. reflexivity. Qed.
Lemma pair_tD m a b w : cochain m a -> tDS (simp_pair a b) w = simp_pair (simp_coboundary a) b w + sgn m * simp_pair a (simp_coboundary b) w.
Proof.
  intros [_ A2]. destruct w as [|u [|v [|x w]]].
  - rewrite tD_nil. cbn [simp_pair]. ring.
  - rewrite tD_cons, tD_nil. cbn [simp_pair]. unfold fd. rewrite ev_zero by reflexivity. ring.
  - rewrite !tD_cons, tD_nil. cbn [simp_pair]. rewrite !cob_fdS. 
    assert (E1 : fdS (fun u' => a u' * b v) u = fdS a u * b v) by (unfold fd; rewrite (ev_ext_all _ (fun u' => b v * a u')) by (intros; ring); rewrite ev_scal; ring).
    assert (E2 : fdS (fun v' => a u * b v') v = a u * fdS b v) by apply fd_scal.
    rewrite E1, E2. destruct (Z.eq_dec (spx_dim u) m) as [->|N]; [ring|]. rewrite (A2 u) by exact N. ring.
  - cbn [simp_pair]. rewrite Z.mul_0_r, Z.add_0_l. unfold tD. apply ev_zero. intros K' v' HK. apply (tb_kar fbS spx_dim dim_fbS (zlen (u :: v :: x :: w))) in HK; [|reflexivity]. unfold kar in HK.
    destruct K' as [|u' [|v0 [|x' K']]]; try reflexivity. exfalso. rewrite !zlen_cons, zlen_nil in HK. pose proof (zlen_nonneg w). lia.
Qed.
Lemma pair_flip m n a b u v : cochain m a -> cochain n b -> kact spx_dim (simp_pair a b) (rot 2 1) [u; v] = sgn (m * n) * simp_pair b a [u; v].
Proof.
  intros [_ A2] [_ B2]. change (rot 2 1) with [2; 1]. unfold kact. change (placef [2; 1] [u; v]) with [v; u]. cbn [simp_pair].
  replace (kinv [2; 1] (fun j => spx_dim (lab [2; 1] [u; v] j))) with (spx_dim u * spx_dim v) by (unfold kinv; cbn [pairsum]; rewrite !sumf_cons, !sumf_nil; change (1 <? 2) with true; change (lab [2; 1] [u; v] 2) with u; change (lab [2; 1] [u; v] 1) with v; cbv iota; ring).
  destruct (Z.eq_dec (spx_dim u) n) as [->|N]; [|rewrite (B2 u) by exact N; ring]. destruct (Z.eq_dec (spx_dim v) m) as [->|N]; [|rewrite (A2 v) by exact N; ring]. rewrite (Z.mul_comm n m). ring.
Qed.
Lemma U_flip d m n a b s : cochain m a -> cochain n b -> U d (fun K => kact spx_dim (simp_pair a b) (rot 2 1) K) [s] = sgn (m * n) * U d (simp_pair b a) [s].
Proof.
  intros Ha Hb. unfold U. rewrite <- FpS_scal by lia. apply FpS_ext; [lia|]. intros k [Hk _]. unfold Phi. rewrite <- ev_scal. apply ev_ext. intros w v Hw.
  assert (Kw : kdegS (1 + 2 - 1) (spx_dim s + Z.of_nat d) w) by (apply (acts_deg 2 (Z.of_nat d) 1 (spx_dim s) 1 k [s] w v); auto; [lia|split; [reflexivity|rewrite tdeg_cons; change (tdeg spx_dim []) with 0; ring]]).
  destruct Kw as [L _]. destruct w as [|x [|y [|z w]]]; try discriminate L; [now apply pair_flip|exfalso; rewrite !zlen_cons in L; pose proof (zlen_nonneg w); lia].
Qed.
Lemma U_adm d g : adm cls_simplicial g -> adm cls_simplicial (U d g).
Proof.
  intros Hg. split; [intros k k' E; now apply keqb_eq in E; subst|]. intros K HK. injection HK as HK. unfold U. destruct (FpS_list MS 2 d ltac:(lia)) as (L & L1 & L2). rewrite L2. apply ev_zero. intros k v Hk. destruct (L1 _ _ Hk) as [[Ho _] _].
  unfold Phi. apply ev_zero. intros w v' Hin. apply Hg. cbn [bad cls_simplicial]. f_equal. refine (acts_bad 2 1 k K w v' Ho _ (or_intror HK) Hin). apply (onto_ne 2); [lia|exact Ho].
Qed.
Lemma tD_adm g : adm cls_simplicial g -> adm cls_simplicial (tDS g).
Proof.
  intros Hg. destruct (adm_tD cls_simplicial spx_is_degenerate sbad fbS spx_dim fdS_bad (fun _ => True) (fun _ => True) (fun _ _ _ _ _ => I) g (adm_admP _ _ _ Hg)) as [T1 T2].
  split; [intros k k' E; now apply keqb_eq in E; subst|]. intros K HK. now apply T2.
Qed.
Lemma may2_simp dt dc d ot ov S : Some MS = ov -> 0 <= d -> forall u, u = match ot with Some t => if t =? 0 then dt else t | None => dt end -> 0 <= u -> u <> 1 -> dt_ok dt u -> surj_may_steenrod dt dc 2 d ot ov = Ok S -> den cls_surj u MS (FpS MS 2 (Z.to_nat d)) S.
Proof.
  intros Ev Hd u Eu Hu N Hdt ES. destruct (mayS_ok dt dc MS 2 (Z.to_nat d) ot ov u Eu ltac:(now rewrite <- Ev) ltac:(now right) ltac:(lia) Hu N Hdt) as (y & Ey & Dy). rewrite Z2Nat.id in Ey by lia. rewrite ES in Ey. now injection Ey as <-.
Qed.
Lemma bnd_simp dt t e (c : simp) : 0 <= t -> dt_ok dt t -> wf cls_simplicial c -> torsion c = t -> keys_in (kdegS 1 e) c ->
  exists bc, simp_boundary dt c = Ok bc /\ den cls_simplicial t tt (fun g => ev (tDS g) (data c)) bc /\ keys_in (kdegS 1 (e - 1)) bc.
Proof.
  intros Ht Hdt Wc Tc Kc.
  exact (linop_bnd cls_simplicial sck fbS spx_dim dt (simp_boundary dt) (fun t x => simp_boundary_den dt t x) t _ _ Ht Hdt (kpred_kdegS _ _) (tb_kdeg fbS spx_dim dim_fbS 1 e) c Wc Tc (s_attr' c) Kc).
Qed.
(** #C80_formula# Steenrod's coboundary formula with signs, over every coefficient
    ring.  Let S_d = may_steenrod_structure(2, d, convention='McClure-Smith') and write
    (a u_d b)(c) for the value of a (x) b on S_d(c).  For normalised cochains a, b of
    degrees m, n, every chain c of simplices and d >= 1:
    (da u_d b)(c) + (-1)^m (a u_d db)(c) =
    (-1)^d (a u_d b)(boundary c) + (-1)^d (a u_(d-1) b)(c) + (-1)^(mn) (b u_(d-1) a)(c). *)
Lemma C80_formula_l (dt d e m n : Z) (dc : conv) (ot : option Z) (S S' : surj) (c : simp) (a b : list Z -> Z) :
  torsion c = match ot with Some t => if t =? 0 then dt else t | None => dt end ->
  1 <= d -> 0 <= e -> 0 <= m -> 0 <= n -> wf cls_simplicial c -> torsion c <> 1 -> dt_ok dt (torsion c) ->
  keys_in (fun k => exists s, k = [s] /\ zlen s - 1 = e) c -> cochain m a -> cochain n b ->
  surj_may_steenrod dt dc 2 d ot (Some MS) = Ok S -> surj_may_steenrod dt dc 2 (d - 1) ot (Some MS) = Ok S' ->
  exists bc z y y', simp_boundary dt c = Ok bc /\ surj_call_simplicial dt S bc 1 = Ok z /\ surj_call_simplicial dt S c 1 = Ok y /\ surj_call_simplicial dt S' c 1 = Ok y' /\
    congruent (torsion c)
      (simp_value (simp_pair (simp_coboundary a) b) y + sgn m * simp_value (simp_pair a (simp_coboundary b)) y)
      (sgn d * simp_value (simp_pair a b) z + sgn d * simp_value (simp_pair a b) y' + sgn (m * n) * simp_value (simp_pair b a) y').
Proof.
  intros Et Hd He Hm Hn Wc N Hdt Kc Ha Hb ES ES'. pose proof (proj1 Wc) as Ht. assert (Kd : keys_in (kdegS 1 e) c).
  { intros k v Hk. destruct (Kc _ _ Hk) as (s & -> & Es). split; [reflexivity|]. rewrite tdeg_cons. change (tdeg spx_dim []) with 0. unfold spx_dim. lia. }
  apply (may2_simp dt dc d ot (Some MS) S eq_refl) with (u := torsion c) in ES; auto; [|lia]. apply (may2_simp dt dc (d - 1) ot (Some MS) S' eq_refl) with (u := torsion c) in ES'; auto; [|lia].
  destruct (bnd_simp dt (torsion c) e c Ht Hdt Wc eq_refl Kd) as (bc & Eb & Db & Kb).
  destruct (call_may dt (torsion c) _ (e - 1) S bc Ht Hdt ES (den_wf cls_simplicial _ tt _ bc Ht Db) (proj1 Db) Kb) as (z & Ez & Dz).
  destruct (call_may dt (torsion c) _ e S c Ht Hdt ES Wc eq_refl Kd) as (y & Ey & Dy). destruct (call_may dt (torsion c) _ e S' c Ht Hdt ES' Wc eq_refl Kd) as (y' & Ey' & Dy').
  exists bc, z, y, y'. split; [exact Eb|]. split; [exact Ez|]. split; [exact Ey|]. split; [exact Ey'|]. change (congruent (torsion c)) with (eqm (torsion c)).
  pose proof (pair_adm m n a b Hm Hn Ha Hb) as Aab. pose proof (pair_adm n m b a Hn Hm Hb Ha) as Aba.
  change (simp_value ?g ?x) with (ev g (data x)). 
  rewrite (den_ev cls_simplicial _ tt _ y' _ Dy' Aab), (den_ev cls_simplicial _ tt _ y' _ Dy' Aba), (den_ev cls_simplicial _ tt _ z _ Dz Aab).
  assert (E1 : ev (simp_pair (simp_coboundary a) b) (data y) + sgn m * ev (simp_pair a (simp_coboundary b)) (data y) = ev (tDS (simp_pair a b)) (data y)).
  { rewrite <- ev_scal, <- ev_lin2. apply ev_ext. intros K v _. symmetry. now apply pair_tD. }
  rewrite E1. clear E1.
  pose proof (tD_adm _ Aab) as At. pose proof (U_adm (Z.to_nat d) _ Aab) as Au.
  rewrite (den_ev cls_simplicial _ tt _ y _ Dy At), (den_ev cls_simplicial _ tt _ bc _ Db Au).
  rewrite <- !ev_scal, <- !ev_lin2. apply eqm_eq. apply ev_ext. intros K v HK. destruct (Kc _ _ HK) as (s & -> & Ls). assert (Ns : s <> []) by (intros ->; rewrite zlen_nil in Ls; lia).
  replace (Z.to_nat d) with (Datatypes.S (Z.to_nat (d - 1))) by lia. rewrite (U_formula (Z.to_nat (d - 1)) _ s Aab Ns), (U_flip _ m n a b s Ha Hb). replace (Z.of_nat (Datatypes.S (Z.to_nat (d - 1)))) with d by lia. ring.
Qed.
Lemma dup_deg l1 v l2 : spx_is_degenerate (l1 ++ v :: v :: l2) = true.
Proof. rewrite deg_dupb. destruct (l1 ++ v :: v :: l2) eqn:E; [destruct l1; discriminate|]. rewrite <- E. clear E. induction l1 as [|w l1 IH]; cbn [app]; [rewrite dupb_cons2, Z.eqb_refl; reflexivity|]. destruct l1 as [|w' l1]; cbn [app] in *; rewrite dupb_cons2; [|rewrite IH; apply orb_true_r]. rewrite IH. apply orb_true_r. Qed.
Lemma co_deg m a s : 0 <= m -> cochain m a -> spx_is_degenerate s = true -> a s = 0.
Proof.
  intros Hq [F1 F2] Hs. rewrite deg_dupb in Hs. destruct s as [|v s]; [apply F2; rewrite zlen_nil; lia|].
  assert (E : exists l1 u l2, v :: s = l1 ++ u :: u :: l2).
  { clear -Hs. revert v Hs. induction s as [|w s IH]; intros v Hs; [discriminate|]. rewrite dupb_cons2 in Hs. apply orb_true_iff in Hs. destruct Hs as [Hs|Hs]; [apply Z.eqb_eq in Hs; subst; exists [], w, s; reflexivity|].
    destruct (IH w Hs) as (l1 & u & l2 & ->). exists (v :: l1), u, l2. reflexivity. }
  destruct E as (l1 & u & l2 & ->). apply F1.
Qed.
(** #C80_coboundary# The coboundary of a normalised cochain of degree m is a
    normalised cochain of degree m + 1, and the coboundary of a coboundary is 0. *)
Lemma C80_coboundary_l (m : Z) (a : list Z -> Z) : 0 <= m -> cochain m a ->
  cochain (m + 1) (simp_coboundary a) /\ forall s, simp_coboundary (simp_coboundary a) s = 0.
Proof.
  intros Hm Ha. split; [split|].
  - intros l1 v l2. rewrite cob_fdS. apply fdS_bad; [intros u Hu; now apply (co_deg m)|apply dup_deg].
  - intros s Hs. rewrite cob_fdS. apply ev_zero. intros u v Hu. apply Ha. apply dim_fbS in Hu. unfold spx_dim in Hu. lia.
  - intros s. rewrite cob_fdS. rewrite (fdS_ext _ (fdS a)) by (intros; apply cob_fdS). apply fdS_fdS.
Qed.
Lemma U0_Sd g K : U 0 g K = Sd 1 1 g K.
Proof. unfold U. cbn [FpS]. change (idp 2) with (zrange 1 (2 + 1)). now rewrite Phi_id by lia. Qed.
(** #C80_leibniz# The cup product, defined by the diagonal, satisfies the graded
    Leibniz rule: (a u b)(boundary c) = (da u b)(c) + (-1)^m (a u db)(c). *)
Lemma C80_leibniz_l (dt e m n : Z) (c : simp) (a b : list Z -> Z) :
  let diagonal := extended1 dt cls_simplicial (fun y => simp_iterated_diagonal dt y 1 1) in
  0 <= e -> 0 <= m -> 0 <= n -> wf cls_simplicial c -> dt_ok dt (torsion c) ->
  keys_in (fun k => exists s, k = [s] /\ zlen s - 1 = e) c -> cochain m a -> cochain n b ->
  exists bc z y, simp_boundary dt c = Ok bc /\ diagonal bc = Ok z /\ diagonal c = Ok y /\
  congruent (torsion c) (simp_value (simp_pair a b) z) (simp_value (simp_pair (simp_coboundary a) b) y + sgn m * simp_value (simp_pair a (simp_coboundary b)) y).
Proof.
  intros diagonal He Hm Hn Wc Hdt Kc Ha Hb. pose proof (proj1 Wc) as Ht. assert (Kd : keys_in (kdegS 1 e) c).
  { intros k v Hk. destruct (Kc _ _ Hk) as (s & -> & Es). split; [reflexivity|]. rewrite tdeg_cons. change (tdeg spx_dim []) with 0. unfold spx_dim. lia. }
  destruct (bnd_simp dt (torsion c) e c Ht Hdt Wc eq_refl Kd) as (bc & Eb & Db & Kb).
  destruct (linop_diag dt (torsion c) 1 (e - 1) 1 1 Ht Hdt ltac:(lia) ltac:(lia) bc (den_wf cls_simplicial _ tt _ bc Ht Db) (proj1 Db) (s_attr' bc) Kb) as (z & Ez & Dz & _).
  destruct (linop_diag dt (torsion c) 1 e 1 1 Ht Hdt ltac:(lia) ltac:(lia) c Wc eq_refl (s_attr' c) Kd) as (y & Ey & Dy & _).
  exists bc, z, y. split; [exact Eb|]. split; [exact Ez|]. split; [exact Ey|]. change (congruent (torsion c)) with (eqm (torsion c)).
  pose proof (pair_adm m n a b Hm Hn Ha Hb) as Aab. change (simp_value ?g ?x) with (ev g (data x)). 
  assert (E1 : ev (simp_pair (simp_coboundary a) b) (data y) + sgn m * ev (simp_pair a (simp_coboundary b)) (data y) = ev (tDS (simp_pair a b)) (data y)).
  { rewrite <- ev_scal, <- ev_lin2. apply ev_ext. intros K v _. symmetry. now apply pair_tD. }
  rewrite E1, (den_ev cls_simplicial _ tt _ z _ Dz Aab), (den_ev cls_simplicial _ tt _ y _ Dy (tD_adm _ Aab)).
  pose proof (U_adm 0 _ Aab) as Au. change (Z.to_nat 1) with 1%nat. rewrite (ev_ext_all (Sd 1 1 (simp_pair a b)) (U 0 (simp_pair a b))) by (intros; symmetry; apply U0_Sd). rewrite (den_ev cls_simplicial _ tt _ bc _ Db Au).
  apply eqm_eq. apply ev_ext. intros K v HK. destruct (Kc _ _ HK) as (s & -> & Ls). assert (Ns : s <> []) by (intros ->; rewrite zlen_nil in Ls; lia).
  rewrite <- U0_Sd. symmetry. now apply U_formula0.
Qed.
Section CupCycle.
Variables (dt e : Z) (X : list Z -> Prop) (c bc : simp).
Hypothesis He : 0 <= e.
Hypothesis HX : simplicial_set X.
Hypothesis Wc : wf cls_simplicial c.
Hypothesis Hdt : dt_ok dt (torsion c).
Hypothesis Kc : keys_in (fun k => exists s, k = [s] /\ X s /\ zlen s - 1 = e) c.
Hypothesis Eb : simp_boundary dt c = Ok bc.
Hypothesis Zb : data bc = [].
Definition V (d : nat) (g : list (list Z) -> Z) : Z := ev (U d g) (data c).
Lemma Kd_c : keys_in (kdegS 1 e) c.
Proof. intros k v Hk. destruct (Kc _ _ Hk) as (s & -> & _ & Es). split; [reflexivity|]. rewrite tdeg_cons. change (tdeg spx_dim []) with 0. unfold spx_dim. lia. Qed.
Lemma cyc g : adm cls_simplicial g -> eqm (torsion c) (ev (tDS g) (data c)) 0.
Proof.
  intros Hg. destruct (bnd_simp dt (torsion c) e c (proj1 Wc) Hdt Wc eq_refl Kd_c) as (bc' & Eb' & Db & _). rewrite Eb in Eb'. injection Eb' as <-. rewrite <- (den_ev cls_simplicial _ tt _ bc g Db Hg), Zb. reflexivity.
Qed.
Lemma V_X d g : (forall w, (forall x, In x w -> X x) -> eqm (torsion c) (g w) 0) -> eqm (torsion c) (V d g) 0.
Proof.
  intros Hg. unfold V. transitivity (ev (fun _ => 0) (data c)); [|rewrite ev_zero by reflexivity; reflexivity]. apply ev_eqm. intros K v HK. destruct (Kc _ _ HK) as (s & -> & Xs & Ls). assert (Ns : s <> []) by (intros ->; rewrite zlen_nil in Ls; lia).
  unfold U. destruct (FpS_list MS 2 d ltac:(lia)) as (L & L1 & L2). rewrite L2. transitivity (ev (fun _ => 0) L); [|rewrite ev_zero by reflexivity; reflexivity]. apply ev_eqm. intros k v' Hk. destruct (L1 _ _ Hk) as [[Ho _] _].
  unfold Phi. transitivity (ev (fun _ => 0) (simp_acts 2 (zlen k - 2) 1 k [s])); [|rewrite ev_zero by reflexivity; reflexivity]. apply ev_eqm. intros w v0 Hw. apply Hg. exact (X_acts X 2 _ k s w v0 HX ltac:(lia) Ho Ns Xs Hw).
Qed.
Definition vanish (a : list Z -> Z) : Prop := forall s, X s -> eqm (torsion c) (simp_coboundary a s) 0.
Lemma V_0l d a b : vanish a -> eqm (torsion c) (V d (simp_pair (simp_coboundary a) b)) 0.
Proof. intros Ha. apply V_X. intros [|x [|y [|z w]]] Hw; cbn [simp_pair]; try reflexivity. rewrite (Ha x) by (apply Hw; now left). apply eqm_eq. ring. Qed.
Lemma V_0r d a b : vanish b -> eqm (torsion c) (V d (simp_pair a (simp_coboundary b))) 0.
Proof. intros Ha. apply V_X. intros [|x [|y [|z w]]] Hw; cbn [simp_pair]; try reflexivity. rewrite (Ha y) by (apply Hw; right; now left). apply eqm_eq. ring. Qed.
Lemma V_tD d m a b : cochain m a -> V d (tDS (simp_pair a b)) = V d (simp_pair (simp_coboundary a) b) + sgn m * V d (simp_pair a (simp_coboundary b)).
Proof.
  intros Ha. unfold V. rewrite <- ev_scal, <- ev_lin2. apply ev_ext. intros K v _. unfold U. rewrite <- FpS_scal by lia. destruct (FpS_list MS 2 d ltac:(lia)) as (L & L1 & L2). rewrite !L2, <- ev_lin2. apply ev_ext. intros k v' _. unfold Phi.
  rewrite <- ev_scal, <- ev_lin2. apply ev_ext. intros w v0 _. now apply pair_tD.
Qed.
Lemma nonempty K v : In (K, v) (data c) -> exists s, K = [s] /\ s <> [].
Proof. intros HK. destruct (Kc _ _ HK) as (s & -> & Xs & Ls). exists s. split; [reflexivity|]. intros ->. rewrite zlen_nil in Ls; lia. Qed.
Lemma V_comm d m n a b : 0 <= m -> 0 <= n -> cochain m a -> cochain n b -> vanish a -> vanish b ->
  eqm (torsion c) (sgn (m * n) * V d (simp_pair b a)) (sgn (Z.of_nat d) * V d (simp_pair a b)).
Proof.
  intros Hm Hn Ha Hb Va Vb. pose proof (pair_adm m n a b Hm Hn Ha Hb) as Aab.
  assert (E : V (Datatypes.S d) (tDS (simp_pair a b)) = sgn (m * n) * V d (simp_pair b a) + sgn (Z.of_nat (Datatypes.S d)) * V d (simp_pair a b) + sgn (Z.of_nat (Datatypes.S d)) * ev (tDS (U (Datatypes.S d) (simp_pair a b))) (data c)).
  { unfold V. rewrite <- !ev_scal, <- !ev_lin2. apply ev_ext. intros K v HK. destruct (nonempty _ _ HK) as (s & -> & Ns). rewrite U_formula by assumption. rewrite (U_flip d m n) by assumption. ring. }
  rewrite (V_tD _ m) in E by exact Ha. pose proof (V_0l (Datatypes.S d) a b Va) as [q1 Q1]. pose proof (V_0r (Datatypes.S d) a b Vb) as [q2 Q2]. pose proof (cyc _ (U_adm (Datatypes.S d) _ Aab)) as [q3 Q3].
  rewrite Z.sub_0_r in Q1, Q2, Q3. rewrite Q1, Q2, Q3 in E. rewrite Nat2Z.inj_succ, <- Z.add_1_r, sgn_S in E. exists (q1 + sgn m * q2 + sgn (Z.of_nat d) * q3).
  transitivity (sgn (m * n) * V d (simp_pair b a) + - sgn (Z.of_nat d) * V d (simp_pair a b) + - sgn (Z.of_nat d) * (q3 * torsion c) + sgn (Z.of_nat d) * (q3 * torsion c)); [ring|]. rewrite <- E. ring.
Qed.
Lemma V_cup_l m n f b : 0 <= m -> 0 <= n -> cochain m f -> cochain n b -> vanish b -> eqm (torsion c) (V 0 (simp_pair (simp_coboundary f) b)) 0.
Proof.
  intros Hm Hn Hf Hb Vb. pose proof (pair_adm m n f b Hm Hn Hf Hb) as A. pose proof (V_tD 0 m f b Hf) as E.
  assert (E2 : eqm (torsion c) (V 0 (tDS (simp_pair f b))) 0).
  { rewrite <- (cyc _ (U_adm 0 _ A)). apply eqm_eq. apply ev_ext. intros K v HK. destruct (nonempty _ _ HK) as (s & -> & Ns). now apply U_formula0. }
  rewrite E in E2. rewrite (V_0r 0 f b Vb), Z.mul_0_r, Z.add_0_r in E2. exact E2.
Qed.
Lemma V_cup_r m n a f : 0 <= m -> 0 <= n -> cochain m a -> cochain n f -> vanish a -> eqm (torsion c) (V 0 (simp_pair a (simp_coboundary f))) 0.
Proof.
  intros Hm Hn Ha Hf Va. pose proof (pair_adm m n a f Hm Hn Ha Hf) as A. pose proof (V_tD 0 m a f Ha) as E.
  assert (E2 : eqm (torsion c) (V 0 (tDS (simp_pair a f))) 0).
  { rewrite <- (cyc _ (U_adm 0 _ A)). apply eqm_eq. apply ev_ext. intros K v HK. destruct (nonempty _ _ HK) as (s & -> & Ns). now apply U_formula0. }
  rewrite E in E2. rewrite (V_0l 0 a f Va), Z.add_0_l in E2. transitivity (sgn m * (sgn m * V 0 (simp_pair a (simp_coboundary f)))); [apply eqm_eq; rewrite Z.mul_assoc, sgn_sq; ring|]. rewrite E2. apply eqm_eq. ring.
Qed.
End CupCycle.
Lemma diag_V dt e (c z : simp) g : wf cls_simplicial c -> dt_ok dt (torsion c) -> keys_in (kdegS 1 e) c -> extended1 dt cls_simplicial (fun y => simp_iterated_diagonal dt y 1 1) c = Ok z -> adm cls_simplicial g ->
  eqm (torsion c) (simp_value g z) (V c 0 g).
Proof.
  intros Wc Hdt Kd Ez Hg. pose proof (proj1 Wc) as Ht. destruct (linop_diag dt (torsion c) 1 e 1 1 Ht Hdt ltac:(lia) ltac:(lia) c Wc eq_refl (s_attr' c) Kd) as (y & Ey & Dy & _). unfold ext_diag in Ey. rewrite Ez in Ey. injection Ey as <-.
  change (simp_value g z) with (ev g (data z)). rewrite (den_ev cls_simplicial _ tt _ z _ Dy Hg). apply eqm_eq. unfold V. apply ev_ext_all. intros K. symmetry. apply U0_Sd.
Qed.
(** #C80_commutative# The cup product of cocycles is graded commutative on cycles,
    for coefficients in every Z/t and in Z: (a u b)(c) = (-1)^(mn) (b u a)(c). *)
Lemma C80_commutative_l (dt e m n : Z) (X : list Z -> Prop) (c bc z : simp) (a b : list Z -> Z) :
  0 <= e -> 0 <= m -> 0 <= n -> simplicial_set X -> wf cls_simplicial c -> dt_ok dt (torsion c) ->
  keys_in (fun k => exists s, k = [s] /\ X s /\ zlen s - 1 = e) c -> simp_boundary dt c = Ok bc -> data bc = [] -> cochain m a -> cochain n b ->
  (forall s, X s -> congruent (torsion c) (simp_coboundary a s) 0) -> (forall s, X s -> congruent (torsion c) (simp_coboundary b s) 0) ->
  extended1 dt cls_simplicial (fun y => simp_iterated_diagonal dt y 1 1) c = Ok z ->
  congruent (torsion c) (simp_value (simp_pair a b) z) (sgn (m * n) * simp_value (simp_pair b a) z).
Proof.
  intros He Hm Hn HX Wc Hdt Kc Eb Zb Ha Hb Va Vb Ez. change (congruent (torsion c)) with (eqm (torsion c)). pose proof (Kd_c e X c Kc) as Kd.
  rewrite (diag_V dt e c z _ Wc Hdt Kd Ez (pair_adm m n a b Hm Hn Ha Hb)), (diag_V dt e c z _ Wc Hdt Kd Ez (pair_adm n m b a Hn Hm Hb Ha)).
  rewrite (V_comm dt e X c bc He HX Wc Hdt Kc Eb Zb 0 m n a b Hm Hn Ha Hb Va Vb). apply eqm_eq. change (Z.of_nat 0) with 0. rewrite sgn_0. ring.
Qed.
(** #C80_class# The value of the cup product of cocycles on a cycle depends only on
    their classes: adding a coboundary to either factor does not change it. *)
Lemma C80_class_l (dt e m n q : Z) (X : list Z -> Prop) (c bc z : simp) (a b f : list Z -> Z) :
  0 <= e -> 0 <= m -> 0 <= n -> 0 <= q -> simplicial_set X -> wf cls_simplicial c -> dt_ok dt (torsion c) ->
  keys_in (fun k => exists s, k = [s] /\ X s /\ zlen s - 1 = e) c -> simp_boundary dt c = Ok bc -> data bc = [] -> cochain m a -> cochain n b -> cochain q f ->
  (forall s, X s -> congruent (torsion c) (simp_coboundary a s) 0) -> (forall s, X s -> congruent (torsion c) (simp_coboundary b s) 0) ->
  extended1 dt cls_simplicial (fun y => simp_iterated_diagonal dt y 1 1) c = Ok z ->
  congruent (torsion c) (simp_value (simp_pair (fun s => a s + simp_coboundary f s) b) z) (simp_value (simp_pair a b) z) /\
  congruent (torsion c) (simp_value (simp_pair a (fun s => b s + simp_coboundary f s)) z) (simp_value (simp_pair a b) z).
Proof.
  intros He Hm Hn Hq HX Wc Hdt Kc Eb Zb Ha Hb Hf Va Vb Ez. change (congruent (torsion c)) with (eqm (torsion c)). pose proof (Kd_c e X c Kc) as Kd. pose proof (proj1 (C80_coboundary_l q f Hq Hf)) as Hdf.
  split.
  - assert (E : simp_value (simp_pair (fun s => a s + simp_coboundary f s) b) z = simp_value (simp_pair a b) z + simp_value (simp_pair (simp_coboundary f) b) z).
    { change (simp_value ?g ?x) with (ev g (data x)). rewrite <- ev_lin2. apply ev_ext_all. intros [|x [|y [|w K]]]; cbn [simp_pair]; ring. }
    rewrite E, (diag_V dt e c z (simp_pair (simp_coboundary f) b) Wc Hdt Kd Ez (pair_adm (q + 1) n _ b ltac:(lia) Hn Hdf Hb)), (V_cup_l dt e X c bc He HX Wc Hdt Kc Eb Zb q n f b Hq Hn Hf Hb Vb). now rewrite Z.add_0_r.
  - assert (E : simp_value (simp_pair a (fun s => b s + simp_coboundary f s)) z = simp_value (simp_pair a b) z + simp_value (simp_pair a (simp_coboundary f)) z).
    { change (simp_value ?g ?x) with (ev g (data x)). rewrite <- ev_lin2. apply ev_ext_all. intros [|x [|y [|w K]]]; cbn [simp_pair]; ring. }
    rewrite E, (diag_V dt e c z (simp_pair a (simp_coboundary f)) Wc Hdt Kd Ez (pair_adm m (q + 1) a _ Hm ltac:(lia) Ha Hdf)), (V_cup_r dt e X c bc He HX Wc Hdt Kc Eb Zb m q a f Hm Hq Ha Hf Va). now rewrite Z.add_0_r.
Qed.
(** #C80_symmetry# On cycles the cup-d product of cocycles is symmetric up to sign:
    (-1)^d (a u_d b)(c) = (-1)^(mn) (b u_d a)(c). *)
Lemma C80_symmetry_l (dt d e m n : Z) (dc : conv) (ot : option Z) (X : list Z -> Prop) (S : surj) (c bc : simp) (a b : list Z -> Z) :
  torsion c = match ot with Some t => if t =? 0 then dt else t | None => dt end -> 0 <= d ->
  0 <= e -> 0 <= m -> 0 <= n -> simplicial_set X -> wf cls_simplicial c -> torsion c <> 1 -> dt_ok dt (torsion c) ->
  keys_in (fun k => exists s, k = [s] /\ X s /\ zlen s - 1 = e) c -> simp_boundary dt c = Ok bc -> data bc = [] -> cochain m a -> cochain n b ->
  (forall s, X s -> congruent (torsion c) (simp_coboundary a s) 0) -> (forall s, X s -> congruent (torsion c) (simp_coboundary b s) 0) ->
  surj_may_steenrod dt dc 2 d ot (Some MS) = Ok S ->
  exists y, surj_call_simplicial dt S c 1 = Ok y /\ congruent (torsion c) (sgn d * simp_value (simp_pair a b) y) (sgn (m * n) * simp_value (simp_pair b a) y).
Proof.
  intros Et Hd He Hm Hn HX Wc N Hdt Kc Eb Zb Ha Hb Va Vb ES. pose proof (proj1 Wc) as Ht. pose proof (Kd_c e X c Kc) as Kd.
  apply (may2_simp dt dc d ot (Some MS) S eq_refl Hd) with (u := torsion c) in ES; auto. destruct (call_may dt (torsion c) _ e S c Ht Hdt ES Wc eq_refl Kd) as (y & Ey & Dy). exists y. split; [exact Ey|].
  change (congruent (torsion c)) with (eqm (torsion c)). change (simp_value ?g ?x) with (ev g (data x)). 
  rewrite (den_ev cls_simplicial _ tt _ y _ Dy (pair_adm m n a b Hm Hn Ha Hb)), (den_ev cls_simplicial _ tt _ y _ Dy (pair_adm n m b a Hn Hm Hb Ha)).
  pose proof (V_comm dt e X c bc He HX Wc Hdt Kc Eb Zb (Z.to_nat d) m n a b Hm Hn Ha Hb Va Vb) as E. rewrite Z2Nat.id in E by exact Hd. symmetry. exact E.
Qed.
(** #C80_example# The hypotheses hold for the boundary of a triangle, a circle, with
    integral coefficients: X is the set of its simplices, b the cocycle dual to an edge,
    a the constant 0-cocycle; both products have the value 1. *)
Example C80_example_l :
  let X := fun s => s <> [] /\ (forall v, In v s -> v = 0 \/ v = 1 \/ v = 2) /\ ~ (In 0 s /\ In 1 s /\ In 2 s) in
  let a := fun s => match s with [_] => 1 | _ => 0 end in
  let b := fun s => match s with [0; 1] => 1 | [1; 0] => -1 | _ => 0 end in
  exists c bc z, simp_new 0 [([[0; 1]], 1); ([[1; 2]], 1); ([[0; 2]], -1)] None = Ok c /\ wf cls_simplicial c /\ simplicial_set X /\
    keys_in (fun k => exists s, k = [s] /\ X s /\ zlen s - 1 = 1) c /\ simp_boundary 0 c = Ok bc /\ data bc = [] /\ cochain 0 a /\ cochain 1 b /\
    (forall s, X s -> congruent 0 (simp_coboundary a s) 0) /\ (forall s, X s -> congruent 0 (simp_coboundary b s) 0) /\
    extended1 0 cls_simplicial (fun y => simp_iterated_diagonal 0 y 1 1) c = Ok z /\ simp_value (simp_pair a b) z = 1 /\ simp_value (simp_pair b a) z = 1.
Proof.
  intros X a b.
  assert (Ca : cochain 0 a). 
  { split; [intros [|x [|y l1]] v l2; reflexivity|]. intros [|x [|y s]] L; [reflexivity | | reflexivity]. exfalso. apply L. reflexivity. }
  assert (Cb : cochain 1 b).
  { split.
    - intros l1 v l2. unfold b. destruct l1 as [|x [|y l1]]; [|destruct x as [|[?|?|]|?]; try reflexivity; destruct v as [|[?|?|]|?]; reflexivity|destruct x as [|[?|?|]|?]; try reflexivity; destruct y as [|[?|?|]|?]; try reflexivity; destruct l1; reflexivity].
      destruct v as [|[?|?|]|?]; reflexivity.
    - intros [|x [|y [|w s]]] L; [reflexivity | | exfalso; apply L; reflexivity |]; unfold b; destruct x as [|[?|?|]|?]; try reflexivity; destruct y as [|[?|?|]|?]; reflexivity. }
  assert (HX : simplicial_set X).
  { split; intros l1 v l2 (N & I & T); [intros N'|]; unfold X.
    - split; [exact N'|]. split; [intros w Hw; apply I; apply in_app_iff in Hw; apply in_app_iff; destruct Hw; [left|right; right]; assumption|].
      intros (A & B & C). apply T. assert (Q : forall w, In w (l1 ++ l2) -> In w (l1 ++ v :: l2)) by (intros w Hw; apply in_app_iff in Hw; apply in_app_iff; destruct Hw; [left|right; right]; assumption). split; [|split]; apply Q; assumption.
    - assert (Q : forall w, In w (l1 ++ v :: v :: l2) -> In w (l1 ++ v :: l2)) by (intros w Hw; apply in_app_iff in Hw; apply in_app_iff; destruct Hw as [Hw | [Hw | Hw]]; [left; exact Hw|right; left; exact Hw|right; exact Hw]).
      split; [destruct l1; discriminate|]. split; [intros w Hw; apply I, Q, Hw|]. intros (A & B & C). apply T. split; [|split]; apply Q; assumption. }
  assert (Va : forall s, X s -> congruent 0 (simp_coboundary a s) 0).
  { intros s _. exists 0. destruct s as [|x [|y [|w s]]]; [reflexivity|reflexivity|reflexivity|].
    rewrite (proj2 (proj1 (C80_coboundary_l 0 a ltac:(lia) Ca)) (x :: y :: w :: s)); [reflexivity|]. unfold zlen. cbn [length]. lia. }
  assert (Vb : forall s, X s -> congruent 0 (simp_coboundary b s) 0).
  { intros s (N & I & T). exists 0. destruct s as [|x [|y [|w [|q s]]]]. 5: { rewrite (proj2 (proj1 (C80_coboundary_l 1 b ltac:(lia) Cb)) (x :: y :: w :: q :: s)); [reflexivity|]. unfold zlen. cbn [length]. lia. }
    1: reflexivity. 1: { rewrite (proj2 (proj1 (C80_coboundary_l 1 b ltac:(lia) Cb)) [x]); [reflexivity|]. unfold zlen. cbn [length]. lia. }
    1: { rewrite (proj2 (proj1 (C80_coboundary_l 1 b ltac:(lia) Cb)) [x; y]); [reflexivity|]. unfold zlen. cbn [length]. lia. }
    assert (Ix := I x ltac:(cbn; tauto)). assert (Iy := I y ltac:(cbn; tauto)). assert (Iw := I w ltac:(cbn; tauto)). clear I.
    destruct Ix as [Ex | [Ex | Ex]], Iy as [Ey | [Ey | Ey]], Iw as [Ew | [Ew | Ew]]; subst x y w; try reflexivity; exfalso; apply T; cbn; tauto. }
  do 3 eexists. split; [vm_compute; reflexivity|]. split; [apply wfb_wf; reflexivity|]. split; [exact HX|]. split.
  { intros k v Hk. cbn in Hk. assert (XX : X [0; 1] /\ X [1; 2] /\ X [0; 2]).
    { unfold X. repeat apply conj; try discriminate; try (intros w; cbn; intuition lia); cbn; intuition lia. }
    destruct XX as (X1 & X2 & X3). destruct Hk as [E | [E | [E | []]]]; injection E as <- _; eexists; (split; [reflexivity|]); (split; [assumption|reflexivity]). }
  split; [vm_compute; reflexivity|]. split; [reflexivity|]. split; [exact Ca|]. split; [exact Cb|]. split; [exact Va|]. split; [exact Vb|].
  split; [vm_compute; reflexivity|]. split; reflexivity.
Qed.
(** #C80_example2# The formula for d = 1 on the triangle with integral coefficients and
    non-zero terms: -10 - 1 = -5 - 4 - 2. *)
Example C80_example2_l :
  let a := fun s => match s with [x; y] => if x =? y then 0 else 1 + x | _ => 0 end in
  let b := fun s => match s with [x; y] => if x =? y then 0 else y * y | _ => 0 end in
  cochain 1 a /\ cochain 1 b /\
  exists c bc S S' z y y', simp_new 0 [([[0; 1; 2]], 1)] None = Ok c /\ wf cls_simplicial c /\ simp_boundary 0 c = Ok bc /\
    surj_may_steenrod 0 MS 2 1 None (Some MS) = Ok S /\ surj_may_steenrod 0 MS 2 0 None (Some MS) = Ok S' /\
    surj_call_simplicial 0 S bc 1 = Ok z /\ surj_call_simplicial 0 S c 1 = Ok y /\ surj_call_simplicial 0 S' c 1 = Ok y' /\
    simp_value (simp_pair (simp_coboundary a) b) y = -10 /\ simp_value (simp_pair a (simp_coboundary b)) y = 1 /\
    simp_value (simp_pair a b) z = 5 /\ simp_value (simp_pair a b) y' = 4 /\ simp_value (simp_pair b a) y' = 2.
Proof.
  intros a b. assert (Q : forall f : Z -> Z -> Z, cochain 1 (fun s => match s with [x; y] => if x =? y then 0 else f x y | _ => 0 end)).
  { intros f. split; [|intros [|x [|y [|w s]]] L; try reflexivity; exfalso; apply L; reflexivity].
    intros [|x [|y l1]] v l2; [destruct l2; [|reflexivity]; cbn [app]; rewrite Z.eqb_refl; reflexivity|reflexivity|destruct l1; reflexivity]. }
  split; [apply (Q (fun x _ => 1 + x))|]. split; [apply (Q (fun _ y => y * y))|].
  do 7 eexists. split; [vm_compute; reflexivity|]. split; [apply wfb_wf; reflexivity|].
  split; [vm_compute; reflexivity|]. split; [vm_compute; reflexivity|]. split; [vm_compute; reflexivity|]. split; [vm_compute; reflexivity|]. split; [vm_compute; reflexivity|]. split; [vm_compute; reflexivity|].
  repeat apply conj; vm_compute; reflexivity.
Qed.
