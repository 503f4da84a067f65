(** * The action of words on tensors of simplices: degree, degeneracy, boundary.  Proof library. *)
From Coq Require Import Setoid Morphisms.
From Verif Require Import PyBase Dict FreeModule Symmetric Simplicial Utils Surjection Eqm Spec SpecChain SpecOperad SpecSurj SpecAction FreeModuleFacts FreeModuleLaws ListFacts
  ClassFacts LinearFacts BilFacts SymmetricFacts CycleFacts SymmetricLaws RingFacts Tensor TensorAct LoopFacts AW SimplicialFacts SimplicialDiag SurjFacts SurjBoundary SurjLaws ActFacts ActSign.

Definition Phi (r coord : Z) (g : list (list Z) -> Z) (k : list Z) (K : list (list Z)) : Z := ev g (simp_acts r (zlen k - r) coord k K).
Definition T1 (r : Z) (k : list Z) (g : list (list Z) -> Z) (u : list (list Z)) : Z := sgn (action_exponent r (wt (combine k u))) * g (joins r (combine k u)).
Lemma wt_combine k u : combine k (map (fun b : list Z => zlen b - 1) u) = wt (combine k u).
Proof. revert u. induction k as [|a k IH]; intros [|b u]; try reflexivity. cbn [map combine]. rewrite wt_cons, IH. reflexivity. Qed.
Lemma tdeg_total l : total_degree l = tdeg spx_dim l. Proof. reflexivity. Qed.
Lemma Phi_at r coord g k K : Phi r coord g k K =
  at_pos (coord - 1) (fun l1 s l2 => sgn (tdeg spx_dim l1 * (zlen k - r)) * S (length k - 1) (T1 r k (fun v => g (l1 ++ v ++ l2))) s) K.
Proof.
  unfold Phi, at_pos, simp_acts, ev. rewrite sumf_flat_map, cuts_splits. apply sumf_ext. intros [[l1 s] l2] _.
  destruct (zlen l1 =? coord - 1); [|reflexivity]. rewrite S_sum, sumf_map, <- sumf_scal. apply sumf_ext. intros u _. cbn [fst snd]. rewrite wt_combine, tdeg_total. unfold T1, joins. ring.
Qed.
Lemma Phi_app r coord g k l1 s l2 : zlen l1 = coord - 1 -> Phi r coord g k (l1 ++ s :: l2) =
  sgn (tdeg spx_dim l1 * (zlen k - r)) * S (length k - 1) (T1 r k (fun v => g (l1 ++ v ++ l2))) s.
Proof. intros E. rewrite Phi_at. now rewrite at_pos_app. Qed.
Lemma T1_Psi r k g s : s <> [] -> S (length k - 1) (T1 r k g) s = Psi r k g s.
Proof. intros Ns. unfold Psi. apply S_ext_in. intros u Hu. unfold J. rewrite (front_back_nonnil _ _ _ Ns Hu). reflexivity. Qed.
Lemma in_combine_letter (k : list Z) (u : list (list Z)) a b : In (a, b) (combine k u) -> In a k /\ In b u.
Proof. intros H. split; [eapply in_combine_l; eauto|eapply in_combine_r; eauto]. Qed.
Lemma T1_Psi_nil r k g s : onto r k -> k <> [] -> (forall v, In [] v -> g v = 0) -> S (length k - 1) (T1 r k g) s = Psi r k g s.
Proof.
  intros Ho Nk Hg. destruct s as [|x s]; [|apply T1_Psi; discriminate]. unfold Psi. destruct k as [|a [|b k]]; [congruence| |reflexivity].
  cbn [length Nat.sub S]. rewrite J_nil by now left. unfold T1. rewrite Hg; [ring|]. unfold joins. apply in_map_iff. exists a. split.
  - cbn [combine]. rewrite joined_cons, Z.eqb_refl. reflexivity.
  - apply in_zrange. assert (1 <= a <= r) by (apply Ho; now left). lia.
Qed.
(** ** degree *)
Lemma joins_deg r L : 0 <= r -> (forall p, In p L -> 1 <= fst p <= r) -> tdeg spx_dim (joins r L) = sumf (fun p => zlen (snd p)) L - r.
Proof.
  intros Hr HL. unfold tdeg, joins. rewrite map_map. change (zsum (map ?f ?l)) with (sumf f l). unfold spx_dim. rewrite sumf_sub, sumf_1, zlen_zrange.
  replace (Z.max 0 (r + 1 - 1)) with r by lia. f_equal. clear Hr.
  induction L as [|[a s] L IH]; [rewrite sumf_0 by reflexivity; reflexivity|].
  rewrite sumf_cons. cbn [snd]. rewrite <- IH by (intros; apply HL; now right).
  rewrite (sumf_ext _ (fun i => (if i =? a then zlen s else 0) + zlen (joined i L))).
  2:{ intros i _. rewrite joined_cons, zlen_app, Z.eqb_sym. now destruct (i =? a). }
  rewrite sumf_add. f_equal. assert (Ha : 1 <= a <= r) by exact (HL (a, s) (or_introl eq_refl)).
  rewrite (zrange_split 1 (r + 1) a) by lia. rewrite sumf_app, sumf_cons, Z.eqb_refl, !sumf_0; [ring| |]; intros i Hi; apply in_zrange in Hi; destruct (Z.eqb_spec i a); lia.
Qed.
Lemma letters_ok r k (u : list (list Z)) p : onto r k -> In p (combine k u) -> 1 <= fst p <= r.
Proof. intros Ho Hp. destruct p as [a b]. apply in_combine_letter in Hp. apply Ho, Hp. Qed.
Lemma sumf_len_combine (k : list Z) (u : list (list Z)) : length u = length k -> sumf (fun p => zlen (snd p)) (combine k u) = tdeg spx_dim u + zlen k.
Proof.
  revert u. induction k as [|a k IH]; intros [|b u] L; try discriminate; [reflexivity|]. cbn [combine]. rewrite sumf_cons, tdeg_cons, zlen_cons. cbn [snd]. rewrite (IH u) by (cbn in L; lia). unfold spx_dim. ring.
Qed.
Lemma fb_len k (s : list Z) u : k <> [] -> In u (front_back (length k - 1) s) -> length u = length (k : list Z).
Proof. intros N H. apply front_back_len in H. destruct k; [congruence|cbn in *; lia]. Qed.
Lemma acts_in r d coord k K w v : In (w, v) (simp_acts r d coord k K) -> exists l1 s l2 u, K = l1 ++ s :: l2 /\ zlen l1 = coord - 1 /\ In u (front_back (length k - 1) s) /\ w = l1 ++ joins r (combine k u) ++ l2.
Proof.
  unfold simp_acts. rewrite in_flat_map. intros ([[l1 s] l2] & Hs & Hin). rewrite cuts_splits in Hs. apply splits_in in Hs. destruct (Z.eqb_spec (zlen l1) (coord - 1)); [|destruct Hin].
  apply in_map_iff in Hin. destruct Hin as (u & [= <- <-] & Hu). exists l1, s, l2, u. auto.
Qed.
Lemma acts_deg r d n e coord k K w v : 1 <= r -> surj_cell r d k -> kdegS n e K -> In (w, v) (simp_acts r (zlen k - r) coord k K) -> kdegS (n + r - 1) (e + d) w.
Proof.
  intros Hr [Ho Lk] [Ln De] Hin. apply acts_in in Hin. destruct Hin as (l1 & s & l2 & u & -> & E1 & Hu & ->). assert (Nk : k <> []) by (apply (onto_ne r); auto).
  pose proof (front_back_deg _ _ _ Hu) as [Ed _]. apply (fb_len k) in Hu; [|exact Nk].
  unfold kdeg. rewrite !tdeg_app, tdeg_cons, !zlen_app, zlen_cons in *. rewrite joins_deg by (lia || (intros p; apply (letters_ok r k u p Ho))). rewrite sumf_len_combine by exact Hu.
  unfold joins. rewrite zlen_map, zlen_zrange. rewrite Ed. lia.
Qed.
Lemma rep_Phi r d n e coord : 1 <= r -> rep2 (surj_cell r d) (kdegS n e) (kdegS (n + r - 1) (e + d)) (Phi r coord).
Proof. intros Hr k K Hk HK. exists (simp_acts r (zlen k - r) coord k K). split; [intros w v; now apply acts_deg|reflexivity]. Qed.
(** ** degeneracy *)
Lemma dupb_l b y : dupb b = true -> dupb (b ++ y) = true.
Proof.
  induction b as [|v b IH]; [discriminate|]. destruct b as [|w b]; [discriminate|]. cbn [app] in *. rewrite !dupb_cons2. intros E. apply orb_true_iff in E. apply orb_true_iff.
  destruct E as [E|E]; [now left|right; now apply IH].
Qed.
Lemma dupb_r x b : dupb b = true -> dupb (x ++ b) = true.
Proof. intros E. induction x as [|v x IH]; [exact E|]. cbn [app]. now apply dupb_tl. Qed.
Lemma dupb_mid x b y : dupb b = true -> dupb (x ++ b ++ y) = true.
Proof. intros E. now apply dupb_r, dupb_l. Qed.
Lemma joined_bad r L a : 1 <= a <= r -> spx_is_degenerate (joined a L) = true -> existsb spx_is_degenerate (joins r L) = true.
Proof. intros Ha Hb. apply existsb_exists. exists (joined a L). split; [|exact Hb]. unfold joins. apply in_map_iff. exists a. split; [reflexivity|]. apply in_zrange. lia. Qed.
Lemma joins_dup r L a b : 1 <= a <= r -> In (a, b) L -> dupb b = true -> existsb spx_is_degenerate (joins r L) = true.
Proof.
  intros Ha Hin Hb. apply (joined_bad r L a Ha). apply dupb_deg. apply in_split in Hin. destruct Hin as (L1 & L2 & ->). rewrite joined_app, joined_cons, Z.eqb_refl. now apply dupb_mid.
Qed.
Lemma in_combine_ex (k : list Z) (u : list (list Z)) b : length u = length k -> In b u -> exists a, In a k /\ In (a, b) (combine k u).
Proof.
  revert u. induction k as [|a k IH]; intros [|c u] L Hb; try discriminate; [destruct Hb|]. destruct Hb as [->|Hb].
  - exists a. split; now left.
  - destruct (IH u) as (a' & H1 & H2); [cbn in L; lia|exact Hb|]. exists a'. split; now right.
Qed.
Lemma share t : forall (s : list Z) u1 b c u2, In (u1 ++ b :: c :: u2) (front_back t s) -> exists b0 x c0, b = b0 ++ [x] /\ c = x :: c0.
Proof.
  induction t as [|t IH]; intros s u1 b c u2 Hu.
  - destruct Hu as [E|[]]. destruct u1 as [|? [|? ?]]; discriminate.
  - apply front_back_inv in Hu. destruct Hu as (l1 & a & l2 & u' & -> & E & Hu'). destruct u1 as [|b1 u1]; cbn [app] in E; injection E as E1 E2; subst.
    + destruct t as [|t].
      * destruct Hu' as [E|[]]. injection E as <- _. eauto.
      * apply front_back_inv in Hu'. destruct Hu' as (m1 & a' & m2 & u' & E & E2 & _). injection E2 as -> _. destruct m1 as [|y m1]; injection E as E E3; subst; cbn [app]; eauto.
    + eapply IH; eauto.
Qed.
Lemma adj_split k : adj k = true -> exists k1 a k2, k = k1 ++ a :: a :: k2.
Proof.
  induction k as [|a k IH]; [discriminate|]. destruct k as [|b k]; [discriminate|]. rewrite adj_cons2. intros E. apply orb_true_iff in E. destruct E as [E|E].
  - apply Z.eqb_eq in E. subst. exists [], b, k. reflexivity.
  - destruct (IH E) as (k1 & c & k2 & ->). exists (a :: k1), c, k2. reflexivity.
Qed.
Lemma joins_adj r k u t (s : list Z) : onto r k -> length u = length k -> In u (front_back t s) -> adj k = true -> existsb spx_is_degenerate (joins r (combine k u)) = true.
Proof.
  intros Ho L Hu E. apply adj_split in E. destruct E as (k1 & a & k2 & ->).
  assert (Hs : exists u1 b c u2, u = u1 ++ b :: c :: u2 /\ length u1 = length k1).
  { clear -L. revert u L. induction k1 as [|a' k1 IH]; intros [|b u] L; try discriminate.
    - destruct u as [|c u]; [discriminate|]. exists [], b, c, u. auto.
    - destruct (IH u) as (u1 & b' & c & u2 & -> & E); [cbn in L; lia|]. exists (b :: u1), b', c, u2. cbn. auto. }
  destruct Hs as (u1 & b & c & u2 & -> & L1). destruct (share _ _ _ _ _ _ Hu) as (b0 & x & c0 & -> & ->).
  apply (joined_bad r _ a); [apply Ho; apply in_or_app; right; now left|]. apply dupb_deg.
  assert (EC : combine (k1 ++ a :: a :: k2) (u1 ++ (b0 ++ [x]) :: (x :: c0) :: u2) = combine k1 u1 ++ (a, b0 ++ [x]) :: (a, x :: c0) :: combine k2 u2).
  { clear -L1. revert u1 L1. induction k1 as [|a' k1 IH]; intros [|b u] L; try discriminate; [reflexivity|]. cbn [app combine]. f_equal. apply IH. cbn in L. lia. }
  rewrite EC, joined_app, !joined_cons, Z.eqb_refl. apply dupb_r. rewrite <- app_assoc. apply dupb_r. cbn [app]. rewrite dupb_cons2, Z.eqb_refl. reflexivity.
Qed.
Lemma acts_bad r coord k K w v : onto r k -> k <> [] -> adj k = true \/ existsb spx_is_degenerate K = true -> In (w, v) (simp_acts r (zlen k - r) coord k K) -> existsb spx_is_degenerate w = true.
Proof.
  intros Ho Nk Hb Hin. apply acts_in in Hin. destruct Hin as (l1 & s & l2 & u & -> & _ & Hu & ->). pose proof (fb_len k s u Nk Hu) as L.
  rewrite !existsb_app. destruct Hb as [Hb|Hb].
  - rewrite (joins_adj r k u _ s Ho L Hu Hb), orb_true_r. reflexivity.
  - rewrite existsb_app in Hb. cbn [existsb] in Hb. apply orb_true_iff in Hb. destruct Hb as [-> |Hb]; [reflexivity|]. apply orb_true_iff in Hb. destruct Hb as [Hb| ->]; [|now rewrite !orb_true_r].
    assert (E : existsb spx_is_degenerate (joins r (combine k u)) = true); [|now rewrite E, orb_true_r].
    rewrite deg_dupb in Hb. destruct s as [|x s].
    + destruct k as [|a [|b k]]; [congruence| |].
      * destruct Hu as [<-|[]]. apply (joined_bad r _ a); [apply Ho; now left|]. cbn [combine]. rewrite joined_cons, Z.eqb_refl. reflexivity.
      * cbn in Hu. destruct Hu.
    + destruct (front_back_dup _ _ _ Hb Hu) as (b & Hb1 & Hb2). destruct (in_combine_ex k u b L Hb1) as (a & Ha & Hin). apply (joins_dup r _ a b); auto. now apply Ho.
Qed.
Lemma adm_Phi r d n e coord : 1 <= r -> adm2 cls_surj cls_simplicial cls_simplicial (surj_cell r d) (kdegS n e) (kdegS (n + r - 1) (e + d)) (Phi r coord).
Proof.
  intros Hr g [_ Hg].
  assert (Z0 : forall k K, surj_cell r d k -> kdegS n e K -> adj k = true \/ existsb spx_is_degenerate K = true -> Phi r coord g k K = 0).
  { intros k K H1 H2 Hb. unfold Phi. apply ev_zero. intros w v Hin. apply Hg; [eapply acts_deg; eauto|]. cbn. f_equal.
    eapply (acts_bad r coord k K); eauto; [apply H1|apply (onto_ne r); [exact Hr|apply H1]]. }
  split; intros k Hk _; apply admP_keyeq; intros k' H' Hb.
  - change (bad cls_surj k') with (surj_bad k') in Hb. rewrite (surj_bad_onto r) in Hb by (lia || apply H'). injection Hb as Hb. apply Z0; auto.
  - injection Hb as Hb. apply Z0; auto.
Qed.
(** ** boundary *)
Lemma adm_nil g v : adm cls_simplicial g -> In [] v -> g v = 0.
Proof. intros [_ Hg] Hv. apply Hg. cbn. f_equal. apply existsb_exists. exists []. auto. Qed.
Lemma Phi_chain r d coord g k l1 s l2 : 1 <= r -> surj_cell r d k -> adm cls_simplicial g -> s <> [] -> zlen l1 = coord - 1 ->
  Phi r coord (tDS g) k (l1 ++ s :: l2) = sd MS (fun k' => Phi r coord g k' (l1 ++ s :: l2)) k + sgn d * tDS (fun K' => Phi r coord g k K') (l1 ++ s :: l2).
Proof.
  intros Hr Hk Hg Ns E1. pose proof Hk as [Ho Lk]. assert (Nk : k <> []) by (now apply (onto_ne r)).
  set (h := fun v => g (l1 ++ v ++ l2)). assert (Hh : forall v, In [] v -> h v = 0).
  { intros v Hv. apply (adm_nil g); [exact Hg|]. apply in_or_app. right. apply in_or_app. now left. }
  set (E := fun u => sgn (action_exponent r (wt (combine k u)))). set (j := fun u => joins r (combine k u)). set (m := (length k - 1)%nat).
  rewrite Phi_app by exact E1. replace (zlen k - r) with d by lia.
  rewrite (rep_ext (surj_cell r d) (surj_cell r (d - 1)) (sd MS) _ (fun k' => sgn (tdeg spx_dim l1 * (d - 1)) * Psi r k' h s) k (rep_sd MS _ _ (sface_cell r d)) Hk).
  2:{ intros k' [Ho' Lk']. rewrite Phi_app by exact E1. replace (zlen k' - r) with (d - 1) by lia. f_equal. now apply T1_Psi. }
  rewrite tD_app, tD_cons.
  rewrite (tD_ext fbS spx_dim _ (fun v => sgn ((tdeg spx_dim l1 - 1) * d) * S m (fun u => E u * g (v ++ j u ++ l2)) s) l1).
  2:{ intros v c Hin. apply (tdeg_tb fbS spx_dim dim_fbS) in Hin. destruct Hin as [D L]. rewrite Phi_app by (unfold zlen in *; lia). rewrite D. replace (zlen k - r) with d by lia. reflexivity. }
  rewrite (fdS_ext _ (fun s' => sgn (tdeg spx_dim l1 * d) * Psi r k h s')).
  2:{ intros s'. rewrite Phi_app by exact E1. replace (zlen k - r) with d by lia. f_equal. now apply T1_Psi_nil. }
  rewrite (tD_ext_all fbS spx_dim (fun v => Phi r coord g k (l1 ++ s :: v)) (fun v => sgn (tdeg spx_dim l1 * d) * S m (fun u => E u * g (l1 ++ j u ++ v)) s)).
  2:{ intros v. rewrite Phi_app by exact E1. replace (zlen k - r) with d by lia. reflexivity. }
  rewrite fdS_scal, !tD_scal.
  assert (EL : S m (T1 r k (fun v => tDS g (l1 ++ v ++ l2))) s = S m (fun u => E u * tDS (fun v => g (v ++ j u ++ l2)) l1) s + sgn (tdeg spx_dim l1) * Psi r k (tDS h) s
      + sgn (tdeg spx_dim l1 + spx_dim s + d) * S m (fun u => E u * tDS (fun v => g (l1 ++ j u ++ v)) l2) s).
  { rewrite <- (T1_Psi r k (tDS h) s Ns), <- !S_scal. fold m. rewrite <- !S_add. apply S_ext_in. intros u Hu. pose proof (front_back_deg _ _ _ Hu) as [Ed _].
    unfold m in Hu. apply (fb_len k) in Hu; [|exact Nk].
    unfold T1. fold (E u). fold (j u). rewrite !tD_app. unfold h.
    assert (Ej : tdeg spx_dim (j u) = spx_dim s + d).
    { unfold j. rewrite joins_deg by (lia || (intros p; apply (letters_ok r k u p Ho))). rewrite sumf_len_combine by exact Hu. rewrite Ed. lia. }
    rewrite Ej. replace (tdeg spx_dim l1 + spx_dim s + d) with (tdeg spx_dim l1 + (spx_dim s + d)) by ring. rewrite (sgn_add (tdeg spx_dim l1)). ring. }
  fold m. rewrite EL, (act_chain r k h s Ho Nk Ns Hh). replace (zlen k - r) with d by lia.
  assert (EX : forall (H : list (list Z) -> list (list Z) -> Z) l, S m (fun u => E u * tDS (H u) l) s = tDS (fun v => S m (fun u => E u * H u v) s) l).
  { intros H l. rewrite <- (S_exch_tD m (fun u v => E u * H u v)). apply S_ext. intros u. now rewrite tD_scal. }
  rewrite (EX (fun u v => g (v ++ j u ++ l2))), (EX (fun u v => g (l1 ++ j u ++ v))).
  rewrite (sd_ev MS (fun k' => sgn (tdeg spx_dim l1 * (d - 1)) * Psi r k' h s)), ev_scal, <- sd_ev.
  replace (tdeg spx_dim l1 * (d - 1)) with (tdeg spx_dim l1 * d - tdeg spx_dim l1) by ring. replace ((tdeg spx_dim l1 - 1) * d) with (tdeg spx_dim l1 * d - d) by ring.
  rewrite !sgn_sub, !sgn_add.
  set (A := tDS _ l1). set (B := tDS _ l2). set (C := fdS _ s). set (D := sd MS _ k).
  pose proof (sgn_sq d) as Q. generalize dependent (sgn d). intros sg Q. clearbody A B C D. generalize (sgn (tdeg spx_dim l1 * d)) (sgn (tdeg spx_dim l1)) (sgn (spx_dim s)). intros.
  transitivity (z * (sg * sg) * A + z * z0 * (sg * C + D) + z * z0 * z1 * sg * B); [rewrite Q; ring|ring].
Qed.
