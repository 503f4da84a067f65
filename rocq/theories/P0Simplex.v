(** * The May-Steenrod structure on the top tensors of a simplex.  Proof library for C87. *)
From Coq Require Import Setoid Morphisms Znumtheory Sorting.Sorted.
From Verif Require Import PyBase Dict FreeModule Symmetric Simplicial Utils Surjection BarrattEccles Eqm Spec SpecChain SpecOperad SpecSurj SpecAction SpecCochain FreeModuleFacts FreeModuleLaws ListFacts
  ClassFacts LinearFacts BilFacts SymmetricFacts CycleFacts SymmetricLaws RingFacts Tensor TensorAct KoszulFacts LoopFacts AW SimplicialFacts SimplicialDiag SimplicialLaws BEOrbit BEDiag MayFacts BELaws3 SurjFacts SurjBoundary SurjLaws SurjAct SurjMay
  SteenrodFacts SteenrodLaws ActFacts ActSign ActCore ActCode ActLaws EquivAct SteenrodAct StnLaws SteenrodWords SteenrodLin SteenrodClass Bockstein CupI CupILaws BockLaws P0Words.

(** ** subsequences with repetitions *)
Inductive sub2 : list Z -> list Z -> Prop :=
| sub2_nil w : sub2 [] w
| sub2_keep b v w : sub2 v (b :: w) -> sub2 (b :: v) (b :: w)
| sub2_drop b v w : sub2 v w -> sub2 v (b :: w).
Lemma sub2_refl s : sub2 s s.
Proof. induction s as [|b s IH]; [constructor|]. apply sub2_keep, sub2_drop, IH. Qed.
Lemma sub2_dup t s : sub2 t s -> forall l1 v l2, t = l1 ++ v :: l2 -> sub2 (l1 ++ v :: v :: l2) s.
Proof.
  induction 1 as [w|b t w H IH|b t w H IH]; intros l1 v l2 E.
  - destruct l1; discriminate.
  - destruct l1 as [|a l1]; cbn [app] in *; injection E as -> E.
    + subst t. now do 2 apply sub2_keep.
    + apply sub2_keep. now apply IH.
  - apply sub2_drop. now apply IH.
Qed.
Lemma sub2_del t s : sub2 t s -> forall l1 v l2, t = l1 ++ v :: l2 -> sub2 (l1 ++ l2) s.
Proof.
  induction 1 as [w|b t w H IH|b t w H IH]; intros l1 v l2 E.
  - destruct l1; discriminate.
  - destruct l1 as [|a l1]; cbn [app] in *; injection E as -> E.
    + now subst t.
    + apply sub2_keep. now apply (IH l1 v l2).
  - apply sub2_drop. now apply (IH l1 v l2).
Qed.
Lemma sub2_set s : simplicial_set (fun t => sub2 t s).
Proof. split; [intros l1 v l2 H _; now apply (sub2_del _ _ H l1 v l2)|intros l1 v l2 H; now apply (sub2_dup _ _ H l1 v l2)]. Qed.
Lemma sub2_len s : forall t, sub2 t s -> dupb t = false -> zlen t <= zlen s /\ (zlen t = zlen s -> t = s).
Proof.
  induction s as [|b s IH]; intros t H D.
  - inversion H; subst. split; [lia|reflexivity].
  - pose proof (zlen_nonneg s) as L0. assert (Dr : forall v, sub2 v s -> dupb v = false -> zlen v <= zlen (b :: s) /\ (zlen v = zlen (b :: s) -> v = b :: s)) by (intros v Hv Dv; destruct (IH v Hv Dv) as [L _]; rewrite zlen_cons; split; [lia|intros; lia]).
    inversion H as [w|b' v w H1|b' v w H1]; subst; [rewrite zlen_cons; change (zlen (@nil Z)) with 0; split; [lia|intros; lia]| |now apply Dr].
    assert (K : sub2 v s -> zlen (b :: v) <= zlen (b :: s) /\ (zlen (b :: v) = zlen (b :: s) -> b :: v = b :: s)).
    { intros Hv. assert (Dv : dupb v = false) by (destruct (dupb v) eqn:E; [|reflexivity]; now rewrite (dupb_tl b v E) in D). destruct (IH v Hv Dv) as [L E]. rewrite !zlen_cons. split; [lia|]. intros E1. f_equal. apply E. lia. }
    inversion H1 as [w|b' u w H2|b' u w H2]; subst; [apply K; constructor| |now apply K]. rewrite dupb_cons2, Z.eqb_refl in D. discriminate.
Qed.
Lemma nondeg t : spx_is_degenerate t = false -> dupb t = false /\ 0 <= spx_dim t.
Proof. rewrite deg_dupb. destruct t as [|v t]; [discriminate|]. intros D. split; [exact D|]. unfold spx_dim. rewrite zlen_cons. pose proof (zlen_nonneg t). lia. Qed.
Lemma sub2_dim s t : sub2 t s -> spx_is_degenerate t = false -> spx_dim t <= spx_dim s /\ (spx_dim t = spx_dim s -> t = s).
Proof. intros H D. apply nondeg in D. destruct (sub2_len s t H (proj1 D)) as [H1 H2]. unfold spx_dim. split; [lia|]. intros E. apply H2. lia. Qed.
Definition ind (s t : list Z) : Z := if keqb t s then 1 else 0.
Lemma ind_cochain s : spx_is_degenerate s = false -> cochain (spx_dim s) (ind s).
Proof.
  intros D. assert (S0 : forall t, spx_is_degenerate t = true -> ind s t = 0). { intros t Dt. unfold ind. destruct (keqb t s) eqn:E; [|reflexivity]. apply keqb_eq in E. congruence. }
  split.
  - intros l1 v l2. apply S0. apply dupb_deg. induction l1 as [|a l1 IH]; cbn [app]; [rewrite dupb_cons2, Z.eqb_refl; reflexivity|now apply dupb_tl].
  - intros t N. unfold ind. destruct (keqb t s) eqn:E; [|reflexivity]. apply keqb_eq in E. subst t. exfalso. now apply N.
Qed.
Lemma dupb_suffix l x : dupb (l ++ x) = false -> dupb x = false.
Proof. induction l as [|b l IH]; intros D; [exact D|]. apply IH. destruct (dupb (l ++ x)) eqn:E; [|reflexivity]. cbn [app] in D. now rewrite (dupb_tl b _ E) in D. Qed.
Lemma fdS_last s v : dupb (s ++ [v]) = false -> fdS (ind s) (s ++ [v]) = sgn (zlen s).
Proof.
  assert (G : forall u l, dupb (l ++ u ++ [v]) = false -> fdS (fun t => ind (l ++ u) (l ++ t)) (u ++ [v]) = sgn (zlen u)).
  { induction u as [|a u IH]; intros l D.
    - cbn [app]. rewrite fdS_cons, fdS_nil. unfold ind. rewrite !app_nil_r, keqb_refl. reflexivity.
    - cbn [app]. rewrite fdS_cons. assert (Z0 : ind (l ++ a :: u) (l ++ u ++ [v]) = 0).
      { unfold ind. destruct (keqb (l ++ u ++ [v]) (l ++ a :: u)) eqn:E; [|reflexivity]. apply keqb_eq in E. apply app_inv_head in E. exfalso.
        assert (D2 : dupb (a :: u ++ [v]) = false) by exact (dupb_suffix l _ D).
        clear - E D2. revert a E D2. induction u as [|c u IH]; intros a E D2; cbn [app] in *.
        - injection E as ->. rewrite dupb_cons2, Z.eqb_refl in D2. discriminate.
        - injection E as -> E. rewrite dupb_cons2, Z.eqb_refl in D2. discriminate. }
      rewrite Z0. rewrite (fd_ext_all fbS _ (fun t => ind ((l ++ [a]) ++ u) ((l ++ [a]) ++ t))) by (intros t; rewrite <- !app_assoc; reflexivity). rewrite IH by (rewrite <- app_assoc; exact D).
      rewrite zlen_cons, <- Z.add_1_r || rewrite zlen_cons. rewrite sgn_add, sgn_1. ring. }
  intros D. exact (G s [] D).
Qed.
Lemma fb_vertex (v : Z) t : front_back t [v] = [repeat [v] (Datatypes.S t)].
Proof. induction t as [|t IH]; [reflexivity|]. cbn [front_back cuts map flat_map app]. rewrite IH. reflexivity. Qed.
Section Simplex.
Variable p : Z.
Hypothesis Hp1 : 2 <= p.
Definition QS (s : list Z) (d : nat) (G : list (list Z) -> Z) : Z := FpS MS p d (fun k => Phi p 1 G k [s]).
Lemma QS_ext s d G G' : s <> [] -> adm cls_simplicial G -> adm cls_simplicial G' ->
  (forall K, zlen K = p -> tdeg spx_dim K = spx_dim s + Z.of_nat d -> (forall b, In b K -> sub2 b s /\ spx_is_degenerate b = false) -> G K = G' K) -> QS s d G = QS s d G'.
Proof.
  intros Ns AG AG' E. unfold QS. apply FpS_ext; [lia|]. intros k [Ck _]. unfold Phi. apply ev_ext. intros w v Hw.
  destruct (existsb spx_is_degenerate w) eqn:Ew.
  - assert (B : bad cls_simplicial w = Ok true) by (cbn; now rewrite Ew). now rewrite (proj2 AG _ B), (proj2 AG' _ B).
  - assert (Q : kdegS 1 (spx_dim s) [s]) by (split; [reflexivity|rewrite tdeg_cons; change (tdeg spx_dim []) with 0; ring]).
    destruct (acts_deg p (Z.of_nat d) 1 _ 1 k [s] w v ltac:(lia) Ck Q Hw) as [E1 E2]. apply E; [lia|exact E2|]. intros b Hb. split.
    + apply (X_acts _ p _ k s w v (sub2_set s) ltac:(lia) (proj1 Ck) Ns (sub2_refl s) Hw b Hb).
    + destruct (spx_is_degenerate b) eqn:Eb; [|reflexivity]. rewrite <- Ew. symmetry. apply existsb_exists. now exists b.
Qed.
Lemma QS_scal s d a G : QS s d (fun K => a * G K) = a * QS s d G.
Proof.
  unfold QS. destruct (FpS_list MS p d ltac:(lia)) as (T & T1 & T2). rewrite !T2, <- ev_scal. apply ev_ext. intros k v _. unfold Phi. apply ev_scal.
Qed.
Lemma QS_zero s d G : s <> [] -> adm cls_simplicial G ->
  (forall K, zlen K = p -> tdeg spx_dim K = spx_dim s + Z.of_nat d -> (forall b, In b K -> sub2 b s /\ spx_is_degenerate b = false) -> G K = 0) -> QS s d G = 0.
Proof.
  intros Ns AG E. rewrite (QS_ext s d G (fun K => 0 * G K) Ns AG); [rewrite QS_scal; ring| |].
  - split; [intros k k' Ek; apply keqb_eq in Ek; now rewrite Ek|intros; ring].
  - intros K H1 H2 H3. rewrite E by assumption. ring.
Qed.
Lemma tDS_one H s : tDS H [s] = fdS (fun b => H [b]) s.
Proof. rewrite tD_cons, tD_nil. ring. Qed.
Lemma QS_step s d G : adm cls_simplicial G -> s <> [] ->
  QS s d (tDS G) = FpS MS p d (sd MS (fun k => Phi p 1 G k [s])) + sgn (Z.of_nat d) * fdS (fun f => QS f d G) s.
Proof.
  intros AG Ns. unfold QS at 1. destruct (FpS_list MS p d ltac:(lia)) as (T & T1 & T2). rewrite !T2.
  rewrite (ev_ext _ (fun k => sd MS (fun k' => Phi p 1 G k' [s]) k + sgn (Z.of_nat d) * tDS (fun K' => Phi p 1 G k K') [s])).
  - rewrite ev_add, ev_scal. f_equal. f_equal. rewrite (ev_ext _ (fun k => fdS (fun f => Phi p 1 G k [f]) s)) by (intros; apply tDS_one).
    unfold fd. rewrite (ev_exch (fun k f => Phi p 1 G k [f])). apply ev_ext. intros f v _. unfold QS. now rewrite T2.
  - intros k v Hk. destruct (T1 _ _ Hk) as [Ck _]. apply (Phi_chain p (Z.of_nat d) 1 G k [] s []); auto. lia.
Qed.
Lemma QS_0 s G : adm cls_simplicial G -> s <> [] -> QS s 0 (tDS G) = fdS (fun f => QS f 0 G) s.
Proof.
  intros AG Ns. rewrite QS_step by assumption. change (sgn (Z.of_nat 0)) with 1. rewrite Z.mul_1_l. rewrite <- (Z.add_0_l (fdS _ s)) at 2. f_equal.
  destruct (FpS_list MS p 0 ltac:(lia)) as (T & T1 & T2). rewrite T2. apply ev_zero. intros k v Hk. destruct (T1 _ _ Hk) as [Ck _].
  destruct (rep_sd MS _ _ (sface_cell p (Z.of_nat 0)) k Ck) as (L & L1 & L2). rewrite L2. apply ev_zero. intros k' v' Hk'. exfalso. destruct (L1 _ _ Hk') as [Ho Lk]. apply (onto_long p) in Ho; lia.
Qed.
Lemma QS_S s d G : adm cls_simplicial G -> s <> [] ->
  QS s (Datatypes.S d) (tDS G) = RA p (Datatypes.S d) (fun r => QS s d (fun K => kact spx_dim G r K)) + sgn (Z.of_nat (Datatypes.S d)) * fdS (fun f => QS f (Datatypes.S d) G) s.
Proof.
  intros AG Ns. rewrite QS_step by assumption. f_equal. rewrite FpS_boundary; [|lia|].
  - apply RA_ext; [lia|]. intros r Hr. unfold QS. apply FpS_ext; [lia|]. intros k [Ck _]. apply Phi_equiv; [lia|exact Hr|apply Ck].
  - intros k Ck Ak. now apply (Bd p Hp1 G k (Z.of_nat d)).
Qed.
(** ** top tensors *)
Lemma top_key s K : zlen K = p -> tdeg spx_dim K = spx_dim s * p -> (forall b, In b K -> sub2 b s /\ spx_is_degenerate b = false) -> K = repeat s (Z.to_nat p).
Proof.
  intros LK TK HK. assert (A : forall L, (forall b, In b L -> sub2 b s /\ spx_is_degenerate b = false) -> tdeg spx_dim L <= spx_dim s * zlen L /\ (tdeg spx_dim L = spx_dim s * zlen L -> L = repeat s (length L))).
  { induction L as [|b L IH]; intros HL; [change (tdeg spx_dim []) with 0; change (zlen (@nil (list Z))) with 0; split; [lia|reflexivity]|]. destruct IH as [I1 I2]; [intros; apply HL; now right|]. destruct (HL b ltac:(now left)) as [Hb Db]. destruct (sub2_dim s b Hb Db) as [E1 E2].
    rewrite tdeg_cons, zlen_cons. split; [lia|]. intros E. cbn [length repeat]. rewrite <- I2 by lia. f_equal. apply E2. lia. }
  destruct (A K HK) as [_ E]. rewrite E by (rewrite LK; exact TK). f_equal. unfold zlen in LK. lia.
Qed.
Lemma over_key s K : zlen K = p -> spx_dim s * p < tdeg spx_dim K -> (forall b, In b K -> sub2 b s /\ spx_is_degenerate b = false) -> False.
Proof.
  intros LK TK HK. assert (A : forall L, (forall b, In b L -> sub2 b s /\ spx_is_degenerate b = false) -> tdeg spx_dim L <= spx_dim s * zlen L).
  { induction L as [|b L IH]; intros HL; [change (tdeg spx_dim []) with 0; change (zlen (@nil (list Z))) with 0; lia|]. specialize (IH ltac:(intros; apply HL; now right)). destruct (HL b ltac:(now left)) as [Hb Db]. destruct (sub2_dim s b Hb Db) as [E1 E2]. rewrite tdeg_cons, zlen_cons. lia. }
  specialize (A K HK). rewrite LK in A. lia.
Qed.
Lemma on_repeat f s n : on_tensor f (repeat s n) = f s ^ Z.of_nat n.
Proof. induction n as [|n IH]; [reflexivity|]. cbn [repeat]. change (on_tensor f (s :: repeat s n)) with (f s * on_tensor f (repeat s n)). rewrite IH, Nat2Z.inj_succ, Z.pow_succ_r by lia. reflexivity. Qed.
Definition top (s : list Z) : nat := Z.to_nat (spx_dim s * (p - 1)).
Definition aa (s : list Z) : Z := QS s (top s) (on_tensor (ind s)).
Lemma ind_adm s : spx_is_degenerate s = false -> adm cls_simplicial (on_tensor (ind s)).
Proof. intros D. apply (adm_on p (spx_dim s) (fun _ => False) (ind s)); [apply nondeg in D; lia|]. split; [now apply ind_cochain|intros ? []]. Qed.
Lemma nondeg_ne s : spx_is_degenerate s = false -> s <> [].
Proof. intros D ->. discriminate. Qed.
Lemma QS_top s G : spx_is_degenerate s = false -> adm cls_simplicial G -> QS s (top s) G = aa s * G (repeat s (Z.to_nat p)).
Proof.
  intros D AG. unfold aa. rewrite Z.mul_comm, <- QS_scal. apply QS_ext; [now apply nondeg_ne|exact AG| |].
  - split; [intros k k' Ek; apply keqb_eq in Ek; now rewrite Ek|]. intros K HK. rewrite (proj2 (ind_adm s D) K HK). ring.
  - intros K LK TK HK. assert (E : K = repeat s (Z.to_nat p)). { apply top_key; [exact LK| |exact HK]. rewrite TK. unfold top. apply nondeg in D. rewrite Z2Nat.id by nia. ring. }
    rewrite E, on_repeat. unfold ind. rewrite keqb_refl, Z.pow_1_l by lia. ring.
Qed.
Lemma QS_over s d G : spx_is_degenerate s = false -> adm cls_simplicial G -> spx_dim s * (p - 1) < Z.of_nat d -> QS s d G = 0.
Proof. intros D AG Hd. apply QS_zero; [now apply nondeg_ne|exact AG|]. intros K LK TK HK. exfalso. apply (over_key s K LK); [|exact HK]. rewrite TK. lia. Qed.
Lemma aa_vertex v : aa [v] = 1.
Proof.
  unfold aa, top. change (spx_dim [v]) with 0. rewrite Z.mul_0_l. change (Z.to_nat 0) with O. unfold QS. cbn [FpS]. change (Phi p 1 (on_tensor (ind [v])) (zrange 1 (p + 1)) [[v]] = 1). rewrite Phi_id by lia.
  change ([[v]]) with ([] ++ [v] :: [] : list (list Z)). unfold Sd. rewrite (at_pos_app (1 - 1) _ [] [v] []) by reflexivity. rewrite S_sum, fb_vertex, sumf_cons, sumf_nil. cbn [app]. rewrite app_nil_r, on_repeat. unfold ind. rewrite keqb_refl, Z.pow_1_l by lia. ring.
Qed.

Lemma QS_ext0 s d G G' : (forall K, zlen K = p -> G K = G' K) -> QS s d G = QS s d G'.
Proof. intros E. unfold QS. apply FpS_ext; [lia|]. intros k [Ck _]. unfold Phi. apply ev_ext. intros w v Hw. apply E. apply (Phi_len p ltac:(lia) Hp1 (Z.of_nat d) k s w v Ck Hw). Qed.
Lemma QS_ev {W} s d (f : W -> list (list Z) -> Z) (L : dict W) : QS s d (fun K => ev (fun w => f w K) L) = ev (fun w => QS s d (f w)) L.
Proof.
  unfold QS. destruct (FpS_list MS p d ltac:(lia)) as (T & T1 & T2). rewrite T2. rewrite (ev_ext (fun w => FpS MS p d _) (fun w => ev (fun k => Phi p 1 (f w) k [s]) T)) by (intros; apply T2).
  rewrite <- (ev_exch (fun k w => Phi p 1 (f w) k [s])). apply ev_ext. intros k v _. unfold Phi. apply (ev_exch (fun K w => f w K)).
Qed.
Section Last.
Variables (s : list Z) (v : Z).
Hypothesis D : spx_is_degenerate (s ++ [v]) = false.
Hypothesis Ns : s <> [].
Notation sv := (s ++ [v]).
Notation m := (zlen s).
Notation bet := (ind s).
Lemma D' : spx_is_degenerate s = false.
Proof.
  rewrite deg_dupb in *. destruct s as [|a l]; [congruence|]. change ((a :: l) ++ [v]) with (a :: l ++ [v]) in D. clear Ns. revert a D. induction l as [|b l IH]; intros a D; [reflexivity|]. cbn [app] in D. rewrite dupb_cons2 in *. apply orb_false_iff in D. destruct D as [-> D2]. cbn [orb]. now apply IH.
Qed.
Lemma m1 : 1 <= m. Proof. destruct s; [congruence|]. rewrite zlen_cons. pose proof (zlen_nonneg l). lia. Qed.
Lemma dim_sv : spx_dim sv = m. Proof. unfold spx_dim. rewrite zlen_app. change (zlen [v]) with 1. ring. Qed.
Lemma bet_co : cochain (m - 1) bet. Proof. exact (ind_cochain s D'). Qed.
Lemma Nsv : sv <> []. Proof. now apply nondeg_ne. Qed.
Lemma tau_bet_adm w : adm cls_simplicial (fun K => tau (bval bet) w K).
Proof.
  split; [intros k k' E; apply keqb_eq in E; now rewrite E|]. intros K Hk. injection Hk as Hk. revert K Hk. induction w as [|l w IH]; intros [|b K] Hk; try reflexivity; [discriminate|].
  cbn [existsb] in Hk. cbn [tau]. apply orb_true_iff in Hk. destruct Hk as [Hk|Hk]; [rewrite (bval_deg p m bet m1 bet_co) by assumption; ring|]. rewrite IH by exact Hk. ring.
Qed.
Definition qq (d : nat) (w : word) : Z := QS sv d (fun K => tau (bval bet) w K).
Definition ee (d : nat) (w : word) : Z := sgn (Z.of_nat d) * fdS (fun f => QS f d (fun K => tau (bval bet) w K)) sv.
Notation bd := (bval_dim m bet bet_co).
Lemma qq_D d w : okw w -> zlen w = p -> tD fbw (dgw m) (qq d) w = QS sv d (tDS (fun K => tau (bval bet) w K)).
Proof.
  intros Ho Lw. unfold tD at 1. unfold qq. rewrite <- (QS_ev sv d (fun w' K => tau (bval bet) w' K)). apply QS_ext0. intros K LK.
  symmetry. apply (tau_tD (bval bet) fbw (dgw m) bd); [unfold zlen in *; lia|]. intros l b Hl. apply bval_d, Ho, Hl.
Qed.
Lemma qq_A d w : zlen w = p -> RA p (Datatypes.S d) (fun r => QS sv d (fun K => kact spx_dim (fun K' => tau (bval bet) w K') r K)) = AA p m (Datatypes.S d) (qq d) w.
Proof.
  intros Lw. unfold AA. apply RA_ext; [lia|]. intros r Hr. rewrite (QS_ext0 sv d _ (fun K => sgn (kinv (pinv r) (fun j => dgw m (lab (pinv r) w j))) * tau (bval bet) (placef (pinv r) w) K)).
  - now rewrite QS_scal.
  - intros K LK. rewrite (tau_kact (bval bet) (dgw m) bd p) by (auto; lia). reflexivity.
Qed.
Lemma qq_0 : EQ p (tD fbw (dgw m) (qq O)) (ee O).
Proof. intros w Ho Lw. apply eqm_eq. rewrite qq_D by assumption. rewrite QS_0; [|apply tau_bet_adm|apply Nsv]. unfold ee. change (sgn (Z.of_nat 0)) with 1. ring. Qed.
Lemma qq_S d : EQ p (tD fbw (dgw m) (qq (Datatypes.S d))) (fun w => AA p m (Datatypes.S d) (qq d) w + ee (Datatypes.S d) w).
Proof. intros w Ho Lw. apply eqm_eq. rewrite qq_D by assumption. rewrite QS_S; [|apply tau_bet_adm|apply Nsv]. now rewrite qq_A by exact Lw. Qed.
Lemma face_dim f c : In (f, c) (fbS sv) -> spx_dim f = m - 1 /\ f <> [].
Proof. intros Hf. apply dim_fbS in Hf. rewrite dim_sv in Hf. pose proof m1. split; [lia|]. intros ->. unfold spx_dim in Hf. change (zlen (@nil Z)) with 0 in Hf. lia. Qed.
Lemma tau_one w K : okw w -> 0 < cnt w -> (forall b, In b K -> fdS bet b = 0) -> tau (bval bet) w K = 0.
Proof.
  revert K. induction w as [|l w IH]; intros [|b K] Ho C HK; try reflexivity; [change (cnt []) with 0 in C; lia|]. apply okw_cons in Ho. rewrite cnt_cons in C. cbn [tau]. destruct (proj1 Ho) as [-> | ->].
  - rewrite IH; [ring|apply Ho|exact C|intros; apply HK; now right].
  - change (bval bet [1] b) with (fdS bet b). rewrite HK by now left. ring.
Qed.
Lemma ee_small d w : okw w -> zlen w = p -> 0 < cnt w -> eqm p (ee d w) 0.
Proof.
  intros Ho Lw C. apply eqm_eq. unfold ee. replace (fdS _ sv) with 0; [ring|]. symmetry. apply ev_zero. intros f c Hf. destruct (face_dim f c Hf) as [Df Nf]. apply QS_zero; [exact Nf|apply tau_bet_adm|].
  intros K LK TK HK. apply tau_one; [exact Ho|exact C|]. intros b Hb. destruct (HK b Hb) as [Sb Db]. destruct (sub2_dim f b Sb Db) as [Lb _]. pose proof m1. apply (proj2 (cochain_cob m bet m1 bet_co)). unfold spx_dim in *. lia.
Qed.
Lemma sgn_pow a n : Z.even n = false -> 0 <= n -> sgn a ^ n = sgn a.
Proof.
  intros Hn H0. destruct (sgn_cases a) as [-> | ->]; [now apply Z.pow_1_l|]. assert (E : exists k, n = 2 * k + 1) by (destruct (Z.Even_or_Odd n) as [[k Ek]|[k Ek]]; [rewrite Ek, Z.even_mul in Hn; discriminate|now exists k]).
  destruct E as [k ->]. rewrite Z.pow_add_r, Z.pow_mul_r by lia. change (-1 ^ 2) with 1 || change ((-1) ^ 2) with 1. rewrite Z.pow_1_l by lia. reflexivity.
Qed.
Hypothesis Ho : Z.even p = false.
Variable h : nat.
Hypothesis Hh : p = 2 * Z.of_nat h + 1.
Lemma even_d0 : Nat.even (top s) = true.
Proof. unfold top. rewrite <- even_of_nat, Z2Nat.id. - rewrite Z.even_mul, Z.even_sub, Ho. apply orb_true_r. - pose proof m1. unfold spx_dim. nia. Qed.
Lemma qq_ones : qq (top sv) (repeat [1] (Z.to_nat p)) = sgn m * aa sv.
Proof.
  unfold qq. rewrite (QS_top sv _ D (tau_bet_adm _)). rewrite (tau_on bet (fdS bet)); [|intros l Hl b; apply repeat_spec in Hl; now subst l|rewrite !repeat_length; reflexivity].
  rewrite on_repeat, Z2Nat.id by lia. rewrite fdS_last by (apply nondeg in D; apply D). rewrite sgn_pow by (auto; lia). ring.
Qed.
Lemma ee_zeros : ee (top s) (repeat [0] (Z.to_nat p)) = sgn m * aa s.
Proof.
  unfold ee. replace (sgn (Z.of_nat (top s))) with 1 by (unfold sgn; rewrite even_of_nat, even_d0; reflexivity). rewrite Z.mul_1_l. rewrite <- (fdS_last s v) by (apply nondeg in D; apply D). rewrite Z.mul_comm, <- fd_scal.
  apply ev_ext. intros f c Hf. destruct (face_dim f c Hf) as [Df Nf].
  rewrite (QS_ext0 f _ _ (on_tensor bet)).
  2:{ intros K LK. apply tau_on; [intros l Hl b; apply repeat_spec in Hl; now subst l|]. rewrite repeat_length. unfold zlen in LK. lia. }
  unfold ind at 2. destruct (keqb f s) eqn:E; [apply keqb_eq in E; subst f; unfold aa; ring|]. rewrite Z.mul_0_r. apply QS_zero; [exact Nf|apply ind_adm, D'|].
  intros K LK TK HK. destruct K as [|b K]; [change (zlen (@nil (list Z))) with 0 in LK; lia|]. change (on_tensor bet (b :: K)) with (bet b * on_tensor bet K). unfold ind at 1. destruct (keqb b s) eqn:Eb; [|ring]. exfalso.
  apply keqb_eq in Eb. subst b. destruct (HK s ltac:(now left)) as [Sb Db]. destruct (sub2_dim f s Sb Db) as [_ Es]. rewrite Es in E by (rewrite Df; reflexivity). now rewrite keqb_refl in E.
Qed.
Lemma aa_step : eqm p (aa sv) (eps m ^ Z.of_nat h * zfact h * aa s).
Proof.
  pose proof (descent p m ltac:(lia) Ho h Hh qq ee (top s) even_d0 qq_0 qq_S ee_small) as E.
  assert (Et : (top s + 2 * h)%nat = top sv). { unfold top. rewrite dim_sv. unfold spx_dim. pose proof m1. replace (m * (p - 1)) with ((m - 1) * (p - 1) + 2 * Z.of_nat h) by lia. rewrite Z2Nat.inj_add by nia. f_equal. lia. }
  rewrite Et, qq_ones, ee_zeros in E. rewrite <- (Z.mul_1_l (aa sv)), <- (sgn_sq m), <- Z.mul_assoc, E. apply eqm_eq. 
  transitivity (sgn m * sgn m * (eps m ^ Z.of_nat h * zfact h * aa s)); [ring|]. rewrite sgn_sq. ring.
Qed.
End Last.
Lemma aa_val h s : p = 2 * Z.of_nat h + 1 -> Z.even p = false -> spx_is_degenerate s = false -> eqm p (aa s) (zfact h ^ spx_dim s * sgn (Z.of_nat h * (spx_dim s / 2))).
Proof.
  intros Hh Ho. induction s as [|v s IH] using rev_ind; intros D; [discriminate|]. destruct (list_eq_dec Z.eq_dec s []) as [->|Ns].
  - cbn [app]. rewrite aa_vertex. change (spx_dim [v]) with 0. rewrite Z.pow_0_r, Z.div_0_l, Z.mul_0_r, sgn_0 by lia. reflexivity.
  - rewrite (aa_step s v D Ns Ho h Hh), IH by (exact (D' s v D Ns)). apply eqm_eq. rewrite dim_sv. pose proof (m1 s v D Ns) as Hm. unfold spx_dim. set (m := zlen s) in *.
    replace (zfact h ^ m) with (zfact h * zfact h ^ (m - 1)) by (rewrite <- Z.pow_succ_r by lia; f_equal; lia).
    assert (E : eps m ^ Z.of_nat h * sgn (Z.of_nat h * ((m - 1) / 2)) = sgn (Z.of_nat h * (m / 2))); [|rewrite <- E; ring].
    unfold eps. destruct (Z.Even_or_Odd m) as [[k ->]|[k ->]].
    + rewrite Z.even_mul. cbn [Z.even orb]. replace (2 * k - 1) with (1 + (k - 1) * 2) by ring. rewrite Z.div_add by lia. change (1 / 2) with 0. rewrite (Z.mul_comm 2 k), Z.div_mul by lia.
      replace (Z.of_nat h * k) with (Z.of_nat h + Z.of_nat h * (0 + (k - 1))) by ring. rewrite sgn_add. f_equal. clear. induction h as [|h IH]; [reflexivity|]. rewrite Nat2Z.inj_succ, Z.pow_succ_r by lia. rewrite IH. unfold Z.succ. rewrite sgn_add, sgn_1. ring.
    + rewrite Z.even_add, Z.even_mul. cbn [Z.even orb Bool.eqb]. rewrite Z.pow_1_l by lia. replace (2 * k + 1 - 1) with (k * 2) by ring. replace (2 * k + 1) with (1 + k * 2) by ring. rewrite Z.div_add, Z.div_mul by lia. change (1 / 2) with 0. rewrite Z.mul_1_l. f_equal. 
Qed.
End Simplex.
