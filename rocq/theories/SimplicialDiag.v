(** * The Alexander-Whitney diagonal.  Proof library. *)
From Coq Require Import Setoid Morphisms.
From Verif Require Import PyBase Dict FreeModule Symmetric Simplicial Eqm Spec FreeModuleFacts FreeModuleLaws ListFacts ClassFacts LinearFacts SymmetricFacts
  CycleFacts SymmetricLaws RingFacts Tensor TensorAct LoopFacts AW SimplicialFacts.

(** boundary of a function of two simplices *)
Definition d2 (H : list Z -> list Z -> Z) (f b : list Z) : Z := fdS (fun f' => H f' b) f - sgn (zlen f) * fdS (fun b' => H f b') b.
Lemma aw_chain H s : aw (d2 H) s = fdS (aw H) s + (match s with [] => 0 | _ => H [] s - sgn (zlen s) * H s [] end).
Proof.
  revert H. induction s as [|v w IH]; intros H; [reflexivity|].
  rewrite aw_cons. rewrite (aw_ext _ (fun f b => H f b - d2 (fun f b => H (v :: f) b) f b)).
  2:{ intros l1 a l2 _. unfold d2. rewrite fdS_cons, (zlen_cons v), sgn_S. ring. }
  rewrite aw_sub, IH. rewrite fdS_cons, (fdS_ext (fun u => aw H (v :: u)) (fun u => H [v] (v :: u) + aw (fun f b => H (v :: f) b) u)) by (intros; apply aw_cons).
  rewrite fdS_add. unfold d2. rewrite (fdS_cons _ v []), (fdS_cons _ v w), fdS_nil. change (sgn (zlen [v])) with (-1). rewrite (zlen_cons v w), (sgn_S (zlen w)).
  destruct w as [|v' w].
  - change (sgn (zlen [])) with 1. rewrite fdS_nil. ring.
  - ring.
Qed.
Lemma S_nil t (G : list (list Z) -> Z) : (forall u, In [] u -> G u = 0) -> S t G [] = 0.
Proof. intros HG. destruct t as [|t]; [|reflexivity]. apply HG. now left. Qed.
Lemma S_chain t G s : (forall u, In [] u -> G u = 0) -> S t (tDS G) s = fdS (S t G) s.
Proof.
  revert G s. induction t as [|t IH]; intros G s HG; cbn [S].
  - rewrite tD_cons, tD_nil. rewrite Z.mul_0_r, Z.add_0_r. reflexivity.
  - rewrite (aw_ext _ (d2 (fun f b => S t (fun u => G (f :: u)) b))).
    + rewrite aw_chain. match goal with |- _ + ?e = _ => replace e with 0; [rewrite Z.add_0_r; reflexivity|] end.
      destruct s as [|v s]; [reflexivity|]. rewrite S_nil by (intros u Hu; apply HG; now right).
      rewrite S_sum, sumf_0; [ring|]. intros u _. apply HG. now left.
    + intros l1 a l2 _. set (f := l1 ++ [a]). set (b := a :: l2). unfold d2.
      rewrite (S_ext t _ (fun u => fdS (fun f' => G (f' :: u)) f + sgn (spx_dim f) * tDS (fun u' => G (f :: u')) u)) by (intros; apply tD_cons).
      transitivity (S t (fun u => fdS (fun f' => G (f' :: u)) f) b + sgn (spx_dim f) * S t (tDS (fun u => G (f :: u))) b).
      { rewrite !S_sum, sumf_add, <- sumf_scal. reflexivity. }
      rewrite IH by (intros u Hu; apply HG; now right). unfold spx_dim. rewrite sgn_sub, sgn_1.
      change (S t (fun u => fdS (fun f' => G (f' :: u)) f) b) with (S t (fun u => ev (fun f' => G (f' :: u)) (fbS f)) b).
      rewrite (S_exch t (fun f' u => G (f' :: u)) (fbS f) b). unfold fd. set (X := S t (fun u => G (f :: u))). change (fun b' => X b') with X. ring.
Qed.

(** dimension and degeneracy of the pieces *)
Lemma front_back_cons t (l1 : list Z) a l2 u : In u (front_back t (a :: l2)) -> In ((l1 ++ [a]) :: u) (front_back (Datatypes.S t) (l1 ++ a :: l2)).
Proof. intros Hu. cbn [front_back]. apply in_flat_map. exists (l1, a, l2). split; [rewrite cuts_splits; now apply splits_in|]. now apply in_map. Qed.
Lemma front_back_inv t (s : list Z) u : In u (front_back (Datatypes.S t) s) -> exists l1 a l2 u', s = l1 ++ a :: l2 /\ u = (l1 ++ [a]) :: u' /\ In u' (front_back t (a :: l2)).
Proof.
  cbn [front_back]. rewrite in_flat_map. intros ([[l1 a] l2] & Hin & Hu). rewrite cuts_splits in Hin. apply splits_in in Hin.
  apply in_map_iff in Hu. destruct Hu as (u' & <- & Hu'). eauto 10.
Qed.
Lemma front_back_deg t (s : list Z) u : In u (front_back t s) -> tdeg spx_dim u = spx_dim s /\ zlen u = Z.of_nat t + 1.
Proof.
  revert s u. induction t as [|t IH]; intros s u Hu.
  - destruct Hu as [<-|[]]. split; [|reflexivity]. rewrite tdeg_cons. change (tdeg spx_dim []) with 0. ring.
  - apply front_back_inv in Hu. destruct Hu as (l1 & a & l2 & u' & -> & -> & Hu'). destruct (IH _ _ Hu') as [E1 E2].
    rewrite tdeg_cons, E1, zlen_cons, E2. unfold spx_dim. rewrite !zlen_app, !zlen_cons, zlen_nil. lia.
Qed.
Lemma dupb_app l1 a l2 : dupb (l1 ++ a :: l2) = dupb (l1 ++ [a]) || dupb (a :: l2).
Proof.
  induction l1 as [|v l1 IH]; [reflexivity|]. destruct l1 as [|w l1]; cbn [app] in *.
  - rewrite !dupb_cons2. now rewrite dupb_one, orb_false_r.
  - rewrite !(dupb_cons2 v w), IH. now rewrite orb_assoc.
Qed.
Lemma front_back_dup t s u : dupb s = true -> In u (front_back t s) -> exists b, In b u /\ dupb b = true.
Proof.
  revert s u. induction t as [|t IH]; intros s u Hs Hu.
  - destruct Hu as [<-|[]]. exists s. split; [now left|exact Hs].
  - apply front_back_inv in Hu. destruct Hu as (l1 & a & l2 & u' & -> & -> & Hu'). rewrite dupb_app in Hs. apply orb_true_iff in Hs. destruct Hs as [Hs|Hs].
    + exists (l1 ++ [a]). split; [now left|exact Hs].
    + destruct (IH _ _ Hs Hu') as (b & Hb & Hd). exists b. split; [now right|exact Hd].
Qed.
Lemma front_back_bad t s u : spx_is_degenerate s = true -> In u (front_back t s) -> exists b, In b u /\ spx_is_degenerate b = true.
Proof.
  rewrite deg_dupb. intros Hs Hu. destruct s as [|v s].
  - destruct t as [|t]; [destruct Hu as [<-|[]]; exists []; split; [now left|reflexivity]|]. now apply front_back_inv in Hu as ([|? ?] & ? & ? & ? & [=] & _).
  - destruct (front_back_dup _ _ _ Hs Hu) as (b & H1 & H2). exists b. split; [exact H1|now apply dupb_deg].
Qed.

(** the enumeration in the code *)
Lemma cwr_zrange {t N} : forall a, cwr (Datatypes.S t) (zrange a N) = flat_map (fun b => map (cons b) (cwr t (zrange b N))) (zrange a N).
Proof.
  intros a. remember (Z.to_nat (N - a)) as m eqn:Em. revert a Em. induction m as [|m IH]; intros a Em.
  - rewrite (zrange_nil a N) by lia. reflexivity.
  - rewrite (zrange_cons a N) by lia. specialize (IH (a + 1) ltac:(lia)). cbn [flat_map]. rewrite <- IH. cbn [cwr]. rewrite <- (zrange_cons a N) by lia. reflexivity.
Qed.
Lemma slice_app_mid {B} (pre l1 l2 : list B) x i j : zlen pre = i -> j = i + zlen l1 + 1 -> slice (pre ++ l1 ++ x :: l2) i j = l1 ++ [x].
Proof.
  intros <- ->. unfold slice, clamp. rewrite !zlen_app, zlen_cons. pose proof (zlen_nonneg pre). pose proof (zlen_nonneg l1). pose proof (zlen_nonneg l2).
  destruct (Z.ltb_spec (zlen pre) 0); [lia|]. destruct (Z.ltb_spec (zlen pre + zlen l1 + 1) 0); [lia|].
  rewrite !Z.min_l by lia. rewrite zlen_length, skipn_app, skipn_all, Nat.sub_diag. cbn [skipn app].
  replace (Z.to_nat (zlen pre + zlen l1 + 1 - zlen pre)) with (length l1 + 1)%nat by (unfold zlen; lia).
  rewrite firstn_app_2. reflexivity.
Qed.
Lemma slice_out {B} (s : list B) i j : zlen s <= i -> slice s i j = [].
Proof.
  intros Hi. unfold slice, clamp. pose proof (zlen_nonneg s). destruct (Z.ltb_spec i 0); [lia|]. rewrite (Z.min_r i) by lia.
  rewrite zlen_length, skipn_all. apply firstn_nil.
Qed.
Lemma slice_tail {B} (pre suf : list B) i j : zlen pre = i -> zlen (pre ++ suf) <= j -> slice (pre ++ suf) i j = suf.
Proof.
  intros <- Hj. unfold slice, clamp. rewrite zlen_app in *. pose proof (zlen_nonneg pre). pose proof (zlen_nonneg suf).
  destruct (Z.ltb_spec (zlen pre) 0); [lia|]. destruct (Z.ltb_spec j 0); [lia|]. rewrite (Z.min_l (zlen pre)) by lia. rewrite (Z.min_r j) by lia.
  rewrite zlen_length, skipn_app, skipn_all, Nat.sub_diag. cbn [skipn app]. apply firstn_all2. unfold zlen. lia.
Qed.
Lemma code_cuts deg (s : list Z) : zlen s <= deg + 1 -> forall t G pre suf, s = pre ++ suf -> (forall u, In [] u -> G u = 0) ->
  sumf (fun p => G (map (fun ij => slice s (fst ij) (snd ij + 1)) (pairwise (zlen pre :: p ++ [deg])))) (cwr t (zrange (zlen pre) (deg + 1))) = S t G suf.
Proof.
  intros Hd. induction t as [|t IH]; intros G pre suf Es HG.
  - cbn [cwr]. rewrite sumf_cons, sumf_nil, Z.add_0_r. cbn [app S]. rewrite pairwise_cons. cbn [map fst snd]. f_equal. subst s. rewrite slice_tail; auto.
  - rewrite cwr_zrange, sumf_flat_map. cbn [S].
    transitivity (sumf (fun b => sumf (fun p => G (slice s (zlen pre) (b + 1) :: map (fun ij => slice s (fst ij) (snd ij + 1)) (pairwise (b :: p ++ [deg])))) (cwr t (zrange b (deg + 1)))) (zrange (zlen pre) (deg + 1))).
    { apply sumf_ext. intros b _. rewrite sumf_map. apply sumf_ext. intros p _. cbn [app]. destruct (p ++ [deg]) eqn:E; [now destruct p|]. rewrite !pairwise_cons. reflexivity. }
    pose proof (zlen_nonneg pre). pose proof (zlen_nonneg suf). assert (Es' : zlen s = zlen pre + zlen suf) by (subst; apply zlen_app).
    rewrite (zrange_app (zlen pre) (zlen s)) by lia. rewrite sumf_app.
    rewrite (sumf_0 _ (zrange (zlen s) (deg + 1))), Z.add_0_r.
    2:{ intros b Hb. apply in_zrange in Hb. apply sumf_0. intros p _. apply HG. right. destruct (p ++ [deg]) eqn:E; [now destruct p|]. rewrite pairwise_cons. cbn [map fst snd].
        left. apply slice_out. lia. }
    replace (zrange (zlen pre) (zlen s)) with (map (fun i => i + zlen pre) (zrange 0 (zlen suf))) by (rewrite <- zrange_shift; f_equal; lia).
    rewrite sumf_map, sumf_zrange_splits. unfold aw. apply sumf_ext. intros [[l1 a] l2] Hin. apply splits_in in Hin. cbn [fst snd].
    rewrite <- (IH _ (pre ++ l1) (a :: l2)).
    + replace (zlen (pre ++ l1)) with (zlen l1 + zlen pre) by (rewrite zlen_app; ring). apply sumf_ext. intros p _. do 2 f_equal.
      rewrite Es, Hin. apply slice_app_mid; lia.
    + rewrite Es, Hin. apply app_assoc.
    + intros u Hu. apply HG. now right.
Qed.

(** ** the operation *)
Definition Sd (t : nat) (coord : Z) (g : list (list Z) -> Z) (k : list (list Z)) : Z :=
  at_pos (coord - 1) (fun l1 s l2 => S t (fun u => g (l1 ++ u ++ l2)) s) k.
Lemma Sd_splittings t coord g k : Sd t coord g k = ev g (simp_splittings t coord k).
Proof.
  unfold Sd, at_pos, simp_splittings, ev. rewrite sumf_flat_map, cuts_splits. apply sumf_ext. intros [[l1 s] l2] _.
  destruct (zlen l1 =? coord - 1); [|reflexivity]. rewrite S_sum, sumf_map. apply sumf_ext. intros u _. cbn [fst snd]. ring.
Qed.
Notation kdegS := (kdeg spx_dim).
Lemma simp_degree_ok n d (x : simp) : keys_in (kdegS n d) x -> data x <> [] -> simp_degree x = Some d.
Proof.
  intros Kx N. unfold simp_degree. rewrite (zset_const _ d); [reflexivity| |].
  - unfold dkeys. rewrite map_map. now destruct (data x).
  - intros m Hm. apply in_map_iff in Hm. destruct Hm as (k & <- & Hk). apply in_map_iff in Hk. destruct Hk as ([k' v] & <- & Hin). exact (proj2 (Kx _ _ Hin)).
Qed.
Lemma dim_le_deg k l1 s l2 : existsb spx_is_degenerate k = false -> k = l1 ++ s :: l2 -> spx_dim s <= tdeg spx_dim k.
Proof.
  intros Hb ->. assert (Hl : forall l, existsb spx_is_degenerate l = false -> 0 <= tdeg spx_dim l).
  { induction l as [|b l IH]; [reflexivity|]. cbn [existsb]. intros E. apply orb_false_iff in E. rewrite tdeg_cons.
    assert (0 <= spx_dim b); [|specialize (IH (proj2 E)); lia]. destruct E as [E _]. unfold spx_dim. destruct b; [discriminate|]. rewrite zlen_cons. pose proof (zlen_nonneg b). lia. }
  rewrite existsb_app in Hb. cbn [existsb] in Hb. apply orb_false_iff in Hb. destruct Hb as [H1 Hb]. apply orb_false_iff in Hb. destruct Hb as [_ H2].
  rewrite tdeg_app, tdeg_cons. pose proof (Hl _ H1). pose proof (Hl _ H2). lia.
Qed.
Lemma diag_den dt t n d times coord (x : simp) : 0 <= t -> dt_ok dt t -> wf cls_simplicial x -> torsion x = t -> keys_in (kdegS n d) x -> data x <> [] ->
  1 <= coord <= n -> 0 <= times ->
  returns (simp_iterated_diagonal dt x times coord) (den cls_simplicial t tt (fun g => ev (Sd (Z.to_nat times) coord g) (data x))).
Proof.
  intros Ht Hdt Wx Tx Kx Nx Hc Htm. unfold simp_iterated_diagonal. rewrite (simp_degree_ok n d) by assumption.
  unfold simp_arity. rewrite (tensor_arity_ok n) by (assumption || (intros k v Hin; exact (proj1 (Kx _ _ Hin)))).
  destruct (Z.ltb_spec n coord); [lia|].
  eapply returns_bind; [apply (zero_den cls_simplicial ok_simplicial dt t); auto|]. intros y0 Hy0. replace (attr x) with tt in Hy0 by now destruct (attr x).
  eapply returns_mono.
  - apply (loop_den cls_simplicial ok_simplicial t tt (data x) _ (fun k g => at_pos (coord - 1) (fun l1 s l2 => 
       sumf (fun p => g (l1 ++ map (fun ij => slice s (fst ij) (snd ij + 1)) (pairwise (0 :: p ++ [d])) ++ l2)) (cwr (Z.to_nat times) (zrange 0 (d + 1)))) k)); [|exact Hy0].
    intros k v F y Hin Hy. destruct (Kx _ _ Hin) as [Lk Dk]. destruct (split_at k (coord - 1)) as (l1 & s & l2 & -> & E1); [lia|].
    rewrite <- E1, slice_to_app, py_get_app. cbn [bind]. replace coord with (zlen l1 + 1) by lia. rewrite slice_from_app_S.
    unfold py_cwr. destruct (Z.ltb_spec times 0); [lia|]. cbn [bind]. eapply returns_mono.
    + apply (for_den cls_simplicial t _ _ (fun p g => v * g (l1 ++ map (fun ij => slice s (fst ij) (snd ij + 1)) (pairwise (0 :: p ++ [d])) ++ l2)) tt); [|exact Hy].
      intros p F1 y1 _ Hy1. eapply returns_mono; [eapply (add_term_den cls_simplicial ok_simplicial dt t); eauto; eexists; reflexivity|].
      intros z Hz. exact Hz.
    + intros z Hz. eapply den_ext; [|exact Hz]. intros g _. cbn beta. apply eqm_eq. f_equal. rewrite sumf_scal. f_equal. now rewrite at_pos_app by reflexivity.
  - intros z Hz. eapply den_ext; [|exact Hz]. intros g Hg. cbn beta. apply eqm_eq. rewrite Z.add_0_l. apply ev_ext. intros k v Hin.
    unfold Sd, at_pos. apply sumf_ext. intros [[l1 s] l2] Hs. apply splits_in in Hs. destruct (zlen l1 =? coord - 1); [|reflexivity].
    pose proof (proj2 (proj2 (proj2 Wx) _ _ Hin)) as Hb. injection Hb as Hb. pose proof (dim_le_deg _ _ _ _ Hb Hs) as Hdim. rewrite (proj2 (Kx _ _ Hin)) in Hdim. unfold spx_dim in Hdim.
    apply (code_cuts d s ltac:(lia) (Z.to_nat times) (fun u => g (l1 ++ u ++ l2)) [] s eq_refl).
    intros u Hu. apply (proj2 Hg). cbn. f_equal. apply existsb_exists. exists []. split; [|reflexivity]. apply in_or_app. right. apply in_or_app. now left.
Qed.

Definition ext_diag dt times coord := extended1 dt cls_simplicial (fun x => simp_iterated_diagonal dt x times coord).
Lemma splittings_deg n d times coord k k' v : 1 <= coord <= n -> kdegS n d k -> In (k', v) (simp_splittings times coord k) -> kdegS (n + Z.of_nat times) d k'.
Proof.
  intros Hc [Lk Dk] Hin. unfold simp_splittings in Hin. apply in_flat_map in Hin. destruct Hin as ([[l1 s] l2] & Hs & Hin). rewrite cuts_splits in Hs. apply splits_in in Hs.
  destruct (zlen l1 =? coord - 1); [|destruct Hin]. apply in_map_iff in Hin. destruct Hin as (u & [= <- <-] & Hu). apply front_back_deg in Hu. destruct Hu as [E1 E2].
  subst k. unfold kdeg. rewrite !tdeg_app, tdeg_cons, !zlen_app, zlen_cons in *. lia.
Qed.
Lemma rep_Sd n d times coord : 1 <= coord <= n -> rep (kdegS n d) (kdegS (n + Z.of_nat times) d) (Sd times coord).
Proof. intros Hc k Hk. exists (simp_splittings times coord k). split; [intros k' v; now apply splittings_deg|]. intros g. apply Sd_splittings. Qed.
Lemma adm_Sd n d times coord : 1 <= coord <= n -> admop cls_simplicial cls_simplicial (kdegS n d) (kdegS (n + Z.of_nat times) d) (Sd times coord).
Proof.
  intros Hc g Hg. apply admP_keyeq. intros k Pk Hb. rewrite Sd_splittings. apply ev_zero. intros k' v Hin.
  pose proof (splittings_deg _ _ _ _ _ _ _ Hc Pk Hin) as Hk'. apply (proj2 Hg); [exact Hk'|]. cbn. f_equal. apply existsb_exists.
  unfold simp_splittings in Hin. apply in_flat_map in Hin. destruct Hin as ([[l1 s] l2] & Hs & Hin). rewrite cuts_splits in Hs. apply splits_in in Hs. subst k.
  destruct (zlen l1 =? coord - 1); [|destruct Hin]. apply in_map_iff in Hin. destruct Hin as (u & [= <- <-] & Hu).
  injection Hb as Hb. apply existsb_exists in Hb. destruct Hb as (b & Hin & Hb). apply in_app_iff in Hin. destruct Hin as [Hin|[<-|Hin]].
  - exists b. split; [apply in_or_app; now left|exact Hb].
  - destruct (front_back_bad _ _ _ Hb Hu) as (b & H1 & H2). exists b. split; [|exact H2]. apply in_or_app. right. apply in_or_app. now left.
  - exists b. split; [|exact Hb]. apply in_or_app. right. apply in_or_app. now right.
Qed.
Lemma kpred_kdegS n d : kpred (kdegS n d). Proof. apply kpred_kdeg. Qed.
Lemma linop_diag dt t n d times coord : 0 <= t -> dt_ok dt t -> 1 <= coord <= n -> 0 <= times ->
  linop cls_simplicial cls_simplicial t tt tt (kdegS n d) (kdegS (n + times) d) (Sd (Z.to_nat times) coord) (ext_diag dt times coord).
Proof.
  intros Ht Hdt Hc Htm. assert (R := rep_Sd n d (Z.to_nat times) coord Hc). rewrite Z2Nat.id in R by lia.
  apply (linop_intro cls_simplicial cls_simplicial ok_simplicial); auto using kpred_kdegS.
  - now apply rep_local.
  - apply (rep_zero _ _ _ R).
  - intros x Wx Tx Ax Kx. unfold ext_diag, extended1. destruct (data x) eqn:E; cbn [dempty].
    + eapply returns_mono; [apply (zero_den cls_simplicial ok_simplicial dt t); auto|]. intros z Hz. rewrite Ax in Hz. exact Hz.
    + rewrite <- E. apply (diag_den dt t n d); auto. rewrite E. discriminate.
Qed.
Lemma Sd_app times coord g l1 s l2 : zlen l1 = coord - 1 -> Sd times coord g (l1 ++ s :: l2) = S times (fun u => g (l1 ++ u ++ l2)) s.
Proof. intros E. unfold Sd. now rewrite at_pos_app. Qed.
Lemma S_exch_tD t (H : list (list Z) -> list (list Z) -> Z) k s : S t (fun u => tDS (H u) k) s = tDS (fun k' => S t (fun u => H u k') s) k.
Proof. unfold tD. apply (S_exch t (fun k' u => H u k')). Qed.
Lemma Sd_chain times coord g l1 s l2 : (forall k, In [] k -> g k = 0) -> zlen l1 = coord - 1 ->
  Sd times coord (tDS g) (l1 ++ s :: l2) = tDS (Sd times coord g) (l1 ++ s :: l2).
Proof.
  intros Hg E. rewrite Sd_app by assumption.
  rewrite tD_app, tD_cons.
  rewrite (tD_ext _ _ _ (fun v => S times (fun u => g (v ++ u ++ l2)) s)).
  2:{ intros k' v Hin. apply Sd_app. apply (tdeg_tb fbS spx_dim dim_fbS) in Hin. unfold zlen in *. lia. }
  rewrite (fdS_ext _ (fun s' => S times (fun u => g (l1 ++ u ++ l2)) s')) by (intros; now apply Sd_app).
  rewrite (tD_ext_all _ _ (fun k' => Sd times coord g (l1 ++ s :: k')) (fun k' => S times (fun u => g (l1 ++ u ++ k')) s)) by (intros; now apply Sd_app).
  rewrite <- (S_chain times (fun u => g (l1 ++ u ++ l2))) by (intros u Hu; apply Hg; apply in_or_app; right; apply in_or_app; now left).
  rewrite <- !(S_exch_tD times).
  rewrite !S_sum. rewrite <- !sumf_scal, <- sumf_add, <- sumf_scal, <- sumf_add. apply sumf_ext. intros u Hu. apply front_back_deg in Hu.
  rewrite !tD_app. destruct Hu as [<- _]. reflexivity.
Qed.
