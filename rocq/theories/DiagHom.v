(** * Counits of the diagonals.  Proof library for C109. *)
From Coq Require Import Setoid Morphisms.
From Verif Require Import PyBase Dict FreeModule Symmetric Simplicial Cubical Eqm Spec SpecChain SpecCube SpecCounit FreeModuleFacts FreeModuleLaws ListFacts ClassFacts LinearFacts SymmetricFacts
  CycleFacts SymmetricLaws RingFacts Tensor TensorAct KoszulFacts LoopFacts AW SimplicialFacts SimplicialDiag SimplicialLaws CubicalFacts CubicalDiag CubicalLaws ConeFacts CongFacts ActFacts.

(** ** one complex with counits *)
Section G.
Variable c : pycls (list (list Z)).
Hypothesis okc : cls_ok c.
Variable badb : list Z -> bool.
Hypothesis Hbad : forall k, bad c k = Ok (existsb badb k).
Hypothesis Hck : forall k, ckey c k = k.
Variable fb : list Z -> dict (list Z).
Variable dg : list Z -> Z.
Hypothesis dg_fb : forall b b' v, In (b', v) (fb b) -> dg b' = dg b - 1.
Hypothesis fd_bad : forall g b, (forall b', badb b' = true -> g b' = 0) -> badb b = true -> fd fb g b = 0.
Variable dt : Z.
Notation el := (elt (list (list Z)) unit).
Variable bnd : el -> res el.
Hypothesis bnd_den : forall t x, 0 <= t -> dt_ok dt t -> wf c x -> torsion x = t -> returns (bnd x) (den c t tt (fun g => ev (tD fb dg g) (data x))).
Definition eps (b : list Z) : Z := if dg b =? 0 then 1 else 0.
Hypothesis eps_bad : forall b, badb b = true -> eps b = 0.
Hypothesis fd_eps : forall b, badb b = false -> fd fb eps b = 0.
Variable C : list Z -> Prop.
Hypothesis Cdec : forall b, C b \/ ~ C b.
Hypothesis Cfb : forall b b' v, C b -> In (b', v) (fb b) -> C b'.
Notation cell := (ccell dg C).

Definition drop (i : Z) (k : list (list Z)) : list (list (list Z) * Z) :=
  flat_map (fun '(l1, s, l2) => if zlen l1 =? i - 1 then (if dg s =? 0 then [(l1 ++ l2, 1)] else []) else []) (cuts k).
Definition AU (i : Z) (g : list (list Z) -> Z) (k : list (list Z)) : Z := ev g (drop i k).
Lemma AU_at i g k : AU i g k = at_pos (i - 1) (fun l1 s l2 => eps s * g (l1 ++ l2)) k.
Proof.
  unfold AU, drop, at_pos, ev. rewrite sumf_flat_map, cuts_splits. apply sumf_ext. intros [[l1 s] l2] _. destruct (zlen l1 =? i - 1); [|reflexivity]. unfold eps. destruct (dg s =? 0); [|rewrite Z.mul_0_l; reflexivity].
  rewrite sumf_cons, sumf_nil. cbn [fst snd]. ring.
Qed.
Lemma AU_app i g l1 s l2 : zlen l1 = i - 1 -> AU i g (l1 ++ s :: l2) = eps s * g (l1 ++ l2).
Proof. intros E. rewrite AU_at. now rewrite at_pos_app. Qed.
Lemma AU_chain i n g k : zlen k = n -> 1 <= i <= n -> existsb badb k = false -> AU i (tD fb dg g) k = tD fb dg (AU i g) k.
Proof.
  intros L Hi Hb. destruct (split_at k (i - 1)) as (l1 & s & l2 & -> & E); [lia|]. rewrite AU_app by exact E. rewrite !tD_app, tD_cons.
  rewrite (tD_ext fb dg (fun u => AU i g (u ++ s :: l2)) (fun u => eps s * g (u ++ l2)) l1) by (intros k' v Hin; apply AU_app; apply (tdeg_tb fb dg dg_fb) in Hin; unfold zlen in *; lia).
  rewrite (fd_ext_all fb (fun b' => AU i g (l1 ++ b' :: l2)) (fun b' => g (l1 ++ l2) * eps b')) by (intros; rewrite AU_app by exact E; ring).
  rewrite (tD_ext_all fb dg (fun k' => AU i g (l1 ++ s :: k')) (fun k' => eps s * g (l1 ++ k')) l2) by (intros; now apply AU_app).
  rewrite !tD_scal, fd_scal, fd_eps; [|rewrite existsb_app in Hb; cbn [existsb] in Hb; apply orb_false_iff in Hb; destruct Hb as [_ Hb]; apply orb_false_iff in Hb; tauto].
  unfold eps. destruct (Z.eqb_spec (dg s) 0) as [E0|N]; [rewrite E0, sgn_0|]; ring.
Qed.
Lemma drop_in i k k' v : In (k', v) (drop i k) -> exists l1 s l2, k = l1 ++ s :: l2 /\ zlen l1 = i - 1 /\ dg s = 0 /\ k' = l1 ++ l2.
Proof.
  intros Hin. unfold drop in Hin. apply in_flat_map in Hin. destruct Hin as ([[l1 s] l2] & Hs & Hin). rewrite cuts_splits in Hs. apply splits_in in Hs. destruct (Z.eqb_spec (zlen l1) (i - 1)); [|destruct Hin]. destruct (Z.eqb_spec (dg s) 0); [|destruct Hin].
  destruct Hin as [[= <- _]|[]]. now exists l1, s, l2.
Qed.
Lemma drop_cell n d i k k' v : cell n d k -> In (k', v) (drop i k) -> cell (n - 1) d k'.
Proof.
  intros (L & D & HC) Hin. destruct (drop_in _ _ _ _ Hin) as (l1 & s & l2 & -> & _ & E & ->). unfold ccell in *. rewrite !tdeg_app, tdeg_cons, !zlen_app, zlen_cons in *. split; [lia|]. split; [lia|]. intros b Hb. apply HC. apply in_app_or in Hb. apply in_or_app. cbn. tauto.
Qed.
Lemma rep_AU n d i : rep (cell n d) (cell (n - 1) d) (AU i).
Proof. intros k Hk. exists (drop i k). split; [|reflexivity]. intros k' v. now apply drop_cell. Qed.
Lemma adm_AU (P Q : list (list Z) -> Prop) i : (forall k k' v, P k -> In (k', v) (drop i k) -> Q k') -> admop c c P Q (AU i).
Proof.
  intros HPQ g Hg. apply admP_keyeq. intros k Pk Hb. apply ev_zero. intros k' v Hin. apply (proj2 Hg); [now apply (HPQ k k' v)|]. rewrite Hbad in *. injection Hb as Hb. f_equal.
  destruct (drop_in _ _ _ _ Hin) as (l1 & s & l2 & -> & _ & E & ->). rewrite existsb_app in *. cbn [existsb] in Hb. destruct (badb s) eqn:Es; [|exact Hb].
  pose proof (eps_bad s Es) as Z0. unfold eps in Z0. rewrite E in Z0. discriminate.
Qed.
Definition f_AU (i : Z) (x : el) : res el := let! y0 := zero dt c x in for_ (data x) y0 (fun y kv => for_ (drop i (fst kv)) y (fun y ke => add_term dt c x y (fst ke) (snd kv * snd ke))).
Lemma f_AU_den t i (x : el) : 0 <= t -> dt_ok dt t -> wf c x -> torsion x = t -> returns (f_AU i x) (den c t tt (fun g => ev (AU i g) (data x))).
Proof.
  intros Ht Hdt Wx Tx. unfold f_AU. eapply returns_bind; [apply (zero_den c okc dt t); auto|]. intros y0 Hy0. replace (attr x) with tt in Hy0 by now destruct (attr x).
  eapply returns_mono.
  - apply (loop_den c okc t tt (data x) _ (fun k g => AU i g k)); [|exact Hy0].
    intros k v F y _ Hy. cbn [fst snd]. eapply returns_mono; [apply (loop_den c okc t tt (drop i k) _ (fun k' g => v * g k')); [|exact Hy]|].
    + intros k' e F1 y1 _ Hy1. cbn [fst snd]. eapply returns_mono; [eapply (add_term_den c okc dt t); eauto; eexists; apply Hbad|]. intros z Hz. eapply den_ext; [|exact Hz]. intros g _. cbn beta. apply eqm_eq. ring.
    + intros z Hz. eapply den_ext; [|exact Hz]. intros g _. cbn beta. apply eqm_eq. unfold AU. now rewrite ev_scal.
  - intros z Hz. eapply den_ext; [|exact Hz]. intros g _. apply eqm_eq. reflexivity.
Qed.
Lemma linop_AU t n d i : 0 <= t -> dt_ok dt t -> linop c c t tt tt (cell n d) (cell (n - 1) d) (AU i) (f_AU i).
Proof.
  intros Ht Hdt. apply (linop_intro c c okc); [exact Ht|now apply kpred_ccell|apply rep_local, rep_AU|intros; now apply (rep_zero _ _ _ (rep_AU n d i))|]. intros x Wx Tx _ _. now apply f_AU_den.
Qed.
(** the diagonals of the factor [coord] of tensors of [n] factors *)
Variables (n coord : Z) (SD : nat -> (list (list Z) -> Z) -> list (list Z) -> Z) (diag : Z -> el -> res el).
Hypothesis Hc : 1 <= coord <= n.
Hypothesis rep_SD : forall d t, rep (cell n d) (cell (n + Z.of_nat t) d) (SD t).
Hypothesis linop_SD : forall t d times, 0 <= t -> dt_ok dt t -> 0 <= times -> linop c c t tt tt (cell n d) (cell (n + times) d) (SD (Z.to_nat times)) (diag times).
Hypothesis SD_0 : forall d g k, cell n d k -> SD 0 g k = g k.
Hypothesis SD_AU : forall d t i g k, cell n d k -> existsb badb k = false -> coord <= i <= coord + Z.of_nat t + 1 -> SD (Datatypes.S t) (AU i g) k = SD t g k.
Hypothesis diag_bnd : forall d times (x : el), wf c x -> dt_ok dt (torsion x) -> keys_in (cell n d) x -> 0 <= times -> same (let! y := diag times x in bnd y) (let! y := bnd x in diag times y).
Lemma un (a : unit) : a = tt. Proof. now destruct a. Qed.
Lemma counit_same d times i (x : el) : wf c x -> dt_ok dt (torsion x) -> keys_in (cell n d) x -> 1 <= times -> coord <= i <= coord + times -> same (let! y := diag times x in f_AU i y) (diag (times - 1) x).
Proof.
  intros Wx Hdt Kx Htm Hi. pose proof (proj1 Wx) as Ht. pose proof (rep_SD d (Z.to_nat times)) as R. rewrite Z2Nat.id in R by lia.
  refine (linop_same c c okc (torsion x) tt tt (cell n d) _ _ _ _ _ _ x Ht
    (linop_comp _ _ _ okc okc okc (torsion x) tt tt tt _ _ _ _ _ _ _ Ht (kpred_ccell dg C Cdec _ _) (linop_SD (torsion x) d times Ht Hdt ltac:(lia)) (linop_AU (torsion x) (n + times) d i Ht Hdt) (rep_local _ _ _ R)
       (adm_AU _ _ i (fun k k' v => drop_cell (n + times) d i k k' v)))
    (linop_SD (torsion x) d (times - 1) Ht Hdt ltac:(lia)) Wx eq_refl (un _) Kx _).
  intros g k Hg Kk Hb. cbn beta. apply eqm_eq. rewrite Hbad in Hb. injection Hb as Hb. replace (Z.to_nat times) with (Datatypes.S (Z.to_nat (times - 1))) by lia. apply (SD_AU d); [exact Kk|exact Hb|lia].
Qed.
Lemma counit_den d times i (x y : el) : wf c x -> dt_ok dt (torsion x) -> keys_in (cell n d) x -> 1 <= times -> coord <= i <= coord + times -> diag times x = Ok y ->
  returns (diag (times - 1) x) (den c (torsion x) tt (fun g => ev (AU i g) (data y))).
Proof.
  intros Wx Hdt Kx Htm Hi Ey. pose proof (counit_same d times i x Wx Hdt Kx Htm Hi) as (z & z' & Ez & Ez' & E & _). rewrite Ey in Ez. cbn [bind] in Ez.
  destruct (linop_SD (torsion x) d times (proj1 Wx) Hdt ltac:(lia) x Wx eq_refl (un _) Kx) as (y' & Ey' & Dy & _). rewrite Ey in Ey'. injection Ey' as <-.
  pose proof (den_wf c _ _ _ y (proj1 Wx) Dy) as Wy. pose proof (proj1 Dy) as Ty.
  destruct (f_AU_den (torsion x) i y (proj1 Wx) Hdt Wy Ty) as (z2 & Ez2 & Dz). rewrite Ez in Ez2. injection Ez2 as <-.
  destruct (linop_SD (torsion x) d (times - 1) (proj1 Wx) Hdt ltac:(lia) x Wx eq_refl (un _) Kx) as (z2 & Ez2 & Dz' & _). rewrite Ez' in Ez2. injection Ez2 as <-.
  exists z'. split; [exact Ez'|]. pose proof (den_wf c _ _ _ z (proj1 Wx) Dz) as Wz. pose proof (den_wf c _ _ _ z' (proj1 Wx) Dz') as Wz'.
  pose proof (den_self c z' Wz') as D. rewrite (proj1 Dz'), (un (attr z')) in D. eapply den_ext; [|exact D]. intros g Hg. cbn beta. rewrite <- (den_ev c _ _ _ _ g Dz Hg). apply eqm_eq. symmetry. now apply (eqb_ev c).
Qed.
Definition bounds m d (r : res el) t : Prop := exists w, wf c w /\ torsion w = t /\ keys_in (cell m (d + 1)) w /\ same (bnd w) r.
Lemma same_r {K A} `{KO : KeyOk K} (r r' s : res (elt K A)) : same r r' -> same s r -> same s r'. Proof. intros. eapply same_trans; eauto. Qed.
Lemma linop_b t m d : 0 <= t -> dt_ok dt t -> linop c c t tt tt (cell m d) (cell m (d - 1)) (tD fb dg) bnd.
Proof. intros Ht Hdt. exact (linop_bnd c Hck fb dg dt bnd bnd_den t _ _ Ht Hdt (kpred_ccell dg C Cdec _ _) (tb_ccell fb dg dg_fb C Cfb m d)). Qed.
Lemma linop_wf t (P Q : list (list Z) -> Prop) D f (x : el) y : 0 <= t -> linop c c t tt tt P Q D f -> wf c x -> torsion x = t -> keys_in P x -> f x = Ok y -> wf c y /\ torsion y = t /\ keys_in Q y.
Proof. intros Ht L W T K E. destruct (L x W T (un _) K) as (y' & E' & D' & K'). rewrite E in E'. injection E' as <-. split; [eapply den_wf; eauto|]. split; [exact (proj1 D')|exact K']. Qed.
Lemma same_ok {K A} `{KO : KeyOk K} (r : res (elt K A)) y : same r (Ok y) -> exists z, r = Ok z /\ elt_eqb z y = true /\ torsion z = torsion y.
Proof. intros (a & b & Ea & Eb & E & T & _). injection Eb as <-. exists a. auto. Qed.
Lemma cong_linop t (P Q : list (list Z) -> Prop) D f (x y : el) : 0 <= t -> linop c c t tt tt P Q D f -> wf c x -> wf c y -> torsion x = t -> torsion y = t -> keys_in P x -> elt_eqb x y = true -> same (f x) (f y).
Proof. intros Ht L Wx Wy Tx Ty Kx E. apply (linop_cong c c okc t tt tt P Q D f x y Ht L Wx Wy Tx Ty (un _) (un _) Kx E). Qed.
Lemma diag_total times d (x : el) : wf c x -> dt_ok dt (torsion x) -> keys_in (cell n d) x -> 0 <= times -> exists y, diag times x = Ok y /\ wf c y /\ torsion y = torsion x /\ keys_in (cell (n + times) d) y.
Proof.
  intros W Hdt K Htm. destruct (linop_SD (torsion x) d times (proj1 W) Hdt Htm x W eq_refl (un _) K) as (y & E & D & Ky). exists y. split; [exact E|]. split; [eapply den_wf; [exact (proj1 W)|exact D]|]. split; [exact (proj1 D)|exact Ky].
Qed.
Lemma diag_same0 d (x : el) : wf c x -> dt_ok dt (torsion x) -> keys_in (cell n d) x -> same (diag 0 x) (Ok x).
Proof.
  intros W Hdt K. eapply (same_den c okc (torsion x) tt); [exact (proj1 W)| |exists x; split; [reflexivity|]; pose proof (den_self c x W) as D; replace (attr x) with tt in D by (symmetry; apply un); exact D|].
  - destruct (linop_SD (torsion x) d 0 (proj1 W) Hdt ltac:(lia) x W eq_refl (un _) K) as (y & E & D & Ky). exists y. split; [exact E|exact D].
  - intros g _. cbn beta. apply eqm_eq. apply ev_ext. intros k v Hin. apply (SD_0 d). exact (K _ _ Hin).
Qed.
(** if a diagonal is a boundary then so is the diagonal with one piece less *)
Lemma descend d times (x : el) : wf c x -> dt_ok dt (torsion x) -> keys_in (cell n d) x -> 1 <= times -> bounds (n + times) d (diag times x) (torsion x) -> bounds (n + (times - 1)) d (diag (times - 1) x) (torsion x).
Proof.
  intros W Hdt K Htm (w & Ww & Tw & Kw & Sw). pose proof (proj1 W) as Ht. pose proof (counit_same d times coord x W Hdt K Htm ltac:(lia)) as CS.
  destruct (diag_total times d x W Hdt K ltac:(lia)) as (y & Ey & Wy & Ty & Ky). rewrite Ey in Sw, CS. cbn [bind] in CS.
  destruct (same_ok _ _ Sw) as (bw & Ebw & Eqw & _).
  pose proof (linop_AU (torsion x) (n + times) (d + 1) coord Ht Hdt) as L1. replace (n + times - 1) with (n + (times - 1)) in L1 by ring.
  pose proof (linop_b (torsion x) (n + times) (d + 1) Ht Hdt) as L2. replace (d + 1 - 1) with d in L2 by ring.
  pose proof (linop_AU (torsion x) (n + times) d coord Ht Hdt) as L3. replace (n + times - 1) with (n + (times - 1)) in L3 by ring.
  pose proof (linop_b (torsion x) (n + (times - 1)) (d + 1) Ht Hdt) as L4. replace (d + 1 - 1) with d in L4 by ring.
  destruct (L1 w Ww Tw (un _) Kw) as (v & Ev & Dv & Kv). exists v. split; [eapply den_wf; eauto|]. split; [exact (proj1 Dv)|]. split; [exact Kv|].
  assert (X : same (let! v := f_AU coord w in bnd v) (let! y := bnd w in f_AU coord y)).
  { refine (linop_same c c okc (torsion x) tt tt (cell (n + times) (d + 1)) _ _ _ _ _ _ w Ht
      (linop_comp _ _ _ okc okc okc (torsion x) tt tt tt _ _ _ _ _ _ _ Ht (kpred_ccell dg C Cdec _ _) L1 L4 (rep_local _ _ _ _) _)
      (linop_comp _ _ _ okc okc okc (torsion x) tt tt tt _ _ _ _ _ _ _ Ht (kpred_ccell dg C Cdec _ _) L2 L3 (rep_local _ _ _ _) _) Ww Tw (un _) Kw _).
    - pose proof (rep_AU (n + times) (d + 1) coord) as R. replace (n + times - 1) with (n + (times - 1)) in R by ring. exact R.
    - apply (adm_tD c badb Hbad fb dg fd_bad). intros k k' e Hk Hin. pose proof (tb_ccell fb dg dg_fb C Cfb _ _ _ _ _ Hk Hin) as Q. now replace (d + 1 - 1) with d in Q by ring.
    - apply (rep_tD fb dg). intros k k' e Hk Hin. pose proof (tb_ccell fb dg dg_fb C Cfb _ _ _ _ _ Hk Hin) as Q. now replace (d + 1 - 1) with d in Q by ring.
    - apply adm_AU. intros k k' e Hk Hin. pose proof (drop_cell _ _ _ _ _ _ Hk Hin) as Q. now replace (n + times - 1) with (n + (times - 1)) in Q by ring.
    - intros g k Hg (Lk & _) Hb. cbn beta. apply eqm_eq. rewrite Hbad in Hb. injection Hb as Hb. apply (AU_chain coord (n + times)); [exact Lk|lia|exact Hb]. }
  rewrite Ev, Ebw in X. cbn [bind] in X. eapply same_trans; [exact X|]. eapply same_trans; [|exact CS].
  destruct (linop_wf _ _ _ _ _ w bw Ht L2 Ww Tw Kw Ebw) as (Wb & Tb & Kb). eapply (cong_linop (torsion x)); [exact Ht|exact L3|exact Wb|exact Wy|exact Tb|exact Ty|exact Kb|exact Eqw].
Qed.
Lemma detects d times (x : el) : wf c x -> dt_ok dt (torsion x) -> keys_in (cell n d) x -> 0 <= times -> bounds n d (Ok x) (torsion x) <-> bounds (n + times) d (diag times x) (torsion x).
Proof.
  intros W Hdt K Htm. pose proof (proj1 W) as Ht. split.
  - intros (u & Wu & Tu & Ku & Su). assert (Hdu : dt_ok dt (torsion u)) by congruence. destruct (diag_total times (d + 1) u Wu Hdu Ku Htm) as (w & Ew & Ww & Tw & Kw). exists w. split; [exact Ww|]. split; [congruence|]. split; [exact Kw|].
    pose proof (diag_bnd (d + 1) times u Wu Hdu Ku Htm) as B. rewrite Ew in B. cbn [bind] in B. destruct (same_ok _ _ Su) as (bu & Ebu & Equ & _). rewrite Ebu in B. cbn [bind] in B. eapply same_trans; [exact B|].
    pose proof (linop_b (torsion x) n (d + 1) Ht Hdt) as L2. replace (d + 1 - 1) with d in L2 by ring. destruct (linop_wf _ _ _ _ _ u bu Ht L2 Wu Tu Ku Ebu) as (Wb & Tb & Kb).
    eapply (cong_linop (torsion x)); [exact Ht|apply (linop_SD (torsion x) d times Ht Hdt Htm)|exact Wb|exact W|exact Tb|reflexivity|exact Kb|exact Equ].
  - intros B. assert (B0 : forall m : nat, bounds (n + Z.of_nat m) d (diag (Z.of_nat m) x) (torsion x) -> bounds (n + 0) d (diag 0 x) (torsion x)).
    { induction m as [|m IH]; [auto|]. intros B0. apply IH. replace (Z.of_nat m) with (Z.of_nat (Datatypes.S m) - 1) by lia. apply descend; auto. lia. }
    specialize (B0 (Z.to_nat times)). rewrite Z2Nat.id in B0 by lia. destruct (B0 B) as (u & Wu & Tu & Ku & Su). rewrite Z.add_0_r in Ku. exists u. split; [exact Wu|]. split; [exact Tu|]. split; [exact Ku|].
    eapply same_trans; [exact Su|]. now apply (diag_same0 d).
Qed.
End G.
