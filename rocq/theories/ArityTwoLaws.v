(** * Arity two: the stages of the complexity filtration are spheres (C97) *)
From Coq Require Import Setoid Morphisms.
From Verif Require Import PyBase Dict FreeModule Symmetric Simplicial Cubical Utils Surjection BarrattEccles Eqm Spec SpecChain SpecOperad SpecSurj SpecAction SpecCube SpecCubAction SpecCup SpecCubCup FreeModuleFacts FreeModuleLaws ListFacts
  ClassFacts LinearFacts BilFacts SymmetricFacts CycleFacts SymmetricLaws RingFacts Tensor TensorAct KoszulFacts LoopFacts AW SimplicialFacts SimplicialDiag SimplicialLaws BELaws BEDiag MayFacts SurjFacts SurjBoundary SurjLaws SurjAct SurjLaws2 ActFacts ActSign ActCore
  SurjMay CupI CubCup CubCup2 SurjOrbit SurjLaws3 SurjLaws4 AcyclicFacts AcyclicLaws CongFacts ArityTwo.

Lemma den0_zero {K A} `{KO : KeyOk K} (c : pycls K) t (a : A) F (y : elt K A) : cls_ok c -> 0 <= t -> den c t a F y -> (forall g, adm c g -> eqm t (F g) 0) -> is_zero y.
Proof.
  intros Hc Ht Dy H0. assert (We : wf c (mkElt [] t a)) by (split; [exact Ht|]; split; [exact I|intros ? ? []]).
  assert (Sm : same (Ok y) (Ok (mkElt [] t a))).
  { eapply (same_den c Hc t a); [exact Ht|apply returns_ok; exact Dy|apply returns_ok; exact (den_self c (mkElt [] t a) We)|]. intros g Hg. cbn beta. rewrite H0 by exact Hg. cbn [data]. rewrite ev_nil. reflexivity. }
  destruct Sm as (y1 & y2 & E1 & E2 & E3 & _). injection E1 as <-. injection E2 as <-.
  refine (eqb_zero c (mkElt [] t a) y We _ (eqb_sym _ _ E3) eq_refl). eapply (den_wf c); eauto.
Qed.
(** #C97_words# The basis elements of arity 2 and degree [d] are the two alternating words of length d + 2. *)
Lemma C97_words_l (d : Z) (k : list Z) : 0 <= d ->
  (surj_cell 2 d k /\ ~ repeats k) <-> (k = altw 1 (Z.to_nat (d + 2)) \/ k = altw 2 (Z.to_nat (d + 2))).
Proof.
  intros Hd. replace (Z.to_nat (d + 2)) with (Z.to_nat d + 2)%nat by lia. split.
  - intros [Hk Nr]. apply cell2_alt; [exact Hd|exact Hk|]. destruct (adj k) eqn:A; [|reflexivity]. now apply repeats_adj in A.
  - intros H. assert (Ha : exists a, (a = 1 \/ a = 2) /\ k = altw a (Z.to_nat d + 2)) by (destruct H as [-> | ->]; eauto). destruct Ha as (a & Ha & ->).
    split; [|rewrite repeats_adj, altw_adj; discriminate]. pose proof (altw_cell_any a (Z.to_nat d) Ha) as C. now rewrite Z2Nat.id in C by lia.
Qed.
Lemma changes_alt n : forall a, changes (altw a (Datatypes.S n)) = Z.of_nat n.
Proof.
  induction n as [|n IH]; intros a; [reflexivity|]. change (altw a (Datatypes.S (Datatypes.S n))) with (a :: altw (3 - a) (Datatypes.S n)). specialize (IH (3 - a)). cbn [altw] in *. cbn [changes] in *. rewrite IH.
  destruct (Z.eqb_spec a (3 - a)); lia.
Qed.
Lemma switches_alt a n : a = 1 \/ a = 2 -> switches 1 2 (altw a (Datatypes.S n)) = Z.of_nat n.
Proof.
  intros Ha. unfold switches. rewrite <- (changes_alt n a). f_equal. apply filter_all || idtac.
  assert (G : forall l, (forall b, In b l -> b = 1 \/ b = 2) -> filter (fun c => (c =? 1) || (c =? 2)) l = l).
  { induction l as [|b l IH]; intros Hl; [reflexivity|]. cbn [filter]. destruct (Hl b (or_introl eq_refl)) as [-> | ->]; cbn; rewrite IH; auto; intros; apply Hl; now right. }
  apply G. intros b Hb. eapply altw_in; eauto.
Qed.
(** #C97_complexity# A nonzero element of arity 2 and degree [d] has complexity d + 1. *)
Lemma C97_complexity_l (d : Z) (x : surj) : 0 <= d -> wf cls_surj x -> keys_in (surj_cell 2 d) x -> ~ is_zero x -> surj_complexity x = Ok (d + 1).
Proof.
  intros Hd Wx Kx Nx. destruct (C54_complexity_value_l x Wx) as (c & Ec & Hc & _). rewrite Ec. f_equal.
  destruct (C54_bound_l 2 d c x ltac:(lia) Hd Wx Kx Ec) as [B _]. assert (L : d + 1 <= c); [|lia].
  destruct x as [[|[k v] l] tx ax]; [now exfalso; apply Nx|]. specialize (Hc k v 1 2 (or_introl eq_refl)).
  assert (A : adj k = false) by (destruct (wf_onto _ k v Wx (or_introl eq_refl)) as (r & _ & _ & A); exact A).
  destruct (cell2_alt d k Hd (Kx k v (or_introl eq_refl)) A) as [-> | ->]; rewrite Nat.add_comm in Hc; cbn [Nat.add] in Hc; rewrite switches_alt in Hc by auto; lia.
Qed.

Lemma sface_suc d : sface_closed (surj_cell 2 (Z.of_nat (Datatypes.S d))) (surj_cell 2 (Z.of_nat d)).
Proof. intros k k' [Hk Lk] L Sk. split; [intros j; rewrite Sk; apply Hk|lia]. Qed.
Lemma adm_zad d g : adm cls_surj g -> zad d g.
Proof.
  intros Hg k Hk Ha. destruct Hg as [_ Hg]. apply Hg. change (bad cls_surj k) with (surj_bad k). rewrite (surj_bad_onto 2) by (lia || apply Hk). now rewrite Ha.
Qed.
Lemma bd_den dt d (y : surj) : wf cls_surj y -> dt_ok dt (torsion y) -> attr y = BF \/ attr y = MS -> keys_in (surj_cell 2 (Z.of_nat (Datatypes.S d))) y ->
  exists c, returns (surj_boundary dt y) (den cls_surj (torsion y) (attr y) (fun g => c * sd (attr y) g (altw 1 (Datatypes.S d + 2)))).
Proof.
  intros Wy Hdt Hcv Ky. pose proof (proj1 Wy) as Ht.
  destruct (linop_sb dt (torsion y) (attr y) _ _ Ht Hdt ltac:(unfold known; tauto) (kpred_cell 2 (Z.of_nat d)) (sface_suc d) y Wy eq_refl eq_refl Ky) as (z & E & Dz & _).
  set (s := sgn (Z.of_nat (Datatypes.S d)) * asg (attr y) (rot 2 1) (altw 1 (Datatypes.S d + 2))).
  exists (ev (fun k => if hd 0 k =? 1 then 1 else s) (data y)). exists z. split; [exact E|]. eapply den_ext; [|exact Dz]. intros g Hg. cbn beta. apply eqm_eq.
  rewrite (ev_alt (sd (attr y) g) s (Z.of_nat (Datatypes.S d)) y ltac:(lia) Wy Ky); rewrite Nat2Z.id; [reflexivity|]. unfold s. apply alt_sd_other; [exact Hcv|]. now apply adm_zad.
Qed.
Lemma may_bd dt dc d t cv : cv = BF \/ cv = MS -> 0 <= t -> t <> 1 -> dt_ok dt t ->
  exists e b, surj_may_steenrod dt dc 2 (Z.of_nat (Datatypes.S d)) (Some t) (Some cv) = Ok e /\ wf cls_surj e /\ torsion e = t /\ attr e = cv /\ keys_in (surj_cell 2 (Z.of_nat (Datatypes.S d))) e /\
    surj_boundary dt e = Ok b /\ den cls_surj t cv (fun g => two_sign cv (Z.of_nat (Datatypes.S d)) * sd cv g (altw 1 (Datatypes.S d + 2))) b.
Proof.
  intros Hcv Ht N1 Hdt.
  assert (Eu : t = match Some t with Some t0 => if t0 =? 0 then dt else t0 | None => dt end).
  { destruct (Z.eqb_spec t 0) as [->|]; [|reflexivity]. destruct Hdt as [_ [->|[N _]]]; [reflexivity|congruence]. }
  destruct (mayS_ok dt dc cv 2 (Datatypes.S d) (Some t) (Some cv) t Eu eq_refl Hcv ltac:(lia) Ht N1 Hdt) as (e & Ee & De).
  assert (We : wf cls_surj e) by (eapply den_wf; eauto).
  assert (Ke : keys_in (surj_cell 2 (Z.of_nat (Datatypes.S d))) e). { pose proof (psiS_keys cv 2 (Datatypes.S d) t e ltac:(lia) Ht De) as K. intros k v Hin. exact (proj1 (K _ _ Hin)). }
  assert (Te : torsion e = t) by apply De. assert (Ae : attr e = cv) by apply De.
  destruct (linop_sb dt t cv _ _ Ht Hdt ltac:(unfold known; tauto) (kpred_cell 2 (Z.of_nat d)) (sface_suc d) e We Te Ae Ke) as (b & E & Db & _).
  exists e, b. split; [exact Ee|]. split; [exact We|]. split; [exact Te|]. split; [exact Ae|]. split; [exact Ke|]. split; [exact E|].
  eapply den_ext; [|exact Db]. intros g Hg. cbn beta.
  rewrite <- (FpS_alt' cv (Datatypes.S d) (sd cv g) Hcv (zad_sd cv d g (adm_zad d g Hg))).
  apply (psiS_ev cv 2 (Datatypes.S d) t e (sd cv g) ltac:(lia) Ht De).
  apply (adm_sd cv _ _ (sface_suc d)); [intros k Hk; apply (onto_ne 2); [lia|apply Hk]|]. now apply adm_admP.
Qed.
(** #C97_cycles# The cycles of arity 2 and degree d >= 1 are exactly the multiples of the boundary of
    may_steenrod_structure(2, d + 1) (which is T or N times the element of degree [d]: C53). *)
Lemma C97_cycles_l (dt d : Z) (dc : conv) (x : surj) : 1 <= d -> wf cls_surj x -> torsion x <> 1 -> dt_ok dt (torsion x) -> attr x = BF \/ attr x = MS -> keys_in (surj_cell 2 d) x ->
  (exists z, surj_boundary dt x = Ok z /\ is_zero z) <->
  (exists c, same (Ok x) (let! e := surj_may_steenrod dt dc 2 (d + 1) (Some (torsion x)) (Some (attr x)) in let! b := surj_boundary dt e in scale dt cls_surj c b)).
Proof.
  intros Hd Wx N1 Hdt Hcv Kx. pose proof (proj1 Wx) as Ht. assert (HK : attr x = BF \/ attr x = MS \/ torsion x = 2) by tauto.
  destruct (may_bd dt dc (Z.to_nat d) (torsion x) (attr x) Hcv Ht N1 Hdt) as (e & b & Ee & We & Te & Ae & Ke & Eb & Db).
  replace (Z.of_nat (Datatypes.S (Z.to_nat d))) with (d + 1) in Ee, Ke by lia. rewrite Ee. cbn [bind]. rewrite Eb. cbn [bind]. split.
  - intros Hz. destruct (C69_surjection_l dt 2 d x ltac:(lia) Hd Wx Hdt HK Kx Hz) as (y & Wy & Ty & Ay & Ky & Sy).
    replace (d + 1) with (Z.of_nat (Datatypes.S (Z.to_nat d))) in Ky by lia. destruct (bd_den dt (Z.to_nat d) y Wy ltac:(congruence) ltac:(rewrite Ay; exact Hcv) Ky) as (c & Dy). rewrite Ty, Ay in Dy.
    set (E := two_sign (attr x) (Z.of_nat (Datatypes.S (Z.to_nat d)))) in *. exists (c * E).
    apply same_sym. eapply same_trans; [|exact Sy]. eapply (same_den cls_surj ok_surj (torsion x) (attr x)); [exact Ht|apply (scale_den cls_surj ok_surj dt (torsion x)); eauto|exact Dy|].
    intros g Hg. cbn beta. apply eqm_eq. rewrite Z.mul_assoc. replace (c * E * E) with c; [reflexivity|]. assert (HE : E * E = 1) by apply two_sign_sq. rewrite <- Z.mul_assoc, HE. ring.
  - intros (c & x' & w & E1 & Ew & E3). injection E1 as <-.
    assert (Wb : wf cls_surj b) by (eapply (den_wf cls_surj); eauto). assert (Tb : torsion b = torsion x) by apply Db. assert (Ab : attr b = attr x) by apply Db.
    assert (Ww : wf cls_surj w). { destruct (scale_den cls_surj ok_surj dt (torsion x) Ht Hdt (attr x) _ c b Db) as (w' & Ew' & Dw'). assert (w' = w) by congruence. subst w'. eapply (den_wf cls_surj); eauto. }
    destruct E3 as (E3 & Tw & Aw).
    pose proof (linop_sb dt (torsion x) (attr x) sne sne Ht Hdt HK kpred_sne sface_sne) as L.
    pose proof (linop_cong cls_surj cls_surj ok_surj _ _ _ _ _ _ _ x w Ht L Wx Ww eq_refl (eq_sym Tw) eq_refl (eq_sym Aw) (wf_sne x Wx) E3) as S1.
    pose proof (proj2 (C45_boundary_linear_l dt c b b Wb Wb eq_refl eq_refl ltac:(congruence) ltac:(rewrite Ab, Tb; exact HK))) as S2. rewrite Ew in S2. cbn [bind] in S2.
    assert (S3 : same (surj_boundary dt x) (let! p := surj_boundary dt b in scale dt cls_surj c p)) by (eapply same_trans; [exact S1|exact S2]). clear S1 S2.
    destruct (C45_boundary_squared_l dt e We ltac:(congruence) ltac:(rewrite Ae, Te; exact HK)) as (z1 & z2 & Z1 & Z2 & Z3 & _). rewrite Eb in Z1. cbn [bind] in Z1. rewrite Z1 in S3. cbn [bind] in S3.
    rewrite (zero_data cls_surj) in Z2. injection Z2 as <-.
    destruct (C45_boundary_degree_l dt 2 d b ltac:(lia) Wb ltac:(congruence) ltac:(rewrite Ab, Tb; exact HK)) as (z1' & Z1' & Wz1 & Tz1 & Az1 & _).
    { destruct (C45_boundary_degree_l dt 2 (d + 1) e ltac:(lia) We ltac:(congruence) ltac:(rewrite Ae, Te; exact HK) Ke) as (b' & Eb' & _ & _ & _ & Kb & _). rewrite Eb in Eb'. injection Eb' as <-. now replace (d + 1 - 1) with d in Kb by lia. }
    assert (z1' = z1) by congruence. subst z1'.
    assert (Hz : is_zero z1) by (refine (eqb_zero cls_surj (mkElt [] (torsion e) (attr e)) z1 _ Wz1 (eqb_sym _ _ Z3) eq_refl); split; [cbn; apply We|split; [exact I|intros ? ? []]]).
    assert (Hp : returns (scale dt cls_surj c z1) (fun p => is_zero p /\ wf cls_surj p)).
    { destruct (scale_den cls_surj ok_surj dt (torsion x) Ht Hdt (attr x) (fun g => ev g (data z1)) c z1) as (p & Ep & Dp).
      - pose proof (den_self cls_surj z1 Wz1) as D. rewrite Tz1, Az1, Tb, Ab in D. exact D.
      - exists p. split; [exact Ep|]. split; [|eapply (den_wf cls_surj); eauto]. apply (den0_zero cls_surj (torsion x) (attr x) _ p ok_surj Ht Dp). intros g _. cbn beta. rewrite Hz, ev_nil. apply eqm_eq. ring. }
    destruct Hp as (p & Ep & Zp & Wp). destruct S3 as (u & p' & Eu & Ep' & E4 & _). rewrite Ep in Ep'. injection Ep' as <-. exists u. split; [exact Eu|].
    destruct (C45_boundary_degree_l dt 2 d x ltac:(lia) Wx Hdt HK Kx) as (u' & Eu' & Wu & _). rewrite Eu in Eu'. injection Eu' as <-.
    exact (eqb_zero cls_surj p u Wp Wu (eqb_sym _ _ E4) Zp).
Qed.
(** #C97_generator# The multiple [c] of that cycle is zero exactly when the torsion divides [c]. *)
Lemma C97_generator_l (dt t d c : Z) (dc cv : conv) : 0 <= d -> 0 <= t -> t <> 1 -> dt_ok dt t -> cv = BF \/ cv = MS ->
  exists e b z, surj_may_steenrod dt dc 2 (d + 1) (Some t) (Some cv) = Ok e /\ surj_boundary dt e = Ok b /\ scale dt cls_surj c b = Ok z /\ wf cls_surj z /\ keys_in (surj_cell 2 d) z /\
    (is_zero z <-> (t | c)).
Proof.
  intros Hd Ht N1 Hdt Hcv. destruct (may_bd dt dc (Z.to_nat d) t cv Hcv Ht N1 Hdt) as (e & b & Ee & We & Te & Ae & Ke & Eb & Db).
  replace (Z.of_nat (Datatypes.S (Z.to_nat d))) with (d + 1) in Ee, Ke by lia.
  destruct (scale_den cls_surj ok_surj dt t Ht Hdt cv _ c b Db) as (z & Ez & Dz). exists e, b, z. split; [exact Ee|]. split; [exact Eb|]. split; [exact Ez|].
  assert (Wz : wf cls_surj z) by (eapply (den_wf cls_surj); eauto). split; [exact Wz|].
  assert (V : forall F, zad (Z.to_nat d) F -> two_sign cv (Z.of_nat (Datatypes.S (Z.to_nat d))) * sd cv F (altw 1 (Datatypes.S (Z.to_nat d) + 2)) = 
     two_sign cv (Z.of_nat (Z.to_nat d)) * (asg cv (rot 2 1) (altw 1 (Z.to_nat d + 2)) * F (altw 2 (Z.to_nat d + 2)) + sgn (Z.of_nat (Datatypes.S (Z.to_nat d))) * F (altw 1 (Z.to_nat d + 2)))) by (intros F HF; now apply alt_sd_signed).
  split.
  - apply (den_keys cls_surj ok_surj t cv _ z _ Ht (kpred_cell 2 d) Dz). intros g Hg H0. cbn beta. rewrite V by now apply adm_zad. apply eqm_eq.
    pose proof (altw_cell_any 1 (Z.to_nat d) (or_introl eq_refl)) as C1. pose proof (altw_cell_any 2 (Z.to_nat d) (or_intror eq_refl)) as C2. rewrite Z2Nat.id in C1, C2 by lia. rewrite !H0 by assumption. ring.
  - set (w2 := altw 2 (Z.to_nat d + 2)). set (w1 := altw 1 (Z.to_nat d + 2)).
    assert (A2 : adm cls_surj (ind w2)). { apply (adm_ind cls_surj ok_surj). change (bad cls_surj w2) with (surj_bad w2). rewrite (surj_bad_onto 2); [|lia|apply altw_cell_any; auto]. unfold w2. now rewrite altw_adj. }
    assert (E12 : ind w2 w1 = 0). { unfold w1, w2. rewrite ind_eq. destruct (list_eq_dec _ _ _) as [E|]; [|reflexivity]. rewrite Nat.add_comm in E. cbn in E. discriminate. }
    assert (E22 : ind w2 w2 = 1). { rewrite ind_eq. destruct (list_eq_dec _ _ _); [reflexivity|congruence]. }
    split.
    + intros Z0. destruct Dz as (_ & _ & _ & HD). pose proof (HD _ A2) as Hq. cbn beta in Hq. rewrite V in Hq by now apply adm_zad. fold w1 w2 in Hq. rewrite E12, E22 in Hq. red in Z0. rewrite Z0, ev_nil in Hq.
      set (s := two_sign cv (Z.of_nat (Z.to_nat d))) in *. set (a := asg cv (rot 2 1) w1) in *. assert (Hs : s * s = 1) by apply two_sign_sq. assert (Ha : a * a = 1) by apply asg_sq.
      assert (Q : eqm t c 0); [|red in Q; now rewrite Z.sub_0_r in Q]. symmetry. transitivity (0 * (s * a)); [apply eqm_eq; ring|]. rewrite Hq. apply eqm_eq. transitivity (c * (s * s) * (a * a)); [ring|rewrite Hs, Ha; ring].
    + intros [q ->]. apply (den0_zero cls_surj t cv _ z ok_surj Ht Dz). intros g _. cbn beta. exists (q * (two_sign cv (Z.of_nat (Datatypes.S (Z.to_nat d))) * sd cv g (altw 1 (Datatypes.S (Z.to_nat d) + 2)))). ring.
Qed.
(** #C97_stages# The elements of arity 2 and complexity at most [m] (closed under the boundary: C54) have the
    homology of a sphere of dimension m - 1: there is nothing in degrees >= m; a cycle whose degree is between
    1 and m - 2 is the boundary of an element of the stage; in degree 0 (m >= 2) an element is
    the boundary of an element of the stage exactly if the torsion divides the sum of its coefficients; in degree m - 1
    only zero is the boundary of an element of the stage (the cycles there: C97_cycles, C97_generator). *)
Lemma C97_stages_l (dt m d cx : Z) (x : surj) : 0 <= d -> wf cls_surj x -> dt_ok dt (torsion x) -> attr x = BF \/ attr x = MS -> keys_in (surj_cell 2 d) x ->
  surj_complexity x = Ok cx -> cx <= m ->
  let bounds := exists y cy, wf cls_surj y /\ torsion y = torsion x /\ attr y = attr x /\ keys_in (surj_cell 2 (d + 1)) y /\ surj_complexity y = Ok cy /\ cy <= m /\ same (surj_boundary dt y) (Ok x) in
  (m <= d -> is_zero x) /\
  (1 <= d <= m - 2 -> (exists z, surj_boundary dt x = Ok z /\ is_zero z) -> bounds) /\
  (d = 0 -> 2 <= m -> bounds <-> (torsion x | zsum (map snd (data x)))) /\
  (d = m - 1 -> bounds -> is_zero x).
Proof.
  intros Hd Wx Hdt Hcv Kx Ex Hm bounds. assert (HK : attr x = BF \/ attr x = MS \/ torsion x = 2) by tauto. pose proof (proj1 Wx) as Ht.
  assert (UP : forall y, wf cls_surj y -> keys_in (surj_cell 2 (d + 1)) y -> d + 2 <= m -> exists cy, surj_complexity y = Ok cy /\ cy <= m).
  { intros y Wy Ky Hdm. destruct (C54_complexity_value_l y Wy) as (cy & Ey & _). exists cy. split; [exact Ey|]. pose proof (C54_bound_l 2 (d + 1) cy y ltac:(lia) ltac:(lia) Wy Ky Ey). lia. }
  split; [|split; [|split]].
  - intros H. destruct (data x) eqn:E; [exact E|]. exfalso. assert (Nx : ~ is_zero x) by (unfold is_zero; rewrite E; discriminate). rewrite (C97_complexity_l d x Hd Wx Kx Nx) in Ex. injection Ex as <-. lia.
  - intros H Hz. destruct (C69_surjection_l dt 2 d x ltac:(lia) ltac:(lia) Wx Hdt HK Kx Hz) as (y & Wy & Ty & Ay & Ky & Sy). destruct (UP y Wy Ky ltac:(lia)) as (cy & Ey & Hcy). exists y, cy. tauto.
  - intros -> Hm2. rewrite <- (C69_surjection_zero_l dt 2 x ltac:(lia) Wx Hdt HK Kx). split.
    + intros (y & cy & Wy & Ty & Ay & Ky & _ & _ & Sy). exists y. tauto.
    + intros (y & Wy & Ty & Ay & Ky & Sy). destruct (UP y Wy Ky ltac:(lia)) as (cy & Ey & Hcy). exists y, cy. tauto.
  - intros Hdm (y & cy & Wy & Ty & Ay & Ky & Ey & Hcy & Sy).
    assert (Zy : is_zero y). { destruct (data y) eqn:E; [exact E|]. exfalso. assert (Ny : ~ is_zero y) by (unfold is_zero; rewrite E; discriminate). rewrite (C97_complexity_l (d + 1) y ltac:(lia) Wy Ky Ny) in Ey. injection Ey as <-. lia. }
    destruct (linop_sb dt (torsion y) (attr y) sne sne ltac:(lia) ltac:(congruence) ltac:(unfold known; rewrite Ay, Ty; tauto) kpred_sne sface_sne y Wy eq_refl eq_refl (wf_sne y Wy)) as (b & Eb & Db & _).
    destruct Sy as (b' & x' & Eb' & Ex' & Eq & _). injection Ex' as <-. assert (b' = b) by congruence. subst b'.
    assert (Zb : is_zero b). { apply (den0_zero cls_surj (torsion y) (attr y) _ b ok_surj ltac:(lia) Db). intros g _. cbn beta. red in Zy. rewrite Zy, ev_nil. reflexivity. }
    refine (eqb_zero cls_surj b x _ Wx Eq Zb). eapply (den_wf cls_surj); [|exact Db]. lia.
Qed.
(** #C97_example# *)
Example C97_example_l : let x : surj := mkElt [([1; 2; 1; 2], 3); ([2; 1; 2; 1], 3)] 0 MS in
  wf cls_surj x /\ keys_in (surj_cell 2 2) x /\ surj_complexity x = Ok 3 /\
  (exists e b, surj_may_steenrod 0 MS 2 3 (Some 0) (Some MS) = Ok e /\ data e = [(altw 1 5, -1)] /\ surj_boundary 0 e = Ok b /\ elt_eqb b (mkElt [([1; 2; 1; 2], -1); ([2; 1; 2; 1], -1)] 0 MS) = true).
Proof.
  intros x. split; [apply wfb_wf; reflexivity|]. split; [|split; [reflexivity|]].
  - intros k v Hin. destruct (C97_words_l 2 k ltac:(lia)) as [_ A]. apply A. cbn in Hin. destruct Hin as [Hin|[Hin|[]]]; injection Hin as <- _; [left|right]; reflexivity.
  - eexists _, _. split; [vm_compute; reflexivity|]. split; [reflexivity|]. split; [vm_compute; reflexivity|]. reflexivity.
Qed.
