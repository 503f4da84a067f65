(** * Operations that are homologous in the surjection operad act homotopically (C108) *)
From Coq Require Import Setoid Morphisms.
From Verif Require Import PyBase Dict FreeModule Symmetric Simplicial Cubical Utils Surjection Eqm Spec SpecChain SpecOperad SpecSurj SpecAction SpecCube SpecCubAction FreeModuleFacts FreeModuleLaws ListFacts
  ClassFacts LinearFacts BilFacts SymmetricFacts CycleFacts SymmetricLaws RingFacts Tensor TensorAct KoszulFacts LoopFacts AW SimplicialFacts SimplicialDiag SimplicialLaws SurjFacts SurjBoundary SurjLaws
  SurjCompose ActFacts ActSign ActCore ActCode ActLaws CubicalFacts CubicalDiag CubicalJoin CubicalLaws CubActFacts CubActCore CubActCode CubActLaws AcyclicFacts AcyclicLaws CongFacts.

Definition homologous (dt d : Z) (u u' : surj) : Prop :=
  (1 <= d /\ (exists z, surj_boundary dt u = Ok z /\ is_zero z) /\ (exists z, surj_boundary dt u' = Ok z /\ is_zero z)) \/
  (d = 0 /\ (torsion u | zsum (map snd (data u)) - zsum (map snd (data u')))).
Lemma den_zero {K A} `{KO : KeyOk K} {KE : KeyEq K} (c : pycls K) (Hc : cls_ok c) t (a : A) F (z : elt K A) : 0 <= t -> den c t a F z -> (forall g, adm c g -> eqm t (F g) 0) -> is_zero z.
Proof.
  intros Ht D HF. set (z0 := mkElt [] t a : elt K A). assert (D0 : den c t a (fun _ => 0) z0).
  { split; [reflexivity|]. split; [reflexivity|]. split; [split; [exact I|intros k v []]|]. intros g _. reflexivity. }
  refine (eqb_zero c z0 z _ _ _ eq_refl); [eapply den_wf; eauto|eapply den_wf; eauto|].
  eapply (den_eqb c Hc); [exact Ht|exact D0|exact D|]. intros g Hg. symmetry. now apply HF.
Qed.
Lemma ev_keys {K} `{KO : KeyOk K} {A} (g h : K -> Z) (x y : elt K A) : (forall k, In k (dkeys (data x) ++ dkeys (data y)) -> h k = g k) -> ev h (data x) - ev h (data y) = ev g (data x) - ev g (data y).
Proof. intros E. f_equal; apply ev_ext; intros k v Hin; apply E, in_or_app; [left|right]; now apply (in_map fst) in Hin. Qed.
Lemma keys_sub dt t r d (u u' w : surj) a : 0 <= t -> dt_ok dt t -> wf cls_surj u -> wf cls_surj u' -> torsion u = t -> torsion u' = t -> 1 <= r ->
  keys_in (surj_cell r d) u -> keys_in (surj_cell r d) u' -> den cls_surj t a (fun g => ev g (data u) - ev g (data u')) w -> keys_in (surj_cell r d) w.
Proof.
  intros Ht Hdt Wu Wu' Tu Tu' Hr Ku Ku' Dw. apply (den_keys cls_surj ok_surj t a _ w (surj_cell r d) Ht (kpred_cell r d) Dw). intros g Hg H0. apply eqm_eq. rewrite !ev_zero; [ring| |]; intros k v Hin; apply H0; eauto.
Qed.
Lemma sub_ev dt t r d (u u' w : surj) a g : 0 <= t -> dt_ok dt t -> 1 <= r -> wf cls_surj u -> wf cls_surj u' -> keys_in (surj_cell r d) u -> keys_in (surj_cell r d) u' -> keys_in (surj_cell r d) w ->
  den cls_surj t a (fun g => ev g (data u) - ev g (data u')) w -> admP cls_surj (surj_cell r d) g -> eqm t (ev g (data w)) (ev g (data u) - ev g (data u')).
Proof.
  intros Ht Hdt Hr Wu Wu' Ku Ku' Kw Dw Hg. apply (den_ev_on cls_surj ok_surj t a _ w (surj_cell r d) g (dkeys (data u) ++ dkeys (data u')) (kpred_cell r d) Dw Kw Hg).
  intros h Eh. apply eqm_eq. apply ev_keys. intros k Hk. apply Eh; [|exact Hk]. apply in_app_or in Hk. destruct Hk as [Hk|Hk]; apply in_map_iff in Hk; destruct Hk as ([k' v] & <- & Hk); [exact (Ku _ _ Hk)|exact (Ku' _ _ Hk)].
Qed.
(** the difference of two homologous elements is a boundary *)
Lemma homologous_bounds dt r d (u u' : surj) : 1 <= r -> wf cls_surj u -> wf cls_surj u' -> torsion u' = torsion u -> dt_ok dt (torsion u) -> attr u = BF \/ attr u = MS \/ torsion u = 2 -> attr u' = attr u ->
  keys_in (surj_cell r d) u -> keys_in (surj_cell r d) u' -> homologous dt d u u' ->
  exists w h, wf cls_surj w /\ torsion w = torsion u /\ attr w = attr u /\ keys_in (surj_cell r d) w /\ den cls_surj (torsion u) (attr u) (fun g => ev g (data u) - ev g (data u')) w /\
    wf cls_surj h /\ torsion h = torsion u /\ attr h = attr u /\ keys_in (surj_cell r (d + 1)) h /\ same (surj_boundary dt h) (Ok w).
Proof.
  intros Hr Wu Wu' T' Hdt Au Au' Ku Ku' H. pose proof (proj1 Wu) as Ht. pose proof (den_self cls_surj u Wu) as Du. pose proof (den_self cls_surj u' Wu') as Du'. rewrite T' in Du'.
  destruct (sub_den cls_surj ok_surj dt (torsion u) Ht Hdt (attr u) (attr u') _ _ u u' Du Du') as (w & Ew & Dw).
  pose proof (den_wf cls_surj _ _ _ w Ht Dw) as Ww. pose proof (proj1 Dw) as Tw. pose proof (proj1 (proj2 Dw)) as Aw.
  pose proof (keys_sub dt (torsion u) r d u u' w _ Ht Hdt Wu Wu' eq_refl T' Hr Ku Ku' Dw) as Kw.
  assert (Hdw : dt_ok dt (torsion w)) by congruence. assert (Aw' : attr w = BF \/ attr w = MS \/ torsion w = 2) by (rewrite Tw, Aw; exact Au).
  assert (B : exists h, wf cls_surj h /\ torsion h = torsion w /\ attr h = attr w /\ keys_in (surj_cell r (d + 1)) h /\ same (surj_boundary dt h) (Ok w)).
  { destruct H as [(Hd & (z1 & E1 & Z1) & (z2 & E2 & Z2)) | (-> & D)].
    - apply (C69_surjection_l dt r d w Hr Hd Ww Hdw Aw' Kw).
      pose proof (linop_sb dt (torsion u) (attr u) (surj_cell r d) (surj_cell r (d - 1)) Ht Hdt Au (kpred_cell r (d - 1)) (sface_cell r d (d - 1) eq_refl)) as L.
      pose proof (adm_sd (attr u) _ _ (sface_cell r d (d - 1) eq_refl) (fun k => cell_ne r d k Hr)) as AD.
      destruct (L w Ww Tw Aw Kw) as (z & Ez & Dz & _). exists z. split; [exact Ez|]. apply (den_zero cls_surj ok_surj (torsion u) (attr u) _ z Ht Dz).
      intros g Hg. rewrite (sub_ev dt (torsion u) r d u u' w _ _ Ht Hdt Hr Wu Wu' Ku Ku' Kw Dw (AD g (adm_admP cls_surj _ g Hg))).
      destruct (L u Wu eq_refl eq_refl Ku) as (y1 & Ey1 & D1 & _). destruct (L u' Wu' T' Au' Ku') as (y2 & Ey2 & D2 & _). rewrite E1 in Ey1. injection Ey1 as <-. rewrite E2 in Ey2. injection Ey2 as <-.
      pose proof (den_ev cls_surj _ _ _ _ _ D1 Hg) as V1. pose proof (den_ev cls_surj _ _ _ _ _ D2 Hg) as V2. unfold is_zero in Z1, Z2. rewrite Z1 in V1. rewrite Z2 in V2. rewrite <- V1, <- V2. reflexivity.
    - apply (C69_surjection_zero_l dt r w Hr Ww Hdw Aw' Kw). rewrite Tw. rewrite <- total_zsum in *. rewrite <- !total_zsum in D. unfold total in *.
      assert (E : eqm (torsion u) (ev (fun _ => 1) (data w)) (ev (fun _ => 1) (data u) - ev (fun _ => 1) (data u'))).
      { apply (sub_ev dt (torsion u) r 0 u u' w _ _ Ht Hdt Hr Wu Wu' Ku Ku' Kw Dw). apply admP_keyeq. intros k Hk Hb. cbn [bad cls_surj] in Hb. rewrite (surj_bad_onto r) in Hb by (lia || apply Hk). rewrite nodup_adj in Hb; [discriminate|]. apply (cell0_nodup r); [lia|exact Hk]. }
      unfold eqm in E. set (a := ev (fun _ => 1) (data w)) in *. set (b := ev (fun _ => 1) (data u) - ev (fun _ => 1) (data u')) in *. replace a with ((a - b) + b) by ring. now apply Z.divide_add_r. }
  destruct B as (h & Wh & Th & Ah & Kh & Sh). exists w, h. split; [exact Ww|]. split; [exact Tw|]. split; [exact Aw|]. split; [exact Kw|]. split; [exact Dw|]. split; [exact Wh|]. split; [congruence|]. split; [congruence|]. split; [exact Kh|exact Sh].
Qed.
Section Gen.
Context {K : Type} `{KO : KeyOk K} {KE : KeyEq K}.
Variables (c : pycls K) (Hc : cls_ok c) (bd : elt K unit -> res (elt K unit)) (act : surj -> elt K unit -> res (elt K unit)) (Phi : (K -> Z) -> list Z -> K -> Z).
Variables (dt t r d : Z) (cv : conv) (Pe Pe' Q : K -> Prop).
Hypotheses (Ht : 0 <= t) (Hdt : dt_ok dt t) (Hr : 1 <= r).
Hypothesis HB : bilop cls_surj c c t cv tt tt (surj_cell r d) Pe Phi act.
Hypothesis HB1 : bilop cls_surj c c t cv tt tt (surj_cell r (d + 1)) Pe' Phi act.
Hypothesis AD : adm2 cls_surj c c (surj_cell r d) Pe Q Phi.
Lemma unit_attr (x : elt K unit) : attr x = tt. Proof. now destruct (attr x). Qed.
Lemma gen_htpy (u u' w h : surj) (x : elt K unit) : wf cls_surj u -> wf cls_surj u' -> torsion u = t -> torsion u' = t -> attr u = cv -> attr u' = cv -> keys_in (surj_cell r d) u -> keys_in (surj_cell r d) u' ->
  wf cls_surj w -> torsion w = t -> attr w = cv -> keys_in (surj_cell r d) w -> den cls_surj t cv (fun g => ev g (data u) - ev g (data u')) w ->
  wf cls_surj h -> torsion h = t -> attr h = cv -> keys_in (surj_cell r (d + 1)) h -> same (surj_boundary dt h) (Ok w) ->
  (forall dh, surj_boundary dt h = Ok dh -> wf cls_surj dh) ->
  wf c x -> torsion x = t -> keys_in Pe x -> (exists dx, bd x = Ok dx /\ wf c dx /\ torsion dx = t /\ keys_in Pe' dx) ->
  same (let! z := act h x in bd z) (let! dh := surj_boundary dt h in let! p := act dh x in let! dy := bd x in let! q := act h dy in let! s := scale dt c (sgn (d + 1)) q in add dt c p s) ->
  (forall z y, act h x = Ok z -> bd z = Ok y -> wf c y) ->
  same (let! z := act h x in let! a := bd z in let! dx := bd x in let! b := act h dx in let! b' := scale dt c (sgn d) b in add dt c a b')
       (let! p := act u x in let! q := act u' x in sub dt c p q).
Proof.
  intros Wu Wu' Tu Tu' Au Au' Ku Ku' Ww Tw Aw Kw Dw Wh Th Ah Kh Sh Wdh Wx Tx Kx (dx & Edx & Wdx & Tdx & Kdx) Ch Wb.
  destruct Sh as (dh & w' & Edh & Ew & Eq & Tq & Aq). injection Ew as <-. specialize (Wdh dh Edh).
  pose proof (eqb_keys cls_surj w dh _ Ww Wdh (eqb_sym _ _ Eq) Kw) as Kdh.
  destruct (HB dh x Wdh ltac:(congruence) ltac:(congruence) Kdh Wx Tx (unit_attr x) Kx) as (p & Ep & Dp).
  destruct (HB1 h dx Wh Th Ah Kh Wdx Tdx (unit_attr dx) Kdx) as (q & Eq' & Dq).
  destruct (scale_den c Hc dt t Ht Hdt tt _ (sgn (d + 1)) q Dq) as (s & Es & Ds). destruct (scale_den c Hc dt t Ht Hdt tt _ (sgn d) q Dq) as (s' & Es' & Ds').
  destruct (add_den c Hc dt t Ht Hdt tt tt _ _ p s Dp Ds) as (m & Em & Dm).
  rewrite Edh in Ch. cbn [bind] in Ch. rewrite Ep, Edx in Ch. cbn [bind] in Ch. rewrite Eq' in Ch. cbn [bind] in Ch. rewrite Es in Ch. cbn [bind] in Ch. rewrite Em in Ch.
  destruct Ch as (a & m' & Ea & Em' & Eam & Tam & _). injection Em' as <-. destruct (act h x) as [z|] eqn:Ez; [|discriminate Ea]. cbn [bind] in Ea. specialize (Wb z a eq_refl Ea).
  pose proof (den_wf c _ _ _ m Ht Dm) as Wm. pose proof (proj1 Dm) as Tm. assert (Ta : torsion a = t) by congruence.
  cbn [bind]. rewrite Ea, Edx. cbn [bind]. rewrite Eq'. cbn [bind]. rewrite Es'. cbn [bind].
  destruct (HB u x Wu Tu Au Ku Wx Tx (unit_attr x) Kx) as (p1 & Ep1 & Dp1). destruct (HB u' x Wu' Tu' Au' Ku' Wx Tx (unit_attr x) Kx) as (p2 & Ep2 & Dp2). rewrite Ep1, Ep2. cbn [bind].
  pose proof (den_self c a Wb) as Da. rewrite Ta, (unit_attr a) in Da.
  eapply (same_den c Hc t tt); [exact Ht|exact (add_den c Hc dt t Ht Hdt tt tt _ _ a s' Da Ds')|exact (sub_den c Hc dt t Ht Hdt tt tt _ _ p1 p2 Dp1 Dp2)|].
  intros g Hg. cbn beta. rewrite (eqb_ev c a m g Wb Wm Eam). rewrite (den_ev c _ _ _ m g Dm Hg). rewrite (eqb_ev cls_surj dh w _ Wdh Ww Eq).
  pose proof (sub_ev dt t r d u u' w cv (fun k1 => ev (fun k2 => Phi g k1 k2) (data x)) Ht Hdt Hr Wu Wu' Ku Ku' Kw Dw) as S.
  rewrite S; [|exact (DBR_admop cls_surj c c _ _ _ Phi AD x Kx Wx g (adm_admP c Q g Hg))]. apply eqm_eq. replace (sgn (d + 1)) with (- sgn d) by (rewrite Z.add_comm, sgn_S'; reflexivity). ring.
Qed.
End Gen.
(** #C108_simplicial# Two elements u and u' of the surjection operad of the same arity and degree
    whose boundaries are zero (and, in degree 0, whose sums of coefficients agree) give homotopic
    operations: there is one element h, of one degree more, such that for every number of
    factors, every coordinate and every chain x, d(h(x)) + (-1)^d h(dx) == u(x) - u'(x). *)
Lemma C108_simplicial_l (dt r d : Z) (u u' : surj) : 1 <= r -> wf cls_surj u -> wf cls_surj u' -> torsion u' = torsion u -> dt_ok dt (torsion u) -> attr u = MS -> attr u' = MS ->
  keys_in (surj_cell r d) u -> keys_in (surj_cell r d) u' ->
  (1 <= d /\ (exists z, surj_boundary dt u = Ok z /\ is_zero z) /\ (exists z, surj_boundary dt u' = Ok z /\ is_zero z)) \/
  (d = 0 /\ (torsion u | zsum (map snd (data u)) - zsum (map snd (data u')))) ->
  exists h, wf cls_surj h /\ torsion h = torsion u /\ attr h = MS /\ keys_in (surj_cell r (d + 1)) h /\
    forall (n e coord : Z) (x : simp), 1 <= coord <= n -> wf cls_simplicial x -> torsion x = torsion u -> keys_in (fun k => zlen k = n /\ total_degree k = e) x ->
    same (let! z := surj_call_simplicial dt h x coord in let! a := simp_boundary dt z in
          let! dx := simp_boundary dt x in let! b := surj_call_simplicial dt h dx coord in let! b' := scale dt cls_simplicial (sgn d) b in add dt cls_simplicial a b')
         (let! p := surj_call_simplicial dt u x coord in let! q := surj_call_simplicial dt u' x coord in sub dt cls_simplicial p q).
Proof.
  intros Hr Wu Wu' T' Hdt Au Au' Ku Ku' H. pose proof (proj1 Wu) as Ht.
  destruct (homologous_bounds dt r d u u' Hr Wu Wu' T' Hdt (or_intror (or_introl Au)) ltac:(congruence) Ku Ku' H) as (w & h & Ww & Tw & Aw & Kw & Dw & Wh & Th & Ah & Kh & Sh).
  exists h. split; [exact Wh|]. split; [exact Th|]. split; [congruence|]. split; [exact Kh|]. intros n e coord x Hcd Wx Tx Kx. rewrite Au in Dw.
  assert (Hdx : dt_ok dt (torsion x)) by congruence.
  eapply (gen_htpy cls_simplicial ok_simplicial (simp_boundary dt) (fun u x => surj_call_simplicial dt u x coord) (Phi r coord) dt (torsion u) r d MS (kdegS n e) (kdegS n (e - 1)) (kdegS (n + r - 1) (e + d))) with (u := u) (u' := u') (w := w) (h := h) (x := x); auto; try congruence.
  - exact (bil_act dt (torsion u) r d n e coord Ht Hdt Hr Hcd).
  - exact (bil_act dt (torsion u) r (d + 1) n (e - 1) coord Ht Hdt Hr Hcd).
  - exact (adm_Phi r d n e coord Hr).
  - intros dh Edh. destruct (C45_boundary_degree_l dt r (d + 1) h Hr Wh ltac:(congruence) (or_intror (or_introl (eq_trans Ah Au))) Kh) as (dh' & Edh' & Wdh & _). congruence.
  - destruct (C20_boundary_degree_l dt n e x Wx Hdx Kx) as (dx & Edx & Wdx & Tdx & Kdx & _). exists dx. split; [exact Edx|]. split; [exact Wdx|]. split; [congruence|exact Kdx].
  - apply (C50_chain_map_l dt r (d + 1) n e coord h x Hr Hcd Wh Wx ltac:(congruence) ltac:(congruence) (eq_trans Ah Au) Kh Kx).
  - intros z y Ez Ey. destruct (C50_action_degree_l dt r (d + 1) n e coord h x Hr Hcd Wh Wx ltac:(congruence) ltac:(congruence) (eq_trans Ah Au) Kh Kx) as (z' & Ez' & Wz & Tz & Kz). rewrite Ez in Ez'. injection Ez' as <-.
    destruct (C20_boundary_degree_l dt _ _ z Wz ltac:(congruence) Kz) as (y' & Ey' & Wy & _). congruence.
Qed.
(** #C108_cubical# The same for cubes with coefficients modulo 2, where the action is a chain
    map, in every sign convention. *)
Lemma C108_cubical_l (dt r d : Z) (u u' : surj) : 1 <= r -> wf cls_surj u -> wf cls_surj u' -> torsion u = 2 -> torsion u' = 2 -> dt_ok dt 2 -> attr u' = attr u ->
  keys_in (surj_cell r d) u -> keys_in (surj_cell r d) u' ->
  (1 <= d /\ (exists z, surj_boundary dt u = Ok z /\ is_zero z) /\ (exists z, surj_boundary dt u' = Ok z /\ is_zero z)) \/
  (d = 0 /\ (2 | zsum (map snd (data u)) - zsum (map snd (data u')))) ->
  exists h, wf cls_surj h /\ torsion h = 2 /\ attr h = attr u /\ keys_in (surj_cell r (d + 1)) h /\
    forall (n e coord : Z) (x : cubc), 1 <= coord <= n -> wf cls_cubical x -> torsion x = 2 -> keys_in (fun k => zlen k = n /\ cube_degree k = e /\ forall c, In c k -> is_cube c) x ->
    same (let! z := surj_call_cubical dt h x coord in let! a := cub_boundary dt z in
          let! dx := cub_boundary dt x in let! b := surj_call_cubical dt h dx coord in let! b' := scale dt cls_cubical (sgn d) b in add dt cls_cubical a b')
         (let! p := surj_call_cubical dt u x coord in let! q := surj_call_cubical dt u' x coord in sub dt cls_cubical p q).
Proof.
  intros Hr Wu Wu' Tu T' Hdt Au Ku Ku' H. assert (Ht : 0 <= 2) by lia.
  destruct (homologous_bounds dt r d u u' Hr Wu Wu' ltac:(congruence) ltac:(congruence) (or_intror (or_intror Tu)) Au Ku Ku' ltac:(unfold homologous; rewrite Tu; exact H)) as (w & h & Ww & Tw & Aw & Kw & Dw & Wh & Th & Ah & Kh & Sh).
  rewrite Tu in Dw, Th, Tw.
  exists h. split; [exact Wh|]. split; [exact Th|]. split; [congruence|]. split; [exact Kh|]. intros n e coord x Hcd Wx Tx Kx.
  assert (Hdx : dt_ok dt (torsion x)) by congruence. pose proof (kcub_of _ _ _ Kx) as Kx'.
  assert (bd : linop cls_cubical cls_cubical 2 tt tt (kcub n e) (kcub n (e - 1)) tDC (cub_boundary dt)) by exact (linop_bnd cls_cubical cck fbC cube_dim dt (cub_boundary dt) (fun t x => cub_boundary_den dt t x) 2 _ _ Ht Hdt (kpred_kcub _ _) (tb_kcub n e)).
  eapply (gen_htpy cls_cubical ok_cubical (cub_boundary dt) (fun u x => surj_call_cubical dt u x coord) (PhiC r coord) dt 2 r d (attr u) (kcub n e) (kcub n (e - 1)) (kcub (n + r - 1) (e + d))) with (u := u) (u' := u') (w := w) (h := h) (x := x); auto; try congruence.
  - exact (bil_actC' dt 2 r d n e coord (attr u) Ht Hdt Hr Hcd).
  - exact (bil_actC' dt 2 r (d + 1) n (e - 1) coord (attr u) Ht Hdt Hr Hcd).
  - exact (adm_PhiC r d (kcub n e) (kcub (n + r - 1) (e + d)) coord Hr).
  - intros dh Edh. destruct (C45_boundary_degree_l dt r (d + 1) h Hr Wh ltac:(congruence) (or_intror (or_intror Th)) Kh) as (dh' & Edh' & Wdh & _). congruence.
  - destruct (bd x Wx Tx (cub_attr x) Kx') as (dx & Edx & Dx & Kdx). exists dx. split; [exact Edx|]. split; [exact (den_wf cls_cubical _ _ _ dx Ht Dx)|]. split; [exact (proj1 Dx)|exact Kdx].
  - exact (C51_mod2_chain_map_l dt r (d + 1) n e coord h x Hr Hcd Wh Wx Th Tx Hdt Kh Kx).
  - intros z y Ez Ey.
    destruct (C51_action_degree_l dt r (d + 1) n e coord h x Hr Hcd Wh Wx ltac:(congruence) ltac:(rewrite Th; exact Hdt) Kh (fun k v Hin => conj (proj1 (Kx k v Hin)) (proj1 (proj2 (Kx k v Hin))))) as (z' & Ez' & Wz & Tz & Kz). rewrite Ez in Ez'. injection Ez' as <-.
    destruct (cub_boundary_den dt 2 z Ht Hdt Wz (eq_trans Tz Th)) as (y' & Ey' & Dy). rewrite Ey in Ey'. injection Ey' as <-. exact (den_wf cls_cubical _ _ _ y Ht Dy).
Qed.
(** #C108_cycles# So on cycles the two operations differ by a boundary: any two elements of
    degree 0 with the same sum of coefficients (all permutations of the iterated diagonal, for
    example) induce the same map on homology, and every element of positive degree with
    boundary zero induces zero. *)
Lemma C108_cycles_l (dt r d : Z) (u u' : surj) : 1 <= r -> wf cls_surj u -> wf cls_surj u' -> torsion u' = torsion u -> dt_ok dt (torsion u) -> attr u = MS -> attr u' = MS ->
  keys_in (surj_cell r d) u -> keys_in (surj_cell r d) u' ->
  (1 <= d /\ (exists z, surj_boundary dt u = Ok z /\ is_zero z) /\ (exists z, surj_boundary dt u' = Ok z /\ is_zero z)) \/
  (d = 0 /\ (torsion u | zsum (map snd (data u)) - zsum (map snd (data u')))) ->
  exists h, wf cls_surj h /\ torsion h = torsion u /\ attr h = MS /\ keys_in (surj_cell r (d + 1)) h /\
    forall (n e coord : Z) (x : simp), 1 <= coord <= n -> wf cls_simplicial x -> torsion x = torsion u -> keys_in (fun k => zlen k = n /\ total_degree k = e) x ->
    (exists z, simp_boundary dt x = Ok z /\ is_zero z) ->
    same (let! z := surj_call_simplicial dt h x coord in simp_boundary dt z)
         (let! p := surj_call_simplicial dt u x coord in let! q := surj_call_simplicial dt u' x coord in sub dt cls_simplicial p q).
Proof.
  intros Hr Wu Wu' T' Hdt Au Au' Ku Ku' H. pose proof (proj1 Wu) as Ht. destruct (C108_simplicial_l dt r d u u' Hr Wu Wu' T' Hdt Au Au' Ku Ku' H) as (h & Wh & Th & Ah & Kh & P).
  exists h. split; [exact Wh|]. split; [exact Th|]. split; [exact Ah|]. split; [exact Kh|]. intros n e coord x Hcd Wx Tx Kx (z & Ez & Zz).
  specialize (P n e coord x Hcd Wx Tx Kx). rewrite Ez in P. cbn [bind] in P. eapply same_trans; [|exact P]. clear P.
  destruct (C50_action_degree_l dt r (d + 1) n e coord h x Hr Hcd Wh Wx ltac:(congruence) ltac:(congruence) Ah Kh Kx) as (y & Ey & Wy & Ty & Ky). rewrite Ey. cbn [bind].
  destruct (C20_boundary_degree_l dt _ _ y Wy ltac:(congruence) Ky) as (b & Eb & Wb & Tb & _). rewrite Eb. cbn [bind].
  destruct (C20_boundary_degree_l dt n e x Wx ltac:(congruence) Kx) as (z' & Ez' & Wz & Tz & _). rewrite Ez in Ez'. injection Ez' as <-.
  destruct (C50_zero_l dt coord h z (or_intror Zz)) as (q & Eq & Zq & Tq). rewrite Eq. cbn [bind].
  assert (Tq' : torsion q = torsion u) by congruence.
  assert (Dq : den cls_simplicial (torsion u) tt (fun _ => 0) q). { split; [exact Tq'|]. split; [now destruct (attr q)|]. unfold is_zero in Zq. split; [rewrite Zq; split; [exact I|intros k v []]|]. intros g _. rewrite Zq. reflexivity. }
  destruct (scale_den cls_simplicial ok_simplicial dt (torsion u) Ht Hdt tt _ (sgn d) q Dq) as (s & Es & Ds). rewrite Es. cbn [bind].
  pose proof (den_self cls_simplicial b Wb) as Db. assert (Tb' : torsion b = torsion u) by congruence. rewrite Tb', (s_attr' b) in Db.
  eapply (same_den cls_simplicial ok_simplicial (torsion u) tt); [exact Ht|apply returns_ok; exact Db|exact (add_den cls_simplicial ok_simplicial dt (torsion u) Ht Hdt tt tt _ _ b s Db Ds)|].
  intros g _. apply eqm_eq. ring.
Qed.
(** #C108_example# The diagonal (1,2) and its transpose (2,1): the homotopy on a cycle of
    dimension 1, a triangulated circle. *)
Example C108_example_l :
  let u : surj := mkElt [([1; 2], 1)] 0 MS in let u' : surj := mkElt [([2; 1], 1)] 0 MS in let h : surj := mkElt [([2; 1; 2], 1)] 0 MS in
  let x : simp := mkElt [([[0; 1]], 1); ([[1; 2]], 1); ([[0; 2]], -1)] 0 tt in
  wf cls_surj u /\ wf cls_surj u' /\ keys_in (surj_cell 2 0) u /\ keys_in (surj_cell 2 0) u' /\ (0 | zsum (map snd (data u)) - zsum (map snd (data u'))) /\
  wf cls_simplicial x /\ keys_in (fun k => zlen k = 1 /\ total_degree k = 1) x /\ simp_boundary 0 x = Ok (mkElt [] 0 tt) /\
  same (surj_boundary 0 h) (sub 0 cls_surj u u') /\
  same (let! z := surj_call_simplicial 0 h x 1 in simp_boundary 0 z)
       (let! p := surj_call_simplicial 0 u x 1 in let! q := surj_call_simplicial 0 u' x 1 in sub 0 cls_simplicial p q) /\
  surj_call_simplicial 0 u x 1 <> surj_call_simplicial 0 u' x 1.
Proof.
  cbv zeta. split; [apply wfb_wf; reflexivity|]. split; [apply wfb_wf; reflexivity|].
  split. { intros k v [[= <- <-]|[]]. split; [intros a; cbn [In]; lia|reflexivity]. }
  split. { intros k v [[= <- <-]|[]]. split; [intros a; cbn [In]; lia|reflexivity]. }
  split; [now exists 0|]. split; [apply wfb_wf; reflexivity|].
  split. { intros k v [[= <- <-]|[[= <- <-]|[[= <- <-]|[]]]]; split; reflexivity. }
  split; [reflexivity|]. split; [eexists; eexists; split; [vm_compute; reflexivity|split; [vm_compute; reflexivity|split; [reflexivity|split; reflexivity]]]|].
  split; [eexists; eexists; split; [vm_compute; reflexivity|split; [vm_compute; reflexivity|split; [reflexivity|split; reflexivity]]]|].
  vm_compute. discriminate.
Qed.
