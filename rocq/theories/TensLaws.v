(** * Tensor products of elements (C105) *)
From Coq Require Import Setoid Morphisms.
From Verif Require Import PyBase Dict FreeModule Symmetric Simplicial Cubical Utils Surjection Eqm Spec SpecChain SpecOperad SpecSurj SpecAction SpecCube SpecCubAction SpecTensor FreeModuleFacts FreeModuleLaws ListFacts
  ClassFacts LinearFacts BilFacts SymmetricFacts CycleFacts SymmetricLaws RingFacts Tensor TensorAct LoopFacts AW SimplicialFacts SimplicialDiag SimplicialLaws SurjFacts SurjBoundary SurjLaws
  SurjCompose SurjCompose2 SurjCompose3 SurjCompose4 SurjLaws6 ActFacts ActSign ActCore ActCode ActLaws OperadAct BEDiag ReprLaws CubicalFacts CubicalDiag CubicalLaws CubActFacts CubActCore CubActCode CubActLaws IndepLaws KoszulFacts P0Words CubicalSerre CartanSerre CartanLaws BraceLaws.

Lemma app_len_inj (k k' l l' : list (list Z)) : zlen k = zlen k' -> k ++ l = k' ++ l' -> k = k' /\ l = l'.
Proof.
  revert k'. induction k as [|a k IH]; intros [|b k'] L E.
  - now split.
  - exfalso. rewrite zlen_nil, zlen_cons in L. pose proof (zlen_nonneg k'). lia.
  - exfalso. rewrite zlen_nil, zlen_cons in L. pose proof (zlen_nonneg k). lia.
  - cbn in E. injection E as -> E. rewrite !zlen_cons in L. destruct (IH k' ltac:(lia) E) as [-> ->]. now split.
Qed.
Section T.
Variable c : pycls (list (list Z)).
Hypothesis Hc : cls_ok c.
Hypothesis Hok : forall k, okey c k.
Hypothesis badl : forall k l, bad c k = Ok true -> bad c (k ++ l) = Ok true.
Hypothesis badr : forall k l, bad c l = Ok true -> bad c (k ++ l) = Ok true.
Variable dg : list Z -> Z.
Definition tns (dt : Z) (x y : elt (list (list Z)) unit) : res (elt (list (list Z)) unit) := new dt c (dict_of (tensor_terms x y)) (Some (torsion x)) tt.
Lemma ev_terms (x y : elt (list (list Z)) unit) g : ev g (tensor_terms x y) = ev (fun k => ev (fun l => g (k ++ l)) (data y)) (data x).
Proof.
  unfold tensor_terms. unfold ev at 1. rewrite sumf_flat_map. unfold ev at 1. apply sumf_ext. intros [k a] _. cbn [fst snd]. rewrite sumf_map. unfold ev. rewrite <- sumf_scal. apply sumf_ext. intros [l b] _. cbn [fst snd]. ring.
Qed.

Lemma nodup_app_intro {B} (l l' : list B) : NoDup l -> NoDup l' -> (forall b, In b l -> In b l' -> False) -> NoDup (l ++ l').
Proof. induction l as [|a l IH]; intros N N' D; cbn; [exact N'|]. inversion N; subst. constructor; [intros H; apply in_app_iff in H; destruct H as [H|H]; [auto|eapply D; [now left|exact H]]|]. apply IH; auto. intros b Hb. apply D. now right. Qed.
Lemma terms_distinct n (x y : elt (list (list Z)) unit) : wf c x -> wf c y -> (forall k v, In (k, v) (data x) -> zlen k = n) -> kdistinct (dkeys (tensor_terms x y)).
Proof.
  intros Wx Wy Kx. apply nodup_kdistinct. pose proof (proj1 (proj2 Wx)) as Nx. pose proof (proj1 (proj2 Wy)) as Ny. apply kdistinct_iff in Nx, Ny. destruct Nx as [Nx _], Ny as [Ny _].
  unfold tensor_terms, dkeys in *. induction (data x) as [|[k a] l IH]; cbn [flat_map map]; [constructor|]. cbn [map fst] in Nx. inversion Nx; subst.
  rewrite map_app. apply nodup_app_intro.
  - rewrite map_map. clear - Ny. induction (data y) as [|[l' b] r IH]; cbn [map fst]; [constructor|]. cbn [map fst] in Ny. inversion Ny; subst. constructor; [|now apply IH].
    intros H. apply in_map_iff in H. destruct H as ([l2 b2] & E & H). cbn [fst] in E. apply app_inv_head in E. subst. apply H1. apply in_map_iff. now exists (l', b2).
  - apply IH; [|assumption]. intros k' v Hk'. apply (Kx k' v). now right.
  - intros q H3 H4. apply in_map_iff in H3. destruct H3 as ([q' e] & <- & H3). apply in_map_iff in H3. destruct H3 as ([l1 b1] & [= <- _] & _). cbn [fst] in H4.
    apply in_map_iff in H4. destruct H4 as ([q2 e2] & E2 & H4). apply in_flat_map in H4. destruct H4 as ([k3 a3] & Hk3 & H4). apply in_map_iff in H4. destruct H4 as ([l4 b4] & [= <- _] & _). cbn [fst] in E2.
    apply app_len_inj in E2; [|rewrite (Kx k3 a3) by (now right); rewrite (Kx k a) by (now left); reflexivity]. destruct E2 as [-> _]. apply H1. apply in_map_iff. now exists (k, a3).
Qed.
Notation kd := (kdeg dg).
Lemma bil_tensor dt t n d n' d' : 0 <= t -> bilop c c c t tt tt tt (kd n d) (kd n' d') (fun g k l => g (k ++ l)) (tns dt).
Proof.
  intros Ht x y Wx Tx _ Kx Wy Ty _ Ky. unfold tns. pose proof (terms_distinct n x y Wx Wy (fun k v H => proj1 (Kx k v H))) as D. rewrite dict_of_id by exact D.
  eapply returns_mono; [apply (new_den c Hc dt t (Some (torsion x)) tt (tensor_terms x y)); auto|]. intros z Dz. eapply den_ext; [|exact Dz]. intros g _. apply eqm_eq. cbn beta. apply ev_terms.
Qed.
Lemma rep_tensor n d n' d' : rep2 (kd n d) (kd n' d') (kd (n + n') (d + d')) (fun g k l => g (k ++ l)).
Proof.
  intros k l [L1 D1] [L2 D2]. exists [(k ++ l, 1)]. split.
  - intros w v [[= <- _]|[]]. split; [rewrite zlen_app; lia|rewrite tdeg_app; lia].
  - intros g. rewrite ev_cons, ev_nil. ring.
Qed.
Lemma adm_tensor n d n' d' : adm2 c c c (kd n d) (kd n' d') (kd (n + n') (d + d')) (fun g k l => g (k ++ l)).
Proof.
  intros g Hg. split.
  - intros l [L2 D2] _. apply admP_keyeq. intros k [L1 D1] B. apply (proj2 Hg); [split; [rewrite zlen_app; lia|rewrite tdeg_app; lia]|now apply badl].
  - intros k [L1 D1] _. apply admP_keyeq. intros l [L2 D2] B. apply (proj2 Hg); [split; [rewrite zlen_app; lia|rewrite tdeg_app; lia]|now apply badr].
Qed.
Variables (dt t : Z) (Ht : 0 <= t) (Hdt : dt_ok dt t).
Lemma lin_tR n d n' d' (y : elt (list (list Z)) unit) : wf c y -> torsion y = t -> keys_in (kd n' d') y ->
  linop c c t tt tt (kd n d) (kd (n + n') (d + d')) (DBR (fun g k l => g (k ++ l)) y) (fun x => tns dt x y).
Proof.
  intros Wy Ty Ky. pose proof (rep_tensor n d n' d') as R. exact (linop_bilR c c c Hc t tt tt tt (kd n d) (kd n' d') (kd (n + n') (d + d')) (fun g k l => g (k ++ l)) (tns dt) Ht (kpred_kdeg dg _ _) (bil_tensor dt t n d n' d' Ht) (rep2_local2 _ _ _ _ R) (rep2_zero _ _ _ _ R) y Wy Ty (match attr y with tt => eq_refl end) Ky).
Qed.
Lemma lin_tL n d n' d' (x : elt (list (list Z)) unit) : wf c x -> torsion x = t -> keys_in (kd n d) x ->
  linop c c t tt tt (kd n' d') (kd (n + n') (d + d')) (DBL (fun g k l => g (k ++ l)) x) (fun y => tns dt x y).
Proof.
  intros Wx Tx Kx. pose proof (rep_tensor n d n' d') as R. exact (linop_bilL c c c Hc t tt tt tt (kd n d) (kd n' d') (kd (n + n') (d + d')) (fun g k l => g (k ++ l)) (tns dt) Ht (kpred_kdeg dg _ _) (bil_tensor dt t n d n' d' Ht) (rep2_local2 _ _ _ _ R) (rep2_zero _ _ _ _ R) x Wx Tx (match attr x with tt => eq_refl end) Kx).
Qed.
(** an operation at a factor of the first or of the second tensor factor *)
Lemma tensor_op_left r d f n e n' e' i (x y : elt (list (list Z)) unit) : facop t c dg kd r d f -> 1 <= i <= n -> 0 <= n' ->
  wf c x -> torsion x = t -> keys_in (kd n e) x -> wf c y -> torsion y = t -> keys_in (kd n' e') y ->
  same (let! z := tns dt x y in f i z) (let! u := f i x in tns dt u y).
Proof.
  intros (D & L & F) Hi Hn' Wx Tx Kx Wy Ty Ky. destruct (F i) as [[_ O] G]. destruct (G n e Hi) as (A1 & A2 & A3). destruct (G (n + n') (e + e') ltac:(lia)) as (B1 & B2 & B3).
  pose proof (rep_tensor n e n' e') as R1. pose proof (adm_tensor (n + r - 1) (e + d) n' e') as AD.
  replace (n + r - 1 + n') with (n + n' + r - 1) in AD by lia. replace (e + d + e') with (e + e' + d) in AD by lia. pose proof (lin_tR (n + r - 1) (e + d) n' e' y Wy Ty Ky) as T2.
  replace (n + r - 1 + n') with (n + n' + r - 1) in T2 by lia. replace (e + d + e') with (e + e' + d) in T2 by lia.
  refine (linop_same c c Hc t tt tt (kd n e) _ _ _ _ _ _ x Ht
    (linop_comp c c c Hc Hc Hc t tt tt tt _ _ _ _ _ _ _ Ht (kpred_kdeg dg _ _) (lin_tR n e n' e' y Wy Ty Ky) B1 (rep_local _ _ _ (rep2_R _ _ _ _ y R1 Ky)) B3)
    (linop_comp c c c Hc Hc Hc t tt tt tt _ _ _ _ _ _ _ Ht (kpred_kdeg dg _ _) A1 T2 A2 _) Wx Tx (match attr x with tt => eq_refl end) Kx _).
  - apply (DBR_admop c c c (kd (n + r - 1) (e + d)) (kd n' e') (kd (n + n' + r - 1) (e + e' + d)) (fun g k l => g (k ++ l)) AD y Ky Wy).
  - intros g k _ [Lk Dk] _. apply eqm_eq. cbn beta. destruct (split_at k (i - 1)) as (l1 & s & l2 & -> & E1); [lia|]. rewrite O by exact E1. unfold DBR.
    rewrite ev_exch, <- ev_scal. apply ev_ext_all. intros l. rewrite <- app_assoc. cbn [app]. rewrite O by exact E1. f_equal. apply ev_ext_all. intros v. now rewrite <- !app_assoc.
Qed.
Lemma tensor_op_right r d f n e n' e' i (x y : elt (list (list Z)) unit) : facop t c dg kd r d f -> 1 <= i <= n' -> 0 <= n ->
  wf c x -> torsion x = t -> keys_in (kd n e) x -> wf c y -> torsion y = t -> keys_in (kd n' e') y ->
  same (let! z := tns dt x y in f (n + i) z) (let! u := f i y in let! v := tns dt x u in scale dt c (sgn (e * d)) v).
Proof.
  intros (D & L & F) Hi Hn Wx Tx Kx Wy Ty Ky. destruct (F i) as [[_ O] G]. destruct (G n' e' Hi) as (A1 & A2 & A3). destruct (F (n + i)) as [[_ O'] G']. destruct (G' (n + n') (e + e') ltac:(lia)) as (B1 & B2 & B3).
  pose proof (rep_tensor n e n' e') as R1. pose proof (adm_tensor n e (n' + r - 1) (e' + d)) as AD.
  replace (n + (n' + r - 1)) with (n + n' + r - 1) in AD by lia. replace (e + (e' + d)) with (e + e' + d) in AD by lia. pose proof (lin_tL n e (n' + r - 1) (e' + d) x Wx Tx Kx) as T2.
  replace (n + (n' + r - 1)) with (n + n' + r - 1) in T2 by lia. replace (e + (e' + d)) with (e + e' + d) in T2 by lia.
  assert (AD' : admop c c (kd (n' + r - 1) (e' + d)) (kd (n + n' + r - 1) (e + e' + d)) (DBL (fun g k l => g (k ++ l)) x))
    by (apply (DBL_admop c c c (kd n e) (kd (n' + r - 1) (e' + d)) (kd (n + n' + r - 1) (e + e' + d)) (fun g k l => g (k ++ l)) AD x Kx Wx)).
  assert (G0 : same (let! z := tns dt x y in f (n + i) z) (let! v := let! u := f i y in tns dt x u in scale dt c (sgn (e * d)) v)).
  { refine (linop_same c c Hc t tt tt (kd n' e') _ _ _ _ (fun y => let! z := tns dt x y in f (n + i) z) (fun y => let! v := let! u := f i y in tns dt x u in scale dt c (sgn (e * d)) v) y Ht
    (linop_comp c c c Hc Hc Hc t tt tt tt _ _ _ _ _ _ _ Ht (kpred_kdeg dg _ _) (lin_tL n e n' e' x Wx Tx Kx) B1 (rep_local _ _ _ (rep2_L _ _ _ _ x R1 Kx)) B3)
    (linop_after_scale c c Hc dt t tt tt _ _ _ _ (sgn (e * d)) Ht Hdt (kpred_kdeg dg _ _) (linop_comp c c c Hc Hc Hc t tt tt tt _ _ _ _ _ _ _ Ht (kpred_kdeg dg _ _) A1 T2 A2 AD')) Wy Ty (match attr y with tt => eq_refl end) Ky _).
    intros g l _ [Lk Dk] _. apply eqm_eq. cbn beta. destruct (split_at l (i - 1)) as (l1 & s & l2 & -> & E1); [lia|]. rewrite O by exact E1. unfold DBL.
    rewrite ev_exch, <- !ev_scal. apply ev_ext. intros k v Hk. destruct (Kx _ _ Hk) as [Ln Dn]. rewrite app_assoc. rewrite O' by (rewrite zlen_app; lia). rewrite tdeg_app, Dn.
    replace ((e + tdeg dg l1) * d) with (e * d + tdeg dg l1 * d) by ring. rewrite sgn_add, <- Z.mul_assoc. f_equal. f_equal. apply ev_ext_all. intros w. now rewrite <- !app_assoc. }
  destruct (f i y) as [u|]; cbn [bind] in *; exact G0.
Qed.
Lemma tensor_op_right1 r d f n e n' e' i (x y : elt (list (list Z)) unit) : e * d = 0 -> facop t c dg kd r d f -> 1 <= i <= n' -> 0 <= n ->
  wf c x -> torsion x = t -> keys_in (kd n e) x -> wf c y -> torsion y = t -> keys_in (kd n' e') y ->
  same (let! z := tns dt x y in f (n + i) z) (let! u := f i y in tns dt x u).
Proof.
  intros E0 (D & L & F) Hi Hn Wx Tx Kx Wy Ty Ky. destruct (F i) as [[_ O] G]. destruct (G n' e' Hi) as (A1 & A2 & A3). destruct (F (n + i)) as [[_ O'] G']. destruct (G' (n + n') (e + e') ltac:(lia)) as (B1 & B2 & B3).
  pose proof (rep_tensor n e n' e') as R1. pose proof (adm_tensor n e (n' + r - 1) (e' + d)) as AD.
  replace (n + (n' + r - 1)) with (n + n' + r - 1) in AD by lia. replace (e + (e' + d)) with (e + e' + d) in AD by lia. pose proof (lin_tL n e (n' + r - 1) (e' + d) x Wx Tx Kx) as T2.
  replace (n + (n' + r - 1)) with (n + n' + r - 1) in T2 by lia. replace (e + (e' + d)) with (e + e' + d) in T2 by lia.
  assert (AD' : admop c c (kd (n' + r - 1) (e' + d)) (kd (n + n' + r - 1) (e + e' + d)) (DBL (fun g k l => g (k ++ l)) x))
    by (apply (DBL_admop c c c (kd n e) (kd (n' + r - 1) (e' + d)) (kd (n + n' + r - 1) (e + e' + d)) (fun g k l => g (k ++ l)) AD x Kx Wx)).
  assert (G0 : same (let! z := tns dt x y in f (n + i) z) (let! u := f i y in tns dt x u)).
  { refine (linop_same c c Hc t tt tt (kd n' e') _ _ _ _ (fun y => let! z := tns dt x y in f (n + i) z) (fun y => let! u := f i y in tns dt x u) y Ht
    (linop_comp c c c Hc Hc Hc t tt tt tt _ _ _ _ _ _ _ Ht (kpred_kdeg dg _ _) (lin_tL n e n' e' x Wx Tx Kx) B1 (rep_local _ _ _ (rep2_L _ _ _ _ x R1 Kx)) B3)
    (linop_comp c c c Hc Hc Hc t tt tt tt _ _ _ _ _ _ _ Ht (kpred_kdeg dg _ _) A1 T2 A2 AD') Wy Ty (match attr y with tt => eq_refl end) Ky _).
    intros g l _ [Lk Dk] _. apply eqm_eq. cbn beta. destruct (split_at l (i - 1)) as (l1 & s & l2 & -> & E1); [lia|]. rewrite O by exact E1. unfold DBL.
    rewrite ev_exch, <- !ev_scal. apply ev_ext. intros k v Hk. destruct (Kx _ _ Hk) as [Ln Dn]. rewrite app_assoc. rewrite O' by (rewrite zlen_app; lia). rewrite tdeg_app, Dn.
    replace ((e + tdeg dg l1) * d) with (e * d + tdeg dg l1 * d) by ring. rewrite E0, Z.add_0_l. f_equal. apply ev_ext_all. intros w. now rewrite <- !app_assoc. }
  destruct (f i y) as [u|]; cbn [bind] in *; exact G0.
Qed.
End T.
Lemma simp_ok k : okey cls_simplicial k. Proof. eexists. reflexivity. Qed.
Lemma cub_ok k : okey cls_cubical k. Proof. eexists. reflexivity. Qed.
Lemma sbadl k l : bad cls_simplicial k = Ok true -> bad cls_simplicial (k ++ l) = Ok true.
Proof. rewrite !sbad. intros [= H]. f_equal. rewrite existsb_app, H. reflexivity. Qed.
Lemma sbadr k l : bad cls_simplicial l = Ok true -> bad cls_simplicial (k ++ l) = Ok true.
Proof. rewrite !sbad. intros [= H]. f_equal. rewrite existsb_app, H. apply orb_true_r. Qed.
Lemma cbadl k l : bad cls_cubical k = Ok true -> bad cls_cubical (k ++ l) = Ok true.
Proof. intros [=]. Qed.
Lemma cbadr k l : bad cls_cubical l = Ok true -> bad cls_cubical (k ++ l) = Ok true.
Proof. intros [=]. Qed.
Lemma kC n d (x : cubc) : keys_in (fun k => zlen k = n /\ cube_degree k = d) x -> keys_in (kdegC n d) x.
Proof. intros Kx k v Hin. unfold kdeg. rewrite <- cdeg. exact (Kx _ _ Hin). Qed.
(** #C105_leibniz# The boundary of a tensor product of elements. *)
Lemma C105_leibniz_l (dt n d n' d' : Z) (x y : simp) (u v : cubc) :
  wf cls_simplicial x -> wf cls_simplicial y -> torsion y = torsion x -> dt_ok dt (torsion x) ->
  keys_in (fun k => zlen k = n /\ total_degree k = d) x -> keys_in (fun k => zlen k = n' /\ total_degree k = d') y ->
  wf cls_cubical u -> wf cls_cubical v -> torsion v = torsion u -> dt_ok dt (torsion u) ->
  keys_in (fun k => zlen k = n /\ cube_degree k = d) u -> keys_in (fun k => zlen k = n' /\ cube_degree k = d') v ->
  same (let! z := simp_tensor dt x y in simp_boundary dt z)
       (let! dx := simp_boundary dt x in let! p := simp_tensor dt dx y in let! dy := simp_boundary dt y in let! q := simp_tensor dt x dy in let! q' := scale dt cls_simplicial (sgn d) q in add dt cls_simplicial p q') /\
  same (let! z := cub_tensor dt u v in cub_boundary dt z)
       (let! du := cub_boundary dt u in let! p := cub_tensor dt du v in let! dv := cub_boundary dt v in let! q := cub_tensor dt u dv in let! q' := scale dt cls_cubical (sgn d) q in add dt cls_cubical p q').
Proof.
  intros Wx Wy Ty Hdt Kx Ky Wu Wv Tv Hdu Ku0 Kv0. apply kC in Ku0, Kv0. split.
  - pose proof (proj1 Wx) as Ht.
    assert (bd : forall n d, linop cls_simplicial cls_simplicial (torsion x) tt tt (kdegS n d) (kdegS n (d - 1)) tDS (simp_boundary dt)).
    { intros n0 d0. exact (linop_bnd cls_simplicial sck fbS spx_dim dt (simp_boundary dt) (fun t x => simp_boundary_den dt t x) (torsion x) _ _ Ht Hdt (kpred_kdegS _ _) (tb_kdeg fbS spx_dim dim_fbS n0 d0)). }
    assert (rp : forall n d, rep (kdegS n d) (kdegS n (d - 1)) tDS) by (intros; apply (rep_tD fbS spx_dim), (tb_kdeg fbS spx_dim dim_fbS)).
    pose proof (fun a b e f => bil_tensor cls_simplicial ok_simplicial simp_ok spx_dim dt (torsion x) a b e f Ht) as B.
    pose proof (rep_tensor spx_dim n (d - 1) n' d') as R1. replace (d - 1 + d') with (d + d' - 1) in R1 by lia. pose proof (rep_tensor spx_dim n d n' (d' - 1)) as R2. replace (d + (d' - 1)) with (d + d' - 1) in R2 by lia.
    pose proof (adm_tensor cls_simplicial sbadl sbadr spx_dim n (d - 1) n' d') as A1. replace (d - 1 + d') with (d + d' - 1) in A1 by lia. pose proof (adm_tensor cls_simplicial sbadl sbadr spx_dim n d n' (d' - 1)) as A2. replace (d + (d' - 1)) with (d + d' - 1) in A2 by lia.
    refine (bil_leibniz cls_simplicial cls_simplicial cls_simplicial ok_simplicial ok_simplicial ok_simplicial dt (torsion x) (sgn d) tt tt tt (kdegS n d) (kdegS n (d - 1)) (kdegS n' d') (kdegS n' (d' - 1)) (kdegS (n + n') (d + d')) (kdegS (n + n') (d + d' - 1)) (kdegS (n + n') (d + d' - 1))
      tDS tDS tDS (fun g k l => g (k ++ l)) (simp_boundary dt) (simp_boundary dt) (simp_boundary dt) (simp_tensor dt) x y Ht Hdt (kpred_kdegS _ _) (kpred_kdegS _ _) (kpred_kdegS _ _)
      (bd _ _) (rp _ _) (bd _ _) (rp _ _) (B _ _ _ _) (rep_tensor _ _ _ _ _) (B _ _ _ _) R1 A1 (B _ _ _ _) R2 A2 (bd _ _) _ _ Wx eq_refl (s_attr x) Kx Wy Ty (s_attr y) Ky).
    + apply (adm_tD cls_simplicial spx_is_degenerate sbad fbS spx_dim fdS_bad), (tb_kdeg fbS spx_dim dim_fbS).
    + intros g k l _ [_ Dk] _ _ _. apply eqm_eq. cbn beta. rewrite tD_app. unfold kdeg in Dk. now rewrite Dk.
  - pose proof (proj1 Wu) as Ht.
    assert (bd : forall n d, linop cls_cubical cls_cubical (torsion u) tt tt (kdegC n d) (kdegC n (d - 1)) tDC (cub_boundary dt)).
    { intros n0 d0. exact (linop_bnd cls_cubical cck fbC cube_dim dt (cub_boundary dt) (fun t x => cub_boundary_den dt t x) (torsion u) _ _ Ht Hdu (kpred_kdegC _ _) (tb_kdeg fbC cube_dim dim_fbC n0 d0)). }
    assert (rp : forall n d, rep (kdegC n d) (kdegC n (d - 1)) tDC) by (intros; apply (rep_tD fbC cube_dim), (tb_kdeg fbC cube_dim dim_fbC)).
    pose proof (fun a b e f => bil_tensor cls_cubical ok_cubical cub_ok cube_dim dt (torsion u) a b e f Ht) as B.
    pose proof (rep_tensor cube_dim n (d - 1) n' d') as R1. replace (d - 1 + d') with (d + d' - 1) in R1 by lia. pose proof (rep_tensor cube_dim n d n' (d' - 1)) as R2. replace (d + (d' - 1)) with (d + d' - 1) in R2 by lia.
    pose proof (adm_tensor cls_cubical cbadl cbadr cube_dim n (d - 1) n' d') as A1. replace (d - 1 + d') with (d + d' - 1) in A1 by lia. pose proof (adm_tensor cls_cubical cbadl cbadr cube_dim n d n' (d' - 1)) as A2. replace (d + (d' - 1)) with (d + d' - 1) in A2 by lia.
    refine (bil_leibniz cls_cubical cls_cubical cls_cubical ok_cubical ok_cubical ok_cubical dt (torsion u) (sgn d) tt tt tt (kdegC n d) (kdegC n (d - 1)) (kdegC n' d') (kdegC n' (d' - 1)) (kdegC (n + n') (d + d')) (kdegC (n + n') (d + d' - 1)) (kdegC (n + n') (d + d' - 1))
      tDC tDC tDC (fun g k l => g (k ++ l)) (cub_boundary dt) (cub_boundary dt) (cub_boundary dt) (cub_tensor dt) u v Ht Hdu (kpred_kdegC _ _) (kpred_kdegC _ _) (kpred_kdegC _ _)
      (bd _ _) (rp _ _) (bd _ _) (rp _ _) (B _ _ _ _) (rep_tensor _ _ _ _ _) (B _ _ _ _) R1 A1 (B _ _ _ _) R2 A2 (bd _ _) _ _ Wu eq_refl (cub_attr u) Ku0 Wv Tv (cub_attr v) Kv0).
    + apply cub_admop.
    + intros g k l _ [_ Dk] _ _ _. apply eqm_eq. cbn beta. rewrite tD_app. unfold kdeg in Dk. now rewrite Dk.
Qed.
(** #C105_simplicial# Diagonals and operations of surjection elements at a factor of a tensor product of simplicial elements. *)
Lemma C105_simplicial_l (dt r d n e n' e' i t : Z) (s : surj) (x y : simp) :
  1 <= r -> 0 <= t -> 0 <= n -> 0 <= n' -> wf cls_surj s -> torsion s = torsion x -> attr s = MS -> keys_in (surj_cell r d) s ->
  wf cls_simplicial x -> wf cls_simplicial y -> torsion y = torsion x -> dt_ok dt (torsion x) ->
  keys_in (fun k => zlen k = n /\ total_degree k = e) x -> keys_in (fun k => zlen k = n' /\ total_degree k = e') y ->
  let diagonal coord := extended1 dt cls_simplicial (fun u => simp_iterated_diagonal dt u t coord) in
  (1 <= i <= n ->
    same (let! z := simp_tensor dt x y in surj_call_simplicial dt s z i) (let! u := surj_call_simplicial dt s x i in simp_tensor dt u y) /\
    same (let! z := simp_tensor dt x y in diagonal i z) (let! u := diagonal i x in simp_tensor dt u y)) /\
  (1 <= i <= n' ->
    same (let! z := simp_tensor dt x y in surj_call_simplicial dt s z (n + i)) (let! u := surj_call_simplicial dt s y i in let! v := simp_tensor dt x u in scale dt cls_simplicial (sgn (e * d)) v) /\
    same (let! z := simp_tensor dt x y in diagonal (n + i) z) (let! u := diagonal i y in simp_tensor dt x u)).
Proof.
  intros Hr Htm Hn Hn' Ws Ts As Ks Wx Wy Ty Hdt Kx Ky. cbn zeta. pose proof (proj1 Wx) as Ht.
  pose proof (facop_act dt (torsion x) Ht Hdt r d s Hr Ws Ts As Ks) as F1. pose proof (facop_diag dt (torsion x) Ht Hdt t Htm) as F2. split; intros Hi; split.
  - exact (tensor_op_left cls_simplicial ok_simplicial simp_ok sbadl sbadr spx_dim dt (torsion x) Ht r d _ n e n' e' i x y F1 Hi Hn' Wx eq_refl Kx Wy Ty Ky).
  - exact (tensor_op_left cls_simplicial ok_simplicial simp_ok sbadl sbadr spx_dim dt (torsion x) Ht (t + 1) 0 _ n e n' e' i x y F2 Hi Hn' Wx eq_refl Kx Wy Ty Ky).
  - exact (tensor_op_right cls_simplicial ok_simplicial simp_ok sbadl sbadr spx_dim dt (torsion x) Ht Hdt r d _ n e n' e' i x y F1 Hi Hn Wx eq_refl Kx Wy Ty Ky).
  - exact (tensor_op_right1 cls_simplicial ok_simplicial simp_ok sbadl sbadr spx_dim dt (torsion x) Ht (t + 1) 0 _ n e n' e' i x y (Z.mul_0_r e) F2 Hi Hn Wx eq_refl Kx Wy Ty Ky).
Qed.
(** #C105_cubical# The same for cubical elements, in every convention. *)
Lemma C105_cubical_l (dt r d n e n' e' i t : Z) (s : surj) (x y : cubc) :
  1 <= r -> 0 <= t -> 0 <= n -> 0 <= n' -> wf cls_surj s -> torsion s = torsion x -> keys_in (surj_cell r d) s ->
  wf cls_cubical x -> wf cls_cubical y -> torsion y = torsion x -> dt_ok dt (torsion x) ->
  keys_in (fun k => zlen k = n /\ cube_degree k = e) x -> keys_in (fun k => zlen k = n' /\ cube_degree k = e') y ->
  let diagonal coord := extended1 dt cls_cubical (fun u => cub_iterated_diagonal dt u t coord) in
  (1 <= i <= n ->
    same (let! z := cub_tensor dt x y in surj_call_cubical dt s z i) (let! u := surj_call_cubical dt s x i in cub_tensor dt u y) /\
    same (let! z := cub_tensor dt x y in diagonal i z) (let! u := diagonal i x in cub_tensor dt u y)) /\
  (1 <= i <= n' ->
    same (let! z := cub_tensor dt x y in surj_call_cubical dt s z (n + i)) (let! u := surj_call_cubical dt s y i in let! v := cub_tensor dt x u in scale dt cls_cubical (sgn (e * d)) v) /\
    same (let! z := cub_tensor dt x y in diagonal (n + i) z) (let! u := diagonal i y in cub_tensor dt x u)).
Proof.
  intros Hr Htm Hn Hn' Ws Ts Ks Wx Wy Ty Hdt Kx Ky. apply kC in Kx, Ky. cbn zeta. pose proof (proj1 Wx) as Ht.
  pose proof (facop_actC dt (torsion x) Ht Hdt r d s Hr Ws Ts Ks) as F1. pose proof (facop_diagC dt (torsion x) Ht Hdt t Htm) as F2. split; intros Hi; split.
  - exact (tensor_op_left cls_cubical ok_cubical cub_ok cbadl cbadr cube_dim dt (torsion x) Ht r d _ n e n' e' i x y F1 Hi Hn' Wx eq_refl Kx Wy Ty Ky).
  - exact (tensor_op_left cls_cubical ok_cubical cub_ok cbadl cbadr cube_dim dt (torsion x) Ht (t + 1) 0 _ n e n' e' i x y F2 Hi Hn' Wx eq_refl Kx Wy Ty Ky).
  - exact (tensor_op_right cls_cubical ok_cubical cub_ok cbadl cbadr cube_dim dt (torsion x) Ht Hdt r d _ n e n' e' i x y F1 Hi Hn Wx eq_refl Kx Wy Ty Ky).
  - exact (tensor_op_right1 cls_cubical ok_cubical cub_ok cbadl cbadr cube_dim dt (torsion x) Ht (t + 1) 0 _ n e n' e' i x y (Z.mul_0_r e) F2 Hi Hn Wx eq_refl Kx Wy Ty Ky).
Qed.

Lemma swap_rot n m : 0 <= n -> 1 <= m -> zrange (m + 1) (m + n + 1) ++ zrange 1 (m + 1) = rot (n + m) (- n).
Proof.
  intros Hn Hm. unfold rot. replace (zrange 1 (n + m + 1)) with (zrange 1 (n + 1) ++ zrange (n + 1) (n + m + 1)) by (symmetry; apply zrange_app; lia). rewrite map_app. f_equal.
  - replace (zrange (m + 1) (m + n + 1)) with (map (fun i => i + m) (zrange 1 (n + 1))) by (rewrite (map_shift _ m) by (intros; reflexivity); f_equal; lia). apply map_ext_in. intros i Hi. apply in_zrange in Hi.
    replace (i - 1 + - n) with (i - 1 + m + (-1) * (n + m)) by ring. rewrite Z.mod_add by lia. rewrite Z.mod_small by lia. lia.
  - replace (zrange 1 (m + 1)) with (map (fun i => i + - n) (zrange (n + 1) (n + m + 1))) by (rewrite (map_shift _ (- n)) by (intros; reflexivity); f_equal; lia). apply map_ext_in. intros i Hi. apply in_zrange in Hi. rewrite Z.mod_small by lia. lia.
Qed.
Lemma tns_swap (c : pycls (list (list Z))) (Hc : cls_ok c) (Hok : forall k, okey c k) (Hck : forall k, ckey c k = k) (badb : list Z -> bool) (Hbad : forall k, bad c k = Ok (existsb badb k)) dg dt n d n' d' (p : skey) (a : ring) (x y z : elt (list (list Z)) unit) :
  0 <= n -> 1 <= n' -> wf c x -> wf c y -> torsion y = torsion x -> dt_ok dt (torsion x) ->
  keys_in (kdeg dg n d) x -> keys_in (kdeg dg n' d') y ->
  wf cls_ring a -> torsion a = torsion x -> data a = [(p, 1)] -> kval p = zrange (n' + 1) (n' + n + 1) ++ zrange 1 (n' + 1) ->
  tns c dt x y = Ok z -> ~ is_zero z ->
  same (tact c dg dt a z) (let! w := tns c dt y x in scale dt c (sgn (d * d')) w).
Proof.
  intros Hn Hn' Wx Wy Ty Hdt Kx Ky Wa Ta Da Ep Ez Nz. pose proof (proj1 Wx) as Ht. rewrite (swap_rot n n' Hn Hn') in Ep.
  destruct (bil_tensor c Hc Hok dg dt (torsion x) n d n' d' Ht x y Wx eq_refl (match attr x with tt => eq_refl end) Kx Wy Ty (match attr y with tt => eq_refl end) Ky) as (z' & Ez' & Dz). rewrite Ez in Ez'. injection Ez' as <-.
  pose proof (den_wf _ _ _ _ _ Ht Dz) as Wz.
  assert (Kz : keys_in (kdeg dg (n + n') (d + d')) z).
  { destruct (lin_tR c Hc Hok dg dt (torsion x) Ht n d n' d' y Wy Ty Ky x Wx eq_refl (match attr x with tt => eq_refl end) Kx) as (z' & Ez' & _ & K). rewrite Ez in Ez'. injection Ez' as <-. exact K. }
  eapply (same_den c Hc (torsion x) tt).
  - exact Ht.
  - apply (tact_den c badb Hbad Hck dg dt (n + n') (torsion x) a z); auto; [lia|apply Dz| | |].
    + intros k v Hin. rewrite Da in Hin. destruct Hin as [[= <- _]|[]]. unfold pk. rewrite Ep. apply perm_rot. lia.
    + intros k v Hin. apply (Kz _ _ Hin).
    + left. split; [rewrite Da; discriminate|]. exact Nz.
  - eapply returns_bind; [apply (bil_tensor c Hc Hok dg dt (torsion x) n' d' n d Ht y x Wy Ty (match attr y with tt => eq_refl end) Ky Wx eq_refl (match attr x with tt => eq_refl end) Kx)|].
    intros w Dw. apply (scale_den c Hc dt (torsion x) Ht Hdt tt _ _ w Dw).
  - intros g Hg. cbn beta. rewrite Da, ev_cons, ev_nil. rewrite Z.add_0_r, Z.mul_1_l. unfold Pact. rewrite Ep.
    rewrite (den_ev_on c Hc (torsion x) tt _ z (kar (n + n')) (fun k => kact dg g (rot (n + n') (- n)) k) (dkeys (tensor_terms x y)) (kpred_kar _) Dz).
    + apply eqm_eq. rewrite ev_exch. rewrite <- ev_scal. apply ev_ext. intros l v Hl. rewrite <- ev_scal. apply ev_ext. intros k v' Hk. destruct (Kx _ _ Hk) as [Lk Dk], (Ky _ _ Hl) as [Ll Dl].
      rewrite <- Lk at 2. rewrite kact_left; [rewrite Dk, Dl; reflexivity|rewrite zlen_app; lia|lia|]. intros ->. rewrite zlen_nil in Ll. lia.
    + intros k v Hin. apply (Kz _ _ Hin).
    + assert (Pp : pk (n + n') p) by (unfold pk; rewrite Ep; apply perm_rot; lia). pose proof (proj2 (adm_act c badb Hbad dg (n + n') ltac:(lia) g (adm_admP _ _ _ Hg)) p Pp eq_refl) as G. unfold Pact in G. rewrite Ep in G. exact G.
    + intros h Hh. apply eqm_eq. apply ev_ext. intros k v Hk. apply ev_ext. intros l v' Hl. apply Hh.
      * unfold kar. rewrite zlen_app, (proj1 (Kx _ _ Hk)), (proj1 (Ky _ _ Hl)). reflexivity.
      * unfold dkeys, tensor_terms. apply in_map_iff. exists (k ++ l, v * v'). split; [reflexivity|]. apply in_flat_map. exists (k, v). split; [exact Hk|]. apply in_map_iff. now exists (l, v').
Qed.
(** #C105_swap# The permutation that exchanges the two blocks of factors turns x (x) y into (-1)^(|x||y|) y (x) x. *)
Lemma C105_swap_l (dt n d n' d' : Z) (p : skey) (a : ring) (x y z : simp) (u v w : cubc) :
  0 <= n -> 1 <= n' -> wf cls_ring a -> data a = [(p, 1)] -> kval p = zrange (n' + 1) (n' + n + 1) ++ zrange 1 (n' + 1) -> dt_ok dt (torsion a) ->
  wf cls_simplicial x -> wf cls_simplicial y -> torsion x = torsion a -> torsion y = torsion a ->
  keys_in (fun k => zlen k = n /\ total_degree k = d) x -> keys_in (fun k => zlen k = n' /\ total_degree k = d') y ->
  wf cls_cubical u -> wf cls_cubical v -> torsion u = torsion a -> torsion v = torsion a ->
  keys_in (fun k => zlen k = n /\ cube_degree k = d) u -> keys_in (fun k => zlen k = n' /\ cube_degree k = d') v ->
  (simp_tensor dt x y = Ok z -> ~ is_zero z -> same (simp_act dt a z) (let! w := simp_tensor dt y x in scale dt cls_simplicial (sgn (d * d')) w)) /\
  (cub_tensor dt u v = Ok w -> ~ is_zero w -> same (cub_act dt a w) (let! w := cub_tensor dt v u in scale dt cls_cubical (sgn (d * d')) w)).
Proof.
  intros Hn Hn' Wa Da Ep Hdt Wx Wy Tx Ty Kx Ky Wu Wv Tu Tv Ku Kv. apply kC in Ku, Kv. split.
  - intros E N. rewrite simp_act_tact.
    exact (tns_swap cls_simplicial ok_simplicial simp_ok sck spx_is_degenerate sbad spx_dim dt n d n' d' p a x y z Hn Hn' Wx Wy (eq_trans Ty (eq_sym Tx)) (eq_ind_r (dt_ok dt) Hdt Tx) Kx Ky Wa (eq_sym Tx) Da Ep E N).
  - intros E N. rewrite cub_act_tact.
    exact (tns_swap cls_cubical ok_cubical cub_ok cck noc cbad cube_dim dt n d n' d' p a u v w Hn Hn' Wu Wv (eq_trans Tv (eq_sym Tu)) (eq_ind_r (dt_ok dt) Hdt Tu) Ku Kv Wa (eq_sym Tu) Da Ep E N).
Qed.
(** #C105_associative# The tensor product is associative. *)
Lemma C105_associative_l (dt n d n' d' n'' d'' : Z) (x y z : simp) (u v w : cubc) :
  wf cls_simplicial x -> wf cls_simplicial y -> wf cls_simplicial z -> torsion y = torsion x -> torsion z = torsion x ->
  keys_in (fun k => zlen k = n /\ total_degree k = d) x -> keys_in (fun k => zlen k = n' /\ total_degree k = d') y -> keys_in (fun k => zlen k = n'' /\ total_degree k = d'') z ->
  wf cls_cubical u -> wf cls_cubical v -> wf cls_cubical w -> torsion v = torsion u -> torsion w = torsion u ->
  keys_in (fun k => zlen k = n /\ cube_degree k = d) u -> keys_in (fun k => zlen k = n' /\ cube_degree k = d') v -> keys_in (fun k => zlen k = n'' /\ cube_degree k = d'') w ->
  same (let! p := simp_tensor dt x y in simp_tensor dt p z) (let! q := simp_tensor dt y z in simp_tensor dt x q) /\
  same (let! p := cub_tensor dt u v in cub_tensor dt p w) (let! q := cub_tensor dt v w in cub_tensor dt u q).
Proof.
  intros Wx Wy Wz Ty Tz Kx Ky Kz Wu Wv Ww Tv Tw Ku Kv Kw. apply kC in Ku, Kv, Kw. split.
  - pose proof (fun a b e f => bil_tensor cls_simplicial ok_simplicial simp_ok spx_dim dt (torsion x) a b e f (proj1 Wx)) as B. pose proof (rep_tensor spx_dim) as R. pose proof (adm_tensor cls_simplicial sbadl sbadr spx_dim) as A.
    pose proof (A n d (n' + n'') (d' + d'')) as A2. replace (n + (n' + n'')) with (n + n' + n'') in A2 by lia. replace (d + (d' + d'')) with (d + d' + d'') in A2 by lia.
    refine (bilop_assoc cls_simplicial cls_simplicial cls_simplicial cls_simplicial cls_simplicial cls_simplicial ok_simplicial ok_simplicial ok_simplicial (torsion x) tt tt tt tt tt tt
      (kdegS n d) (kdegS n' d') (kdegS n'' d'') (kdegS (n + n') (d + d')) (kdegS (n' + n'') (d' + d'')) (kdegS (n + n' + n'') (d + d' + d'')) (fun g k l => g (k ++ l)) (fun g k l => g (k ++ l)) (fun g k l => g (k ++ l)) (fun g k l => g (k ++ l))
      (simp_tensor dt) (simp_tensor dt) (simp_tensor dt) (simp_tensor dt) x y z (proj1 Wx) (kpred_kdegS _ _) (kpred_kdegS _ _) (B _ _ _ _) (R _ _ _ _) (B _ _ _ _) (A _ _ _ _) (B _ _ _ _) (R _ _ _ _) (B _ _ _ _) A2 _
      Wx eq_refl (s_attr x) Kx Wy Ty (s_attr y) Ky Wz Tz (s_attr z) Kz).
    intros g k1 k2 k3 _ _ _ _ _ _ _. cbn beta. now rewrite app_assoc.
  - pose proof (fun a b e f => bil_tensor cls_cubical ok_cubical cub_ok cube_dim dt (torsion u) a b e f (proj1 Wu)) as B. pose proof (rep_tensor cube_dim) as R. pose proof (adm_tensor cls_cubical cbadl cbadr cube_dim) as A.
    pose proof (A n d (n' + n'') (d' + d'')) as A2. replace (n + (n' + n'')) with (n + n' + n'') in A2 by lia. replace (d + (d' + d'')) with (d + d' + d'') in A2 by lia.
    refine (bilop_assoc cls_cubical cls_cubical cls_cubical cls_cubical cls_cubical cls_cubical ok_cubical ok_cubical ok_cubical (torsion u) tt tt tt tt tt tt
      (kdegC n d) (kdegC n' d') (kdegC n'' d'') (kdegC (n + n') (d + d')) (kdegC (n' + n'') (d' + d'')) (kdegC (n + n' + n'') (d + d' + d'')) (fun g k l => g (k ++ l)) (fun g k l => g (k ++ l)) (fun g k l => g (k ++ l)) (fun g k l => g (k ++ l))
      (cub_tensor dt) (cub_tensor dt) (cub_tensor dt) (cub_tensor dt) u v w (proj1 Wu) (kpred_kdegC _ _) (kpred_kdegC _ _) (B _ _ _ _) (R _ _ _ _) (B _ _ _ _) (A _ _ _ _) (B _ _ _ _) (R _ _ _ _) (B _ _ _ _) A2 _
      Wu eq_refl (cub_attr u) Ku Wv Tv (cub_attr v) Kv Ww Tw (cub_attr w) Kw).
    intros g k1 k2 k3 _ _ _ _ _ _ _. cbn beta. now rewrite app_assoc.
Qed.
(** #C105_cartan_serre# The Cartan-Serre map is compatible with tensor products. *)
Lemma C105_cartan_serre_l (dt n d n' d' : Z) (u v : cubc) :
  wf cls_cubical u -> wf cls_cubical v -> torsion v = torsion u -> dt_ok dt (torsion u) ->
  keys_in (fun k => zlen k = n /\ cube_degree k = d) u -> keys_in (fun k => zlen k = n' /\ cube_degree k = d') v ->
  same (let! w := cub_tensor dt u v in cub_cartan_serre dt w)
       (let! x := cub_cartan_serre dt u in let! y := cub_cartan_serre dt v in simp_tensor dt x y).
Proof.
  intros Wu Wv Tv Hdt Ku Kv. apply kC in Ku, Kv. pose proof (proj1 Wu) as Ht.
  refine (bil_morphism cls_cubical cls_cubical cls_cubical cls_simplicial cls_simplicial cls_simplicial ok_cubical ok_cubical ok_simplicial ok_simplicial ok_simplicial (torsion u) tt tt tt tt tt tt
    (kdegC n d) (kdegC n' d') (kdegC (n + n') (d + d')) (kdegS n d) (kdegS n' d') (kdegS (n + n') (d + d')) (kdegS (n + n') (d + d')) DC DC DC (fun g k l => g (k ++ l)) (fun g k l => g (k ++ l))
    (cub_cartan_serre dt) (cub_cartan_serre dt) (cub_cartan_serre dt) (cub_tensor dt) (simp_tensor dt) u v Ht (kpred_kdegC _ _) (kpred_kdegS _ _) (kpred_kdegS _ _)
    (linop_serred dt _ n d Ht Hdt) (rep_DCd _ _) (linop_serred dt _ n' d' Ht Hdt) (rep_DCd _ _) (bil_tensor cls_cubical ok_cubical cub_ok cube_dim dt _ _ _ _ _ Ht) (rep_tensor _ _ _ _ _) (linop_serred dt _ _ _ Ht Hdt) (cub_admop _ _ _ _)
    (bil_tensor cls_simplicial ok_simplicial simp_ok spx_dim dt _ _ _ _ _ Ht) (adm_tensor cls_simplicial sbadl sbadr spx_dim _ _ _ _) _ _ Wu eq_refl (cub_attr u) Ku Wv Tv (cub_attr v) Kv).
  - intros g l Hg _. apply admP_keyeq. intros k _ B. apply (proj2 Hg). now apply sbadl.
  - intros g k l _ _ _ _ _. apply eqm_eq. cbn beta. apply DC_app.
Qed.
(** #C105_example# *)
Example C105_example_l :
  let x : simp := mkElt [([[0; 1]], 1); ([[1; 2]], 2)] 0 tt in
  let y : simp := mkElt [([[3]; [4; 5]], 1); ([[6; 7]; [8]], -3)] 0 tt in
  let s : surj := mkElt [([1; 2; 1], 1)] 0 MS in
  wf cls_simplicial x /\ wf cls_simplicial y /\ wf cls_surj s /\ keys_in (surj_cell 2 1) s /\
  keys_in (fun k => zlen k = 1 /\ total_degree k = 1) x /\ keys_in (fun k => zlen k = 2 /\ total_degree k = 1) y /\
  exists z w, simp_tensor 0 x y = Ok z /\ zlen (data z) = 4 /\ surj_call_simplicial 0 s z 3 = Ok w /\ ~ is_zero w.
Proof.
  cbv zeta. split; [now apply wfb_wf|]. split; [now apply wfb_wf|]. split; [now apply wfb_wf|]. split; [|split; [|split]].
  - intros k v [[= <- <-]|[]]. split; [|reflexivity]. intros j. cbn. lia.
  - intros k v [[= <- <-]|[[= <- <-]|[]]]; split; reflexivity.
  - intros k v [[= <- <-]|[[= <- <-]|[]]]; split; reflexivity.
  - eexists. eexists. split; [vm_compute; reflexivity|]. split; [reflexivity|]. split; [vm_compute; reflexivity|discriminate].
Qed.
