(** * Operations at different tensor factors are independent (C104) *)
From Coq Require Import Setoid Morphisms.
From Verif Require Import PyBase Dict FreeModule Symmetric Simplicial Cubical Utils Surjection Eqm Spec SpecChain SpecOperad SpecSurj SpecAction SpecCube SpecCubAction FreeModuleFacts FreeModuleLaws ListFacts
  ClassFacts LinearFacts BilFacts SymmetricFacts CycleFacts SymmetricLaws RingFacts Tensor TensorAct LoopFacts AW SimplicialFacts SimplicialDiag SimplicialLaws SurjFacts SurjBoundary SurjLaws
  SurjCompose SurjCompose2 SurjCompose3 SurjCompose4 SurjLaws6 ActFacts ActSign ActCore ActCode ActLaws OperadAct CubicalFacts CubicalDiag CubicalLaws CubActFacts CubActCore CubActCode CubActLaws.

(** a dual operator of degree [d] that replaces the factor number [coord] by [r] factors *)
Definition loc (dg : list Z -> Z) (r d coord : Z) (D : (list (list Z) -> Z) -> list (list Z) -> Z) (L : list Z -> dict (list (list Z))) : Prop :=
  (forall s v c, In (v, c) (L s) -> zlen v = r /\ tdeg dg v = dg s + d) /\
  forall g l1 s l2, zlen l1 = coord - 1 -> D g (l1 ++ s :: l2) = sgn (tdeg dg l1 * d) * ev (fun v => g (l1 ++ v ++ l2)) (L s).

Lemma loc_swap dg r d r' d' i j D1 D2 D2' L1 L2 g l1 s l2 s' l3 :
  loc dg r d i D1 L1 -> loc dg r' d' j D2 L2 -> loc dg r' d' (j + r - 1) D2' L2 -> zlen l1 = i - 1 -> zlen (l1 ++ s :: l2) = j - 1 ->
  D1 (D2' g) (l1 ++ s :: l2 ++ s' :: l3) = sgn (d * d') * D2 (D1 g) (l1 ++ s :: l2 ++ s' :: l3).
Proof.
  intros [A1 F1] [A2 F2] [_ F2'] E1 E2. rewrite F1 by exact E1. rewrite app_comm_cons, app_assoc, F2 by exact E2.
  rewrite (ev_ext_all (fun v => D1 g ((l1 ++ s :: l2) ++ v ++ l3)) (fun v => sgn (tdeg dg l1 * d) * ev (fun w => g (l1 ++ w ++ l2 ++ v ++ l3)) (L1 s))).
  2:{ intros v. rewrite <- app_assoc. cbn [app]. now apply F1. }
  rewrite ev_scal. rewrite (ev_ext (fun v => D2' g (l1 ++ v ++ l2 ++ s' :: l3)) (fun v => sgn ((tdeg dg l1 + (dg s + d) + tdeg dg l2) * d') * ev (fun w => g (l1 ++ v ++ l2 ++ w ++ l3)) (L2 s')) (L1 s)).
  2:{ intros v c Hin. destruct (A1 s v c Hin) as [Lv Dv]. replace (l1 ++ v ++ l2 ++ s' :: l3) with ((l1 ++ v ++ l2) ++ s' :: l3) by (rewrite <- !app_assoc; reflexivity). rewrite F2'.
      - rewrite !tdeg_app, Dv. f_equal; [f_equal; ring|]. apply ev_ext_all. intros w. now rewrite <- !app_assoc.
      - rewrite zlen_app, zlen_cons in E2. rewrite !zlen_app, Lv. lia. }
  rewrite ev_scal, ev_exch. rewrite !tdeg_app. replace (tdeg dg (s :: l2)) with (dg s + tdeg dg l2) by reflexivity.
  replace ((tdeg dg l1 + (dg s + d) + tdeg dg l2) * d') with ((tdeg dg l1 + (dg s + tdeg dg l2)) * d' + d * d') by ring. rewrite sgn_add. ring.
Qed.
Lemma loc_S t coord : loc spx_dim (Z.of_nat t + 1) 0 coord (Sd t coord) (fun s => map (fun u => (u, 1)) (front_back t s)).
Proof.
  split.
  - intros s v c Hin. apply in_map_iff in Hin. destruct Hin as (u & [= <- <-] & Hu). pose proof (front_back_deg _ _ _ Hu) as [Ed El]. split; [|rewrite Z.add_0_r; exact Ed]. exact El.
  - intros g l1 s l2 E. rewrite Sd_app by exact E. rewrite Z.mul_0_r, S_sum. unfold ev. rewrite sumf_map. cbn [sgn]. change (sgn 0) with 1. rewrite Z.mul_1_l. apply sumf_ext. intros u _. cbn [fst snd]. ring.
Qed.
Lemma loc_SC t coord : loc cube_dim (Z.of_nat t + 1) 0 coord (SdC t coord) (serre t).
Proof.
  split.
  - intros s v c Hin. apply serre_deg in Hin. split; lia.
  - intros g l1 s l2 E. rewrite SdC_app by exact E. rewrite Z.mul_0_r, SC_sum. change (sgn 0) with 1. ring.
Qed.
Lemma Phi_local r coord g k l1 s l2 : zlen l1 = coord - 1 ->
  Phi r coord g k (l1 ++ s :: l2) = sgn (tdeg spx_dim l1 * (zlen k - r)) * ev (fun v => g (l1 ++ v ++ l2)) (simp_acts r (zlen k - r) 1 k [s]).
Proof.
  intros E. rewrite Phi_app by exact E. f_equal. change (S (length k - 1) (T1 r k (fun v => g (l1 ++ v ++ l2))) s = Phi r 1 (fun v => g (l1 ++ v ++ l2)) k ([] ++ s :: [])).
  rewrite Phi_app by reflexivity. change (tdeg spx_dim []) with 0. rewrite Z.mul_0_l. change (sgn 0) with 1. rewrite Z.mul_1_l. apply S_ext. intros u. unfold T1. cbn [app]. now rewrite app_nil_r.
Qed.
Lemma PhiC_local r coord g k l1 s l2 : zlen l1 = coord - 1 ->
  PhiC r coord g k (l1 ++ s :: l2) = sgn (tdeg cube_dim l1 * (zlen k - r)) * ev (fun v => g (l1 ++ v ++ l2)) (cub_acts r (zlen k - r) 1 k [s]).
Proof.
  intros E. rewrite PhiC_app by exact E. f_equal. change (SC (length k - 1) (T1C r k (fun v => g (l1 ++ v ++ l2))) s = PhiC r 1 (fun v => g (l1 ++ v ++ l2)) k ([] ++ s :: [])).
  rewrite PhiC_app by reflexivity. change (tdeg cube_dim []) with 0. rewrite Z.mul_0_l. change (sgn 0) with 1. rewrite Z.mul_1_l. apply SC_ext. intros u _ _. unfold T1C. f_equal. apply MJ_ext. intros w. cbn [app]. now rewrite app_nil_r.
Qed.

Definition LX (A : Type) (acts : list Z -> list Z -> dict (list (list Z))) (x : elt (list Z) A) (s : list Z) : dict (list (list Z)) :=
  flat_map (fun '(k, c) => map (fun '(v, c') => (v, c * c')) (acts k s)) (data x).
Lemma ev_LX A acts x s g : ev g (LX A acts x s) = ev (fun k => ev g (acts k s)) (data x).
Proof.
  unfold LX, ev at 1. rewrite sumf_flat_map. unfold ev at 1. apply sumf_ext. intros [k c] _. cbn [fst snd]. rewrite sumf_map. unfold ev. rewrite <- sumf_scal. apply sumf_ext. intros [v c'] _. cbn [fst snd]. ring.
Qed.
Lemma in_LX A acts x s v c : In (v, c) (LX A acts x s) -> exists k a c', In (k, a) (data x) /\ In (v, c') (acts k s).
Proof. unfold LX. intros Hin. apply in_flat_map in Hin. destruct Hin as ([k a] & Hk & Hin). apply in_map_iff in Hin. destruct Hin as ([v' c'] & [= -> _] & Hv). eauto. Qed.
Lemma loc_Phi r d coord (x : surj) : 1 <= r -> keys_in (surj_cell r d) x ->
  loc spx_dim r d coord (DBL (Phi r coord) x) (LX _ (fun k s => simp_acts r (zlen k - r) 1 k [s]) x).
Proof.
  intros Hr Kx. split.
  - intros s v c Hin. apply in_LX in Hin. destruct Hin as (k & a & c' & Hk & Hv). destruct (acts_deg r d 1 (spx_dim s) 1 k [s] v c' Hr (Kx _ _ Hk)) as [Lv Dv]; [split; [reflexivity|unfold tdeg; cbn; lia]|exact Hv|].
    split; [rewrite Lv; lia|exact Dv].
  - intros g l1 s l2 E. rewrite ev_LX, <- ev_scal. apply ev_ext. intros k a Hk. rewrite Phi_local by exact E. destruct (Kx _ _ Hk) as [_ Lk]. replace (zlen k - r) with d by lia. reflexivity.
Qed.
Lemma loc_PhiC r d coord (x : surj) : 1 <= r -> keys_in (surj_cell r d) x ->
  loc cube_dim r d coord (DBL (PhiC r coord) x) (LX _ (fun k s => cub_acts r (zlen k - r) 1 k [s]) x).
Proof.
  intros Hr Kx. split.
  - intros s v c Hin. apply in_LX in Hin. destruct Hin as (k & a & c' & Hk & Hv). destruct (actsC_deg r d 1 (cube_dim s) 1 k [s] v c' Hr (Kx _ _ Hk)) as [[Lv Dv] _]; [split; [reflexivity|unfold tdeg; cbn [map zsum fold_right]; lia]|exact Hv|].
    split; [rewrite Lv; lia|exact Dv].
  - intros g l1 s l2 E. rewrite ev_LX, <- ev_scal. apply ev_ext. intros k a Hk. rewrite PhiC_local by exact E. destruct (Kx _ _ Hk) as [_ Lk]. replace (zlen k - r) with d by lia. reflexivity.
Qed.
Lemma linop_after_scale {K A K' B} `{KO : KeyOk K} `{KO' : KeyOk K'} (c : pycls K) (c' : pycls K') (Hc' : cls_ok c') dt t (a : A) (b : B) P Q D f n :
  0 <= t -> dt_ok dt t -> kpred Q -> linop c c' t a b P Q D f -> linop c c' t a b P Q (fun g k => n * D g k) (fun x => let! y := f x in scale dt c' n y).
Proof.
  intros Ht Hdt KQ Lf x Wx Tx Ax Kx. eapply returns_bind; [now apply Lf|]. intros y [Dy Ky]. eapply returns_mono; [apply (scale_den c' Hc' dt t Ht Hdt b _ n y Dy)|].
  intros z Dz. split.
  - eapply den_ext; [|exact Dz]. intros g Hg. apply eqm_eq. cbn beta. now rewrite ev_scal.
  - eapply (keys_in_scale c' Hc' t b _ n y z Q); eauto.
Qed.
Lemma two_splits {A} (K : list A) i j : 1 <= i -> i < j -> j <= zlen K -> exists l1 s l2 s' l3, K = l1 ++ s :: l2 ++ s' :: l3 /\ zlen l1 = i - 1 /\ zlen (l1 ++ s :: l2) = j - 1.
Proof.
  intros Hi Hij Hj. destruct (split_at K (j - 1)) as (m1 & s' & l3 & -> & E); [lia|]. destruct (split_at m1 (i - 1)) as (l1 & s & l2 & -> & E1); [lia|].
  exists l1, s, l2, s', l3. split; [|auto]. now rewrite <- app_assoc.
Qed.
Lemma swap_lin (c : pycls (list (list Z))) (Hc : cls_ok c) dg dt t r d r' d' i j n (P Q1 Q2 R R' : list (list Z) -> Prop) D1 D2 D2' L1 L2 f1 f2 f1' f2' (z : elt (list (list Z)) unit) :
  0 <= t -> dt_ok dt t -> 1 <= i -> i < j -> j <= n -> (forall k, P k -> zlen k = n) ->
  loc dg r d i D1 L1 -> loc dg r' d' j D2 L2 -> loc dg r' d' (j + r - 1) D2' L2 ->
  kpred Q1 -> kpred Q2 -> kpred R' ->
  linop c c t tt tt P Q1 D1 f1 -> linop c c t tt tt Q1 R D2' f2' -> linop c c t tt tt P Q2 D2 f2 -> linop c c t tt tt Q2 R' D1 f1' ->
  local P Q1 D1 -> admop c c Q1 R D2' -> local P Q2 D2 -> admop c c Q2 R' D1 ->
  wf c z -> torsion z = t -> keys_in P z ->
  same (let! u := f1 z in f2' u) (let! v := let! u := f2 z in f1' u in scale dt c (sgn (d * d')) v).
Proof.
  intros Ht Hdt Hi Hij Hj HP O1 O2 O2' K1 K2 K3 A1 A2 A3 A4 B1 B2 B3 B4 Wz Tz Kz.
  refine (linop_same c c Hc t tt tt P _ _ _ _ _ _ z Ht (linop_comp c c c Hc Hc Hc t tt tt tt _ _ _ _ _ _ _ Ht K1 A1 A2 B1 B2)
    (linop_after_scale c c Hc dt t tt tt _ _ _ _ (sgn (d * d')) Ht Hdt K3 (linop_comp c c c Hc Hc Hc t tt tt tt _ _ _ _ _ _ _ Ht K2 A3 A4 B3 B4)) Wz Tz _ Kz _).
  - now destruct (attr z).
  - intros g k _ Pk _. cbn beta. apply eqm_eq. destruct (two_splits k i j Hi Hij) as (l1 & s & l2 & s' & l3 & -> & E1 & E2); [rewrite (HP _ Pk); lia|].
    eapply loc_swap; eauto.
Qed.
Lemma swap_lin1 (c : pycls (list (list Z))) (Hc : cls_ok c) dg dt t r d r' d' i j n (P Q1 Q2 R R' : list (list Z) -> Prop) D1 D2 D2' L1 L2 f1 f2 f1' f2' (z : elt (list (list Z)) unit) :
  d * d' = 0 -> 0 <= t -> dt_ok dt t -> 1 <= i -> i < j -> j <= n -> (forall k, P k -> zlen k = n) ->
  loc dg r d i D1 L1 -> loc dg r' d' j D2 L2 -> loc dg r' d' (j + r - 1) D2' L2 ->
  kpred Q1 -> kpred Q2 -> kpred R' ->
  linop c c t tt tt P Q1 D1 f1 -> linop c c t tt tt Q1 R D2' f2' -> linop c c t tt tt P Q2 D2 f2 -> linop c c t tt tt Q2 R' D1 f1' ->
  local P Q1 D1 -> admop c c Q1 R D2' -> local P Q2 D2 -> admop c c Q2 R' D1 ->
  wf c z -> torsion z = t -> keys_in P z ->
  same (let! u := f1 z in f2' u) (let! u := f2 z in f1' u).
Proof.
  intros E0 Ht Hdt Hi Hij Hj HP O1 O2 O2' K1 K2 K3 A1 A2 A3 A4 B1 B2 B3 B4 Wz Tz Kz.
  refine (linop_same c c Hc t tt tt P _ _ _ _ _ _ z Ht (linop_comp c c c Hc Hc Hc t tt tt tt _ _ _ _ _ _ _ Ht K1 A1 A2 B1 B2)
    (linop_comp c c c Hc Hc Hc t tt tt tt _ _ _ _ _ _ _ Ht K2 A3 A4 B3 B4) Wz Tz _ Kz _).
  - now destruct (attr z).
  - intros g k _ Pk _. cbn beta. apply eqm_eq. destruct (two_splits k i j Hi Hij) as (l1 & s & l2 & s' & l3 & -> & E1 & E2); [rewrite (HP _ Pk); lia|].
    rewrite (loc_swap dg r d r' d' i j D1 D2 D2' L1 L2 g l1 s l2 s' l3 O1 O2 O2' E1 E2), E0. apply Z.mul_1_l.
Qed.
Section Ops.
Variables (dt t : Z) (Ht : 0 <= t) (Hdt : dt_ok dt t).
(** an operation at one factor, for all arities and degrees *)
Definition facop (c : pycls (list (list Z))) (dg : list Z -> Z) (kd : Z -> Z -> list (list Z) -> Prop) (r d : Z) (f : Z -> elt (list (list Z)) unit -> res (elt (list (list Z)) unit)) : Prop :=
  exists D L, forall coord, loc dg r d coord (D coord) L /\ forall n e, 1 <= coord <= n ->
    linop c c t tt tt (kd n e) (kd (n + r - 1) (e + d)) (D coord) (f coord) /\ local (kd n e) (kd (n + r - 1) (e + d)) (D coord) /\ admop c c (kd n e) (kd (n + r - 1) (e + d)) (D coord).
Lemma swap_ops (c : pycls (list (list Z))) (Hc : cls_ok c) dg kd r d r' d' i j n e f f' (z : elt (list (list Z)) unit) :
  1 <= i -> i < j -> j <= n -> 1 <= r -> 1 <= r' -> (forall n e, kpred (kd n e)) -> (forall n e k, kd n e k -> zlen k = n) -> facop c dg kd r d f -> facop c dg kd r' d' f' ->
  wf c z -> torsion z = t -> keys_in (kd n e) z ->
  same (let! u := f i z in f' (j + r - 1) u) (let! u := f' j z in let! v := f i u in scale dt c (sgn (d * d')) v).
Proof.
  intros Hi Hij Hj Hr Hr' KP KZ (D & L & F) (D' & L' & F') Wz Tz Kz.
  destruct (F i) as [O1 G1]. destruct (F' j) as [O2 G2]. destruct (F' (j + r - 1)) as [O3 G3].
  destruct (G1 n e ltac:(lia)) as (A1 & A2 & A3). destruct (G2 n e ltac:(lia)) as (B1 & B2 & B3). destruct (G3 (n + r - 1) (e + d) ltac:(lia)) as (C1 & C2 & C3). destruct (G1 (n + r' - 1) (e + d') ltac:(lia)) as (E1 & E2 & E3).
  pose proof (swap_lin c Hc dg dt t r d r' d' i j n (kd n e) _ _ _ _ (D i) (D' j) (D' (j + r - 1)) L L' (f i) (f' j) (f i) (f' (j + r - 1)) z Ht Hdt Hi Hij Hj (KZ n e) O1 O2 O3 (KP _ _) (KP _ _) (KP _ _) A1 C1 B1 E1 A2 C3 B2 E3 Wz Tz Kz) as G.
  destruct (f' j z) as [u|]; cbn [bind] in *; exact G.
Qed.
Lemma swap_ops1 (c : pycls (list (list Z))) (Hc : cls_ok c) dg kd r d r' d' i j n e f f' (z : elt (list (list Z)) unit) :
  d * d' = 0 -> 1 <= i -> i < j -> j <= n -> 1 <= r -> 1 <= r' -> (forall n e, kpred (kd n e)) -> (forall n e k, kd n e k -> zlen k = n) -> facop c dg kd r d f -> facop c dg kd r' d' f' ->
  wf c z -> torsion z = t -> keys_in (kd n e) z ->
  same (let! u := f i z in f' (j + r - 1) u) (let! u := f' j z in f i u).
Proof.
  intros E0 Hi Hij Hj Hr Hr' KP KZ (D & L & F) (D' & L' & F') Wz Tz Kz.
  destruct (F i) as [O1 G1]. destruct (F' j) as [O2 G2]. destruct (F' (j + r - 1)) as [O3 G3].
  destruct (G1 n e ltac:(lia)) as (A1 & A2 & A3). destruct (G2 n e ltac:(lia)) as (B1 & B2 & B3). destruct (G3 (n + r - 1) (e + d) ltac:(lia)) as (C1 & C2 & C3). destruct (G1 (n + r' - 1) (e + d') ltac:(lia)) as (E1 & E2 & E3).
  pose proof (swap_lin1 c Hc dg dt t r d r' d' i j n (kd n e) _ _ _ _ (D i) (D' j) (D' (j + r - 1)) L L' (f i) (f' j) (f i) (f' (j + r - 1)) z E0 Ht Hdt Hi Hij Hj (KZ n e) O1 O2 O3 (KP _ _) (KP _ _) (KP _ _) A1 C1 B1 E1 A2 C3 B2 E3 Wz Tz Kz) as G.
  destruct (f' j z) as [u|]; cbn [bind] in *; exact G.
Qed.
Lemma facop_diag times : 0 <= times -> facop cls_simplicial spx_dim kdegS (times + 1) 0 (fun coord => ext_diag dt times coord).
Proof.
  intros Htm. exists (fun coord => Sd (Z.to_nat times) coord), (fun s => map (fun u => (u, 1)) (front_back (Z.to_nat times) s)). intros coord. split.
  - pose proof (loc_S (Z.to_nat times) coord) as G. now rewrite Z2Nat.id in G by lia.
  - intros n e Hc. replace (n + (times + 1) - 1) with (n + times) by lia. rewrite Z.add_0_r. pose proof (rep_Sd n e (Z.to_nat times) coord Hc) as R. pose proof (adm_Sd n e (Z.to_nat times) coord Hc) as AD. rewrite Z2Nat.id in * by lia.
    split; [now apply linop_diag|]. split; [exact (rep_local _ _ _ R)|exact AD].
Qed.
Lemma facop_diagC times : 0 <= times -> facop cls_cubical cube_dim kdegC (times + 1) 0 (fun coord => ext_diagC dt times coord).
Proof.
  intros Htm. exists (fun coord => SdC (Z.to_nat times) coord), (serre (Z.to_nat times)). intros coord. split.
  - pose proof (loc_SC (Z.to_nat times) coord) as G. now rewrite Z2Nat.id in G by lia.
  - intros n e Hc. replace (n + (times + 1) - 1) with (n + times) by lia. rewrite Z.add_0_r. pose proof (rep_SdC n e (Z.to_nat times) coord Hc) as R. rewrite Z2Nat.id in * by lia.
    split; [now apply linop_diagC|]. split; [exact (rep_local _ _ _ R)|apply cub_admop].
Qed.
Lemma facop_act r d (x : surj) : 1 <= r -> wf cls_surj x -> torsion x = t -> attr x = MS -> keys_in (surj_cell r d) x -> facop cls_simplicial spx_dim kdegS r d (fun coord z => surj_call_simplicial dt x z coord).
Proof.
  intros Hr Wx Tx Ax Kx. exists (fun coord => DBL (Phi r coord) x), (LX _ (fun k s => simp_acts r (zlen k - r) 1 k [s]) x). intros coord. split; [now apply loc_Phi|]. intros n e Hc.
  pose proof (bil_act dt t r d n e coord Ht Hdt Hr Hc) as B. pose proof (rep_Phi r d n e coord Hr) as R. pose proof (adm_Phi r d n e coord Hr) as AD. split; [|split].
  - apply (linop_bilL cls_surj cls_simplicial cls_simplicial ok_simplicial t MS tt tt (surj_cell r d) (kdegS n e) (kdegS (n + r - 1) (e + d)) (Phi r coord) (fun x z => surj_call_simplicial dt x z coord) Ht (kpred_kdegS _ _) B (rep2_local2 _ _ _ _ R) (rep2_zero _ _ _ _ R) x Wx Tx Ax Kx).
  - exact (rep_local _ _ _ (rep2_L _ _ _ _ x R Kx)).
  - now apply (DBL_admop cls_surj cls_simplicial cls_simplicial (surj_cell r d) (kdegS n e) (kdegS (n + r - 1) (e + d)) (Phi r coord) AD x).
Qed.
Lemma facop_actC r d (x : surj) : 1 <= r -> wf cls_surj x -> torsion x = t -> keys_in (surj_cell r d) x -> facop cls_cubical cube_dim kdegC r d (fun coord z => surj_call_cubical dt x z coord).
Proof.
  intros Hr Wx Tx Kx. exists (fun coord => DBL (PhiC r coord) x), (LX _ (fun k s => cub_acts r (zlen k - r) 1 k [s]) x). intros coord. split; [now apply loc_PhiC|]. intros n e Hc.
  pose proof (bil_actC dt t r d n e coord (attr x) Ht Hdt Hr Hc) as B.
  assert (R : rep2 (surj_cell r d) (kdegC n e) (kdegC (n + r - 1) (e + d)) (PhiC r coord)).
  { intros k K Hk HK. exists (cub_acts r (zlen k - r) coord k K). split; [intros w v Hin; apply (actsC_deg r d n e coord k K w v Hr Hk HK Hin)|reflexivity]. }
  split; [|split].
  - apply (linop_bilL cls_surj cls_cubical cls_cubical ok_cubical t (attr x) tt tt (surj_cell r d) (kdegC n e) (kdegC (n + r - 1) (e + d)) (PhiC r coord) (fun x z => surj_call_cubical dt x z coord) Ht (kpred_kdegC _ _) B (rep2_local2 _ _ _ _ R) (rep2_zero _ _ _ _ R) x Wx Tx eq_refl Kx).
  - exact (rep_local _ _ _ (rep2_L _ _ _ _ x R Kx)).
  - apply cub_admop.
Qed.
End Ops.

Lemma kz dg n e k : kdeg dg n e k -> zlen k = n. Proof. now intros []. Qed.
(** #C104_simplicial# Iterated diagonals and operations of surjection elements, applied to two different factors of simplicial
    elements, can be done in any order: with the sign (-1)^(d d') for operations of degrees d and d'. *)
Lemma C104_simplicial_l (dt r d r' d' n e i j t t' : Z) (x y : surj) (z : simp) :
  1 <= i -> i < j -> j <= n -> 1 <= r -> 1 <= r' -> 0 <= t -> 0 <= t' ->
  wf cls_surj x -> wf cls_surj y -> wf cls_simplicial z -> torsion x = torsion z -> torsion y = torsion z -> dt_ok dt (torsion z) -> attr x = MS -> attr y = MS ->
  keys_in (surj_cell r d) x -> keys_in (surj_cell r' d') y -> keys_in (fun k => zlen k = n /\ total_degree k = e) z ->
  let diagonal times coord := extended1 dt cls_simplicial (fun u => simp_iterated_diagonal dt u times coord) in
  same (let! u := surj_call_simplicial dt x z i in surj_call_simplicial dt y u (j + r - 1))
       (let! u := surj_call_simplicial dt y z j in let! v := surj_call_simplicial dt x u i in scale dt cls_simplicial (sgn (d * d')) v) /\
  same (let! u := diagonal t i z in diagonal t' (j + t) u) (let! u := diagonal t' j z in diagonal t i u) /\
  same (let! u := diagonal t i z in surj_call_simplicial dt y u (j + t)) (let! u := surj_call_simplicial dt y z j in diagonal t i u) /\
  same (let! u := surj_call_simplicial dt x z i in diagonal t' (j + r - 1) u) (let! u := diagonal t' j z in surj_call_simplicial dt x u i).
Proof.
  intros Hi Hij Hj Hr Hr' Ht Ht' Wx Wy Wz Tx Ty Hdt Ax Ay Kx Ky Kz. cbn zeta. pose proof (proj1 Wz) as H0.
  pose proof (facop_act dt (torsion z) H0 Hdt r d x Hr Wx Tx Ax Kx) as Fx. pose proof (facop_act dt (torsion z) H0 Hdt r' d' y Hr' Wy Ty Ay Ky) as Fy.
  pose proof (facop_diag dt (torsion z) H0 Hdt t Ht) as Ft. pose proof (facop_diag dt (torsion z) H0 Hdt t' Ht') as Ft'.
  split; [|split; [|split]].
  - exact (swap_ops dt (torsion z) H0 Hdt cls_simplicial ok_simplicial spx_dim kdegS r d r' d' i j n e _ _ z Hi Hij Hj Hr Hr' kpred_kdegS (kz _) Fx Fy Wz eq_refl Kz).
  - pose proof (swap_ops1 dt (torsion z) H0 Hdt cls_simplicial ok_simplicial spx_dim kdegS (t + 1) 0 (t' + 1) 0 i j n e _ _ z eq_refl Hi Hij Hj ltac:(lia) ltac:(lia) kpred_kdegS (kz _) Ft Ft' Wz eq_refl Kz) as G.
    replace (j + (t + 1) - 1) with (j + t) in G by lia. exact G.
  - pose proof (swap_ops1 dt (torsion z) H0 Hdt cls_simplicial ok_simplicial spx_dim kdegS (t + 1) 0 r' d' i j n e _ _ z eq_refl Hi Hij Hj ltac:(lia) ltac:(lia) kpred_kdegS (kz _) Ft Fy Wz eq_refl Kz) as G.
    replace (j + (t + 1) - 1) with (j + t) in G by lia. exact G.
  - exact (swap_ops1 dt (torsion z) H0 Hdt cls_simplicial ok_simplicial spx_dim kdegS r d (t' + 1) 0 i j n e _ _ z (Z.mul_0_r d) Hi Hij Hj ltac:(lia) ltac:(lia) kpred_kdegS (kz _) Fx Ft' Wz eq_refl Kz).
Qed.
(** #C104_cubical# The same for cubical elements, in every convention. *)
Lemma C104_cubical_l (dt r d r' d' n e i j t t' : Z) (x y : surj) (z : cubc) :
  1 <= i -> i < j -> j <= n -> 1 <= r -> 1 <= r' -> 0 <= t -> 0 <= t' ->
  wf cls_surj x -> wf cls_surj y -> wf cls_cubical z -> torsion x = torsion z -> torsion y = torsion z -> dt_ok dt (torsion z) ->
  keys_in (surj_cell r d) x -> keys_in (surj_cell r' d') y -> keys_in (fun k => zlen k = n /\ cube_degree k = e) z ->
  let diagonal times coord := extended1 dt cls_cubical (fun u => cub_iterated_diagonal dt u times coord) in
  same (let! u := surj_call_cubical dt x z i in surj_call_cubical dt y u (j + r - 1))
       (let! u := surj_call_cubical dt y z j in let! v := surj_call_cubical dt x u i in scale dt cls_cubical (sgn (d * d')) v) /\
  same (let! u := diagonal t i z in diagonal t' (j + t) u) (let! u := diagonal t' j z in diagonal t i u) /\
  same (let! u := diagonal t i z in surj_call_cubical dt y u (j + t)) (let! u := surj_call_cubical dt y z j in diagonal t i u) /\
  same (let! u := surj_call_cubical dt x z i in diagonal t' (j + r - 1) u) (let! u := diagonal t' j z in surj_call_cubical dt x u i).
Proof.
  intros Hi Hij Hj Hr Hr' Ht Ht' Wx Wy Wz Tx Ty Hdt Kx Ky Kz0. cbn zeta. pose proof (proj1 Wz) as H0.
  assert (Kz : keys_in (kdegC n e) z) by (intros k v Hin; unfold kdeg; rewrite <- cdeg; exact (Kz0 _ _ Hin)).
  pose proof (facop_actC dt (torsion z) H0 Hdt r d x Hr Wx Tx Kx) as Fx. pose proof (facop_actC dt (torsion z) H0 Hdt r' d' y Hr' Wy Ty Ky) as Fy.
  pose proof (facop_diagC dt (torsion z) H0 Hdt t Ht) as Ft. pose proof (facop_diagC dt (torsion z) H0 Hdt t' Ht') as Ft'.
  split; [|split; [|split]].
  - exact (swap_ops dt (torsion z) H0 Hdt cls_cubical ok_cubical cube_dim kdegC r d r' d' i j n e _ _ z Hi Hij Hj Hr Hr' kpred_kdegC (kz _) Fx Fy Wz eq_refl Kz).
  - pose proof (swap_ops1 dt (torsion z) H0 Hdt cls_cubical ok_cubical cube_dim kdegC (t + 1) 0 (t' + 1) 0 i j n e _ _ z eq_refl Hi Hij Hj ltac:(lia) ltac:(lia) kpred_kdegC (kz _) Ft Ft' Wz eq_refl Kz) as G.
    replace (j + (t + 1) - 1) with (j + t) in G by lia. exact G.
  - pose proof (swap_ops1 dt (torsion z) H0 Hdt cls_cubical ok_cubical cube_dim kdegC (t + 1) 0 r' d' i j n e _ _ z eq_refl Hi Hij Hj ltac:(lia) ltac:(lia) kpred_kdegC (kz _) Ft Fy Wz eq_refl Kz) as G.
    replace (j + (t + 1) - 1) with (j + t) in G by lia. exact G.
  - exact (swap_ops1 dt (torsion z) H0 Hdt cls_cubical ok_cubical cube_dim kdegC r d (t' + 1) 0 i j n e _ _ z (Z.mul_0_r d) Hi Hij Hj ltac:(lia) ltac:(lia) kpred_kdegC (kz _) Fx Ft' Wz eq_refl Kz).
Qed.
(** #C104_example# *)
Example C104_example_l :
  let x : surj := mkElt [([1; 2; 1], 1); ([2; 1; 2], 3)] 0 MS in
  let z : simp := mkElt [([[0; 1]; [2; 3; 4]; [0; 1; 2]], 1); ([[0; 1; 2]; [3; 4; 5]; [7; 8]], 2)] 0 tt in
  wf cls_surj x /\ wf cls_simplicial z /\ keys_in (surj_cell 2 1) x /\ keys_in (fun k => zlen k = 3 /\ total_degree k = 5) z /\
  exists u v w, surj_call_simplicial 0 x z 1 = Ok u /\ surj_call_simplicial 0 x u 4 = Ok v /\ surj_call_simplicial 0 x z 3 = Ok w /\ ~ is_zero v /\
    same (surj_call_simplicial 0 x w 1) (scale 0 cls_simplicial (-1) v).
Proof.
  cbv zeta. split; [now apply wfb_wf|]. split; [now apply wfb_wf|]. split; [|split].
  - intros k v [[= <- <-]|[[= <- <-]|[]]]; (split; [|reflexivity]); intros j; cbn; lia.
  - intros k v [[= <- <-]|[[= <- <-]|[]]]; split; reflexivity.
  - eexists. eexists. eexists. split; [vm_compute; reflexivity|]. split; [vm_compute; reflexivity|]. split; [vm_compute; reflexivity|]. split; [discriminate|].
    eexists. eexists. split; [vm_compute; reflexivity|]. split; [vm_compute; reflexivity|]. vm_compute. auto.
Qed.
