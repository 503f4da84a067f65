(** * Contracting homotopies: cycles are boundaries. *)
From Coq Require Import Setoid Morphisms.
From Verif Require Import PyBase Dict FreeModule Symmetric Simplicial Utils Surjection BarrattEccles Eqm Spec SpecChain SpecOperad SpecSurj FreeModuleFacts FreeModuleLaws ListFacts
  ClassFacts LinearFacts SymmetricFacts CycleFacts SymmetricLaws RingFacts RingLaws Tensor TensorAct KoszulFacts LoopFacts ActGeneric SimplicialLaws BEFacts BEOrbit BELaws BEDiag MayFacts BELaws3
  SurjFacts SurjBoundary SurjLaws SurjAct SurjMay.

Section Generic.
Context {K A : Type} `{KO : KeyOk K}.
Variable c : pycls K.
Hypothesis Hc : cls_ok c.
Variables (t : Z) (a : A) (P Q R : K -> Prop).
Variables (Db Db' Dh Dh' : (K -> Z) -> K -> Z) (bnd bnd' h : elt K A -> res (elt K A)).
Hypothesis (Ht : 0 <= t) (HP : kpred P) (HQ : kpred Q) (HR : kpred R).
Hypothesis Lb : linop c c t a a P R Db bnd.      (* boundary of x *)
Hypothesis Rb : rep P R Db.
Hypothesis Lb' : linop c c t a a Q P Db' bnd'.      (* boundary of h x *)
Hypothesis Ab' : admop c c Q P Db'.
Hypothesis Lh : linop c c t a a P Q Dh h.
Hypothesis Rh : rep P Q Dh.
Hypothesis Ah' : admop c c R P Dh'.
(** if the boundary of [x] is zero and the homotopy formula holds on the keys of [x], then [h x] bounds [x] *)
Lemma cycle_bounds x : wf c x -> torsion x = t -> attr x = a -> keys_in P x ->
  (exists z, bnd x = Ok z /\ is_zero z) ->
  (forall g k, admP c P g -> P k -> bad c k = Ok false -> eqm t (Dh (Db' g) k + Db (Dh' g) k) (g k)) ->
  exists y, wf c y /\ torsion y = t /\ attr y = a /\ keys_in Q y /\ same (bnd' y) (Ok x).
Proof.
  intros Wx Tx Ax Kx (z & Ez & Z0) HH. destruct (Lh x Wx Tx Ax Kx) as (y & Ey & Dy & Ky). exists y.
  pose proof (den_wf _ _ _ _ _ Ht Dy) as Wy. split; [exact Wy|]. split; [apply Dy|]. split; [apply Dy|]. split; [exact Ky|].
  pose proof (Lb' y Wy (proj1 Dy) (proj1 (proj2 Dy)) Ky) as Hb'.
  pose proof (den_self c x Wx) as Dx. rewrite Tx, Ax in Dx.
  eapply (same_den c Hc t a _ _); [exact Ht|eapply returns_mono; [exact Hb'|intros w [Hw _]; exact Hw]|apply returns_ok; exact Dx|].
  intros g Hg. cbn beta.
  destruct (local_list P Q Dh (data x) (rep_local _ _ _ Rh) Kx) as (l & Hl1 & Hl2).
  rewrite (den_ev_on c Hc t a _ y Q (Db' g) l HQ Dy Ky).
  2:{ apply Ab'. now apply adm_admP. }
  2:{ intros g' Hg'. apply eqm_eq. apply Hl2. intros k' Hk'. apply Hg'; auto. }
  destruct (Lb x Wx Tx Ax Kx) as (z' & Ez' & Dz & Kz). rewrite Ez in Ez'. injection Ez' as <-.
  destruct (local_list P R Db (data x) (rep_local _ _ _ Rb) Kx) as (l' & Hl1' & Hl2').
  assert (E0 : eqm t (ev (Db (Dh' g)) (data x)) 0).
  { rewrite <- (den_ev_on c Hc t a _ z R (Dh' g) l' HR Dz Kz).
    - red in Z0. rewrite Z0. reflexivity.
    - apply Ah'. now apply adm_admP.
    - intros g' Hg'. apply eqm_eq. apply Hl2'. intros k' Hk'. apply Hg'; auto. }
  transitivity (ev (Dh (Db' g)) (data x) + ev (Db (Dh' g)) (data x)).
  { rewrite E0. apply eqm_eq. ring. }
  rewrite <- ev_add. apply ev_eqm. intros k v Hin. apply HH; [now apply adm_admP|eapply Kx; eauto|]. apply (proj2 (proj2 Wx) _ _ Hin).
Qed.
(** degree zero: the homotopy formula holds up to a term [e g] that does not depend on the key *)
Definition total (x : elt K A) : Z := ev (fun _ => 1) (data x).
Lemma zero_bounds e x : wf c x -> torsion x = t -> attr x = a -> keys_in P x -> (t | total x) ->
  (forall g k, admP c P g -> P k -> bad c k = Ok false -> eqm t (Dh (Db' g) k) (g k - e g)) ->
  exists y, wf c y /\ torsion y = t /\ attr y = a /\ keys_in Q y /\ same (bnd' y) (Ok x).
Proof.
  intros Wx Tx Ax Kx Htot HH. destruct (Lh x Wx Tx Ax Kx) as (y & Ey & Dy & Ky). exists y.
  pose proof (den_wf _ _ _ _ _ Ht Dy) as Wy. split; [exact Wy|]. split; [apply Dy|]. split; [apply Dy|]. split; [exact Ky|].
  pose proof (Lb' y Wy (proj1 Dy) (proj1 (proj2 Dy)) Ky) as Hb'.
  pose proof (den_self c x Wx) as Dx. rewrite Tx, Ax in Dx.
  eapply (same_den c Hc t a _ _); [exact Ht|eapply returns_mono; [exact Hb'|intros w [Hw _]; exact Hw]|apply returns_ok; exact Dx|].
  intros g Hg. cbn beta.
  destruct (local_list P Q Dh (data x) (rep_local _ _ _ Rh) Kx) as (l & Hl1 & Hl2).
  rewrite (den_ev_on c Hc t a _ y Q (Db' g) l HQ Dy Ky).
  2:{ apply Ab'. now apply adm_admP. }
  2:{ intros g' Hg'. apply eqm_eq. apply Hl2. intros k' Hk'. apply Hg'; auto. }
  transitivity (ev (fun k => g k + (- e g) * 1) (data x)).
  { apply ev_eqm. intros k v Hin. rewrite HH; [apply eqm_eq; ring|now apply adm_admP|eapply Kx; eauto|]. apply (proj2 (proj2 Wx) _ _ Hin). }
  rewrite ev_add. assert (E : ev (fun _ => - e g * 1) (data x) = - e g * total x) by (unfold total, ev; rewrite <- sumf_scal; apply sumf_ext; intros; ring). rewrite E.
  destruct Htot as [q ->]. exists (- e g * q). ring.
Qed.
Lemma total_boundary x y : wf c y -> torsion y = t -> attr y = a -> keys_in Q y -> same (bnd' y) (Ok x) -> wf c x ->
  rep Q P Db' -> (forall k, P k -> bad c k <> Ok true) ->
  (forall k, Q k -> Db' (fun _ => 1) k = 0) -> (t | total x).
Proof.
  intros Wy Ty Ay Ky (w & x' & Ew & Ex & E & Et & Ea) Wx Rb' HPb HD. injection Ex as <-.
  destruct (Lb' y Wy Ty Ay Ky) as (w' & Ew' & Dw & Kw). rewrite Ew in Ew'. injection Ew' as <-.
  assert (E1 : eqm t (ev (fun _ => 1) (data w)) 0).
  { destruct (local_list Q P Db' (data y) (rep_local _ _ _ Rb') Ky) as (l & Hl1 & Hl2).
    rewrite (den_ev_on c Hc t a _ w P (fun _ => 1) l HP Dw Kw).
    - rewrite ev_zero; [reflexivity|]. intros k v Hin. apply HD. eapply Ky; eauto.
    - split; [reflexivity|]. intros k Hk Hb. now apply HPb in Hk.
    - intros g' Hg'. apply eqm_eq. apply Hl2. intros k' Hk'. apply Hg'; auto. }
  unfold total. rewrite <- (dict_eqb_ev (fun _ => 1) (data w) (data x)).
  - unfold eqm in E1. now rewrite Z.sub_0_r in E1.
  - intros ? ? ?; reflexivity.
  - apply Dw.
  - apply Wx.
  - exact E.
Qed.
End Generic.

(** ** Barratt-Eccles: prepend the identity *)
Definition Cb (n : Z) (g : bkey -> Z) (k : bkey) : Z := g (idp n :: k).
Definition be_cone (dt n : Z) (x : bee) : res bee :=
  let! answer := zero dt cls_be x in
  for_ (data x) answer (fun answer '(k, v) => add_term dt cls_be answer answer (idp n :: k) v).
Lemma cell_id n d k : 0 <= n -> be_cell n d k -> be_cell n (d + 1) (idp n :: k).
Proof. intros Hn [H1 H2]. split; [|rewrite zlen_cons; lia]. intros p [<-|Hp]; [apply Permutation_refl|auto]. Qed.
Lemma rep_Cb n d : 0 <= n -> rep (be_cell n d) (be_cell n (d + 1)) (Cb n).
Proof.
  intros Hn k Hk. exists [(idp n :: k, 1)]. split.
  - intros k' v [E|[]]. injection E as <- _. now apply cell_id.
  - intros g. rewrite ev_cons, ev_nil. unfold Cb. ring.
Qed.
Lemma linop_Cb dt t n d : 0 <= t -> dt_ok dt t -> 0 <= n -> linop cls_be cls_be t tt tt (be_cell n d) (be_cell n (d + 1)) (Cb n) (be_cone dt n).
Proof.
  intros Ht Hdt Hn. pose proof (rep_Cb n d Hn) as R.
  apply (linop_intro cls_be cls_be ok_be); [exact Ht|apply kpred_bdeg|now apply rep_local|exact (rep_zero _ _ _ R)|].
  intros x Wx Tx Ax Kx. unfold be_cone. eapply returns_bind; [apply (zero_den cls_be ok_be dt t); auto|]. intros ans Hans. rewrite Ax in *.
  eapply returns_mono; [apply (loop_den cls_be ok_be t tt (data x) _ (fun k g => Cb n g k)); [|exact Hans]|].
  - intros k v F y Hin Dy. eapply (add_term_den cls_be ok_be dt t); auto; [now destruct Dy|]. apply be_okey.
  - intros z Hz. eapply den_ext; [|exact Hz]. intros g _. cbn beta. apply eqm_eq. rewrite Z.add_0_l. reflexivity.
Qed.
Lemma adm_Cb n d : 0 <= n -> 0 <= d -> admop cls_be cls_be (be_cell n d) (be_cell n (d + 1)) (Cb n).
Proof.
  intros Hn Hd g [_ Hg]. apply admP_keyeq. intros k Hk Hb. unfold Cb. apply Hg; [now apply cell_id|].
  rewrite be_bad in *. f_equal. injection Hb as Hb. destruct k as [|p k]; [destruct Hk as [_ Hk]; rewrite zlen_nil in Hk; lia|].
  apply bdup_bad. now apply bdup_tl.
Qed.
(** ** Barratt-Eccles *)
Lemma be_cycle_bounds dt n d (x : bee) : wf cls_be x -> dt_ok dt (torsion x) -> 0 <= n -> 1 <= d -> keys_in (be_cell n d) x ->
  (exists z, be_boundary dt x = Ok z /\ is_zero z) ->
  exists y, wf cls_be y /\ torsion y = torsion x /\ keys_in (be_cell n (d + 1)) y /\ same (be_boundary dt y) (Ok x).
Proof.
  intros Wx Hdt Hn Hd Kx Z0. pose proof (proj1 Wx) as Ht.
  assert (F1 : face_closed (be_cell n (d + 1)) (be_cell n d)) by (pose proof (face_deg n (d + 1)) as F; now rewrite Z.add_simpl_r in F).
  pose proof (adm_Cb n (d - 1) Hn ltac:(lia)) as A1. replace (d - 1 + 1) with d in A1 by lia.
  destruct (cycle_bounds cls_be ok_be (torsion x) tt (be_cell n d) (be_cell n (d + 1)) (be_cell n (d - 1)) fdB fdB (Cb n) (Cb n) (be_boundary dt) (be_boundary dt) (be_cone dt n)
    Ht (kpred_bdeg _ _) (kpred_bdeg _ _) (linop_beb dt (torsion x) _ _ Ht Hdt (kpred_bdeg _ _) (face_deg n d)) (rep_fdB _ _ (face_deg n d))
    (linop_beb dt (torsion x) _ _ Ht Hdt (kpred_bdeg _ _) F1) (adm_fdB _ _ F1) (linop_Cb dt (torsion x) n d Ht Hdt Hn) (rep_Cb n d Hn) A1 x Wx eq_refl (be_attr x) Kx Z0) as (y & H1 & H2 & _ & H3 & H4).
  - intros g k _ _ _. apply eqm_eq. unfold Cb at 1. rewrite fdB_cons. unfold Cb. ring.
  - eauto.
Qed.
Lemma be_zero_bounds dt n (x : bee) : wf cls_be x -> dt_ok dt (torsion x) -> 0 <= n -> keys_in (be_cell n 0) x ->
  ((exists y, wf cls_be y /\ torsion y = torsion x /\ keys_in (be_cell n 1) y /\ same (be_boundary dt y) (Ok x)) <-> (torsion x | total x)).
Proof.
  intros Wx Hdt Hn Kx. pose proof (proj1 Wx) as Ht.
  assert (F1 : face_closed (be_cell n 1) (be_cell n 0)) by exact (face_deg n 1).
  pose proof (linop_beb dt (torsion x) _ _ Ht Hdt (kpred_bdeg _ _) F1) as L. split.
  - intros (y & Wy & Ty & Ky & E).
    refine (total_boundary cls_be ok_be (torsion x) tt (be_cell n 0) (be_cell n 1) fdB (be_boundary dt) (kpred_bdeg _ _) L x y Wy Ty (be_attr y) Ky E Wx (rep_fdB _ _ F1) _ _).
    + intros k [_ L0] Hb. rewrite be_bad in Hb. injection Hb as Hb. destruct k as [|p [|q k]]; [now rewrite zlen_nil in L0|discriminate|rewrite !zlen_cons in L0; pose proof (zlen_nonneg k); lia].
    + intros k [_ L0]. destruct k as [|p [|q [|r k]]]; [now rewrite zlen_nil in L0|discriminate|reflexivity|rewrite !zlen_cons in L0; pose proof (zlen_nonneg k); lia].
  - intros Htot.
    destruct (zero_bounds cls_be ok_be (torsion x) tt (be_cell n 0) (be_cell n 1) fdB (Cb n) (be_boundary dt) (be_cone dt n) Ht (kpred_bdeg _ _)
      L (adm_fdB _ _ F1) (linop_Cb dt (torsion x) n 0 Ht Hdt Hn) (rep_Cb n 0 Hn) (fun g => g [idp n]) x Wx eq_refl (be_attr x) Kx Htot) as (y & H1 & H2 & _ & H3 & H4).
    + intros g k _ [_ L0] _. destruct k as [|p [|q k]]; [now rewrite zlen_nil in L0| |rewrite !zlen_cons in L0; pose proof (zlen_nonneg k); lia].
      apply eqm_eq. unfold Cb. rewrite !fdB_cons. cbn [app]. change (fdB (fun u => g (idp n :: p :: u)) []) with 0. ring.
    + eauto.
Qed.
(** ** surjections *)
Definition surj_cone (dt n : Z) (x : surj) : res surj := if n <=? 1 then zero dt cls_surj x else ms_h dt n x.
Lemma rep_Hc n d : 1 <= n -> rep (surj_cell n d) (surj_cell n (d + 1)) (Hh (Z.to_nat (n - 1))).
Proof. intros Hn. exact (rep_sub _ _ _ _ (fun k H => proj1 H) (rep_Hh (Z.to_nat (n - 1)) n d ltac:(lia))). Qed.
Lemma linop_cone dt t cv n d : 0 <= t -> dt_ok dt t -> 1 <= n -> linop cls_surj cls_surj t cv cv (surj_cell n d) (surj_cell n (d + 1)) (Hh (Z.to_nat (n - 1))) (surj_cone dt n).
Proof.
  intros Ht Hdt Hn x Wx Tx Ax Kx. unfold surj_cone. destruct (n <=? 1) eqn:E.
  - apply Z.leb_le in E. assert (n = 1) by lia. subst n.
    pose proof (rep_Hc 1 d Hn) as R.
    refine (linop_intro cls_surj cls_surj ok_surj t cv cv (surj_cell 1 d) _ _ (zero dt cls_surj) Ht (kpred_cell _ _) (rep_local _ _ _ R) (rep_zero _ _ _ R) _ x Wx Tx Ax Kx).
    intros x0 W0 T0 A0 K0. eapply returns_mono; [apply (zero_den cls_surj ok_surj dt t); auto|]. intros y Dy. rewrite A0 in Dy. eapply den_ext; [|exact Dy].
    intros g _. apply eqm_eq. symmetry. apply ev_zero. intros k v _. reflexivity.
  - apply Z.leb_gt in E. exact (linop_h dt t cv Ht Hdt n d ltac:(lia) x Wx Tx Ax Kx).
Qed.
Lemma sface_cell n d d' : d' = d - 1 -> sface_closed (surj_cell n d) (surj_cell n d').
Proof. intros -> k k' [Hk Lk] L Sk. split; [|lia]. intros j. rewrite Sk. apply Hk. Qed.
Lemma cell_ne n d k : 1 <= n -> surj_cell n d k -> k <> []. Proof. intros Hn [Hk _]. now apply (onto_ne n). Qed.
Lemma adm_adj n d g : 1 <= n -> admP cls_surj (surj_cell n d) g -> forall u, surj_cell n d u -> adj u = true -> g u = 0.
Proof. intros Hn [_ Hg] u Hu Au. apply Hg; [exact Hu|]. cbn [bad cls_surj]. rewrite (surj_bad_onto n) by (try lia; apply Hu). now rewrite Au. Qed.
Lemma surj_cycle_bounds dt n d (x : surj) : wf cls_surj x -> dt_ok dt (torsion x) -> known (attr x) (torsion x) -> 1 <= n -> 1 <= d -> keys_in (surj_cell n d) x ->
  (exists z, surj_boundary dt x = Ok z /\ is_zero z) ->
  exists y, wf cls_surj y /\ torsion y = torsion x /\ attr y = attr x /\ keys_in (surj_cell n (d + 1)) y /\ same (surj_boundary dt y) (Ok x).
Proof.
  intros Wx Hdt HK Hn Hd Kx Z0. pose proof (proj1 Wx) as Ht. set (cv := attr x) in *. set (m := Z.to_nat (n - 1)).
  pose proof (sface_cell n d (d - 1) eq_refl) as F0. pose proof (sface_cell n (d + 1) d ltac:(lia)) as F1.
  pose proof (adm_Hh m n (d - 1) Hn ltac:(lia)) as A1. replace (d - 1 + 1) with d in A1 by lia.
  refine (cycle_bounds cls_surj ok_surj (torsion x) cv (surj_cell n d) (surj_cell n (d + 1)) (surj_cell n (d - 1)) (sd cv) (sd cv) (Hh m) (Hh m) (surj_boundary dt) (surj_boundary dt) (surj_cone dt n)
    Ht (kpred_cell _ _) (kpred_cell _ _) (linop_sb dt (torsion x) cv _ _ Ht Hdt HK (kpred_cell _ _) F0) (rep_sd cv _ _ F0)
    (linop_sb dt (torsion x) cv _ _ Ht Hdt HK (kpred_cell _ _) F1) (adm_sd cv _ _ F1 (fun k => cell_ne n (d + 1) k Hn)) (linop_cone dt (torsion x) cv n d Ht Hdt Hn) (rep_Hc n d Hn) A1 x Wx eq_refl eq_refl Kx Z0 _).
  intros g k Hg Hk _. apply eqm_eq. rewrite (Hh_sd cv m n) by (try apply Hk; unfold m; lia).
  unfold m. rewrite (last_term n d g k Hn Hk Hd); [ring|]. now apply adm_adj.
Qed.
Lemma cell0_nodup n k : 0 <= n -> surj_cell n 0 k -> NoDup k.
Proof.
  intros Hn [Hk Lk]. apply (@NoDup_incl_NoDup Z (zrange 1 (n + 1))).
  - apply NoDup_zrange.
  - assert (E : zlen k = zlen (zrange 1 (n + 1))) by (rewrite zlen_zrange; lia). unfold zlen in E. lia.
  - intros j Hj. apply in_zrange in Hj. apply Hk. lia.
Qed.
Lemma sd_nodup cv n g k : 0 <= n -> surj_cell n 0 k -> sd cv g k = 0.
Proof. intros Hn Hk. unfold sd. rewrite bfd_nodup; [ring|]. now apply (cell0_nodup n). Qed.
Lemma nodup_adj (k : list Z) : NoDup k -> adj k = false.
Proof.
  induction k as [|a k IH]; intros N; [reflexivity|]. destruct k as [|b k]; [reflexivity|]. rewrite adj_cons2. inversion_clear N as [|? ? N1 N2]. rewrite IH by exact N2. rewrite orb_false_r.
  apply Z.eqb_neq. intros ->. apply N1. now left.
Qed.
Lemma Hh_sd_0 cv n g k : 1 <= n -> surj_cell n 0 k -> Hh (Z.to_nat (n - 1)) (sd cv g) k = g k - Ir (Z.to_nat (n - 1)) g [1].
Proof.
  intros Hn Hk. pose proof (Hh_sd cv (Z.to_nat (n - 1)) n g k ltac:(lia) (proj1 Hk)) as E. rewrite (sd_nodup cv n) in E by (auto; lia).
  rewrite (Pr_word (Z.to_nat (n - 1)) k (Ir (Z.to_nat (n - 1)) g)) in E; [lia| |]; replace (Z.of_nat (Z.to_nat (n - 1)) + 1) with n by lia; [apply Hk|destruct Hk; lia].
Qed.
Lemma Ir_const r c k : Ir r (fun _ => c) k = c.
Proof. revert k. induction r as [|r IH]; intros k; [reflexivity|]. cbn [Ir]. apply IH. Qed.
Lemma sd_const cv n k : 1 <= n -> surj_cell n 1 k -> sd cv (fun _ => 1) k = 0.
Proof.
  intros Hn Hk. set (m := Z.to_nat (n - 1)). pose proof (Hh_sd cv m n (sd cv (fun _ => 1)) k ltac:(lia) (proj1 Hk)) as E.
  unfold m in E. rewrite (last_term n 1 _ k Hn Hk ltac:(lia)) in E. fold m in E.
  2:{ apply (adm_adj n 1 _ Hn). apply (adm_sd cv _ _ (sface_cell n 1 0 eq_refl) (fun k => cell_ne n 1 k Hn)). apply admP_keyeq. intros u Hu Hb. exfalso.
      cbn [bad cls_surj] in Hb. rewrite (surj_bad_onto n) in Hb by (try lia; apply Hu). rewrite nodup_adj in Hb; [discriminate|]. apply (cell0_nodup n); [lia|exact Hu]. }
  assert (E1 : sd cv (Hh m (sd cv (fun _ => 1))) k = 0).
  { rewrite sd_ev. apply ev_zero. intros u s Hin. apply sdl_in in Hin. destruct Hin as [L Su].
    assert (Hu : surj_cell n 0 u). { destruct Hk as [Hk Lk]. split; [|lia]. intros j. rewrite Su. apply Hk. }
    unfold m. rewrite Hh_sd_0 by assumption. rewrite Ir_const. reflexivity. }
  rewrite E1 in E. assert (E2 : Hh m (sd cv (sd cv (fun _ => 1))) k = 0).
  { assert (G : forall g h k, (forall u, g u = h u) -> Hh m g k = Hh m h k).
    { destruct (rep_Hc n 1 Hn k Hk) as (T & _ & _). clear. intros g h k E. revert k. induction m as [|r IH]; intros k; [reflexivity|]. cbn [Hh]. f_equal; [apply IH|].
      assert (GI : forall r v, Ir r g v = Ir r h v). { clear -E. induction r as [|r IH]; intros v; [apply E|]. cbn [Ir]. unfold Ii. apply IH. }
      assert (GP : forall r g h v, (forall u, g u = h u) -> Pr r g v = Pr r h v). { clear. induction r as [|r IH]; intros g h v E; [apply E|]. cbn [Pr]. apply U_ext. intros. now apply IH. }
      apply GP. intros u. unfold Ss. apply GI. }
    rewrite (G _ (fun _ => 0)) by (intros; apply sd_sd). destruct (rep_Hc n 1 Hn k Hk) as (T & _ & HT). fold m in HT. rewrite HT. apply ev_zero. reflexivity. }
  lia.
Qed.
Lemma surj_zero_bounds dt n (x : surj) : wf cls_surj x -> dt_ok dt (torsion x) -> known (attr x) (torsion x) -> 1 <= n -> keys_in (surj_cell n 0) x ->
  ((exists y, wf cls_surj y /\ torsion y = torsion x /\ attr y = attr x /\ keys_in (surj_cell n 1) y /\ same (surj_boundary dt y) (Ok x)) <-> (torsion x | total x)).
Proof.
  intros Wx Hdt HK Hn Kx. pose proof (proj1 Wx) as Ht. set (cv := attr x) in *.
  pose proof (sface_cell n 1 0 eq_refl) as F1. pose proof (linop_sb dt (torsion x) cv _ _ Ht Hdt HK (kpred_cell _ _) F1) as L. split.
  - intros (y & Wy & Ty & Ay & Ky & E).
    refine (total_boundary cls_surj ok_surj (torsion x) cv (surj_cell n 0) (surj_cell n 1) (sd cv) (surj_boundary dt) (kpred_cell _ _) L x y Wy Ty Ay Ky E Wx (rep_sd cv _ _ F1) _ _).
    + intros k Hk. cbn [bad cls_surj]. rewrite (surj_bad_onto n) by (try lia; apply Hk). rewrite nodup_adj; [discriminate|]. apply (cell0_nodup n); [lia|exact Hk].
    + intros k Hk. now apply (sd_const cv n).
  - intros Htot.
    refine (zero_bounds cls_surj ok_surj (torsion x) cv (surj_cell n 0) (surj_cell n 1) (sd cv) (Hh (Z.to_nat (n - 1))) (surj_boundary dt) (surj_cone dt n) Ht (kpred_cell _ _)
      L (adm_sd cv _ _ F1 (fun k => cell_ne n 1 k Hn)) (linop_cone dt (torsion x) cv n 0 Ht Hdt Hn) (rep_Hc n 0 Hn) (fun g => Ir (Z.to_nat (n - 1)) g [1]) x Wx eq_refl eq_refl Kx Htot _).
    intros g k _ Hk _. apply eqm_eq. now apply Hh_sd_0.
Qed.
