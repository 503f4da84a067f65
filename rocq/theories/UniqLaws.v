(** * Uniqueness of equivariant sequences up to equivariant homotopy (C111) *)
From Coq Require Import Setoid Morphisms.
From Verif Require Import PyBase Dict FreeModule Symmetric Simplicial Utils Surjection BarrattEccles Eqm Spec SpecChain SpecOperad SpecSurj SpecUniq FreeModuleFacts FreeModuleLaws ListFacts
  ClassFacts LinearFacts SymmetricFacts CycleFacts SymmetricLaws RingFacts RingLaws Tensor TensorAct KoszulFacts LoopFacts ActGeneric SimplicialLaws BEFacts BEOrbit BELaws BEDiag MayFacts BELaws3
  SurjFacts SurjBoundary SurjLaws SurjAct SurjMay SurjLaws2 SurjLaws5 CongFacts HtpyLaws AcyclicFacts AcyclicLaws PerExact PerUniq PerLaws.
Lemma aug_S n cv : 0 <= n -> forall p k, perm n p -> surj_cell n 0 k ->
  PactS cv (fun k => match bad cls_surj k with Ok true => 0 | _ => 1 end) (SGE p) k = match bad cls_surj k with Ok true => 0 | _ => 1 end.
Proof.
  intros Hn p k Hp Hk. assert (Hk' : surj_cell n 0 (map (image p) k)) by now apply cell_move.
  assert (B : forall u, surj_cell n 0 u -> match bad cls_surj u with Ok true => 0 | _ => 1 end = 1).
  { intros u Hu. assert (Q : 0 < n \/ n = 0) by lia. destruct Q as [Q|Q].
    - cbn [bad cls_surj]. rewrite (surj_bad_onto n) by (try lia; apply Hu). now rewrite (nodup_adj u) by now apply (cell0_nodup n).
    - destruct Hu as [_ L]. destruct u as [|a u]; [reflexivity|]. rewrite zlen_cons in L. pose proof (zlen_nonneg u). lia. }
  change (asg cv p k * match bad cls_surj (map (image p) k) with Ok true => 0 | _ => 1 end = match bad cls_surj k with Ok true => 0 | _ => 1 end).
  rewrite !B by assumption. unfold asg. rewrite !tw_nodup by (now apply (cell0_nodup n)). reflexivity.
Qed.
Lemma aug_B n : 0 <= n -> forall p k, perm n p -> be_cell n 0 k ->
  PactB (fun k => match bad cls_be k with Ok true => 0 | _ => 1 end) (SGE p) k = match bad cls_be k with Ok true => 0 | _ => 1 end.
Proof.
  intros Hn p k Hp [Hk L]. destruct k as [|q [|q' k]].
  - reflexivity.
  - assert (B : forall q : list Z, bad cls_be [q] = Ok false) by (intros q'; rewrite be_bad; f_equal). change (match bad cls_be [pmul p q] with Ok true => 0 | _ => 1 end = match bad cls_be [q] with Ok true => 0 | _ => 1 end). now rewrite !B.
  - rewrite !zlen_cons in L. pose proof (zlen_nonneg k). lia.
Qed.
(** #C111_surjection# In the surjection complex, in both conventions. *)
Lemma C111_surjection_l (dt n t : Z) (cv : conv) (N : nat) (psi psi' : nat -> surj) : 2 <= n -> 0 <= t -> t <> 1 -> dt_ok dt t -> cv = BF \/ cv = MS ->
  equivariant_sequence cls_surj (surj_cell n) (surj_boundary dt) (extended dt cls_surj (surj_act dt)) dt n t cv N psi ->
  equivariant_sequence cls_surj (surj_cell n) (surj_boundary dt) (extended dt cls_surj (surj_act dt)) dt n t cv N psi' ->
  ((t | zsum (map snd (data (psi 0%nat))) - zsum (map snd (data (psi' 0%nat)))) <->
   exists h, equivariant_homotopy cls_surj (surj_cell n) (surj_boundary dt) (extended dt cls_surj (surj_act dt)) dt n t cv N psi psi' h).
Proof.
  intros Hn Ht Nt Hdt Hcv (G1 & S1) (G2 & S2). assert (Hn0 : 0 <= n) by lia. assert (Hn1 : 1 <= n) by lia.
  assert (HK : known cv t) by (destruct Hcv; unfold known; auto).
  refine (uniq_iff cls_surj ok_surj cv dt n Hn (onto n) (kpred_onto n) (extended dt cls_surj (surj_act dt)) (PactS cv) t Ht Nt Hdt
    (bil_sact dt cv Hcv n t Hn1 Ht Hdt) (rep_sact cv n Hn0) (adm_sact cv n Hn1) _ _ (surj_boundary dt) (sd cv)
    (linop_sb dt t cv _ _ Ht Hdt HK (kpred_onto n) (sface_onto n)) (rep_sd cv _ _ (sface_onto n)) (adm_sd cv _ _ (sface_onto n) (fun k => onto_ne n k Hn1)) _
    (surj_cell n) (fun d k Hk => proj1 Hk) (kpred_cell n) _ _ _ psi psi' N _ _).
  - intros g k2 k2' k1 E. unfold PactS. now rewrite E.
  - intros g p q k Hp Hq Hk. change (asg cv q k * (asg cv p (map (image q) k) * g (map (image p) (map (image q) k))) = asg cv (pmul p q) k * g (map (image (pmul p q)) k)). rewrite (asg_mul n cv p q k) by assumption. rewrite (map_move n p q k) by assumption. ring.
  - intros g k2 k H2 Hk. unfold PactS. now apply (sd_move n).
  - intros u d x y Wu Tu Ku Wx Tx Ax Kx E. rewrite <- Tx in Hdt, Tu. rewrite <- Ax in Hcv.
    destruct (C46_degree_l dt n d u x Hn1 Wu Wx Tu Hdt Hcv (rpk_pk n u Ku) Kx) as (y' & E' & _ & _ & _ & Ky). rewrite E in E'. injection E' as <-. exact Ky.
  - intros d z Hd (Wz & Tz & Az & Kz) Hb. rewrite <- Tz in Hdt. destruct (C69_surjection_l dt n d z Hn1 Hd Wz Hdt ltac:(rewrite Az; tauto) Kz Hb) as (y & Wy & Ty & Ay & Ky & Sy). exists y. split; [|exact Sy]. split; [exact Wy|]. split; [congruence|]. split; [congruence|exact Ky].
  - intros z (Wz & Tz & Az & Kz). rewrite <- Tz in Hdt. pose proof (C69_surjection_zero_l dt n z Hn1 Wz Hdt ltac:(rewrite Az; tauto) Kz) as Q0. rewrite Tz, Az in Q0. rewrite <- Q0. split.
    + intros (y & (Wy & Ty & Ay & Ky) & Sy). exists y. tauto.
    + intros (y & Wy & Ty & Ay & Ky & Sy). exists y. split; [|exact Sy]. split; [exact Wy|]. split; [exact Ty|]. split; [exact Ay|exact Ky].
  - intros d Hd. split; [now apply G1|now apply G2].
  - intros d Hd. split; [now apply S1|now apply S2].
Qed.
(** #C111_barratt_eccles# In the Barratt-Eccles complex. *)
Lemma C111_barratt_eccles_l (dt n t : Z) (N : nat) (psi psi' : nat -> bee) : 2 <= n -> 0 <= t -> t <> 1 -> dt_ok dt t ->
  equivariant_sequence cls_be (be_cell n) (be_boundary dt) (extended dt cls_be (be_act dt)) dt n t tt N psi ->
  equivariant_sequence cls_be (be_cell n) (be_boundary dt) (extended dt cls_be (be_act dt)) dt n t tt N psi' ->
  ((t | zsum (map snd (data (psi 0%nat))) - zsum (map snd (data (psi' 0%nat)))) <->
   exists h, equivariant_homotopy cls_be (be_cell n) (be_boundary dt) (extended dt cls_be (be_act dt)) dt n t tt N psi psi' h).
Proof.
  intros Hn Ht Nt Hdt (G1 & S1) (G2 & S2). assert (Hn0 : 0 <= n) by lia. assert (Hn1 : 1 <= n) by lia.
  assert (HP : forall d (x : bee), (let! u := periodic_element dt n t d in extended dt cls_be (be_act dt) u x) = (let! u := ma dt n d (Some t) in extended dt cls_be (bact dt) u x)).
  { intros d x. unfold periodic_element. change (if Nat.even d then norm_element dt n (Some t) else transposition_element dt n (Some t)) with (ma dt n d (Some t)). destruct (ma_den dt n t d (Some t) eq_refl Hn Ht Nt Hdt) as (u & E & _ & Ku). rewrite E. cbn [bind]. apply be_act0_bact0. eapply rpk_sge. exact Ku. }
  assert (PC : forall d p k, perm n p -> be_cell n d k -> be_cell n d (map (pmul p) k)) by (intros d p k Hp [Hk L]; split; [now apply bsim_move|rewrite <- L; apply zlen_map]).
  assert (Q := uniq_iff cls_be ok_be tt dt n Hn (be_simplex n) (kpred_bsim n) (extended dt cls_be (bact dt)) PactB t Ht Nt Hdt
    (bil_bact dt n t Hn1 Ht Hdt) (rep_bact n Hn0) (adm_bact n Hn0)
    ltac:(intros g k2 k2' k1 E; unfold PactB; now rewrite E)
    ltac:(intros g p q k Hp Hq Hk; change (g (map (pmul p) (map (pmul q) k)) = g (map (pmul (pmul p q)) k)); f_equal; rewrite map_map; apply map_ext_in; intros r Hr; apply Hk in Hr; symmetry; now apply (pmul_assoc n))
    (be_boundary dt) fdB (linop_beb dt t _ _ Ht Hdt (kpred_bsim n) (face_sim n)) (rep_fdB _ _ (face_sim n)) (adm_fdB _ _ (face_sim n))
    ltac:(intros g k2 k _ _; unfold PactB; apply fdB_map)
    (be_cell n) (fun d k Hk => proj1 Hk) (kpred_bdeg n)).
  assert (X1 : forall u d (x y : bee), wf cls_ring u -> torsion u = t -> keys_in (rpk n) u -> wf cls_be x -> torsion x = t -> attr x = tt -> keys_in (be_cell n d) x ->
    extended dt cls_be (bact dt) u x = Ok y -> keys_in (be_cell n d) y).
  { intros u d x y Wu Tu Ku Wx Tx Ax Kx E.
    assert (Bil := bilop_sub cls_be t tt _ (be_cell n d) PactB n _ (fun k Hk => proj1 Hk) (bil_bact dt n t Hn1 Ht Hdt)).
    assert (KK : keys_in (pk n) u) by exact (rpk_pk n u Ku).
    eapply (ga_keys cls_be ok_be tt n (be_cell n d) (kpred_bdeg n d) _ PactB t Ht Bil) with (o := u) (x := x); auto.
    apply rep_bact_on; auto. }
  assert (X2 : forall d z, 1 <= d -> good cls_be tt t (be_cell n) d z -> (exists w, be_boundary dt z = Ok w /\ is_zero w) -> exists y, good cls_be tt t (be_cell n) (d + 1) y /\ same (be_boundary dt y) (Ok z)).
  { intros d z Hd (Wz & Tz & Az & Kz) Hb. rewrite <- Tz in Hdt. destruct (C69_barratt_eccles_l dt n d z Hn0 Hd Wz Hdt Kz Hb) as (y & Wy & Ty & Ky & Sy). exists y. split; [|exact Sy].
    split; [exact Wy|]. split; [congruence|]. split; [apply be_attr|exact Ky]. }
  assert (X3 : forall z, good cls_be tt t (be_cell n) 0 z -> ((exists y, good cls_be tt t (be_cell n) 1 y /\ same (be_boundary dt y) (Ok z)) <-> (t | zsum (map snd (data z))))).
  { intros z (Wz & Tz & Az & Kz). rewrite <- Tz in Hdt. pose proof (C69_barratt_eccles_zero_l dt n z Hn0 Wz Hdt Kz) as Q0. rewrite Tz in Q0. rewrite <- Q0. split.
    - intros (y & (Wy & Ty & Ay & Ky) & Sy). exists y. tauto.
    - intros (y & Wy & Ty & Ky & Sy). exists y. split; [|exact Sy]. split; [exact Wy|]. split; [exact Ty|]. split; [apply be_attr|exact Ky]. }
  specialize (Q X1 X2 X3 psi psi' N). unfold equivariant_homotopy. unfold homs in Q. rewrite Q.
  - split; intros (h & H1 & H2 & H3); exists h; (split; [exact H1|]; split; [exact H2|]); intros d Hd; [rewrite HP|rewrite <- HP]; now apply H3.
  - intros d Hd. split; [now apply G1|now apply G2].
  - intros d Hd. rewrite <- !HP. split; [now apply S1|now apply S2].
Qed.
(** #C111_existence_surjection# Every element of degree 0 of the surjection complex starts such a sequence. *)
Lemma C111_existence_surjection_l (dt n t : Z) (cv : conv) (N : nat) (x : surj) : 2 <= n -> 0 <= t -> t <> 1 -> dt_ok dt t -> cv = BF \/ cv = MS ->
  wf cls_surj x -> torsion x = t -> attr x = cv -> keys_in (surj_cell n 0) x ->
  exists psi, psi 0%nat = x /\ equivariant_sequence cls_surj (surj_cell n) (surj_boundary dt) (extended dt cls_surj (surj_act dt)) dt n t cv N psi.
Proof.
  intros Hn Ht Nt Hdt Hcv Wx Tx Ax Kx. assert (Hn0 : 0 <= n) by lia. assert (Hn1 : 1 <= n) by lia.
  assert (HK : known cv t) by (destruct Hcv; unfold known; auto).
  refine (seq_ex cls_surj ok_surj cv dt n Hn (onto n) (kpred_onto n) (extended dt cls_surj (surj_act dt)) (PactS cv) t Ht Nt Hdt
    (bil_sact dt cv Hcv n t Hn1 Ht Hdt) (rep_sact cv n Hn0) (adm_sact cv n Hn1) _ _ (surj_boundary dt) (sd cv)
    (linop_sb dt t cv _ _ Ht Hdt HK (kpred_onto n) (sface_onto n)) (rep_sd cv _ _ (sface_onto n)) (adm_sd cv _ _ (sface_onto n) (fun k => onto_ne n k Hn1)) _
    (surj_cell n) (fun d k Hk => proj1 Hk) _ _ _ (aug_S n cv Hn0) x N _).
  - intros g k2 k2' k1 E. unfold PactS. now rewrite E.
  - intros g p q k Hp Hq Hk. change (asg cv q k * (asg cv p (map (image q) k) * g (map (image p) (map (image q) k))) = asg cv (pmul p q) k * g (map (image (pmul p q)) k)). rewrite (asg_mul n cv p q k) by assumption. rewrite (map_move n p q k) by assumption. ring.
  - intros g k2 k H2 Hk. unfold PactS. now apply (sd_move n).
  - intros u d x' y Wu Tu Ku Wx' Tx' Ax' Kx' E. rewrite <- Tx' in Hdt, Tu. rewrite <- Ax' in Hcv.
    destruct (C46_degree_l dt n d u x' Hn1 Wu Wx' Tu Hdt Hcv (rpk_pk n u Ku) Kx') as (y' & E' & _ & _ & _ & Ky). rewrite E in E'. injection E' as <-. exact Ky.
  - intros d z Hd (Wz & Tz & Az & Kz) Hb. rewrite <- Tz in Hdt. destruct (C69_surjection_l dt n d z Hn1 Hd Wz Hdt ltac:(rewrite Az; tauto) Kz Hb) as (y & Wy & Ty & Ay & Ky & Sy). exists y. split; [|exact Sy]. split; [exact Wy|]. split; [congruence|]. split; [congruence|exact Ky].
  - intros z (Wz & Tz & Az & Kz). rewrite <- Tz in Hdt. pose proof (C69_surjection_zero_l dt n z Hn1 Wz Hdt ltac:(rewrite Az; tauto) Kz) as Q0. rewrite Tz, Az in Q0. rewrite <- Q0. split.
    + intros (y & (Wy & Ty & Ay & Ky) & Sy). exists y. tauto.
    + intros (y & Wy & Ty & Ay & Ky & Sy). exists y. split; [|exact Sy]. split; [exact Wy|]. split; [exact Ty|]. split; [exact Ay|exact Ky].
  - split; [exact Wx|]. split; [exact Tx|]. split; [exact Ax|exact Kx].
Qed.
(** #C111_existence_barratt_eccles# The same in the Barratt-Eccles complex. *)
Lemma C111_existence_barratt_eccles_l (dt n t : Z) (N : nat) (x : bee) : 2 <= n -> 0 <= t -> t <> 1 -> dt_ok dt t ->
  wf cls_be x -> torsion x = t -> keys_in (be_cell n 0) x ->
  exists psi, psi 0%nat = x /\ equivariant_sequence cls_be (be_cell n) (be_boundary dt) (extended dt cls_be (be_act dt)) dt n t tt N psi.
Proof.
  intros Hn Ht Nt Hdt Wx Tx Kx. assert (Hn0 : 0 <= n) by lia. assert (Hn1 : 1 <= n) by lia.
  assert (HP : forall d (x0 : bee), (let! u := periodic_element dt n t d in extended dt cls_be (be_act dt) u x0) = (let! u := ma dt n d (Some t) in extended dt cls_be (bact dt) u x0)).
  { intros d x0. unfold periodic_element. change (if Nat.even d then norm_element dt n (Some t) else transposition_element dt n (Some t)) with (ma dt n d (Some t)). destruct (ma_den dt n t d (Some t) eq_refl Hn Ht Nt Hdt) as (u & E & _ & Ku). rewrite E. cbn [bind]. apply be_act0_bact0. eapply rpk_sge. exact Ku. }
  assert (PC : forall d p k, perm n p -> be_cell n d k -> be_cell n d (map (pmul p) k)) by (intros d p k Hp [Hk L]; split; [now apply bsim_move|rewrite <- L; apply zlen_map]).
  assert (Q := seq_ex cls_be ok_be tt dt n Hn (be_simplex n) (kpred_bsim n) (extended dt cls_be (bact dt)) PactB t Ht Nt Hdt
    (bil_bact dt n t Hn1 Ht Hdt) (rep_bact n Hn0) (adm_bact n Hn0)
    ltac:(intros g k2 k2' k1 E; unfold PactB; now rewrite E)
    ltac:(intros g p q k Hp Hq Hk; change (g (map (pmul p) (map (pmul q) k)) = g (map (pmul (pmul p q)) k)); f_equal; rewrite map_map; apply map_ext_in; intros r Hr; apply Hk in Hr; symmetry; now apply (pmul_assoc n))
    (be_boundary dt) fdB (linop_beb dt t _ _ Ht Hdt (kpred_bsim n) (face_sim n)) (rep_fdB _ _ (face_sim n)) (adm_fdB _ _ (face_sim n))
    ltac:(intros g k2 k _ _; unfold PactB; apply fdB_map)
    (be_cell n) (fun d k Hk => proj1 Hk)).
  assert (X1 : forall u d (x y : bee), wf cls_ring u -> torsion u = t -> keys_in (rpk n) u -> wf cls_be x -> torsion x = t -> attr x = tt -> keys_in (be_cell n d) x ->
    extended dt cls_be (bact dt) u x = Ok y -> keys_in (be_cell n d) y).
  { intros u d x' y Wu Tu Ku Wx' Tx' Ax' Kx' E.
    assert (Bil := bilop_sub cls_be t tt _ (be_cell n d) PactB n _ (fun k Hk => proj1 Hk) (bil_bact dt n t Hn1 Ht Hdt)).
    assert (KK : keys_in (pk n) u) by exact (rpk_pk n u Ku).
    eapply (ga_keys cls_be ok_be tt n (be_cell n d) (kpred_bdeg n d) _ PactB t Ht Bil) with (o := u) (x := x'); auto.
    apply rep_bact_on; auto. }
  assert (X2 : forall d z, 1 <= d -> good cls_be tt t (be_cell n) d z -> (exists w, be_boundary dt z = Ok w /\ is_zero w) -> exists y, good cls_be tt t (be_cell n) (d + 1) y /\ same (be_boundary dt y) (Ok z)).
  { intros d z Hd (Wz & Tz & Az & Kz) Hb. rewrite <- Tz in Hdt. destruct (C69_barratt_eccles_l dt n d z Hn0 Hd Wz Hdt Kz Hb) as (y & Wy & Ty & Ky & Sy). exists y. split; [|exact Sy].
    split; [exact Wy|]. split; [congruence|]. split; [apply be_attr|exact Ky]. }
  assert (X3 : forall z, good cls_be tt t (be_cell n) 0 z -> ((exists y, good cls_be tt t (be_cell n) 1 y /\ same (be_boundary dt y) (Ok z)) <-> (t | zsum (map snd (data z))))).
  { intros z (Wz & Tz & Az & Kz). rewrite <- Tz in Hdt. pose proof (C69_barratt_eccles_zero_l dt n z Hn0 Wz Hdt Kz) as Q0. rewrite Tz in Q0. rewrite <- Q0. split.
    - intros (y & (Wy & Ty & Ay & Ky) & Sy). exists y. tauto.
    - intros (y & Wy & Ty & Ky & Sy). exists y. split; [|exact Sy]. split; [exact Wy|]. split; [exact Ty|]. split; [apply be_attr|exact Ky]. }
  specialize (Q X1 X2 X3 (aug_B n Hn0) x N). destruct Q as (psi & P0 & P1 & P2).
  - split; [exact Wx|]. split; [exact Tx|]. split; [apply be_attr|exact Kx].
  - exists psi. split; [exact P0|]. split; [exact P1|]. intros d Hd. rewrite HP. now apply P2.
Qed.
Lemma one_den {K A} `{KO : KeyOk K} {KE : KeyEq K} (c : pycls K) t (a : A) k0 (y : elt K A) F : wf c y -> den c t a F y -> (forall g, F g = g k0) -> one c k0 = 1 -> (t | zsum (map snd (data y)) - 1).
Proof.
  intros Wy Dy HF H1. rewrite (one_ev c y Wy). assert (Q : eqm t (ev (one c) (data y)) (F (one c))).
  { apply (den_ev c t a F y (one c) Dy). split; [intros k k' E; apply keqb_eq in E; now subst|]. intros k Hb. unfold one. now rewrite Hb. }
  rewrite HF, H1 in Q. exact Q.
Qed.
(** #C111_may_surjection# May-Steenrod structures of the surjection operad: the elements that [may_steenrod_structure] computes are such
    a sequence; and a sequence is homotopic to it if and only if its first element has total 1. *)
Lemma C111_may_surjection_l (dt n t : Z) (dc cv : conv) (ot : option Z) (ov : option conv) :
  t = match ot with Some t => if t =? 0 then dt else t | None => dt end -> cv = match ov with Some c => c | None => dc end -> cv = BF \/ cv = MS ->
  2 <= n -> 0 <= t -> t <> 1 -> dt_ok dt t ->
  exists mu : nat -> surj, (forall d, surj_may_steenrod dt dc n (Z.of_nat d) ot ov = Ok (mu d)) /\
    (forall N, equivariant_sequence cls_surj (surj_cell n) (surj_boundary dt) (extended dt cls_surj (surj_act dt)) dt n t cv N mu) /\
    forall (N : nat) (psi : nat -> surj),
      equivariant_sequence cls_surj (surj_cell n) (surj_boundary dt) (extended dt cls_surj (surj_act dt)) dt n t cv N psi ->
      ((t | zsum (map snd (data (psi 0%nat))) - 1) <->
       exists h, equivariant_homotopy cls_surj (surj_cell n) (surj_boundary dt) (extended dt cls_surj (surj_act dt)) dt n t cv N psi mu h).
Proof.
  intros Et Ec Hcv Hn Ht Nt Hdt. assert (Hn1 : 1 <= n) by lia.
  exists (fun d => match surj_may_steenrod dt dc n (Z.of_nat d) ot ov with Ok y => y | _ => mkElt [] t cv end).
  set (mu := fun d : nat => match surj_may_steenrod dt dc n (Z.of_nat d) ot ov with Ok y => y | _ => mkElt [] t cv end).
  assert (M : forall d, exists y, surj_may_steenrod dt dc n (Z.of_nat d) ot ov = Ok y /\ mu d = y /\ den cls_surj t cv (FpS cv n d) y).
  { intros d. destruct (mayS_ok dt dc cv n d ot ov t Et Ec Hcv Hn Ht Nt Hdt) as (y & Ey & Dy). exists y. unfold mu. rewrite Ey. auto. }
  assert (EQ : forall N, equivariant_sequence cls_surj (surj_cell n) (surj_boundary dt) (extended dt cls_surj (surj_act dt)) dt n t cv N mu).
  { intros N. split.
    - intros d _. destruct (M d) as (y & Ey & -> & Dy). split; [eapply den_wf; [exact Ht|exact Dy]|]. split; [exact (proj1 Dy)|]. split; [exact (proj1 (proj2 Dy))|].
      intros k v Hin. exact (proj1 (psiS_keys cv n d t y Hn1 Ht Dy k v Hin)).
    - intros d _. pose proof (C53_boundary_l dt n (Z.of_nat (Datatypes.S d)) t dc cv ot ov Et Ec Hcv Hn ltac:(lia) Ht Nt Hdt) as S0.
      destruct (M (Datatypes.S d)) as (y & Ey & -> & Dy). destruct (M d) as (z & Ez & -> & Dz).
      replace (Z.of_nat (Datatypes.S d) - 1) with (Z.of_nat d) in S0 by lia. rewrite Ey, Ez in S0. cbn [bind] in S0. rewrite even_of_nat in S0.
      unfold periodic_element. change (if Nat.even (Datatypes.S d) then norm_element dt n (Some t) else transposition_element dt n (Some t)) with (ma dt n (Datatypes.S d) (Some t)) in *.
      destruct (ma_den dt n t (Datatypes.S d) (Some t) eq_refl Hn Ht Nt Hdt) as (u & Eu & Du & _). rewrite Eu in *. cbn [bind] in *.
      pose proof (ma_nonzero n t _ u Hn Ht Nt Du) as Nu. pose proof (psiS_nonzero cv n t d z Hn Ht Nt Dz) as Nz. unfold extended.
      destruct (data u); [congruence|]. destruct (data z); [congruence|]. exact S0. }
  split; [|split; [exact EQ|]].
  - intros d. destruct (M d) as (y & Ey & _). now rewrite Ey.
  - intros N psi Hpsi. rewrite <- (C111_surjection_l dt n t cv N psi mu Hn Ht Nt Hdt Hcv Hpsi (EQ N)).
    destruct (M 0%nat) as (y & Ey & -> & Dy).
    assert (Q : (t | zsum (map snd (data y)) - 1)).
    { apply (one_den cls_surj t cv (idp n) y _ (den_wf _ _ _ _ _ Ht Dy) Dy); [reflexivity|]. unfold one.
      assert (B : bad cls_surj (idp n) = Ok false); [|now rewrite B]. cbn [bad cls_surj]. rewrite (surj_bad_onto n) by (try lia; apply (spsi_kaS n 0%nat); lia).
      f_equal. exact (kaS_adj n 0%nat ltac:(lia)). }
    split; intros H; [replace (zsum (map snd (data (psi 0%nat))) - zsum (map snd (data y))) with ((zsum (map snd (data (psi 0%nat))) - 1) - (zsum (map snd (data y)) - 1)) by ring; now apply Z.divide_sub_r|
      replace (zsum (map snd (data (psi 0%nat))) - 1) with ((zsum (map snd (data (psi 0%nat))) - zsum (map snd (data y))) + (zsum (map snd (data y)) - 1)) by ring; now apply Z.divide_add_r].
Qed.
(** #C111_may_barratt_eccles# The same for May-Steenrod structures of the Barratt-Eccles operad. *)
Lemma C111_may_barratt_eccles_l (dt n t : Z) (ot : option Z) :
  t = match ot with Some t => if t =? 0 then dt else t | None => dt end ->
  2 <= n -> 0 <= t -> t <> 1 -> dt_ok dt t ->
  exists mu : nat -> bee, (forall d, be_may_steenrod dt n (Z.of_nat d) ot = Ok (mu d)) /\
    (forall N, equivariant_sequence cls_be (be_cell n) (be_boundary dt) (extended dt cls_be (be_act dt)) dt n t tt N mu) /\
    forall (N : nat) (psi : nat -> bee),
      equivariant_sequence cls_be (be_cell n) (be_boundary dt) (extended dt cls_be (be_act dt)) dt n t tt N psi ->
      ((t | zsum (map snd (data (psi 0%nat))) - 1) <->
       exists h, equivariant_homotopy cls_be (be_cell n) (be_boundary dt) (extended dt cls_be (be_act dt)) dt n t tt N psi mu h).
Proof.
  intros Et Hn Ht Nt Hdt. assert (Hn1 : 1 <= n) by lia.
  exists (fun d => match be_may_steenrod dt n (Z.of_nat d) ot with Ok y => y | _ => mkElt [] t tt end).
  set (mu := fun d : nat => match be_may_steenrod dt n (Z.of_nat d) ot with Ok y => y | _ => mkElt [] t tt end).
  assert (M : forall d, exists y, be_may_steenrod dt n (Z.of_nat d) ot = Ok y /\ mu d = y /\ den cls_be t tt (Fpsi n d) y /\ keys_in (bpsi n d) y).
  { intros d. destruct (may_ok dt n d ot t Et Hn Ht Nt Hdt) as (y & Ey & Dy & Ky). exists y. unfold mu. rewrite Ey. auto. }
  assert (EQ : forall N, equivariant_sequence cls_be (be_cell n) (be_boundary dt) (extended dt cls_be (be_act dt)) dt n t tt N mu).
  { intros N. split.
    - intros d _. destruct (M d) as (y & Ey & -> & Dy & Ky). split; [eapply den_wf; [exact Ht|exact Dy]|]. split; [exact (proj1 Dy)|]. split; [apply be_attr|].
      intros k v Hin. exact (proj1 (Ky k v Hin)).
    - intros d _. pose proof (C44_boundary_l dt n (Z.of_nat (Datatypes.S d)) t ot Et Hn ltac:(lia) Ht Nt Hdt) as S0.
      destruct (M (Datatypes.S d)) as (y & Ey & -> & Dy & _). destruct (M d) as (z & Ez & -> & Dz & _).
      replace (Z.of_nat (Datatypes.S d) - 1) with (Z.of_nat d) in S0 by lia. rewrite Ey, Ez in S0. cbn [bind] in S0. rewrite even_of_nat in S0.
      unfold periodic_element. change (if Nat.even (Datatypes.S d) then norm_element dt n (Some t) else transposition_element dt n (Some t)) with (ma dt n (Datatypes.S d) (Some t)) in *.
      destruct (ma_den dt n t (Datatypes.S d) (Some t) eq_refl Hn Ht Nt Hdt) as (u & Eu & Du & _). rewrite Eu in *. cbn [bind] in *.
      pose proof (ma_nonzero n t _ u Hn Ht Nt Du) as Nu. pose proof (psi_nonzero n t d z Hn Ht Nt Dz) as Nz. unfold extended.
      destruct (data u); [congruence|]. destruct (data z); [congruence|]. exact S0. }
  split; [|split; [exact EQ|]].
  - intros d. destruct (M d) as (y & Ey & _). now rewrite Ey.
  - intros N psi Hpsi. rewrite <- (C111_barratt_eccles_l dt n t N psi mu Hn Ht Nt Hdt Hpsi (EQ N)).
    destruct (M 0%nat) as (y & Ey & -> & Dy & _).
    assert (Q : (t | zsum (map snd (data y)) - 1)).
    { apply (one_den cls_be t tt [idp n] y _ (den_wf _ _ _ _ _ Ht Dy) Dy); [reflexivity|]. unfold one.
      assert (B : bad cls_be [idp n] = Ok false) by (rewrite be_bad; f_equal); now rewrite B. }
    split; intros H; [replace (zsum (map snd (data (psi 0%nat))) - zsum (map snd (data y))) with ((zsum (map snd (data (psi 0%nat))) - 1) - (zsum (map snd (data y)) - 1)) by ring; now apply Z.divide_sub_r|
      replace (zsum (map snd (data (psi 0%nat))) - 1) with ((zsum (map snd (data (psi 0%nat))) - zsum (map snd (data y))) + (zsum (map snd (data y)) - 1)) by ring; now apply Z.divide_add_r].
Qed.
(** #C111_example# (1,2), (1,2,1) and its rotation (2,1), (2,1,2): the homotopy is -(1,2,1) in degree 0 and zero in degree 1. *)
Example C111_example_l :
  let e := fun k : list Z => mkElt [(k, 1)] 0 BF : surj in
  equivariant_homotopy cls_surj (surj_cell 2) (surj_boundary 0) (extended 0 cls_surj (surj_act 0)) 0 2 0 BF 1
    (fun d => match d with O => e [1; 2] | _ => e [1; 2; 1] end) (fun d => match d with O => e [2; 1] | _ => e [2; 1; 2] end)
    (fun d => match d with O => mkElt [([1; 2; 1], -1)] 0 BF | _ => mkElt [] 0 BF end) /\
  surj_may_steenrod 0 BF 2 0 None None = Ok (e [1; 2]) /\ surj_may_steenrod 0 BF 2 1 None None = Ok (e [1; 2; 1]).
Proof.
  cbv zeta. split; [|split; vm_compute; reflexivity]. split; [|split].
  - intros d Hd. destruct d as [|d].
    + split; [apply wfb_wf; reflexivity|]. split; [reflexivity|]. split; [reflexivity|]. intros k v [[= <- <-]|[]]. split; [intros a; cbn [In]; lia|reflexivity].
    + split; [apply wfb_wf; reflexivity|]. split; [reflexivity|]. split; [reflexivity|]. intros k v [].
  - eexists; eexists; split; [vm_compute; reflexivity|split; [vm_compute; reflexivity|split; [vm_compute; reflexivity|split; reflexivity]]].
  - intros d Hd. assert (d = 0%nat) by lia. subst. eexists; eexists; split; [vm_compute; reflexivity|split; [vm_compute; reflexivity|split; [vm_compute; reflexivity|split; reflexivity]]].
Qed.
