(** * Exactness of the periodic resolution (C110) *)
From Coq Require Import Setoid Morphisms.
From Verif Require Import PyBase Dict FreeModule Symmetric Simplicial Utils Surjection BarrattEccles Eqm Spec SpecChain SpecOperad SpecSurj FreeModuleFacts FreeModuleLaws ListFacts
  ClassFacts LinearFacts SymmetricFacts CycleFacts SymmetricLaws RingFacts RingLaws Tensor TensorAct KoszulFacts LoopFacts ActGeneric SimplicialLaws BEFacts BEOrbit BELaws BEDiag MayFacts BELaws3
  SurjFacts SurjBoundary SurjLaws SurjAct SurjMay SurjOrbit CongFacts PerExact.
Lemma bilop_sub {A} {K} `{KO : KeyOk K} (c : pycls K) t (a : A) (P P' : K -> Prop) Pact n act : (forall k, P' k -> P k) ->
  bilop cls_ring c c t tt a a (pk n) P Pact act -> bilop cls_ring c c t tt a a (pk n) P' Pact act.
Proof. intros HP B x y Wx Tx Ax Kx Wy Ty Ay Ky. apply B; auto. intros k v Hin. eapply HP, Ky, Hin. Qed.
(** ring *)
Notation rmv n := (fun m k => SGE (pmul (rot n m) (kval k))).
Lemma ring_iota n m k : 1 <= n -> pk n k -> image (pmul (rot n m) (kval k)) 1 - 1 = (image (kval k) 1 - 1 + m) mod n.
Proof.
  intros Hn Hk. rewrite (image_pmul n) by (auto; lia). rewrite image_rot; [lia|]. apply (image_range n); [exact Hk|lia].
Qed.
(** #C110_ring# In the group ring, for arity at least 2. *)
Lemma C110_ring_l (dt n : Z) (x : ring) : 2 <= n -> wf cls_ring x -> torsion x <> 1 -> dt_ok dt (torsion x) -> keys_in (fun k => perm n (kval k)) x ->
  (same (let! T := transposition_element dt n (Some (torsion x)) in ring_mul dt T x) (zero dt cls_ring x) <->
   exists y, wf cls_ring y /\ torsion y = torsion x /\ keys_in (fun k => perm n (kval k)) y /\
     same (let! N := norm_element dt n (Some (torsion x)) in ring_mul dt N y) (Ok x)) /\
  (same (let! N := norm_element dt n (Some (torsion x)) in ring_mul dt N x) (zero dt cls_ring x) <->
   exists y, wf cls_ring y /\ torsion y = torsion x /\ keys_in (fun k => perm n (kval k)) y /\
     same (let! T := transposition_element dt n (Some (torsion x)) in ring_mul dt T y) (Ok x)) /\
  (same (let! r := rotation_element dt n (Some (torsion x)) in ring_mul dt r x) (Ok x) <->
   exists y, wf cls_ring y /\ torsion y = torsion x /\ keys_in (fun k => perm n (kval k)) y /\
     same (let! N := norm_element dt n (Some (torsion x)) in ring_mul dt N y) (Ok x)).
Proof.
  intros Hn Wx Nt Hdt Kx. assert (Hn0 : 0 <= n) by lia. pose proof (proj1 Wx) as Ht.
  assert (M1 : forall g m k, pk n k -> Pmul g (SGE (rot n m)) k = 1 * g (rmv n m k)) by (intros g m k _; rewrite Z.mul_1_l; reflexivity).
  assert (M2 : forall m k, pk n k -> pk n (rmv n m k)) by (intros m k Hk; refine (perm_pmul n _ _ Hn0 _ Hk); apply perm_rot; lia).
  assert (M3 : forall m m' k, pk n k -> rmv n m (rmv n m' k) = rmv n (m + m') k).
  { intros m m' k Hk. change (SGE (pmul (rot n m) (pmul (rot n m') (kval k))) = SGE (pmul (rot n (m + m')) (kval k))). f_equal. rewrite <- (pmul_assoc n) by (auto; apply perm_rot; lia). now rewrite rot_add by lia. }
  assert (M4 : forall k, pk n k -> keqb (rmv n 0 k) k = true).
  { intros k Hk. change (tup_eqb (pmul (rot n 0) (kval k)) (kval k) = true). apply tup_eqb_eq. rewrite rot_0. now apply pmul_id_l. }
  assert (M5 : forall k k' : skey, keqb k k' = true -> image (kval k) 1 - 1 = image (kval k') 1 - 1) by (intros k k' E; cbn in E; apply tup_eqb_eq in E; now rewrite E).
  assert (M6 : forall k, pk n k -> 0 <= image (kval k) 1 - 1 < n) by (intros k Hk; pose proof (image_range n (kval k) 1 Hk ltac:(lia)); lia).
  assert (M7 : forall m k, pk n k -> image (kval (rmv n m k)) 1 - 1 = (image (kval k) 1 - 1 + m) mod n) by (intros m k Hk; exact (ring_iota n m k ltac:(lia) Hk)).
  assert (E1 := exact_T cls_ring ok_ring tt dt n Hn (pk n) (kpred_pk n) (fun k _ => ring_okey k) (ring_mul dt) Pmul (torsion x) Ht Nt Hdt (bilop_mul dt n _ Hn0 Ht) (rep_mul n Hn0) (adm_mul n Hn0)
    ltac:(intros g k2 k2' k1 E; unfold Pmul; now rewrite E) (rmv n) (fun _ _ => 1) (fun k => image (kval k) 1 - 1) M1 M2 M3 (fun _ _ _ _ => eq_refl) M4 (fun _ _ => eq_refl) M5 M6 M7 x Wx eq_refl (ring_attr0 x) Kx).
  assert (E2 := exact_N cls_ring ok_ring tt dt n Hn (pk n) (kpred_pk n) (fun k _ => ring_okey k) (ring_mul dt) Pmul (torsion x) Ht Nt Hdt (bilop_mul dt n _ Hn0 Ht) (rep_mul n Hn0) (adm_mul n Hn0)
    ltac:(intros g k2 k2' k1 E; unfold Pmul; now rewrite E) (rmv n) (fun _ _ => 1) (fun k => image (kval k) 1 - 1) M1 M2 M3 (fun _ _ _ _ => eq_refl) M4 (fun _ _ => eq_refl) M5 M6 M7 x Wx eq_refl (ring_attr0 x) Kx).
  assert (E3 := exact_inv cls_ring ok_ring tt dt n Hn (pk n) (kpred_pk n) (fun k _ => ring_okey k) (ring_mul dt) Pmul (torsion x) Ht Nt Hdt (bilop_mul dt n _ Hn0 Ht) (rep_mul n Hn0) (adm_mul n Hn0)
    ltac:(intros g k2 k2' k1 E; unfold Pmul; now rewrite E) (rmv n) (fun _ _ => 1) (fun k => image (kval k) 1 - 1) M1 M2 M3 (fun _ _ _ _ => eq_refl) M4 (fun _ _ => eq_refl) M5 M6 M7 x Wx eq_refl (ring_attr0 x) Kx).
  assert (G : forall Q : ring -> Prop, (exists y : ring, wf cls_ring y /\ torsion y = torsion x /\ attr y = tt /\ keys_in (pk n) y /\ Q y) <-> (exists y : ring, wf cls_ring y /\ torsion y = torsion x /\ keys_in (fun k => perm n (kval k)) y /\ Q y)).
  { intros Q. split; intros (y & Hy); exists y; [tauto|]. destruct Hy as (A1 & A2 & A3 & A4). split; [exact A1|]. split; [exact A2|]. split; [apply ring_attr0|]. split; [exact A3|exact A4]. }
  split; [rewrite E1|split; [rewrite E2|rewrite E3]]; apply G.
Qed.
(** #C110_barratt_eccles# In the Barratt-Eccles complex, in every degree. *)
Lemma C110_barratt_eccles_l (dt n d : Z) (x : bee) : 2 <= n -> 0 <= d -> wf cls_be x -> torsion x <> 1 -> dt_ok dt (torsion x) -> keys_in (be_cell n d) x ->
  (same (let! T := transposition_element dt n (Some (torsion x)) in extended dt cls_be (be_act dt) T x) (zero dt cls_be x) <->
   exists y, wf cls_be y /\ torsion y = torsion x /\ keys_in (be_cell n d) y /\
     same (let! N := norm_element dt n (Some (torsion x)) in extended dt cls_be (be_act dt) N y) (Ok x)) /\
  (same (let! N := norm_element dt n (Some (torsion x)) in extended dt cls_be (be_act dt) N x) (zero dt cls_be x) <->
   exists y, wf cls_be y /\ torsion y = torsion x /\ keys_in (be_cell n d) y /\
     same (let! T := transposition_element dt n (Some (torsion x)) in extended dt cls_be (be_act dt) T y) (Ok x)) /\
  (same (let! r := rotation_element dt n (Some (torsion x)) in extended dt cls_be (be_act dt) r x) (Ok x) <->
   exists y, wf cls_be y /\ torsion y = torsion x /\ keys_in (be_cell n d) y /\
     same (let! N := norm_element dt n (Some (torsion x)) in extended dt cls_be (be_act dt) N y) (Ok x)).
Proof.
  intros Hn Hd Wx Nt Hdt Kx. assert (Hn0 : 0 <= n) by lia. assert (Hn1 : 1 <= n) by lia. pose proof (proj1 Wx) as Ht.
  destruct (ma_den dt n (torsion x) 1 (Some (torsion x)) eq_refl Hn Ht Nt Hdt) as (TT & ET & _ & KT). change (transposition_element dt n (Some (torsion x)) = Ok TT) in ET.
  destruct (ma_den dt n (torsion x) 2 (Some (torsion x)) eq_refl Hn Ht Nt Hdt) as (NN & EN & _ & KN). change (norm_element dt n (Some (torsion x)) = Ok NN) in EN.
  set (mv := fun m (k : bkey) => map (pmul (rot n m)) k). set (io := fun k : bkey => image (hd [] k) 1 - 1).
  assert (Hhd : forall k, be_cell n d k -> exists p k', k = p :: k' /\ perm n p).
  { intros k [Hk L]. destruct k as [|p k]; [change (zlen (@nil (list Z))) with 0 in L; lia|]. exists p, k. split; [reflexivity|]. apply Hk. now left. }
  assert (PC : forall p k, perm n p -> be_cell n d k -> be_cell n d (map (pmul p) k)) by (intros p k Hp [Hk L]; split; [now apply bsim_move|rewrite <- L; apply zlen_map]).
  assert (Ad : adm2 cls_ring cls_be cls_be (pk n) (be_cell n d) (be_cell n d) PactB).
  { intros g Hg. split.
    - intros k1 H1 Hb. split; [|discriminate]. intros k k' E Hk. cbn in E. apply tup_eqb_eq in E. unfold PactB. now rewrite E.
    - intros k2 H2 _. apply admP_keyeq. intros k Hk Hb. unfold PactB. apply Hg; [now apply PC|]. rewrite be_bad in *. injection Hb as Hb.
      f_equal. destruct k as [|q k]; [reflexivity|]. cbn [map bbad]. change (pmul (kval k2) q :: map (pmul (kval k2)) k) with (map (pmul (kval k2)) (q :: k)).
      rewrite (bdup_map n); auto. apply Hk. }
  assert (M1 : forall g m k, be_cell n d k -> PactB g (SGE (rot n m)) k = 1 * g (mv m k)) by (intros g m k _; rewrite Z.mul_1_l; reflexivity).
  assert (M2 : forall m k, be_cell n d k -> be_cell n d (mv m k)) by (intros m k Hk; apply PC; [apply perm_rot; lia|exact Hk]).
  assert (M3 : forall m m' k, be_cell n d k -> mv m (mv m' k) = mv (m + m') k).
  { intros m m' k Hk. unfold mv. rewrite map_map. apply map_ext_in. intros p Hp. apply Hk in Hp. rewrite <- (pmul_assoc n) by (auto; apply perm_rot; lia). now rewrite rot_add by lia. }
  assert (M4 : forall k, be_cell n d k -> keqb (mv 0 k) k = true).
  { intros k Hk. assert (E : mv 0 k = k); [|rewrite E; apply keqb_refl]. unfold mv. rewrite rot_0. rewrite <- (map_id k) at 2. apply map_ext_in. intros p Hp. apply pmul_id_l. now apply Hk. }
  assert (M5 : forall k k' : bkey, keqb k k' = true -> io k = io k') by (intros k k' E; apply keqb_eq in E; now rewrite E).
  assert (M6 : forall k, be_cell n d k -> 0 <= io k < n) by (intros k Hk; destruct (Hhd k Hk) as (p & k' & -> & Hp); unfold io; cbn [hd]; pose proof (image_range n p 1 Hp ltac:(lia)); lia).
  assert (M7 : forall m k, be_cell n d k -> io (mv m k) = (io k + m) mod n).
  { intros m k Hk. destruct (Hhd k Hk) as (p & k' & -> & Hp). unfold io, mv. cbn [map hd]. exact (ring_iota n m (SGE p) Hn1 Hp). }
  assert (R2 := rep_bact_on n (be_cell n d) Hn0 PC).
  assert (B2 := bilop_sub cls_be (torsion x) tt _ (be_cell n d) PactB n _ (fun k Hk => proj1 Hk) (bil_bact dt n (torsion x) Hn1 Ht Hdt)).
  assert (V : forall g k2 k2' k1, kval k2 = kval k2' -> PactB g k2 k1 = PactB g k2' k1) by (intros g k2 k2' k1 E; unfold PactB; now rewrite E).
  assert (E1 := exact_T cls_be ok_be tt dt n Hn (be_cell n d) (kpred_bdeg n d) (fun k _ => be_okey k) _ PactB (torsion x) Ht Nt Hdt B2 R2 Ad V
    mv (fun _ _ => 1) io M1 M2 M3 (fun _ _ _ _ => eq_refl) M4 (fun _ _ => eq_refl) M5 M6 M7 x Wx eq_refl (be_attr x) Kx).
  assert (E2 := exact_N cls_be ok_be tt dt n Hn (be_cell n d) (kpred_bdeg n d) (fun k _ => be_okey k) _ PactB (torsion x) Ht Nt Hdt B2 R2 Ad V
    mv (fun _ _ => 1) io M1 M2 M3 (fun _ _ _ _ => eq_refl) M4 (fun _ _ => eq_refl) M5 M6 M7 x Wx eq_refl (be_attr x) Kx).
  assert (E3 := exact_inv cls_be ok_be tt dt n Hn (be_cell n d) (kpred_bdeg n d) (fun k _ => be_okey k) _ PactB (torsion x) Ht Nt Hdt B2 R2 Ad V
    mv (fun _ _ => 1) io M1 M2 M3 (fun _ _ _ _ => eq_refl) M4 (fun _ _ => eq_refl) M5 M6 M7 x Wx eq_refl (be_attr x) Kx).
  assert (ER : rotation_element dt n (Some (torsion x)) = Ok (mkElt [(SGE (rot n 1), 1)] (torsion x) tt)) by (unfold rotation_element; rewrite rot_1 by lia; now apply new_basis).
  rewrite ET, EN, ER in *. cbn [bind] in *. apply rpk_sge in KT, KN.
  assert (KR : keys_in sge (mkElt [(SGE (rot n 1), 1)] (torsion x) tt : ring)) by (intros k v [[= <- <-]|[]]; reflexivity).
  rewrite (be_act0_bact0 dt TT x KT), (be_act0_bact0 dt NN x KN), (be_act0_bact0 dt _ x KR).
  split; [rewrite E1|split; [rewrite E2|rewrite E3]]; split; intros (y & Hy); exists y.
  - rewrite (be_act0_bact0 dt NN y KN). tauto.
  - rewrite (be_act0_bact0 dt NN y KN) in Hy. pose proof (be_attr y). tauto.
  - rewrite (be_act0_bact0 dt TT y KT). tauto.
  - rewrite (be_act0_bact0 dt TT y KT) in Hy. pose proof (be_attr y). tauto.
  - rewrite (be_act0_bact0 dt NN y KN). tauto.
  - rewrite (be_act0_bact0 dt NN y KN) in Hy. pose proof (be_attr y). tauto.
Qed.
(** #C110_surjection# In the surjection complex, in every degree and both conventions. *)
Lemma C110_surjection_l (dt n d : Z) (x : surj) : 2 <= n -> wf cls_surj x -> torsion x <> 1 -> dt_ok dt (torsion x) -> attr x = BF \/ attr x = MS -> keys_in (surj_cell n d) x ->
  (same (let! T := transposition_element dt n (Some (torsion x)) in extended dt cls_surj (surj_act dt) T x) (zero dt cls_surj x) <->
   exists y, wf cls_surj y /\ torsion y = torsion x /\ attr y = attr x /\ keys_in (surj_cell n d) y /\
     same (let! N := norm_element dt n (Some (torsion x)) in extended dt cls_surj (surj_act dt) N y) (Ok x)) /\
  (same (let! N := norm_element dt n (Some (torsion x)) in extended dt cls_surj (surj_act dt) N x) (zero dt cls_surj x) <->
   exists y, wf cls_surj y /\ torsion y = torsion x /\ attr y = attr x /\ keys_in (surj_cell n d) y /\
     same (let! T := transposition_element dt n (Some (torsion x)) in extended dt cls_surj (surj_act dt) T y) (Ok x)) /\
  (same (let! r := rotation_element dt n (Some (torsion x)) in extended dt cls_surj (surj_act dt) r x) (Ok x) <->
   exists y, wf cls_surj y /\ torsion y = torsion x /\ attr y = attr x /\ keys_in (surj_cell n d) y /\
     same (let! N := norm_element dt n (Some (torsion x)) in extended dt cls_surj (surj_act dt) N y) (Ok x)).
Proof.
  intros Hn Wx Nt Hdt Hcv Kx. assert (Hn0 : 0 <= n) by lia. assert (Hn1 : 1 <= n) by lia. pose proof (proj1 Wx) as Ht. set (cv := attr x) in *.
  set (mv := fun m (k : list Z) => map (image (rot n m)) k). set (sg := fun m (k : list Z) => asg cv (rot n m) k). set (io := fun k : list Z => hd 1 k - 1).
  assert (Hhd : forall k, surj_cell n d k -> exists a k', k = a :: k' /\ 1 <= a <= n).
  { intros k [Hk L]. destruct k as [|a k]; [exfalso; apply (onto_ne n []); auto|]. exists a, k. split; [reflexivity|]. apply Hk. now left. }
  assert (PC : forall p k, perm n p -> surj_cell n d k -> surj_cell n d (map (image p) k)) by (intros p k Hp Hk; now apply cell_move).
  assert (Ad : adm2 cls_ring cls_surj cls_surj (pk n) (surj_cell n d) (surj_cell n d) (PactS cv)).
  { intros g Hg. split.
    - intros k1 H1 Hb. split; [|discriminate]. intros k k' E Hk. cbn in E. apply tup_eqb_eq in E. unfold PactS. now rewrite E.
    - intros k2 H2 _. apply admP_keyeq. intros k [Hk L] Hb. unfold PactS. cbn [bad cls_surj] in Hb. rewrite (surj_bad_onto n) in Hb by assumption. injection Hb as Hb.
      assert (E : g (map (image (kval k2)) k) = 0); [|rewrite E; ring]. apply Hg; [apply PC; [exact H2|split; assumption]|]. cbn [bad cls_surj]. rewrite (surj_bad_onto n) by (auto; now apply onto_move).
      rewrite (adj_map n); auto. { now rewrite Hb. } intros a Ha. now apply Hk. }
  assert (M1 : forall g m k, surj_cell n d k -> PactS cv g (SGE (rot n m)) k = sg m k * g (mv m k)) by reflexivity.
  assert (M2 : forall m k, surj_cell n d k -> surj_cell n d (mv m k)) by (intros m k Hk; apply PC; [apply perm_rot; lia|exact Hk]).
  assert (M3 : forall m m' k, surj_cell n d k -> mv m (mv m' k) = mv (m + m') k).
  { intros m m' k [Hk _]. unfold mv. rewrite <- (map_move n) by (auto; apply perm_rot; lia). now rewrite rot_add by lia. }
  assert (M3' : forall m m' k, surj_cell n d k -> sg m' k * sg m (mv m' k) = sg (m + m') k).
  { intros m m' k [Hk _]. unfold sg, mv. rewrite <- (rot_add n m m') by lia. rewrite (asg_mul n cv (rot n m) (rot n m')) by (auto; apply perm_rot; lia). reflexivity. }
  assert (M4 : forall k, surj_cell n d k -> keqb (mv 0 k) k = true).
  { intros k [Hk _]. assert (E : mv 0 k = k); [|rewrite E; apply keqb_refl]. unfold mv. rewrite <- (map_id k) at 2. apply map_ext_in. intros a Ha. apply Hk in Ha. rewrite image_rot by lia. rewrite Z.add_0_r, Z.mod_small by lia. lia. }
  assert (M4' : forall k, surj_cell n d k -> sg 0 k = 1) by (intros k [Hk _]; unfold sg; rewrite rot_0; now apply asg_id).
  assert (M5 : forall k k' : list Z, keqb k k' = true -> io k = io k') by (intros k k' E; apply keqb_eq in E; now rewrite E).
  assert (M6 : forall k, surj_cell n d k -> 0 <= io k < n) by (intros k Hk; destruct (Hhd k Hk) as (p & k' & -> & Hp); unfold io; cbn [hd]; lia).
  assert (M7 : forall m k, surj_cell n d k -> io (mv m k) = (io k + m) mod n).
  { intros m k Hk. destruct (Hhd k Hk) as (a & k' & -> & Ha). unfold io, mv. cbn [map hd]. rewrite image_rot by lia. lia. }
  assert (R2 := rep_sact_on cv n (surj_cell n d) Hn0 PC).
  assert (B2 := bilop_sub cls_surj (torsion x) cv _ (surj_cell n d) (PactS cv) n _ (fun k Hk => proj1 Hk) (bil_sact dt cv Hcv n (torsion x) Hn1 Ht Hdt)).
  assert (V : forall g k2 k2' k1, kval k2 = kval k2' -> PactS cv g k2 k1 = PactS cv g k2' k1) by (intros g k2 k2' k1 E; unfold PactS; now rewrite E).
  assert (OK : forall k, surj_cell n d k -> okey cls_surj k) by (intros k [Hk _]; apply surj_okey; apply (onto_ne n); auto).
  split.
  - exact (exact_T cls_surj ok_surj cv dt n Hn (surj_cell n d) (kpred_cell n d) OK _ (PactS cv) (torsion x) Ht Nt Hdt B2 R2 Ad V mv sg io M1 M2 M3 M3' M4 M4' M5 M6 M7 x Wx eq_refl eq_refl Kx).
  - split.
    + exact (exact_N cls_surj ok_surj cv dt n Hn (surj_cell n d) (kpred_cell n d) OK _ (PactS cv) (torsion x) Ht Nt Hdt B2 R2 Ad V mv sg io M1 M2 M3 M3' M4 M4' M5 M6 M7 x Wx eq_refl eq_refl Kx).
    + exact (exact_inv cls_surj ok_surj cv dt n Hn (surj_cell n d) (kpred_cell n d) OK _ (PactS cv) (torsion x) Ht Nt Hdt B2 R2 Ad V mv sg io M1 M2 M3 M3' M4 M4' M5 M6 M7 x Wx eq_refl eq_refl Kx).
Qed.
(** #C110_example# rho - id is killed by N and is T * id; (1,2,1) +- (2,1,2)
    is killed by T and is N * (1,2,1). *)
Example C110_example_l :
  let x : ring := mkElt [(SGE [2; 3; 1], 1); (SGE [1; 2; 3], 4)] 5 tt in let u : surj := mkElt [([1; 2; 1], 1); ([2; 1; 2], 1)] 0 MS in
  wf cls_ring x /\ keys_in (fun k => perm 3 (kval k)) x /\
  same (let! N := norm_element 5 3 (Some 5) in ring_mul 5 N x) (zero 5 cls_ring x) /\
  same (let! T := transposition_element 5 3 (Some 5) in ring_mul 5 T (mkElt [(SGE [1; 2; 3], 1)] 5 tt)) (Ok x) /\
  wf cls_surj u /\ keys_in (surj_cell 2 1) u /\
  same (let! T := transposition_element 0 2 (Some 0) in extended 0 cls_surj (surj_act 0) T u) (zero 0 cls_surj u) /\
  same (let! N := norm_element 0 2 (Some 0) in extended 0 cls_surj (surj_act 0) N (mkElt [([1; 2; 1], 1)] 0 MS)) (Ok u).
Proof.
  cbv zeta. split; [apply wfb_wf; reflexivity|]. split.
  { intros k v [[= <- <-]|[[= <- <-]|[]]]; [exact (perm_rot 3 1 ltac:(lia))|exact (perm_rot 3 0 ltac:(lia))]. }
  split; [eexists; eexists; split; [vm_compute; reflexivity|split; [vm_compute; reflexivity|split; [vm_compute; reflexivity|split; reflexivity]]]|]. split; [eexists; eexists; split; [vm_compute; reflexivity|split; [vm_compute; reflexivity|split; [vm_compute; reflexivity|split; reflexivity]]]|].
  split; [apply wfb_wf; reflexivity|]. split.
  { intros k v [[= <- <-]|[[= <- <-]|[]]]; (split; [intros a; cbn [In]; lia|reflexivity]). }
  split; [eexists; eexists; split; [vm_compute; reflexivity|split; [vm_compute; reflexivity|split; [vm_compute; reflexivity|split; reflexivity]]]|eexists; eexists; split; [vm_compute; reflexivity|split; [vm_compute; reflexivity|split; [vm_compute; reflexivity|split; reflexivity]]]].
Qed.
(** #C110_arity_one_refuted# In arity 1 T acts as minus the identity, and the
    multiples of N are not killed by it. *)
Lemma C110_arity_one_refuted_l : let x : ring := mkElt [(SGE [1], 1)] 0 tt in
  same (let! N := norm_element 0 1 (Some 0) in ring_mul 0 N x) (Ok x) /\
  ~ same (let! T := transposition_element 0 1 (Some 0) in ring_mul 0 T x) (zero 0 cls_ring x).
Proof.
  cbv zeta. split; [eexists; eexists; split; [vm_compute; reflexivity|split; [vm_compute; reflexivity|split; [vm_compute; reflexivity|split; reflexivity]]]|].
  intros (a & b & Ea & Eb & E & _); vm_compute in Ea, Eb; injection Ea as <-; injection Eb as <-; discriminate E.
Qed.
