(** * Equivariance of operadic composition (C64). *)
From Coq Require Import Setoid Morphisms.
From Verif Require Import PyBase Dict FreeModule Symmetric Simplicial Utils Surjection BarrattEccles Eqm Spec SpecChain SpecOperad SpecSurj FreeModuleFacts FreeModuleLaws ListFacts
  ClassFacts LinearFacts BilFacts SymmetricFacts CycleFacts SymmetricLaws RingFacts RingLaws Tensor TensorAct KoszulFacts LoopFacts ActGeneric SimplicialLaws AW SimplicialDiag BEFacts BEOrbit BELaws BECompose TableFacts2 SurjFacts SurjBoundary SurjLaws SurjAct SurjCompose SurjCompose2 SurjCompose3 SurjCompose4 TableLaws.

(** ** the group *)
Lemma image_app_l p q j : 1 <= j <= zlen p -> image (p ++ q) j = image p j.
Proof. intros Hj. unfold image, zlen in *. apply app_nth1. lia. Qed.
Lemma image_app_r p q j : zlen p < j -> image (p ++ q) j = image q (j - zlen p).
Proof. intros Hj. unfold image, zlen in *. rewrite app_nth2 by lia. f_equal. lia. Qed.
Lemma image_split n p i : perm n p -> 0 <= n -> 1 <= i <= n -> exists l1 l2, p = l1 ++ image p i :: l2 /\ zlen l1 = i - 1 /\ ~ In (image p i) l1 /\ ~ In (image p i) l2.
Proof.
  intros Hp Hn Hi. assert (L : zlen p = n) by now apply perm_len. assert (Hin : In (image p i) p) by (apply image_in; lia).
  apply in_split in Hin. destruct Hin as (l1 & l2 & E). exists l1, l2. assert (ND : NoDup p) by (eapply perm_nodup; eauto). rewrite E in ND.
  assert (N := NoDup_remove_2 _ _ _ ND). split; [exact E|]. split; [|split; intros X; apply N, in_or_app; auto].
  assert (Ei : image p (zlen l1 + 1) = image p i). { rewrite E at 1. rewrite image_app_r by lia. replace (zlen l1 + 1 - zlen l1) with 1 by lia. reflexivity. }
  pose proof (zlen_nonneg l1). assert (zlen p = zlen l1 + (zlen l2 + 1)) by (rewrite E, zlen_app, zlen_cons; lia). pose proof (zlen_nonneg l2).
  apply (image_inj n p) in Ei; auto; lia.
Qed.
Lemma gcomp_split b i l1 l2 : ~ In i l1 -> ~ In i l2 -> gcomp (l1 ++ i :: l2) b i = map (up i (zlen b)) l1 ++ map (sh i) b ++ map (up i (zlen b)) l2.
Proof.
  intros N1 N2. unfold gcomp. rewrite flat_map_app. cbn [flat_map]. rewrite !graft_notin by assumption. unfold graft. rewrite Z.eqb_refl.
  assert (E : forall l, ~ In i l -> map (fun x => if i <? x then x + (zlen b - 1) else x) l = map (up i (zlen b)) l).
  { intros l Nl. apply map_ext_in. intros x Hx. unfold up. destruct (Z.ltb_spec i x), (Z.ltb_spec x i); try lia. assert (x = i) by lia. subst. contradiction. }
  rewrite !E by assumption. reflexivity.
Qed.
Section Letters.
Variables n s i : Z. Variables sg ta : list Z.
Hypothesis Hsg : perm n sg. Hypothesis Hta : perm s ta. Hypothesis Hi : 1 <= i <= n. Hypothesis Hs : 1 <= s.
Notation i' := (image sg i).
Notation rho := (gcomp sg ta i').
Lemma rho_up j : 1 <= j <= n -> j <> i -> image rho (up i s j) = up i' s (image sg j).
Proof.
  intros Hj Nj. destruct (image_split n sg i Hsg) as (l1 & l2 & E & L1 & N1 & N2); try lia.
  assert (Lt : zlen ta = s) by (apply perm_len; [lia|assumption]). assert (Lg : zlen sg = n) by (apply perm_len; [lia|assumption]).
  assert (L2 : zlen l2 = n - i). { rewrite E, zlen_app, zlen_cons in Lg. lia. }
  assert (Es : image sg j = if j <? i then image l1 j else image l2 (j - i)).
  { rewrite E. destruct (Z.ltb_spec j i); [apply image_app_l; lia|]. rewrite image_app_r by lia. unfold image. rewrite L1. replace (Z.to_nat (j - (i - 1) - 1)) with (Datatypes.S (Z.to_nat (j - i - 1))) by lia. reflexivity. }
  rewrite Es. replace rho with (map (up i' s) l1 ++ map (sh i') ta ++ map (up i' s) l2) by (rewrite E at 4; rewrite gcomp_split by assumption; now rewrite Lt).
  unfold up at 3. destruct (Z.ltb_spec j i).
  - rewrite image_app_l by (rewrite zlen_map; lia). apply image_map. lia.
  - rewrite image_app_r by (rewrite zlen_map; lia). rewrite zlen_map. rewrite image_app_r by (rewrite zlen_map; lia). rewrite zlen_map, L1, Lt.
    replace (j + s - 1 - (i - 1) - s) with (j - i) by lia. apply image_map. lia.
Qed.
Lemma rho_sh c : 1 <= c <= s -> image rho (sh i c) = sh i' (image ta c).
Proof.
  intros Hc. destruct (image_split n sg i Hsg) as (l1 & l2 & E & L1 & N1 & N2); try lia.
  assert (Lt : zlen ta = s) by (apply perm_len; [lia|assumption]).
  replace rho with (map (up i' s) l1 ++ map (sh i') ta ++ map (up i' s) l2) by (rewrite E at 4; rewrite gcomp_split by assumption; now rewrite Lt).
  unfold sh at 2. rewrite image_app_r by (rewrite zlen_map; lia). rewrite zlen_map, L1. replace (c + i - 1 - (i - 1)) with c by lia.
  rewrite image_app_l by (rewrite zlen_map; lia). apply image_map. lia.
Qed.
Lemma gcomp_equiv x y : perm n x -> perm s y -> gcomp (pmul sg x) (pmul ta y) i' = pmul rho (gcomp x y i).
Proof.
  intros Hx Hy. assert (Hin : In i x) by (apply (perm_in n); auto; lia). apply in_split in Hin. destruct Hin as (l1 & l2 & E).
  assert (ND : NoDup x) by (eapply perm_nodup; eauto). rewrite E in ND. assert (N := NoDup_remove_2 _ _ _ ND).
  assert (N1 : ~ In i l1) by (intros X; apply N, in_or_app; auto). assert (N2 : ~ In i l2) by (intros X; apply N, in_or_app; auto).
  assert (R : forall l, incl l x -> forall a, In a l -> 1 <= a <= n) by (intros l Hl a Ha; apply (perm_in n x); auto; lia).
  assert (I1 : incl l1 x) by (rewrite E; apply incl_appl, incl_refl). assert (I2 : incl l2 x) by (rewrite E; apply incl_appr, incl_tl, incl_refl).
  assert (Nm : forall l, incl l x -> ~ In i l -> ~ In i' (map (image sg) l)).
  { intros l Hl Nl X. apply in_map_iff in X. destruct X as (a & Ea & Ha). apply Nl. replace i with a; auto. apply (image_inj n sg); auto. eapply R; eauto. }
  assert (Ly : zlen y = s) by (apply perm_len; [lia|assumption]).
  unfold pmul. rewrite E, map_app. cbn [map]. rewrite !gcomp_split by (try assumption; apply Nm; assumption). rewrite zlen_map, Ly, !map_app, !map_map.
  f_equal; [|f_equal].
  - apply map_ext_in. intros a Ha. symmetry. apply rho_up; [now apply (R l1)|]. intros ->. contradiction.
  - apply map_ext_in. intros a Ha. symmetry. apply rho_sh. apply (perm_in s y); auto.
  - apply map_ext_in. intros a Ha. symmetry. apply rho_up; [now apply (R l2)|]. intros ->. contradiction.
Qed.

(** ** words *)
Lemma comps_move u : forall y, (forall a, In a u -> 1 <= a <= n) -> (forall a, In a y -> 1 <= a <= s) ->
  surj_composites i' s (map (image sg) u) (map (image ta) y) = map (fun p => (map (image rho) (fst p), snd p)) (surj_composites i s u y).
Proof.
  induction u as [|a u IH]; intros y Hu Hy; [reflexivity|].
  assert (Hu' : forall b, In b u -> 1 <= b <= n) by (intros; apply Hu; now right).
  assert (Ha : 1 <= a <= n) by (apply Hu; now left).
  assert (Hinj : forall b c, In b (a :: u) -> In c (a :: u) -> image sg b = image sg c -> b = c) by (intros b c Hb Hc; apply (image_inj n sg); auto).
  assert (Hsa : forall b, 1 <= b <= n -> (image sg b =? i') = (b =? i)).
  { intros b Hb. destruct (Z.eqb_spec b i) as [->|N]; [apply Z.eqb_refl|]. apply Z.eqb_neq. intros E. apply N, (image_inj n sg); auto. }
  assert (Hm : mem i' (map (image sg) u) = mem i u).
  { apply mem_iff. rewrite in_map_iff, mem_in. split; [|intros H; exists i; auto]. intros (b & Eb & Hb). replace i with b; auto. apply (image_inj n sg); auto. }
  assert (Hc : caesuras_in (map (image sg) (a :: u)) [] = caesuras_in (a :: u) []) by (apply nc_map; exact Hinj).
  cbn [surj_composites map]. cbn [map] in Hc. rewrite Hsa, Hm by assumption. destruct (Z.eqb_spec a i) as [Ea|Na].
  - destruct (mem i u) eqn:Em.
    + rewrite !cuts_splits.
      assert (HS : splits (map (image ta) y) = map (fun p => (map (image ta) (fst (fst p)), image ta (snd (fst p)), map (image ta) (snd p))) (splits y)).
      { clear. induction y as [|b y IH]; [reflexivity|]. cbn [map]. rewrite !splits_cons, IH. cbn [map fst snd]. f_equal. rewrite !map_map. reflexivity. }
      rewrite HS. rewrite flat_map_concat_map, map_map, flat_map_concat_map, concat_map, map_map. f_equal. apply map_ext_in. intros [[A b] B] Hin. cbn [fst snd].
      apply splits_in in Hin. assert (HB : forall c, In c (b :: B) -> 1 <= c <= s) by (intros c Hcc; apply Hy; rewrite Hin; apply in_or_app; now right).
      change (image ta b :: map (image ta) B) with (map (image ta) (b :: B)). rewrite (IH (b :: B)) by assumption. rewrite !map_map. apply map_ext. intros [w v]. cbn [fst snd].
      assert (Ec : caesuras_in (map (image ta) A) (map (image ta) (b :: B)) = caesuras_in A (b :: B)).
      { rewrite !caesuras_app, <- map_app. rewrite !nc_map; [reflexivity| |]; intros c d Hcc Hd; (apply (image_inj s ta); [assumption| |]); auto; apply Hy; rewrite Hin; auto. }
      rewrite Ec, Hc. f_equal. change (map (image ta) A ++ [image ta b]) with (map (image ta) A ++ map (image ta) [b]). rewrite <- map_app, map_map.
      rewrite (map_app (image rho) _ w), map_map. f_equal.
      apply map_ext_in. intros c Hcc. symmetry. apply rho_sh. apply Hy. rewrite Hin. apply in_app_or in Hcc. apply in_or_app. destruct Hcc as [?|[<-|[]]]; [now left|right; now left].
    + cbn [map fst snd]. assert (Ey : caesuras_in (map (image ta) y) [] = caesuras_in y []) by (apply nc_map; intros b c Hb Hcc; apply (image_inj s ta); auto).
      rewrite Ey, Hc, map_app, !map_map. f_equal. f_equal. f_equal.
      * apply map_ext_in. intros c Hcc. symmetry. apply rho_sh. auto.
      * apply map_ext_in. intros c Hcc. symmetry. apply rho_up; auto. intros ->. apply mem_in in Hcc. congruence.
  - rewrite IH by assumption. rewrite !map_map. apply map_ext. intros [w v]. cbn [fst snd map]. f_equal. f_equal. symmetry. now apply rho_up.
Qed.
End Letters.

Lemma Pc_move n s i sg ta g u y : perm n sg -> perm s ta -> 1 <= i <= n -> 1 <= s -> onto n u -> onto s y ->
  Pc i s (fun w => g (map (image (gcomp sg ta (image sg i))) w)) u y = Pc (image sg i) s g (map (image sg) u) (map (image ta) y).
Proof.
  intros Hsg Hta Hi Hs Hu Hy. unfold Pc. rewrite (comps_move n s i sg ta) by (auto; intros a Ha; first [now apply Hu|now apply Hy]).
  unfold ev. rewrite sumf_map. reflexivity.
Qed.
Lemma Pcomp_move n s i sg ta g k1 k2 : perm n sg -> perm s ta -> 1 <= i <= n -> 1 <= s -> be_simplex n k1 -> be_simplex s k2 ->
  Pcomp i (fun w => g (map (pmul (gcomp sg ta (image sg i))) w)) k1 k2 = Pcomp (image sg i) g (map (pmul sg) k1) (map (pmul ta) k2).
Proof.
  intros Hsg Hta Hi Hs H1 H2. unfold Pcomp. change bkey with (list (list Z)) in *.
  rewrite (EE_natural (gc i) (pmul (gcomp sg ta (image sg i)))), EE_map. apply EE_fun. intros a b Ha Hb. unfold gc. symmetry. apply (gcomp_equiv n s); auto.
Qed.

Lemma asg_one cv t p k : cok cv t -> eqm t (asg cv p k) 1.
Proof.
  intros [-> | ->]; [reflexivity|]. unfold asg. assert (T : forall u, eqm 2 (tw cv u) 1) by (intros u; destruct cv; cbn; try reflexivity; apply sgn_eqm2). rewrite (T k), (T (map (image p) k)). reflexivity.
Qed.

(** ** the laws *)
(** #C64_group# (sigma x) o_{sigma(i)} (tau y) = (sigma o_{sigma(i)} tau) (x o_i y)
    for permutations. *)
Lemma C64_group_l (n s i : Z) (sigma tau x y : list Z) :
  1 <= i <= n -> 1 <= s -> perm n sigma -> perm s tau -> perm n x -> perm s y ->
  exists r, perm (n + s - 1) r /\
    (let! a := sg_mul sigma x in let! b := sg_mul tau y in sg_compose a b (image sigma i)) = Ok r /\
    (let! rho := sg_compose sigma tau (image sigma i) in let! z := sg_compose x y i in sg_mul rho z) = Ok r.
Proof.
  intros Hi Hs Hsg Hta Hx Hy. assert (Hi' : 1 <= image sigma i <= n) by (eapply image_range; eauto).
  exists (gcomp (pmul sigma x) (pmul tau y) (image sigma i)). assert (P1 : perm n (pmul sigma x)) by (apply perm_pmul; auto; lia). assert (P2 : perm s (pmul tau y)) by (apply perm_pmul; auto; lia).
  split; [|split].
  - apply perm_gcomp; auto; lia.
  - rewrite (sg_mul_ok n), (sg_mul_ok s) by (auto; lia). cbn [bind]. apply (sg_compose_perm n); auto.
  - rewrite (sg_compose_perm n sigma), (sg_compose_perm n x) by auto. cbn [bind]. rewrite (sg_mul_ok (n + s - 1)); try lia; [|apply perm_gcomp; auto; lia|apply perm_gcomp; auto; lia].
    f_equal. symmetry. apply (gcomp_equiv n s); auto.
Qed.
Lemma single_keys n (a : ring) p : data a = [(SGE p, 1)] -> perm n p -> keys_in (pk n) a /\ keys_in sge a.
Proof. intros E Hp. split; intros k v; rewrite E; intros [[= <- <-]|[]]; [exact Hp|reflexivity]. Qed.

(** #C64_surjection# The same for surjection elements, for elements a, b, c of
    the symmetric ring that consist of sigma, tau and sigma o_{sigma(i)} tau. *)
Lemma C64_surjection_l (dt n1 n2 i : Z) (sigma tau rho : list Z) (a b c : ring) (x y : surj) :
  1 <= i <= n1 -> 1 <= n2 -> perm n1 sigma -> perm n2 tau -> sg_compose sigma tau (image sigma i) = Ok rho ->
  data a = [(SGE sigma, 1)] -> data b = [(SGE tau, 1)] -> data c = [(SGE rho, 1)] ->
  wf cls_ring a -> wf cls_ring b -> wf cls_ring c -> torsion a = torsion x -> torsion b = torsion x -> torsion c = torsion x ->
  wf cls_surj x -> wf cls_surj y -> torsion y = torsion x -> dt_ok dt (torsion x) ->
  attr x = BF /\ attr y = BF \/ torsion x = 2 /\ (attr x = BF \/ attr x = MS) /\ (attr y = BF \/ attr y = MS) ->
  keys_in (onto n1) x -> keys_in (onto n2) y ->
  same (let! z := surj_compose dt x y i in extended dt cls_surj (surj_act dt) c z)
       (let! u := extended dt cls_surj (surj_act dt) a x in let! v := extended dt cls_surj (surj_act dt) b y in surj_compose dt u v (image sigma i)).
Proof.
  intros Hi Hn2 Hsg Hta Hr Ea Eb Ec Wa Wb Wc Ta Tb Tc Wx Wy Ty Hdt Hcv Kx Ky. pose proof (proj1 Wx) as Ht. assert (Hn1 : 1 <= n1) by lia. assert (Hn : 1 <= n1 + n2 - 1) by lia.
  rewrite (sg_compose_perm n1) in Hr by (auto; eapply image_range; eauto). injection Hr as <-. set (rho := gcomp sigma tau (image sigma i)) in *.
  assert (Hi' : 1 <= image sigma i <= n1) by (eapply image_range; eauto). assert (Hrho : perm (n1 + n2 - 1) rho) by (apply perm_gcomp; auto; lia).
  assert (Hcx : attr x = BF \/ attr x = MS) by tauto. assert (Hcy : attr y = BF \/ attr y = MS) by tauto. assert (Hcok : cok (attr x) (torsion x)) by (unfold cok; tauto).
  destruct (single_keys n1 a sigma Ea Hsg) as [Ka _]. destruct (single_keys n2 b tau Eb Hta) as [Kb _]. destruct (single_keys (n1 + n2 - 1) c rho Ec Hrho) as [Kc _].
  assert (BA : forall n cv, 1 <= n -> cv = BF \/ cv = MS -> bilop cls_ring cls_surj cls_surj (torsion x) tt cv cv (pk n) (onto n) (PactS cv) (extended dt cls_surj (surj_act dt))).
  { intros n cv Hnn Hcv' o w Wo To Ao Ko Ww Tw Aw Kw. apply (bil_sact dt cv Hcv' n (torsion x) Hnn Ht Hdt); auto. }
  assert (RA : forall n cv, 1 <= n -> rep2 (pk n) (onto n) (onto n) (PactS cv)).
  { intros n cv Hnn. apply rep_sact_on; [lia|]. intros p0 k Hp Hk. apply onto_move; auto; lia. }
  assert (LA : forall n cv o, 1 <= n -> cv = BF \/ cv = MS -> wf cls_ring o -> torsion o = torsion x -> keys_in (pk n) o ->
     linop cls_surj cls_surj (torsion x) cv cv (onto n) (onto n) (DBL (PactS cv) o) (fun w => extended dt cls_surj (surj_act dt) o w)).
  { intros n cv o Hnn Hcv' Wo To Ko. apply (ga_linop cls_surj ok_surj cv n (onto n) (kpred_onto n) _ (PactS cv) (torsion x) Ht (BA n cv Hnn Hcv') (RA n cv Hnn)); auto. }
  assert (LC : linop cls_surj cls_surj (torsion x) (attr x) (attr x) (onto (n1 + n2 - 1)) (onto (n1 + n2 - 1)) (DBL (PactS (attr x)) c) (fun w => extended dt cls_surj (surj_act dt) c w)).
  { apply (ga_linop cls_surj ok_surj (attr x) (n1 + n2 - 1) (onto (n1 + n2 - 1)) (kpred_onto _) _ (PactS (attr x)) (torsion x) Ht (bil_sact dt (attr x) Hcx _ _ Hn Ht Hdt)); auto. }
  refine (bil_morphism cls_surj cls_surj cls_surj cls_surj cls_surj cls_surj ok_surj ok_surj ok_surj ok_surj ok_surj (torsion x) (attr x) (attr y) (attr x) (attr x) (attr y) (attr x)
    (onto n1) (onto n2) (onto (n1 + n2 - 1)) (onto n1) (onto n2) (onto (n1 + n2 - 1)) (onto (n1 + n2 - 1))
    (DBL (PactS (attr x)) a) (DBL (PactS (attr y)) b) (DBL (PactS (attr x)) c) (Pc i n2) (Pc (image sigma i) n2) _ _ _ (fun x y => surj_compose dt x y i) (fun x y => surj_compose dt x y (image sigma i)) x y
    Ht (kpred_onto _) (kpred_onto _) (kpred_onto _) (LA n1 (attr x) a Hn1 Hcx Wa Ta Ka) (rep2_L _ _ _ _ a (RA n1 (attr x) Hn1) Ka) (LA n2 (attr y) b Hn2 Hcy Wb Tb Kb) (rep2_L _ _ _ _ b (RA n2 (attr y) Hn2) Kb)
    (bil_surj_o dt (torsion x) (attr x) (attr y) n1 n2 i Ht Hdt Hcok Hi Hn2) _ LC _ (bil_surj_o dt (torsion x) (attr x) (attr y) n1 n2 (image sigma i) Ht Hdt Hcok Hi' Hn2) (adm_Pc_o n1 n2 (image sigma i) Hi' Hn2) _ _ Wx eq_refl eq_refl Kx Wy Ty eq_refl Ky).
  - intros k1 k2 H1 H2. destruct (rep_Pc_o n1 n2 i Hi Hn2 k1 k2 H1 H2) as (T & HT & E). exists T. split; [|exact E]. intros k v Hin. exact (HT _ _ Hin).
  - apply (DBL_admop cls_ring cls_surj cls_surj (pk (n1 + n2 - 1)) _ _ _ (adm_sact (attr x) _ Hn) c Kc Wc).
  - intros g k2 [_ Hg] H2. apply admP_keyeq. intros k1 H1 Hb. change (surj_bad k1 = Ok true) in Hb. rewrite (surj_bad_onto n1) in Hb by (auto; apply H1). injection Hb as Hb.
    rewrite (Pc_Cc 0 (image sigma i) n2 g k1 k2 n1) by (try lia; apply H1). rewrite Cc_ev. apply ev_zero. intros w v Hin.
    assert (Hc : onto (n1 + n2 - 1) w) by (eapply Cl_onto; eauto; lia). apply Hg. eapply bad_adj; [|apply Hc|]; [lia|]. eapply Cl_adj_u; [|exact Hin]. now apply SurjCompose4.adj_map.
  - intros g k1 k2 _ K1 K2 _ _.
    transitivity (Pc i n2 (fun w => asg (attr x) rho w * g (map (image rho) w)) k1 k2).
    { apply eqm_eq. unfold Pc. apply ev_ext_all. intros w. unfold DBL. rewrite Ec, ev_cons, ev_nil. unfold PactS. cbn [kval SGE]. ring. }
    transitivity (asg (attr x) sigma k1 * asg (attr y) tau k2 * Pc (image sigma i) n2 g (map (image sigma) k1) (map (image tau) k2)).
    2:{ apply eqm_eq. unfold DBL. rewrite Ea, Eb, ev_cons, ev_nil. unfold PactS at 1. cbn [kval SGE]. rewrite ev_cons, ev_nil. unfold PactS. cbn [kval SGE]. ring. }
    rewrite <- (Pc_move n1 n2 i sigma tau g k1 k2) by auto. fold rho.
    transitivity (Pc i n2 (fun w => g (map (image rho) w)) k1 k2).
    + unfold Pc. apply ev_eqm. intros w v _. rewrite (asg_one (attr x) (torsion x) rho w Hcok). apply eqm_eq. ring.
    + assert (Hcoky : cok (attr y) (torsion x)) by (unfold cok; tauto). rewrite (asg_one (attr x) (torsion x) sigma k1 Hcok), (asg_one (attr y) (torsion x) tau k2 Hcoky). apply eqm_eq. ring.
Qed.

(** #C64_barratt_eccles# The same for Barratt-Eccles elements. *)
Lemma C64_barratt_eccles_l (dt n1 n2 p q i : Z) (sigma tau rho : list Z) (a b c : ring) (x y : bee) :
  1 <= i <= n1 -> 1 <= n2 -> perm n1 sigma -> perm n2 tau -> sg_compose sigma tau (image sigma i) = Ok rho ->
  data a = [(SGE sigma, 1)] -> data b = [(SGE tau, 1)] -> data c = [(SGE rho, 1)] ->
  wf cls_ring a -> wf cls_ring b -> wf cls_ring c -> torsion a = torsion x -> torsion b = torsion x -> torsion c = torsion x ->
  wf cls_be x -> wf cls_be y -> torsion y = torsion x -> dt_ok dt (torsion x) ->
  keys_in (be_cell n1 p) x -> keys_in (be_cell n2 q) y ->
  same (let! z := extended dt cls_be (fun x y => be_compose dt x y i) x y in extended dt cls_be (be_act dt) c z)
       (let! u := extended dt cls_be (be_act dt) a x in let! v := extended dt cls_be (be_act dt) b y in extended dt cls_be (fun x y => be_compose dt x y (image sigma i)) u v).
Proof.
  intros Hi Hn2 Hsg Hta Hr Ea Eb Ec Wa Wb Wc Ta Tb Tc Wx Wy Ty Hdt Kx Ky. pose proof (proj1 Wx) as Ht. assert (Hn1 : 1 <= n1) by lia. assert (Hn : 1 <= n1 + n2 - 1) by lia.
  rewrite (sg_compose_perm n1) in Hr by (auto; eapply image_range; eauto). injection Hr as <-. set (rho := gcomp sigma tau (image sigma i)) in *.
  assert (Hi' : 1 <= image sigma i <= n1) by (eapply image_range; eauto). assert (Hrho : perm (n1 + n2 - 1) rho) by (apply perm_gcomp; auto; lia).
  destruct (single_keys n1 a sigma Ea Hsg) as [Ka Sa]. destruct (single_keys n2 b tau Eb Hta) as [Kb Sb]. destruct (single_keys (n1 + n2 - 1) c rho Ec Hrho) as [Kc Sc].
  assert (BA : forall n d, 1 <= n -> bilop cls_ring cls_be cls_be (torsion x) tt tt tt (pk n) (be_cell n d) PactB (extended dt cls_be (bact dt))).
  { intros n d Hnn o w Wo To Ao Ko Ww Tw Aw Kw. apply (bil_bact dt n (torsion x) Hnn Ht Hdt); auto. intros k v Hin. exact (proj1 (Kw _ _ Hin)). }
  assert (RA : forall n d, 1 <= n -> rep2 (pk n) (be_cell n d) (be_cell n d) PactB).
  { intros n d Hnn. apply rep_bact_on; [lia|]. intros p0 k Hp [Hk L]. split; [apply bsim_move; auto; lia|now rewrite zlen_map]. }
  assert (LA : forall n d o, 1 <= n -> wf cls_ring o -> torsion o = torsion x -> keys_in (pk n) o -> keys_in sge o ->
     linop cls_be cls_be (torsion x) tt tt (be_cell n d) (be_cell n d) (DBL PactB o) (fun w => extended dt cls_be (be_act dt) o w)).
  { intros n d o Hnn Wo To Ko So w Ww Tw Aw Kw. rewrite be_act0_bact0 by assumption.
    exact (ga_linop cls_be ok_be tt n (be_cell n d) (kpred_bdeg n d) _ PactB (torsion x) Ht (BA n d Hnn) (RA n d Hnn) o Wo To Ko w Ww Tw Aw Kw). }
  assert (LC : linop cls_be cls_be (torsion x) tt tt (be_simplex (n1 + n2 - 1)) (be_simplex (n1 + n2 - 1)) (DBL PactB c) (fun w => extended dt cls_be (be_act dt) c w)).
  { intros w Ww Tw Aw Kw. rewrite be_act0_bact0 by assumption.
    refine (ga_linop cls_be ok_be tt (n1 + n2 - 1) (be_simplex (n1 + n2 - 1)) (kpred_bsim _) _ PactB (torsion x) Ht (bil_bact dt _ _ Hn Ht Hdt) _ c Wc Tc Kc w Ww Tw Aw Kw). apply rep_bact. lia. }
  refine (bil_morphism cls_be cls_be cls_be cls_be cls_be cls_be ok_be ok_be ok_be ok_be ok_be (torsion x) tt tt tt tt tt tt
    (be_cell n1 p) (be_cell n2 q) (be_simplex (n1 + n2 - 1)) (be_cell n1 p) (be_cell n2 q) (be_simplex (n1 + n2 - 1)) (be_cell (n1 + n2 - 1) (p + q))
    (DBL PactB a) (DBL PactB b) (DBL PactB c) (Pcomp i) (Pcomp (image sigma i)) _ _ _ (compose0 dt i) (compose0 dt (image sigma i)) x y
    Ht (kpred_bsim _) (kpred_bdeg _ _) (kpred_bdeg _ _) (LA n1 p a Hn1 Wa Ta Ka Sa) (rep2_L _ _ _ _ a (RA n1 p Hn1) Ka) (LA n2 q b Hn2 Wb Tb Kb Sb) (rep2_L _ _ _ _ b (RA n2 q Hn2) Kb)
    (bil_compose dt (torsion x) n1 n2 p q i Ht Hdt Hn1 Hn2 Hi) _ LC _ (bil_compose dt (torsion x) n1 n2 p q (image sigma i) Ht Hdt Hn1 Hn2 Hi') (adm_compose n1 n2 p q (image sigma i) Hn1 Hn2 Hi') _ _ Wx eq_refl (be_attr x) Kx Wy Ty (be_attr y) Ky).
  - intros k1 k2 H1 H2. destruct (rep_compose n1 n2 p q i Hn1 Hn2 Hi k1 k2 H1 H2) as (T & HT & E). exists T. split; [|exact E]. intros k v Hin. exact (proj1 (HT _ _ Hin)).
  - assert (Hn0 : 0 <= n1 + n2 - 1) by lia. apply (DBL_admop cls_ring cls_be cls_be (pk (n1 + n2 - 1)) _ _ _ (adm_bact _ Hn0) c Kc Wc).
  - intros g k2 [_ Hg] H2. apply admP_keyeq. intros k1 H1 Hb. rewrite be_bad in Hb. injection Hb as Hb. apply Pcomp_bad_l; auto. intros w s Hin Hw. apply Hg. now rewrite be_bad, Hw.
  - intros g k1 k2 _ [K1 _] [K2 _] _ _. apply eqm_eq. transitivity (Pcomp (image sigma i) g (map (pmul sigma) k1) (map (pmul tau) k2)).
    2:{ unfold DBL. rewrite Ea, Eb, ev_cons, ev_nil. unfold PactB at 1. cbn [kval SGE]. rewrite ev_cons, ev_nil. unfold PactB. cbn [kval SGE]. ring. }
    rewrite <- (Pcomp_move n1 n2 i sigma tau g k1 k2) by auto. fold rho. unfold Pcomp, EZ.EE.
    apply ev_ext_all. intros w. unfold DBL. rewrite Ec, ev_cons, ev_nil. unfold PactB. cbn [kval SGE]. ring.
Qed.
(** #C64_example# An instance with seven terms; the hypotheses hold. *)
Example C64_example_l :
  let a := mkElt [(SGE [2; 3; 1], 1)] 0 tt : ring in let b := mkElt [(SGE [2; 1], 1)] 0 tt : ring in let c := mkElt [(SGE [3; 2; 4; 1], 1)] 0 tt : ring in
  let x := mkElt [([1; 2; 1; 3; 1], 2); ([2; 3; 1; 2; 3], -1)] 0 BF : surj in let y := mkElt [([1; 2; 1], 3)] 0 BF : surj in
  perm 3 [2; 3; 1] /\ perm 2 [2; 1] /\ sg_compose [2; 3; 1] [2; 1] (image [2; 3; 1] 1) = Ok [3; 2; 4; 1] /\ wf cls_ring a /\ wf cls_ring b /\ wf cls_ring c /\ wf cls_surj x /\ wf cls_surj y /\
  keys_in (surj_cell 3 2) x /\ keys_in (surj_cell 2 1) y /\
  exists z, (let! u := extended 0 cls_surj (surj_act 0) a x in let! v := extended 0 cls_surj (surj_act 0) b y in surj_compose 0 u v 2) = Ok z /\ zlen (data z) = 7.
Proof.
  intros a b c x y. split; [permtac|]. split; [permtac|]. split; [reflexivity|]. do 5 (split; [apply wfb_wf; reflexivity|]).
  split; [|split].
  - intros k v [[= <- <-]|[[= <- <-]|[]]]; split; try reflexivity; ontotac.
  - intros k v [[= <- <-]|[]]; split; try reflexivity; ontotac.
  - eexists. split; [vm_compute; reflexivity|reflexivity].
Qed.
