(** * Property theorems of the surjection operad: symmetric action, orbits. *)
From Coq Require Import Setoid Morphisms.
From Verif Require Import PyBase Dict FreeModule Symmetric Simplicial Utils Surjection BarrattEccles Eqm Spec SpecChain SpecOperad SpecSurj FreeModuleFacts FreeModuleLaws ListFacts
  ClassFacts LinearFacts SymmetricFacts CycleFacts SymmetricLaws RingFacts RingLaws Tensor TensorAct KoszulFacts LoopFacts ActGeneric SimplicialLaws BEFacts BEOrbit BELaws
  SurjFacts SurjBoundary SurjLaws SurjAct SurjOrbit.

Lemma asg_spec n cv p k : 0 <= n -> perm n p -> onto n k -> cv = BF \/ cv = MS -> surj_move cv p k = [(map (image p) k, asg cv p k)].
Proof.
  intros Hn Hp Hk [-> | ->]; unfold surj_move; [reflexivity|]. unfold asg. cbn [tw]. rewrite <- (eps_move n) by assumption. repeat f_equal.
  rewrite (perm_len n) by assumption. fold (dims n k). rewrite <- crossings_map. f_equal.
  assert (E : dims n k = map (fun j => znth 0 (dims n k) (posn p j - 1)) p); [|rewrite E at 1; apply combine_map_l].
  unfold dims at 1. apply nth_ext with (d := 0) (d' := 0).
  - rewrite !map_length, zrange_length. pose proof (perm_len n p Hn Hp) as L. unfold zlen in L. lia.
  - intros i Hi. rewrite map_length, zrange_length in Hi. pose proof (perm_len n p Hn Hp) as L. unfold zlen in L.
    rewrite (nth_indep _ 0 ((fun j => times_in j k - 1) 0)) by (rewrite map_length, zrange_length; lia). rewrite (map_nth (fun j => times_in j k - 1)).
    rewrite (nth_indep (map (fun j => znth 0 (dims n k) (posn p j - 1)) p) 0 ((fun j => znth 0 (dims n k) (posn p j - 1)) 0)) by (rewrite map_length; lia).
    rewrite (map_nth (fun j => znth 0 (dims n k) (posn p j - 1))).
    replace (nth i p 0) with (image p (Z.of_nat i + 1)) by (unfold image; f_equal; lia).
    rewrite (posn_image n) by (auto; lia). rewrite nth_dims by lia. f_equal. f_equal.
    pose proof (image_zrange n (Z.of_nat i + 1) ltac:(lia)) as E. unfold image in E. replace (Z.to_nat (Z.of_nat i + 1 - 1)) with i in E by lia. exact E.
Qed.
(** #C46_action_formula# A permutation acts by renaming the values, with the
    Koszul sign in the McClure-Smith convention; extended bilinearly. *)
Lemma C46_action_formula_l (dt n : Z) (a : ring) (x : surj) :
  1 <= n -> wf cls_ring a -> wf cls_surj x -> torsion a = torsion x -> dt_ok dt (torsion x) -> attr x = BF \/ attr x = MS ->
  keys_in (fun k => perm n (kval k)) a -> keys_in (onto n) x -> ~ is_zero a -> ~ is_zero x ->
  gives cls_surj (surj_act dt a x) (torsion x) (attr x) (extend2 (fun p k => surj_move (attr x) (kval p) k) a x).
Proof.
  intros Hn Wa Wx Ta Hdt Hcv Ka Kx Na Nx. pose proof (proj1 Wx) as Ht.
  replace (surj_act dt a x) with (extended dt cls_surj (surj_act dt) a x).
  2:{ unfold extended. unfold is_zero in *. destruct (data a); [congruence|]. destruct (data x); [congruence|]. reflexivity. }
  apply (ga_gives cls_surj ok_surj (attr x) n (onto n) _ (PactS (attr x)) (torsion x) Ht (bil_sact dt (attr x) Hcv n _ Hn Ht Hdt)); auto.
  intros g k2 k1 _ H2 H1 _. rewrite (asg_spec n) by (auto; lia). rewrite ev_cons, ev_nil, Z.add_0_r. reflexivity.
Qed.
(** #C46_left_action# (a * b) * x == a * (b * x), extended by zero. *)
Lemma C46_left_action_l (dt n : Z) (a b : ring) (x : surj) :
  1 <= n -> wf cls_ring a -> wf cls_ring b -> wf cls_surj x -> torsion a = torsion x -> torsion b = torsion x -> dt_ok dt (torsion x) -> attr x = BF \/ attr x = MS ->
  keys_in (fun k => perm n (kval k)) a -> keys_in (fun k => perm n (kval k)) b -> keys_in (onto n) x ->
  same (let! ab := ring_mul dt a b in extended dt cls_surj (surj_act dt) ab x)
       (let! bx := extended dt cls_surj (surj_act dt) b x in extended dt cls_surj (surj_act dt) a bx).
Proof.
  intros Hn Wa Wb Wx Ta Tb Hdt Hcv Ka Kb Kx. pose proof (proj1 Wx) as Ht. assert (Hn0 : 0 <= n) by lia.
  refine (ga_assoc cls_surj ok_surj (attr x) dt n Hn (onto n) (kpred_onto n) _ (PactS (attr x)) (torsion x) Ht (bil_sact dt _ Hcv n _ Hn Ht Hdt) (rep_sact _ n Hn0) (adm_sact _ n Hn)
      a b x Wa Wb Wx Ta Tb eq_refl eq_refl Ka Kb Kx _ _).
  - intros g p q k _ Hp Hq Hk _. unfold PactS. cbn [kval SGE]. apply eqm_eq. rewrite (asg_mul n), (map_move n) by auto. ring.
  - intros g k2 k2' k1 E. unfold PactS. now rewrite E.
Qed.
(** #C46_unit# *)
Lemma C46_unit_l (dt n : Z) (x : surj) :
  1 <= n -> wf cls_surj x -> dt_ok dt (torsion x) -> torsion x <> 1 -> attr x = BF \/ attr x = MS -> keys_in (onto n) x ->
  same (let! e := identity_element dt n (Some (torsion x)) in extended dt cls_surj (surj_act dt) e x) (Ok x).
Proof.
  intros Hn Wx Hdt N Hcv Kx. pose proof (proj1 Wx) as Ht. assert (Hn0 : 0 <= n) by lia.
  apply (ga_unit cls_surj ok_surj (attr x) dt n (onto n) (kpred_onto n) _ (PactS (attr x)) (torsion x) Ht (bil_sact dt _ Hcv n _ Hn Ht Hdt) (rep_sact _ n Hn0)); auto.
  intros g k _ Hk _. unfold PactS. cbn [kval SGE]. apply eqm_eq. rewrite (asg_id _ n) by auto. rewrite Z.mul_1_l. f_equal.
  rewrite <- (map_id k) at 2. apply map_ext_in. intros a Ha. apply image_zrange. now apply Hk.
Qed.
(** #C46_bilinear# *)
Lemma C46_bilinear_l (dt n : Z) (a b : ring) (x y : surj) :
  1 <= n -> wf cls_ring a -> wf cls_ring b -> wf cls_surj x -> wf cls_surj y ->
  torsion a = torsion x -> torsion b = torsion x -> torsion y = torsion x -> attr y = attr x -> dt_ok dt (torsion x) -> attr x = BF \/ attr x = MS ->
  keys_in (fun k => perm n (kval k)) a -> keys_in (fun k => perm n (kval k)) b -> keys_in (onto n) x -> keys_in (onto n) y ->
  same (let! s := add dt cls_ring a b in extended dt cls_surj (surj_act dt) s x)
       (let! p := extended dt cls_surj (surj_act dt) a x in let! q := extended dt cls_surj (surj_act dt) b x in add dt cls_surj p q) /\
  same (let! s := add dt cls_surj x y in extended dt cls_surj (surj_act dt) a s)
       (let! p := extended dt cls_surj (surj_act dt) a x in let! q := extended dt cls_surj (surj_act dt) a y in add dt cls_surj p q).
Proof.
  intros Hn Wa Wb Wx Wy Ta Tb Ty Ay Hdt Hcv Ka Kb Kx Ky. pose proof (proj1 Wx) as Ht. assert (Hn0 : 0 <= n) by lia. split.
  - exact (ga_add_l cls_surj ok_surj (attr x) dt n (onto n) (kpred_onto n) _ (PactS (attr x)) (torsion x) Ht Hdt (bil_sact dt _ Hcv n _ Hn Ht Hdt) (rep_sact _ n Hn0) (adm_sact _ n Hn)
      a b x Wa Wb Wx Ta Tb eq_refl eq_refl Ka Kb Kx).
  - exact (ga_add_r cls_surj ok_surj (attr x) dt n (onto n) (kpred_onto n) _ (PactS (attr x)) (torsion x) Ht Hdt (bil_sact dt _ Hcv n _ Hn Ht Hdt) (rep_sact _ n Hn0) (adm_sact _ n Hn)
      a x y Wa Wx Wy Ta eq_refl Ty eq_refl Ay Ka Kx Ky).
Qed.
(** #C46_action_boundary# boundary(a * x) == a * boundary(x), extended by zero, in both conventions. *)
Lemma C46_action_boundary_l (dt n : Z) (a : ring) (x : surj) :
  1 <= n -> wf cls_ring a -> wf cls_surj x -> torsion a = torsion x -> dt_ok dt (torsion x) -> attr x = BF \/ attr x = MS ->
  keys_in (fun k => perm n (kval k)) a -> keys_in (onto n) x ->
  same (let! y := extended dt cls_surj (surj_act dt) a x in surj_boundary dt y)
       (let! y := surj_boundary dt x in extended dt cls_surj (surj_act dt) a y).
Proof.
  intros Hn Wa Wx Ta Hdt Hcv Ka Kx. pose proof (proj1 Wx) as Ht. assert (Hn0 : 0 <= n) by lia.
  assert (HK : known (attr x) (torsion x)) by (unfold known; tauto).
  refine (ga_bnd cls_surj ok_surj (attr x) n (onto n) (kpred_onto n) _ (PactS (attr x)) (torsion x) Ht (bil_sact dt _ Hcv n _ Hn Ht Hdt) (rep_sact _ n Hn0) (adm_sact _ n Hn)
    (surj_boundary dt) (sd (attr x)) a x (linop_sb dt _ _ _ _ Ht Hdt HK (kpred_onto n) (sface_onto n)) (rep_sd _ _ _ (sface_onto n))
    (adm_sd _ _ _ (sface_onto n) (fun k => onto_ne n k Hn)) _ Wa Wx Ta eq_refl eq_refl Ka Kx).
  intros g k2 k _ H2 Hk _. unfold PactS. apply eqm_eq. now apply (sd_move n).
Qed.
(** #C46_degree# The action keeps arity and degree. *)
Lemma C46_degree_l (dt n d : Z) (a : ring) (x : surj) :
  1 <= n -> wf cls_ring a -> wf cls_surj x -> torsion a = torsion x -> dt_ok dt (torsion x) -> attr x = BF \/ attr x = MS ->
  keys_in (fun k => perm n (kval k)) a -> keys_in (surj_cell n d) x ->
  exists y, extended dt cls_surj (surj_act dt) a x = Ok y /\ wf cls_surj y /\ torsion y = torsion x /\ attr y = attr x /\ keys_in (surj_cell n d) y.
Proof.
  intros Hn Wa Wx Ta Hdt Hcv Ka Kx. pose proof (proj1 Wx) as Ht. assert (Hn0 : 0 <= n) by lia.
  assert (Bil : bilop cls_ring cls_surj cls_surj (torsion x) tt (attr x) (attr x) (pk n) (surj_cell n d) (PactS (attr x)) (extended dt cls_surj (surj_act dt))).
  { intros o z Wo To Ao Ko Wz Tz Az Kz. apply (bil_sact dt _ Hcv n _ Hn Ht Hdt); auto. intros k v Hin. exact (proj1 (Kz _ _ Hin)). }
  destruct (Bil a x Wa Ta (ring_attr0 a) Ka Wx eq_refl eq_refl Kx) as (y & E & _). exists y. split; [exact E|].
  apply (ga_keys cls_surj ok_surj (attr x) n (surj_cell n d) (kpred_cell n d) _ (PactS (attr x)) (torsion x) Ht Bil) with (o := a) (x := x); auto.
  apply rep_sact_on; auto. intros p k Hp Hk. now apply cell_move.
Qed.
(** #C46_mismatch# Different torsions, different arities, or an unknown convention are rejected. *)
Lemma C46_mismatch_l (dt n m : Z) (a : ring) (x : surj) :
  (torsion a <> torsion x -> surj_act dt a x = Err TypeError) /\
  (ring_arity a = Ok (Some n) -> surj_arity x = Ok (Some m) -> n <> m -> surj_act dt a x = Err TypeError) /\
  (1 <= n -> wf cls_ring a -> torsion a = torsion x -> attr x = OtherConv -> keys_in (fun k => perm n (kval k)) a -> keys_in (onto n) x -> ~ is_zero a -> ~ is_zero x ->
   surj_act dt a x = Err AssertionError).
Proof.
  unfold surj_act. split; [|split].
  - intros N. destruct (Z.eqb_spec (torsion x) (torsion a)); [congruence|reflexivity].
  - intros E1 E2 N. rewrite E1, E2. destruct (negb (torsion x =? torsion a)); [reflexivity|]. cbn [bind opt_eqb]. destruct (Z.eqb_spec m n); [congruence|reflexivity].
  - intros Hn Wa Ta Ax Ka Kx Na Nx. rewrite Ta, Z.eqb_refl. cbn [negb]. rewrite (surj_arity_ok n) by auto. cbn [bind].
    rewrite (ring_arity_ok n) by auto. cbn [bind opt_eqb]. rewrite Z.eqb_refl. cbn [negb]. rewrite zero_data. cbn [bind].
    apply for_err.
    + unfold is_zero in *. destruct (data x), (data a); cbn; congruence.
    + intros s [[k1 v1] [k2 v2]] Hin. apply in_prod_iff in Hin. destruct Hin as [H1 H2]. apply Kx in H1. apply Ka in H2.
      rewrite (mapM_map _ (image (kval k2))).
      2:{ intros i Hi. apply H1 in Hi. rewrite (py_get_in 0) by (rewrite (perm_len n (kval k2)) by (auto; lia); lia). reflexivity. }
      cbn [bind]. rewrite Ax. reflexivity.
Qed.
(** #C46_example# *)
Example C46_example_l :
  let x cv := mkElt (A := conv) [([1; 2; 1; 3; 2], 1)] 0 cv in
  let a := mkElt [(SGE [2; 1; 3], 1); (Tup [3; 1; 2], 5)] 0 tt in
  wf cls_surj (x MS) /\ wf cls_ring a /\ keys_in (fun k => perm 3 (kval k)) a /\ keys_in (onto 3) (x MS) /\
  surj_act 0 a (x BF) = Ok (mkElt [([2; 1; 2; 3; 1], 1); ([3; 1; 3; 2; 1], 5)] 0 BF) /\
  surj_act 0 a (x MS) = Ok (mkElt [([2; 1; 2; 3; 1], -1); ([3; 1; 3; 2; 1], -5)] 0 MS).
Proof.
  cbn zeta. split; [apply wfb_wf; reflexivity|]. split; [apply wfb_wf; reflexivity|]. split; [|split; [|split; reflexivity]].
  - intros k v [[= <- <-]|[[= <- <-]|[]]]; cbn [kval SGE Tup]; permtac.
  - intros ? ? [[= <- <-]|[]]. ontotac.
Qed.

(** ** Orbits *)
(** #C47_orbit_formula# Every basis element is acted on by the permutation that
    makes the first occurrences increasing (with the sign of the action in the McClure-Smith convention); with ['sign'],
    times the sign of that permutation. *)
Lemma C47_orbit_formula_l (dt n : Z) (rep : repr) (x : surj) : 1 <= n -> wf cls_surj x -> dt_ok dt (torsion x) -> keys_in (onto n) x ->
  attr x = BF \/ attr x = MS -> rep = Trivial \/ rep = SignRep ->
  gives cls_surj (surj_orbit dt x rep) (torsion x) (attr x)
    (extend (fun k => map (fun '(k', s) => (k', match rep with SignRep => sgn (inversions (surj_rename k)) | _ => 1 end * s))
                          (surj_move (attr x) (surj_rename k) k)) x).
Proof.
  intros Hn Wx Hdt Kx Hcv Hr. pose proof (proj1 Wx) as Ht. eapply (den_gives cls_surj ok_surj); [exact Ht|apply (sorbit_den dt (attr x) rep n); auto; destruct Hr; congruence|].
  intros g Hg. cbn beta. apply eqm_eq. rewrite ev_extend. apply ev_ext. intros k v Hin. pose proof (Kx _ _ Hin) as Hk. pose proof (firsts_perm n k Hk) as Hf.
  unfold surj_rename. rewrite inverse_pinv. rewrite (asg_spec n) by (auto; try lia; apply perm_pinv; auto; lia). cbn [map]. rewrite ev_cons, ev_nil. unfold DorbS.
  replace (match rep with SignRep => sgn (inversions (pinv (firsts k))) | _ => 1 end) with (chi rep (firsts k)); [ring|].
  rewrite <- (chi_pinv rep n) by (auto; lia). destruct rep; reflexivity.
Qed.
(** #C47_first_occurrences_increasing# *)
Lemma C47_first_occurrences_increasing_l (dt n : Z) (rep : repr) (x : surj) : 1 <= n -> wf cls_surj x -> dt_ok dt (torsion x) -> keys_in (onto n) x ->
  attr x = BF \/ attr x = MS -> rep = Trivial \/ rep = SignRep ->
  exists y, surj_orbit dt x rep = Ok y /\ wf cls_surj y /\ torsion y = torsion x /\ attr y = attr x /\
    keys_in (fun k => onto n k /\ firsts k = zrange 1 (n + 1)) y.
Proof.
  intros Hn Wx Hdt Kx Hcv Hr. pose proof (proj1 Wx) as Ht. assert (Nr : rep <> OtherRep) by (destruct Hr; congruence).
  destruct (linop_sorbit dt (attr x) rep n _ Hcv Nr Hn Ht Hdt x Wx eq_refl eq_refl Kx) as (y & E & Dy & Ky). exists y. split; [exact E|].
  split; [exact (den_wf _ _ _ _ _ Ht Dy)|]. split; [exact (proj1 Dy)|]. split; [exact (proj1 (proj2 Dy))|exact Ky].
Qed.
Lemma rep_DorbS' cv r n : 0 <= n -> LinearFacts.rep (onto n) (onto n) (DorbS cv r).
Proof. intros Hn k Hk. destruct (rep_DorbS cv r n Hn k Hk) as (T & T1 & T2). exists T. split; [intros k' v Hin; apply sorb_onto; eapply T1; eauto|exact T2]. Qed.
(** #C47_idempotent# *)
Lemma C47_idempotent_l (dt n : Z) (rep : repr) (x : surj) : 1 <= n -> wf cls_surj x -> dt_ok dt (torsion x) -> keys_in (onto n) x ->
  attr x = BF \/ attr x = MS -> rep = Trivial \/ rep = SignRep ->
  same (let! y := surj_orbit dt x rep in surj_orbit dt y rep) (surj_orbit dt x rep).
Proof.
  intros Hn Wx Hdt Kx Hcv Hr. pose proof (proj1 Wx) as Ht. assert (Hn0 : 0 <= n) by lia. assert (Nr : rep <> OtherRep) by (destruct Hr; congruence).
  pose proof (linop_sorbit dt (attr x) rep n _ Hcv Nr Hn Ht Hdt) as L.
  pose proof (linop_weaken cls_surj cls_surj _ (attr x) (attr x) _ (onto n) _ (onto n) _ _ (fun k H => H) (sorb_onto n) L) as L1.
  refine (linop_same cls_surj cls_surj ok_surj (torsion x) _ _ (onto n) (sorb n) (sorb n) _ _ _ _ x Ht
    (linop_comp cls_surj cls_surj cls_surj ok_surj ok_surj ok_surj (torsion x) _ _ _ (onto n) (onto n) (sorb n) _ _ _ _ Ht (kpred_onto n) L1 L _ (adm_DorbS _ rep n Hn))
    L Wx eq_refl eq_refl Kx _).
  - apply rep_local. now apply rep_DorbS'.
  - intros g k Hg Hk Hb. pose proof (firsts_perm n k Hk) as Hf. unfold DorbS at 1. rewrite (DorbS_move _ rep n) by (auto; now apply perm_pinv). rewrite (chi_pinv rep n) by auto. apply eqm_eq.
    pose proof (chi_sq rep (firsts k)) as E1. pose proof (asg_sq (attr x) (pinv (firsts k)) k) as E2. set (c := chi rep (firsts k)) in *. set (s := asg (attr x) (pinv (firsts k)) k) in *.
    set (D := DorbS (attr x) rep g k). transitivity ((c * c) * (s * s) * D); [ring|]. rewrite E1, E2. ring.
Qed.
(** #C47_constant_on_orbits# If [a] is a permutation (with coefficient 1) the orbits of [x] and [a * x]
    agree, up to the sign of [a] for ['sign']; in general they are proportional by
    the (twisted) augmentation of [a]. *)
Lemma C47_constant_on_orbits_l (dt n : Z) (rep : repr) (a : ring) (x : surj) :
  1 <= n -> wf cls_ring a -> wf cls_surj x -> torsion a = torsion x -> dt_ok dt (torsion x) -> attr x = BF \/ attr x = MS -> rep = Trivial \/ rep = SignRep ->
  keys_in (fun k => perm n (kval k)) a -> keys_in (onto n) x ->
  same (let! y := extended dt cls_surj (surj_act dt) a x in surj_orbit dt y rep)
       (let! y := surj_orbit dt x rep in
        scale dt cls_surj (zsum (map (fun kv => snd kv * match rep with SignRep => sgn (inversions (kval (fst kv))) | _ => 1 end) (data a))) y).
Proof.
  intros Hn Wa Wx Ta Hdt Hcv Hr Ka Kx. pose proof (proj1 Wx) as Ht. assert (Hn0 : 0 <= n) by lia. assert (Nr : rep <> OtherRep) by (destruct Hr; congruence).
  pose proof (linop_sorbit dt (attr x) rep n _ Hcv Nr Hn Ht Hdt) as L.
  pose proof (ga_linop cls_surj ok_surj (attr x) n (onto n) (kpred_onto n) _ (PactS (attr x)) (torsion x) Ht (bil_sact dt _ Hcv n _ Hn Ht Hdt) (rep_sact _ n Hn0) a Wa Ta Ka) as LA.
  pose proof (linop_comp cls_surj cls_surj cls_surj ok_surj ok_surj ok_surj (torsion x) _ _ _ (onto n) (onto n) (sorb n) _ _ _ _ Ht (kpred_onto n) LA L
    (rep_local _ _ _ (rep2_L _ _ _ (PactS (attr x)) a (rep_sact _ n Hn0) Ka)) (adm_DorbS _ rep n Hn)) as LC.
  eapply (same_den cls_surj ok_surj (torsion x) (attr x)); [exact Ht| | |].
  - eapply returns_mono; [exact (LC x Wx eq_refl eq_refl Kx)|]. intros y [Dy _]. exact Dy.
  - eapply returns_bind; [exact (L x Wx eq_refl eq_refl Kx)|]. intros y [Dy _]. exact (scale_den cls_surj ok_surj dt (torsion x) Ht Hdt (attr x) _ _ _ Dy).
  - intros g Hg. cbn beta. apply eqm_eq. unfold DBL. unfold ev at 1 3. rewrite <- sumf_scal. apply sumf_ext. intros [k v] Hin. cbn [fst snd].
    assert (Hk : onto n k) by exact (Kx _ _ Hin).
    transitivity (v * (zsum (map (fun kv => snd kv * match rep with SignRep => sgn (inversions (kval (fst kv))) | _ => 1 end) (data a)) * DorbS (attr x) rep g k)); [|ring]. f_equal.
    change (zsum (map (fun kv => snd kv * match rep with SignRep => sgn (inversions (kval (fst kv))) | _ => 1 end) (data a)))
      with (sumf (fun kv => snd kv * chi rep (kval (fst kv))) (data a)). rewrite Z.mul_comm, <- sumf_scal. unfold ev. apply sumf_ext. intros [k2 v2] Hin2. cbn [fst snd].
    unfold PactS. rewrite (DorbS_move (attr x) rep n g (kval k2) k Hn0 (Ka _ _ Hin2) Hk). pose proof (asg_sq (attr x) (kval k2) k) as E2. set (s := asg (attr x) (kval k2) k) in *.
    transitivity (v2 * ((s * s) * (chi rep (kval k2) * DorbS (attr x) rep g k))); [ring|]. rewrite E2. ring.
Qed.
(** #C47_boundary_on_orbits# The boundary is defined on orbits. *)
Lemma C47_boundary_on_orbits_l (dt n : Z) (rep : repr) (x : surj) : 1 <= n -> wf cls_surj x -> dt_ok dt (torsion x) -> keys_in (onto n) x ->
  attr x = BF \/ attr x = MS -> rep = Trivial \/ rep = SignRep ->
  same (let! y := surj_orbit dt x rep in let! z := surj_boundary dt y in surj_orbit dt z rep)
       (let! z := surj_boundary dt x in surj_orbit dt z rep).
Proof.
  intros Hn Wx Hdt Kx Hcv Hr. pose proof (proj1 Wx) as Ht. assert (Hn0 : 0 <= n) by lia. assert (Nr : rep <> OtherRep) by (destruct Hr; congruence).
  assert (HK : known (attr x) (torsion x)) by (unfold known; tauto). set (cv := attr x) in *.
  pose proof (linop_sorbit dt cv rep n _ Hcv Nr Hn Ht Hdt) as L.
  pose proof (linop_weaken cls_surj cls_surj _ cv cv _ (onto n) _ (onto n) _ _ (fun k H => H) (sorb_onto n) L) as L1.
  pose proof (linop_sb dt (torsion x) cv _ _ Ht Hdt HK (kpred_onto n) (sface_onto n)) as LB.
  pose proof (linop_comp cls_surj cls_surj cls_surj ok_surj ok_surj ok_surj (torsion x) cv cv cv (onto n) (onto n) (sorb n) _ _ _ _ Ht (kpred_onto n) LB L
    (rep_local _ _ _ (rep_sd cv _ _ (sface_onto n))) (adm_DorbS cv rep n Hn)) as LC.
  assert (AC : admop cls_surj cls_surj (onto n) (sorb n) (fun g => sd cv (DorbS cv rep g))).
  { intros g Hg. apply (adm_sd cv _ _ (sface_onto n) (fun k => onto_ne n k Hn)). now apply (adm_DorbS cv rep n Hn). }
  refine (linop_same cls_surj cls_surj ok_surj (torsion x) cv cv (onto n) (sorb n) (sorb n) _ _ _ _ x Ht
    (linop_comp cls_surj cls_surj cls_surj ok_surj ok_surj ok_surj (torsion x) cv cv cv (onto n) (onto n) (sorb n) _ _ _ _ Ht (kpred_onto n) L1 LC (rep_local _ _ _ (rep_DorbS' cv rep n Hn0)) AC)
    LC Wx eq_refl eq_refl Kx _).
  intros g k Hg Hk Hb. pose proof (firsts_perm n k Hk) as Hf. unfold DorbS at 1.
  rewrite (sd_move n) by (auto; now apply perm_pinv). apply eqm_eq.
  rewrite (LinearFacts.rep_ext (onto n) (onto n) (sd cv) (fun k' => asg cv (pinv (firsts k)) k' * DorbS cv rep g (map (image (pinv (firsts k))) k')) (fun k' => chi rep (firsts k) * DorbS cv rep g k') _
    (rep_sd cv _ _ (sface_onto n)) Hk).
  - rewrite !sd_ev, ev_scal, Z.mul_assoc, chi_sq. ring.
  - intros k' Hk'. rewrite (DorbS_move cv rep n) by (auto; now apply perm_pinv). rewrite (chi_pinv rep n) by auto. pose proof (asg_sq cv (pinv (firsts k)) k') as E.
    set (s := asg cv (pinv (firsts k)) k') in *. transitivity ((s * s) * (chi rep (firsts k) * DorbS cv rep g k')); [ring|]. rewrite E. ring.
Qed.
(** #C47_unknown_representation# Any other representation string raises TypeError on a non-zero element. *)
Lemma C47_unknown_representation_l (dt n : Z) (x : surj) : 1 <= n -> keys_in (onto n) x -> ~ is_zero x -> surj_orbit dt x OtherRep = Err TypeError.
Proof.
  intros Hn Kx Nx. unfold surj_orbit. rewrite zero_data. cbn [bind]. apply for_err; [exact Nx|].
  intros s [k v] Hin. apply Kx in Hin. rewrite first_seen_firsts, (sg_inverse_ok n) by (auto; now apply firsts_perm). reflexivity.
Qed.
(** #C47_example# *)
Example C47_example_l :
  let x := mkElt [([2; 1; 2; 3; 1], 1); ([1; 2; 1; 3; 2], 1)] 0 MS in
  wf cls_surj x /\ keys_in (onto 3) x /\
  surj_orbit 0 x Trivial = Ok (mkElt [] 0 MS) /\
  surj_orbit 0 x SignRep = Ok (mkElt [([1; 2; 1; 3; 2], 2)] 0 MS).
Proof.
  cbn zeta. split; [apply wfb_wf; reflexivity|]. split; [|split; reflexivity].
  intros ? ? [[= <- <-]|[[= <- <-]|[]]]; ontotac.
Qed.
