(** * Reduction of coefficients commutes with every operation (C103) *)
From Coq Require Import Setoid Morphisms.
From Verif Require Import PyBase Dict FreeModule Symmetric Simplicial Cubical Utils Surjection BarrattEccles Eqm Spec SpecChain SpecOperad SpecSurj SpecAction SpecCube SpecCubAction SpecSusp SpecCong SpecAttr FreeModuleFacts FreeModuleLaws ListFacts
  ClassFacts LinearFacts RingFacts RingLaws TensorAct SimplicialLaws CubicalLaws BELaws BELaws2 BELaws4 SurjLaws SurjLaws2 SurjLaws3 SurjLaws6 SuspLaws ActLaws CubActLaws TableLaws AttrLaws CongFacts CongLaws.

Section Red.
Context {K A : Type} `{KO : KeyOk K}.
Context (c : pycls K).
Lemma zb_wf (x : elt K A) : wf c x -> map (zb c) (data x) = data x.
Proof.
  intros (_ & _ & C). rewrite <- (map_id (data x)) at 2. apply map_ext_in. intros [k v] Hin. unfold zb. cbn [fst snd]. now rewrite (proj2 (C k v Hin)).
Qed.
Lemma ev_strip g (d : dict K) : ev g (strip d) = ev g d.
Proof.
  induction d as [|[k v] d IH]; [reflexivity|]. unfold strip in *. cbn [filter snd]. destruct (Z.eqb_spec v 0) as [->|N]; cbn [negb]; rewrite ?ev_cons, IH; [ring|reflexivity].
Qed.
Lemma red_facts (x x' : elt K A) m : wf c x -> 0 <= m -> set_torsion c x m = Ok x' ->
  wf c x' /\ torsion x' = m /\ attr x' = attr x /\ (forall P, keys_in P x -> keys_in P x') /\ (forall h, eqm m (ev h (data x')) (ev h (data x))).
Proof.
  intros Wx Hm E. pose proof Wx as [Hx0 Hx]. destruct (set_torsion_den c x m Wx Hm) as (z & Ez & Dz). rewrite E in Ez. injection Ez as <-.
  split; [now apply (den_wf c m _ _ _ Hm Dz)|]. split; [apply Dz|]. split; [apply Dz|].
  unfold set_torsion in E. rewrite pref_ok in E by (eapply canonical_okey; eauto). cbn [bind] in E. injection E as <-. unfold prefd. rewrite zb_wf by exact Wx. cbn [data]. split.
  - intros P Kx k v Hin. cbn [data] in Hin. unfold strip in Hin. apply filter_In in Hin. destruct Hin as [Hin _]. unfold reduce in Hin. destruct (m =? 0); [exact (Kx _ _ Hin)|].
    apply in_map_iff in Hin. destruct Hin as ([k0 v0] & [= <- <-] & Hin). exact (Kx _ _ Hin).
  - intros h. rewrite ev_strip. apply ev_reduce.
Qed.
Lemma gives_mod (r r' : res (elt K A)) t a l l' :
  0 <= t -> gives c r t a l -> gives c r' t a l' -> (forall k, eqm t (coef l k) (coef l' k)) -> same r r'.
Proof.
  intros Ht (z & -> & Wz & Tz & Az & Rz) (z' & -> & Wz' & Tz' & Az' & Rz') E. exists z, z'. split; [reflexivity|]. split; [reflexivity|]. split; [|split; congruence].
  destruct Wz as (_ & Cz), Wz' as (_ & Cz'). unfold elt_eqb, dict_eqb. apply forallb_forall. intros k Hk. apply Z.eqb_eq.
  assert (Hb : bad c k = Ok false).
  { apply in_app_or in Hk. destruct Hk as [Hk|Hk]; apply in_map_iff in Hk; destruct Hk as ([k' v] & <- & Hk); cbn; [apply Cz in Hk|apply Cz' in Hk]; apply Hk. }
  specialize (Rz k Hb). specialize (Rz' k Hb). rewrite Tz in *. rewrite Tz' in *.
  assert (R : eqm t (dget (data z) k) (dget (data z') k)). { transitivity (coef l k); [exact Rz|]. rewrite E. symmetry. exact Rz'. }
  destruct (Z.eq_dec t 0) as [->|Hn]; [now apply eqm_0 in R|].
  apply eqm_small with t; auto; try lia; eapply dget_range; eauto; lia.
Qed.
Lemma gives_red (r : res (elt K A)) t m a l : 0 <= m -> (m | t) -> gives c r t a l -> gives c (let! y := r in set_torsion c y m) m a l.
Proof.
  intros Hm Hd (y & -> & Wy & Ty & Ay & Ry). cbn [bind]. destruct (set_torsion_den c y m Wy Hm) as (z & Ez & _). exists z. split; [exact Ez|].
  destruct (red_facts y z m Wy Hm Ez) as (Wz & Tz & Az & _ & Ev). split; [exact Wz|]. split; [exact Tz|]. split; [congruence|]. intros k Hk. specialize (Ry k Hk). rewrite Ty in Ry. rewrite Tz.
  pose proof (Ev (ind k)) as E. rewrite (dget_ind (data z) k (proj1 (proj2 Wz))), (dget_ind (data y) k (proj1 (proj2 Wy))) in E. replace (dget (data z) k - coef l k) with ((dget (data z) k - dget (data y) k) + (dget (data y) k - coef l k)) by ring.
  apply Z.divide_add_r; [exact E|]. exact (Z.divide_trans _ _ _ Hd Ry).
Qed.
End Red.
Lemma base1 {K A K' B} `{KO : KeyOk K} `{KO' : KeyOk K'} (c : pycls K) (c' : pycls K') (f : K -> list (K' * Z)) (x x' : elt K A) (r r' : res (elt K' B)) m b :
  set_torsion c x m = Ok x' -> cls_ok c' -> wf c x -> 0 <= m -> (m | torsion x) ->
  gives c' r (torsion x) b (extend f x) -> gives c' r' m b (extend f x') -> same (let! y := r in set_torsion c' y m) r'.
Proof.
  intros E Hc' Wx Hm Hd F G. eapply (gives_mod c'); [exact Hm|eapply (gives_red c'); eauto|exact G|]. intros k. rewrite !coef_ev, !ev_extend. symmetry. now apply (red_facts c x x' m Wx Hm E).
Qed.
Lemma base2 {K1 A1 K2 A2 K' B} `{KO1 : KeyOk K1} `{KO2 : KeyOk K2} `{KO' : KeyOk K'} (c1 : pycls K1) (c2 : pycls K2) (c' : pycls K') (f : K1 -> K2 -> list (K' * Z))
  (x x' : elt K1 A1) (y y' : elt K2 A2) (r r' : res (elt K' B)) t m b :
  set_torsion c1 x m = Ok x' -> set_torsion c2 y m = Ok y' -> cls_ok c' -> wf c1 x -> wf c2 y -> 0 <= m -> (m | t) ->
  gives c' r t b (extend2 f x y) -> gives c' r' m b (extend2 f x' y') -> same (let! z := r in set_torsion c' z m) r'.
Proof.
  intros Ex Ey Hc' Wx Wy Hm Hd F G. eapply (gives_mod c'); [exact Hm|eapply (gives_red c'); eauto|exact G|]. intros k. rewrite !coef_ev, !ev_extend2.
  pose proof (red_facts c1 x x' m Wx Hm Ex) as (_ & _ & _ & _ & E1). pose proof (red_facts c2 y y' m Wy Hm Ey) as (_ & _ & _ & _ & E2).
  rewrite E1. unfold ev at 1 3. apply sumf_eqm. intros [k1 v] _. cbn [fst snd]. now rewrite E2.
Qed.

Lemma nonzero_of {K A} `{KO : KeyOk K} (c : pycls K) (x x' : elt K A) m : wf c x -> 0 <= m -> set_torsion c x m = Ok x' -> ~ is_zero x' -> ~ is_zero x.
Proof.
  intros Wx Hm E N Z. apply N. destruct (red_facts c x x' m Wx Hm E) as (_ & _ & _ & P & _). unfold is_zero in *. destruct (data x') as [|[k v] l] eqn:D; [reflexivity|]. exfalso.
  refine (P (fun _ => False) _ k v _); [intros k0 v0 H0; rewrite Z in H0; destruct H0|rewrite D; now left].
Qed.
Ltac b1 c c' ok G := refine (base1 c c' _ _ _ _ _ _ _ _ ok _ _ _ _ G); [eassumption|assumption|assumption|assumption|].
Ltac b2 c1 c2 c' ok F G := refine (base2 c1 c2 c' _ _ _ _ _ _ _ _ _ _ _ _ ok _ _ _ _ F G); [eassumption|eassumption|assumption|assumption|assumption|assumption].
(** #C103_simplicial# *)
Lemma C103_simplicial_l (dt m n d times coord : Z) (x x' : simp) :
  wf cls_simplicial x -> 0 <= m -> (m | torsion x) -> dt_ok dt (torsion x) -> dt_ok dt m -> set_torsion cls_simplicial x m = Ok x' ->
  same (let! y := simp_boundary dt x in set_torsion cls_simplicial y m) (simp_boundary dt x') /\
  same (let! y := simp_one_reduced dt x in set_torsion cls_simplicial y m) (simp_one_reduced dt x') /\
  (~ is_zero x' -> simp_arity x = Some n -> simp_degree x = Some d -> 1 <= coord <= n -> 0 <= times ->
   same (let! y := simp_iterated_diagonal dt x times coord in set_torsion cls_simplicial y m) (simp_iterated_diagonal dt x' times coord)).
Proof.
  intros Wx Hm Hd Hdt Hdm E. destruct (red_facts cls_simplicial x x' m Wx Hm E) as (Wx' & Tx' & Ax' & Px' & Ev). split; [|split].
  - pose proof (C20_boundary_formula_l dt x' Wx' ltac:(now rewrite Tx')) as G. rewrite Tx' in G. b1 cls_simplicial cls_simplicial ok_simplicial G. now apply C20_boundary_formula_l.
  - destruct (one_reduced_den dt (torsion x) x) as (u & Eu & Du); auto; [apply Wx|]. destruct (one_reduced_den dt m x') as (v & Ev' & Dv); auto. rewrite Eu. cbn [bind].
    assert (Wu : wf cls_simplicial u) by (apply (den_wf _ _ _ _ _ (proj1 Wx) Du)).
    destruct (set_torsion_den cls_simplicial u m Wu Hm) as (w & Ew & Dw).
    eapply (same_den cls_simplicial ok_simplicial m tt); [exact Hm|exists w; split; [exact Ew|]|exists v; split; eauto|].
    + replace (attr u) with tt in Dw by (now destruct (attr u)). exact Dw.
    + intros g Hg. cbn beta. rewrite Ev. eapply eqm_trans_div; [exact Hd|]. apply (den_ev _ _ _ _ _ _ Du Hg).
  - intros N Ar De Hco Ht. pose proof (nonzero_of cls_simplicial x x' m Wx Hm E N) as N0.
    assert (Ar' : simp_arity x' = Some n) by (apply (proj1 (C20_arity_degree_l n 0 x')); split; [exact N|]; apply Px'; apply (proj1 (C20_arity_degree_l n 0 x)) in Ar; apply Ar).
    assert (De' : simp_degree x' = Some d) by (apply (proj2 (C20_arity_degree_l 0 d x')); split; [exact N|]; apply Px'; apply (proj2 (C20_arity_degree_l 0 d x)) in De; apply De).
    pose proof (C24_diagonal_formula_l dt n d times coord x' Wx' ltac:(now rewrite Tx') Ar' De' Hco Ht) as G. rewrite Tx' in G. b1 cls_simplicial cls_simplicial ok_simplicial G. now apply (C24_diagonal_formula_l dt n d).
Qed.
(** #C103_cubical# *)
Lemma C103_cubical_l (dt m n d times coord : Z) (x x' : cubc) :
  wf cls_cubical x -> 0 <= m -> (m | torsion x) -> dt_ok dt (torsion x) -> dt_ok dt m -> set_torsion cls_cubical x m = Ok x' ->
  same (let! y := cub_boundary dt x in set_torsion cls_cubical y m) (cub_boundary dt x') /\
  same (let! y := cub_cartan_serre dt x in set_torsion cls_simplicial y m) (cub_cartan_serre dt x') /\
  (~ is_zero x' -> cub_arity x = Some n -> cub_degree x = Some d -> 1 <= coord <= n -> 0 <= times ->
   same (let! y := cub_iterated_diagonal dt x times coord in set_torsion cls_cubical y m) (cub_iterated_diagonal dt x' times coord)) /\
  (1 <= n -> keys_in (fun k => zlen k = n /\ cube_degree k = d /\ forall c c', In c k -> In c' k -> zlen c = zlen c') x ->
   same (let! y := cub_join dt x in set_torsion cls_cubical y m) (cub_join dt x')).
Proof.
  intros Wx Hm Hd Hdt Hdm E. destruct (red_facts cls_cubical x x' m Wx Hm E) as (Wx' & Tx' & Ax' & Px' & Ev). assert (Hdx : dt_ok dt (torsion x')) by now rewrite Tx'. split; [|split; [|split]].
  - pose proof (C27_boundary_formula_l dt x' Wx' Hdx) as G. rewrite Tx' in G. b1 cls_cubical cls_cubical ok_cubical G. now apply C27_boundary_formula_l.
  - pose proof (C33_formula_l dt x' Wx' Hdx) as G. rewrite Tx' in G. b1 cls_cubical cls_simplicial ok_simplicial G. now apply C33_formula_l.
  - intros N Ar De Hco Ht. pose proof (nonzero_of cls_cubical x x' m Wx Hm E N) as N0.
    assert (Ar' : cub_arity x' = Some n) by (apply (proj1 (C27_arity_degree_l n 0 x')); split; [exact N|]; apply Px'; apply (proj1 (C27_arity_degree_l n 0 x)) in Ar; apply Ar).
    assert (De' : cub_degree x' = Some d) by (apply (proj2 (C27_arity_degree_l 0 d x')); split; [exact N|]; apply Px'; apply (proj2 (C27_arity_degree_l 0 d x)) in De; apply De).
    pose proof (C29_diagonal_formula_l dt n d times coord x' Wx' Hdx Ar' De' Hco Ht) as G. rewrite Tx' in G. b1 cls_cubical cls_cubical ok_cubical G. now apply (C29_diagonal_formula_l dt n d).
  - intros Hn Kx. pose proof (C32_join_formula_l dt n d x' Wx' Hdx Hn (Px' _ Kx)) as G. rewrite Tx' in G. b1 cls_cubical cls_cubical ok_cubical G. now apply (C32_join_formula_l dt n d).
Qed.

(** #C103_surjection# *)
Lemma C103_surjection_l (dt m n d : Z) (rep : repr) (x x' : surj) :
  wf cls_surj x -> 0 <= m -> (m | torsion x) -> dt_ok dt (torsion x) -> dt_ok dt m -> set_torsion cls_surj x m = Ok x' -> attr x = BF \/ attr x = MS ->
  same (let! y := surj_boundary dt x in set_torsion cls_surj y m) (surj_boundary dt x') /\
  (1 <= n -> rep = Trivial \/ rep = SignRep -> keys_in (onto n) x -> same (let! y := surj_orbit dt x rep in set_torsion cls_surj y m) (surj_orbit dt x' rep)) /\
  (1 <= n -> attr x = BF -> keys_in (surj_cell n d) x -> same (let! y := surj_suspension dt x in set_torsion cls_surj y m) (surj_suspension dt x')).
Proof.
  intros Wx Hm Hd Hdt Hdm E Hc. destruct (red_facts cls_surj x x' m Wx Hm E) as (Wx' & Tx' & Ax' & Px' & Ev). assert (Hdx : dt_ok dt (torsion x')) by now rewrite Tx'.
  assert (Hc' : attr x' = BF \/ attr x' = MS) by now rewrite Ax'. split; [|split].
  - pose proof (C45_boundary_formula_l dt (attr x) x Wx Hdt Hc (or_introl eq_refl)) as F. pose proof (C45_boundary_formula_l dt (attr x) x' Wx' Hdx Hc (or_introl Ax')) as G. rewrite Tx', Ax' in G. b1 cls_surj cls_surj ok_surj G. exact F.
  - intros Hn Hr Kx. pose proof (C47_orbit_formula_l dt n rep x' Hn Wx' Hdx (Px' _ Kx) Hc' Hr) as G. rewrite Tx', Ax' in G. b1 cls_surj cls_surj ok_surj G. now apply (C47_orbit_formula_l dt n).
  - intros Hn Hb Kx. pose proof (C52_formula_l dt n d x' Hn Wx' Hdx ltac:(congruence) (Px' _ Kx)) as G. rewrite Tx' in G. b1 cls_surj cls_surj ok_surj G. now apply (C52_formula_l dt n d).
Qed.
(** #C103_barratt_eccles# *)
Lemma C103_barratt_eccles_l (dt m n r : Z) (rep : repr) (x x' : bee) :
  wf cls_be x -> 0 <= m -> (m | torsion x) -> dt_ok dt (torsion x) -> dt_ok dt m -> set_torsion cls_be x m = Ok x' ->
  same (let! y := be_boundary dt x in set_torsion cls_be y m) (be_boundary dt x') /\
  same (let! y := be_diagonal dt x r in set_torsion (cls_free (list bkey)) y m) (be_diagonal dt x' r) /\
  (1 <= n -> keys_in (be_simplex n) x ->
    same (let! y := be_orbit dt x rep in set_torsion cls_be y m) (be_orbit dt x' rep) /\
    same (let! y := be_table_reduction dt x in set_torsion cls_surj y m) (be_table_reduction dt x')).
Proof.
  intros Wx Hm Hd Hdt Hdm E. destruct (red_facts cls_be x x' m Wx Hm E) as (Wx' & Tx' & Ax' & Px' & Ev). assert (Hdx : dt_ok dt (torsion x')) by now rewrite Tx'. split; [|split].
  - pose proof (C34_boundary_formula_l dt x' Wx' Hdx) as G. rewrite Tx' in G. b1 cls_be cls_be ok_be G. now apply C34_boundary_formula_l.
  - pose proof (C42_diagonal_formula_l dt r x' Wx' Hdx) as G. rewrite Tx' in G. b1 cls_be (cls_free (list bkey)) (ok_free (list bkey)) G. now apply C42_diagonal_formula_l.
  - intros Hn Kx. split.
    + pose proof (C36_orbit_formula_l dt n rep x' Hn Wx' Hdx (Px' _ Kx)) as G. rewrite Tx' in G. b1 cls_be cls_be ok_be G. now apply (C36_orbit_formula_l dt n).
    + pose proof (C39_table_formula_l dt n x' Hn Wx' Hdx (Px' _ Kx)) as G. rewrite Tx' in G. b1 cls_be cls_surj ok_surj G. now apply (C39_table_formula_l dt n).
Qed.
Lemma den_red {K A} `{KO : KeyOk K} (c : pycls K) t m a F (y : elt K A) : 0 <= t -> 0 <= m -> (m | t) -> den c t a F y -> returns (set_torsion c y m) (den c m a F).
Proof.
  intros Ht Hm Hd D. pose proof (den_wf c t a F y Ht D) as Wy. eapply returns_mono; [apply (set_torsion_den c y m Wy Hm)|]. intros z Dz. replace (attr y) with a in Dz by (symmetry; apply D).
  eapply den_ext; [|exact Dz]. intros g Hg. cbn beta. eapply eqm_trans_div; [exact Hd|]. apply (den_ev c t a F y g D Hg).
Qed.
Lemma bil_red {K1 A1 K2 A2} `{KO1 : KeyOk K1} `{KO2 : KeyOk K2} (c1 : pycls K1) (c2 : pycls K2) (x x' : elt K1 A1) (y y' : elt K2 A2) m (P : K1 -> K2 -> Z) :
  wf c1 x -> wf c2 y -> 0 <= m -> set_torsion c1 x m = Ok x' -> set_torsion c2 y m = Ok y' ->
  eqm m (ev (fun k1 => ev (fun k2 => P k1 k2) (data y)) (data x)) (ev (fun k1 => ev (fun k2 => P k1 k2) (data y')) (data x')).
Proof.
  intros Wx Wy Hm Ex Ey. pose proof (red_facts c1 x x' m Wx Hm Ex) as (_ & _ & _ & _ & E1). pose proof (red_facts c2 y y' m Wy Hm Ey) as (_ & _ & _ & _ & E2).
  rewrite E1. unfold ev at 1 3. apply sumf_eqm. intros [k1 v] _. cbn [fst snd]. now rewrite E2.
Qed.
(** #C103_constructor# Constructing modulo [t] and reducing is constructing modulo [m]; the same for [create]. *)
Lemma C103_constructor_l {K A} `{KO : KeyOk K} (c : pycls K) (dt t m : Z) (d : dict K) (a : A) (x x' : elt K A) :
  cls_ok c -> 0 <= t -> 0 <= m -> (m | t) -> kdistinct (dkeys d) -> (forall k, In k (dkeys d) -> exists b, bad c k = Ok b) ->
  same (let! y := new dt c d (Some t) a in set_torsion c y m) (new dt c d (Some m) a) /\
  (wf c x -> torsion x = t -> dt_ok dt t -> dt_ok dt m -> set_torsion c x m = Ok x' ->
   same (let! y := create dt c x d in set_torsion c y m) (create dt c x' d)).
Proof.
  intros Hc Ht Hm Hd D Kd. split.
  - destruct (new_den c Hc dt t (Some t) a d eq_refl Ht D Kd) as (y & -> & Dy). cbn [bind].
    eapply (same_den c Hc m a); [exact Hm|apply (den_red c t m a _ y Ht Hm Hd Dy)|apply (new_den c Hc dt m (Some m) a d eq_refl Hm D Kd)|]. intros g _. reflexivity.
  - intros Wx Tx Hdt Hdm E. destruct (red_facts c x x' m Wx Hm E) as (Wx' & Tx' & Ax' & _).
    destruct (create_den c Hc dt t x d Ht Hdt Tx D Kd) as (y & -> & Dy). cbn [bind].
    eapply (same_den c Hc m (attr x)); [exact Hm|apply (den_red c t m _ _ y Ht Hm Hd Dy)| |].
    + rewrite <- Ax'. apply (create_den c Hc dt m x' d Hm Hdm Tx' D Kd).
    + intros g _. reflexivity.
Qed.
(** #C103_ring# Products and compositions in the group ring. *)
Lemma C103_ring_l (dt m r s i : Z) (x x' y y' : ring) :
  0 <= r -> wf cls_ring x -> wf cls_ring y -> torsion y = torsion x -> 0 <= m -> (m | torsion x) -> dt_ok dt (torsion x) -> dt_ok dt m ->
  set_torsion cls_ring x m = Ok x' -> set_torsion cls_ring y m = Ok y' -> keys_in (fun k => perm r (kval k)) x ->
  (keys_in (fun k => perm r (kval k)) y -> same (let! z := ring_mul dt x y in set_torsion cls_ring z m) (ring_mul dt x' y')) /\
  (keys_in (fun k => perm s (kval k)) y -> 1 <= i <= r -> keys_in (fun k => is_sge k = true) x ->
    same (let! z := ring_compose dt x y i in set_torsion cls_ring z m) (ring_compose dt x' y' i)).
Proof.
  intros Hr Wx Wy T Hm Hd Hdt Hdm Ex Ey Kx. pose proof (proj1 Wx) as Ht.
  destruct (red_facts cls_ring x x' m Wx Hm Ex) as (Wx' & Tx' & Ax' & Px' & _). destruct (red_facts cls_ring y y' m Wy Hm Ey) as (Wy' & Ty' & Ay' & Py' & _). split.
  - intros Ky. destruct (bilop_mul dt r (torsion x) Hr Ht x y) as (z & -> & Dz); auto using ring_attr. cbn [bind].
    eapply (same_den cls_ring ok_ring m tt); [exact Hm|exact (den_red cls_ring (torsion x) m tt _ z Ht Hm Hd Dz)|apply (bilop_mul dt r m Hr Hm x' y'); auto using ring_attr; apply Px' || apply Py'; assumption|].
    intros g Hg. cbn beta. now apply (bil_red cls_ring cls_ring).
  - intros Ky Hi Sx. rewrite !ring_compose_rc by (auto; now apply Px').
    destruct (bilop_comp dt r s (torsion x) i Ht Hdt Hi x y) as (z & Ez & Dz); auto using ring_attr. rewrite Ez. cbn [bind].
    eapply (same_den cls_ring ok_ring m tt); [exact Hm|exact (den_red cls_ring (torsion x) m tt _ z Ht Hm Hd Dz)|apply (bilop_comp dt r s m i Hm Hdm Hi x' y'); auto using ring_attr; apply Px' || apply Py'; assumption|].
    intros g Hg. cbn beta. now apply (bil_red cls_ring cls_ring).
Qed.
(** #C103_action# The action of the group ring on every class (of elements that do not become zero, because the code refuses zero
    operands: C58). *)
Lemma C103_action_l (dt m n : Z) (a a' : ring) (x x' : simp) (y y' : cubc) (u u' : surj) (v v' : bee) :
  1 <= n -> wf cls_ring a -> wf cls_simplicial x -> wf cls_cubical y -> wf cls_surj u -> wf cls_be v ->
  torsion x = torsion a -> torsion y = torsion a -> torsion u = torsion a -> torsion v = torsion a -> 0 <= m -> (m | torsion a) -> dt_ok dt (torsion a) -> dt_ok dt m -> attr u = BF \/ attr u = MS ->
  set_torsion cls_ring a m = Ok a' -> set_torsion cls_simplicial x m = Ok x' -> set_torsion cls_cubical y m = Ok y' -> set_torsion cls_surj u m = Ok u' -> set_torsion cls_be v m = Ok v' ->
  keys_in (fun k => perm n (kval k)) a -> keys_in (fun k => zlen k = n) x -> keys_in (fun k => zlen k = n) y -> keys_in (onto n) u -> keys_in (be_simplex n) v ->
  ~ is_zero a' ->
  (~ is_zero x' -> same (let! z := simp_act dt a x in set_torsion cls_simplicial z m) (simp_act dt a' x')) /\
  (~ is_zero y' -> same (let! z := cub_act dt a y in set_torsion cls_cubical z m) (cub_act dt a' y')) /\
  (~ is_zero u' -> same (let! z := surj_act dt a u in set_torsion cls_surj z m) (surj_act dt a' u')) /\
  (~ is_zero v' -> keys_in (fun k => is_sge k = true) a -> same (let! z := be_act dt a v in set_torsion cls_be z m) (be_act dt a' v')).
Proof.
  intros Hn Wa Wx Wy Wu Wv Tx Ty Tu Tv Hm Hd Hdt Hdm Hc Ea Ex Ey Eu Ev Ka Kx Ky Ku Kv Na'. pose proof (nonzero_of cls_ring a a' m Wa Hm Ea Na') as Na.
  destruct (red_facts cls_ring a a' m Wa Hm Ea) as (Wa' & Ta' & Aa' & Pa' & _). pose proof (Pa' _ Ka) as Ka'.
  destruct (red_facts cls_simplicial x x' m Wx Hm Ex) as (Wx' & Tx' & Ax' & Px' & _). destruct (red_facts cls_cubical y y' m Wy Hm Ey) as (Wy' & Ty' & Ay' & Py' & _).
  destruct (red_facts cls_surj u u' m Wu Hm Eu) as (Wu' & Tu' & Au' & Pu' & _). destruct (red_facts cls_be v v' m Wv Hm Ev) as (Wv' & Tv' & Av' & Pv' & _).
  split; [|split; [|split]].
  - intros Nx'. pose proof (nonzero_of cls_simplicial x x' m Wx Hm Ex Nx') as Nx. pose proof (C22_action_formula_l dt n a x Hn Wa Wx ltac:(congruence) ltac:(congruence) Ka Kx Na Nx) as F.
    pose proof (C22_action_formula_l dt n a' x' Hn Wa' Wx' ltac:(congruence) ltac:(congruence) Ka' (Px' _ Kx) Na' Nx') as G. rewrite Tx' in G. rewrite Tx in F. b2 cls_ring cls_simplicial cls_simplicial ok_simplicial F G.
  - intros Ny'. pose proof (nonzero_of cls_cubical y y' m Wy Hm Ey Ny') as Ny. pose proof (C28_action_formula_l dt n a y Hn Wa Wy ltac:(congruence) ltac:(congruence) Ka Ky Na Ny) as F.
    pose proof (C28_action_formula_l dt n a' y' Hn Wa' Wy' ltac:(congruence) ltac:(congruence) Ka' (Py' _ Ky) Na' Ny') as G. rewrite Ty' in G. rewrite Ty in F. b2 cls_ring cls_cubical cls_cubical ok_cubical F G.
  - intros Nu'. pose proof (nonzero_of cls_surj u u' m Wu Hm Eu Nu') as Nu. pose proof (C46_action_formula_l dt n a u Hn Wa Wu ltac:(congruence) ltac:(congruence) Hc Ka Ku Na Nu) as F.
    pose proof (C46_action_formula_l dt n a' u' Hn Wa' Wu' ltac:(congruence) ltac:(congruence) ltac:(rewrite Au'; exact Hc) Ka' (Pu' _ Ku) Na' Nu') as G. rewrite Tu', Au' in G. rewrite Tu in F. b2 cls_ring cls_surj cls_surj ok_surj F G.
  - intros Nv' Sa. pose proof (nonzero_of cls_be v v' m Wv Hm Ev Nv') as Nv. pose proof (C35_action_formula_l dt n a v Hn Wa Wv ltac:(congruence) ltac:(congruence) ltac:(intros k w Hin; split; [exact (Sa k w Hin)|exact (Ka k w Hin)]) Kv Na Nv) as F.
    pose proof (C35_action_formula_l dt n a' v' Hn Wa' Wv' ltac:(congruence) ltac:(congruence) ltac:(intros k w Hin; split; [exact (Pa' _ Sa k w Hin)|exact (Ka' k w Hin)]) (Pv' _ Kv) Na' Nv') as G. rewrite Tv' in G. rewrite Tv in F. b2 cls_ring cls_be cls_be ok_be F G.
Qed.
(** #C103_operad# Compositions in the two operads, and the action of surjections on tensors of simplices and of cubes. *)
Lemma C103_operad_l (dt m n1 n2 p q i n e coord : Z) (x x' y y' : surj) (u u' v v' : bee) (z z' : simp) (w w' : cubc) :
  1 <= i <= n1 -> 1 <= n2 -> 1 <= coord <= n ->
  wf cls_surj x -> wf cls_surj y -> wf cls_be u -> wf cls_be v -> wf cls_simplicial z -> wf cls_cubical w ->
  torsion y = torsion x -> torsion u = torsion x -> torsion v = torsion x -> torsion z = torsion x -> torsion w = torsion x ->
  0 <= m -> (m | torsion x) -> dt_ok dt (torsion x) -> dt_ok dt m ->
  set_torsion cls_surj x m = Ok x' -> set_torsion cls_surj y m = Ok y' -> set_torsion cls_be u m = Ok u' -> set_torsion cls_be v m = Ok v' ->
  set_torsion cls_simplicial z m = Ok z' -> set_torsion cls_cubical w m = Ok w' ->
  keys_in (surj_cell n1 p) x -> keys_in (surj_cell n2 q) y -> keys_in (be_cell n1 p) u -> keys_in (be_cell n2 q) v ->
  keys_in (fun k => zlen k = n /\ total_degree k = e) z -> keys_in (fun k => zlen k = n /\ cube_degree k = e) w ->
  (attr x = BF -> same (let! r := surj_compose dt x y i in set_torsion cls_surj r m) (surj_compose dt x' y' i)) /\
  (~ is_zero u' -> ~ is_zero v' -> same (let! r := be_compose dt u v i in set_torsion cls_be r m) (be_compose dt u' v' i)) /\
  (attr x = MS -> same (let! r := surj_call_simplicial dt x z coord in set_torsion cls_simplicial r m) (surj_call_simplicial dt x' z' coord)) /\
  same (let! r := surj_call_cubical dt x w coord in set_torsion cls_cubical r m) (surj_call_cubical dt x' w' coord).
Proof.
  intros Hi Hn2 Hc Wx Wy Wu Wv Wz Ww Ty Tu Tv Tz Tw Hm Hd Hdt Hdm Ex Ey Eu Ev Ez Ew Kx Ky Ku Kv Kz Kw.
  destruct (red_facts cls_surj x x' m Wx Hm Ex) as (Wx' & Tx' & Ax' & Px' & _). destruct (red_facts cls_surj y y' m Wy Hm Ey) as (Wy' & Ty' & Ay' & Py' & _).
  destruct (red_facts cls_be u u' m Wu Hm Eu) as (Wu' & Tu' & Au' & Pu' & _). destruct (red_facts cls_be v v' m Wv Hm Ev) as (Wv' & Tv' & Av' & Pv' & _).
  destruct (red_facts cls_simplicial z z' m Wz Hm Ez) as (Wz' & Tz' & Az' & Pz' & _). destruct (red_facts cls_cubical w w' m Ww Hm Ew) as (Ww' & Tw' & Aw' & Pw' & _).
  split; [|split; [|split]].
  - intros H0. assert (Ki : keys_in (fun k => In i k) x) by (intros k0 v0 Hin; apply (Kx _ _ Hin); lia). assert (Ko : keys_in (onto n2) y) by (intros k0 v0 Hin; apply (Ky _ _ Hin)).
    pose proof (C48_compose_formula_l dt n2 i x y Hn2 Wx Wy Ty Hdt (or_introl H0) Ki Ko) as F.
    pose proof (C48_compose_formula_l dt n2 i x' y' Hn2 Wx' Wy' ltac:(congruence) ltac:(congruence) ltac:(rewrite Ax'; left; exact H0) (Px' _ Ki) (Py' _ Ko)) as G. rewrite Tx', Ax' in G. b2 cls_surj cls_surj cls_surj ok_surj F G.
  - intros Nu' Nv'. pose proof (nonzero_of cls_be u u' m Wu Hm Eu Nu') as Nu. pose proof (nonzero_of cls_be v v' m Wv Hm Ev Nv') as Nv.
    pose proof (C37_compose_formula_l dt n1 n2 p q i u v ltac:(lia) Hn2 Hi Wu Wv ltac:(congruence) ltac:(congruence) Ku Kv Nu Nv) as F.
    pose proof (C37_compose_formula_l dt n1 n2 p q i u' v' ltac:(lia) Hn2 Hi Wu' Wv' ltac:(congruence) ltac:(congruence) (Pu' _ Ku) (Pv' _ Kv) Nu' Nv') as G. rewrite Tu' in G. rewrite Tu in F. b2 cls_be cls_be cls_be ok_be F G.
  - intros H0. pose proof (C50_action_formula_l dt n1 p n e coord x z ltac:(lia) Hc Wx Wz Tz Hdt H0 Kx Kz) as F.
    pose proof (C50_action_formula_l dt n1 p n e coord x' z' ltac:(lia) Hc Wx' Wz' ltac:(congruence) ltac:(congruence) ltac:(congruence) (Px' _ Kx) (Pz' _ Kz)) as G. rewrite Tx' in G. b2 cls_surj cls_simplicial cls_simplicial ok_simplicial F G.
  - pose proof (C51_action_formula_l dt n1 p n e coord x w ltac:(lia) Hc Wx Ww Tw Hdt Kx Kw) as F.
    pose proof (C51_action_formula_l dt n1 p n e coord x' w' ltac:(lia) Hc Wx' Ww' ltac:(congruence) ltac:(congruence) (Px' _ Kx) (Pw' _ Kw)) as G. rewrite Tx' in G. b2 cls_surj cls_cubical cls_cubical ok_cubical F G.
Qed.
(** #C103_example# *)
Example C103_example_l :
  let x : surj := mkElt [([1; 2; 1; 3], 2); ([2; 1; 2; 3], 3)] 0 BF in
  let y : surj := mkElt [([1; 2; 1], 4); ([2; 1; 2], -1)] 0 BF in
  let x' : surj := mkElt [([1; 2; 1; 3], 2)] 3 BF in
  let y' : surj := mkElt [([1; 2; 1], 1); ([2; 1; 2], 2)] 3 BF in
  wf cls_surj x /\ wf cls_surj y /\ (3 | torsion x) /\ dt_ok 0 3 /\ set_torsion cls_surj x 3 = Ok x' /\ set_torsion cls_surj y 3 = Ok y' /\
  keys_in (surj_cell 3 1) x /\ keys_in (surj_cell 2 1) y /\
  exists z z', surj_compose 0 x y 2 = Ok z /\ set_torsion cls_surj z 3 = Ok z' /\ ~ is_zero z' /\ elt_eqb z z' = false.
Proof.
  cbv zeta. split; [now apply wfb_wf|]. split; [now apply wfb_wf|]. split; [exists 0; reflexivity|]. split; [split; [lia|now left]|]. split; [reflexivity|]. split; [reflexivity|]. split; [|split].
  - intros k v [[= <- <-]|[[= <- <-]|[]]]; (split; [|reflexivity]); intros j; cbn; lia.
  - intros k v [[= <- <-]|[[= <- <-]|[]]]; (split; [|reflexivity]); intros j; cbn; lia.
  - eexists. eexists. split; [vm_compute; reflexivity|]. split; [vm_compute; reflexivity|]. split; [discriminate|reflexivity].
Qed.
