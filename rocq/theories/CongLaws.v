(** * Every operation respects equality: equal arguments give equal results *)
From Coq Require Import Setoid Morphisms.
From Verif Require Import PyBase Dict FreeModule Symmetric Simplicial Cubical Utils Surjection BarrattEccles Eqm Spec SpecChain SpecOperad SpecSurj SpecAction SpecCube SpecCubAction SpecSusp SpecCong SpecAttr FreeModuleFacts FreeModuleLaws ListFacts
  ClassFacts LinearFacts RingFacts RingLaws TensorAct SimplicialLaws CubicalLaws BELaws BELaws2 BELaws4 SurjLaws SurjLaws2 SurjLaws3 SurjLaws6 SuspLaws ActLaws CubActLaws TableLaws AttrLaws CongFacts.

(** #C95_order# Elements with the same terms, inserted in a different order, are equal; and well-formed elements are equal only if they have the same terms. *)
Lemma C95_order_l {K A} `{KeyEq K} (c : pycls K) (x y : elt K A) :
  wf c x -> wf c y -> (elt_eqb x y = true <-> Permutation (data x) (data y)).
Proof.
  intros Wx Wy. assert (Nd : forall z : elt K A, wf c z -> NoDup (data z)).
  { intros z (_ & Kd & _). revert Kd. induction (data z) as [|[k v] l IH]; [constructor|]. intros [K1 K2]. constructor; [|now apply IH]. intros Hin. specialize (K1 k (in_map fst _ _ Hin)). rewrite keqb_refl in K1. discriminate. }
  assert (In1 : forall a b : elt K A, wf c a -> wf c b -> (forall k, dget (data a) k = dget (data b) k) -> forall p, In p (data a) -> In p (data b)).
  { intros a b Wa Wb E [k v] Hin. pose proof (dget_in (data a) k v (proj1 (proj2 Wa)) Hin) as D. rewrite E in D. assert (Nv : v <> 0) by (apply (proj2 (proj2 Wa)) in Hin; apply Hin).
    clear Wa Hin E. destruct Wb as (_ & _ & _). revert D. induction (data b) as [|[k' v'] l IH]; cbn [dget]; [congruence|]. destruct (keqb k' k) eqn:F; [intros <-; left; f_equal; now apply keqb_eq|intros D; right; auto]. }
  unfold elt_eqb. rewrite dict_eqb_dget. split.
  - intros E. apply NoDup_Permutation; auto. intros p. split; apply In1; auto.
  - intros P k. destruct Wx as (_ & Kx & _), Wy as (_ & Ky & _). rewrite <- !dget_ind by assumption. unfold ev. now apply sumf_perm.
Qed.

Section Arith.
Context {K A : Type} `{KO : KeyOk K}.
Lemma eq_den c (x y : elt K A) : wf c x -> wf c y -> equal_elts x y -> den c (torsion x) (attr x) (fun g => ev g (data x)) y.
Proof.
  intros Wx Wy (E & T & Aa). rewrite <- T, <- Aa. eapply den_ext; [|now apply den_self]. intros g [Hg _]. cbn beta. apply eqm_eq. symmetry. now apply (eqb_ev' c).
Qed.
End Arith.
(** #C95_arithmetic# Sums, differences, multiples, negatives, quotients and changes of torsion of equal elements are equal. *)
Lemma C95_arithmetic_l {K A} `{KeyOk K} (c : pycls K) (dt n t : Z) (x x' y y' : elt K A) :
  cls_ok c -> wf c x -> wf c x' -> wf c y -> wf c y' -> torsion y = torsion x -> dt_ok dt (torsion x) -> 0 <= t ->
  equal_elts x x' -> equal_elts y y' ->
  same (add dt c x y) (add dt c x' y') /\ same (sub dt c x y) (sub dt c x' y') /\
  same (iadd c x y) (iadd c x' y') /\ same (isub c x y) (isub c x' y') /\
  same (scale dt c n x) (scale dt c n x') /\ same (neg dt c x) (neg dt c x') /\ same (set_torsion c x t) (set_torsion c x' t) /\
  elt_eqb x y = elt_eqb x' y' /\
  (same (truediv dt c x n) (truediv dt c x' n) \/ exists e, truediv dt c x n = Err e /\ truediv dt c x' n = Err e).
Proof.
  intros Hc Wx Wx' Wy Wy' T Hdt Ht Ex Ey. pose proof (proj1 Wx) as Hx.
  pose proof (den_self c x Wx) as Dx. pose proof (eq_den c x x' Wx Wx' Ex) as Dx'. pose proof (den_self c y Wy) as Dy. pose proof (eq_den c y y' Wy Wy' Ey) as Dy'. rewrite T in Dy, Dy'.
  split; [|split; [|split; [|split; [|split; [|split; [|split; [|split]]]]]]].
  - eapply (same_den c Hc); [exact Hx|eapply (add_den c Hc dt); eauto|eapply (add_den c Hc dt); eauto|]. reflexivity.
  - eapply (same_den c Hc); [exact Hx|eapply (sub_den c Hc dt); eauto|eapply (sub_den c Hc dt); eauto|]. reflexivity.
  - eapply (same_den c Hc); [exact Hx|eapply (iadd_den c); eauto|eapply (iadd_den c); eauto|]. reflexivity.
  - eapply (same_den c Hc); [exact Hx|eapply (isub_den c); eauto|eapply (isub_den c); eauto|]. reflexivity.
  - eapply (same_den c Hc); [exact Hx|eapply (scale_den c Hc dt); eauto|eapply (scale_den c Hc dt); eauto|]. reflexivity.
  - eapply (same_den c Hc); [exact Hx|eapply (neg_den c Hc dt); eauto|eapply (neg_den c Hc dt); eauto|]. reflexivity.
  - destruct Ex as (E & T' & Aa). pose proof (set_torsion_den c x' t Wx' Ht) as S'. rewrite Aa in S'. eapply (same_den c Hc t (attr x)); [exact Ht|apply (set_torsion_den c); auto|exact S'|]. intros g [Hg _]. cbn beta. apply eqm_eq. now apply (eqb_ev' c).
  - destruct Ex as (E & _), Ey as (F & _). unfold elt_eqb in *. rewrite dict_eqb_dget in E, F. apply eq_true_iff_eq. rewrite !dict_eqb_dget. split; intros G k; specialize (E k); specialize (F k); specialize (G k); congruence.
  - destruct Ex as (E & T' & Aa). unfold truediv. rewrite T'. destruct (torsion x =? 0); [right; eexists; split; reflexivity|]. destruct (py_pow_inv n (torsion x)) as [inv|e]; [|right; exists e; split; reflexivity]. left. cbn [bind].
    change (same (scale dt c inv x) (scale dt c inv x')). eapply (same_den c Hc); [exact Hx|eapply (scale_den c Hc dt); eauto|eapply (scale_den c Hc dt); eauto|]. reflexivity.
Qed.

Lemma keq1 {K B} `{KE : KeyEq K} (f : K -> B) : forall a b, keqb a b = true -> f a = f b.
Proof. intros a b E. apply keqb_eq in E. now subst. Qed.
Lemma rkeq (P : list Z -> Prop) : forall k k' : skey, keqb k k' = true -> P (kval k) -> P (kval k').
Proof. intros k k' E. cbn in E. apply tup_eqb_eq in E. now rewrite E. Qed.
Lemma opt_iff (o o' : option Z) : (forall n, o = Some n <-> o' = Some n) -> o = o'.
Proof. intros E. destruct o as [a|]; [symmetry; now apply E|]. destruct o' as [b|]; [now apply E|reflexivity]. Qed.
Section KE.
Context {K A : Type} `{KE : KeyEq K}.
Lemma keys_iff (c : pycls K) (x y : elt K A) P : wf c x -> wf c y -> elt_eqb x y = true -> keys_in P x <-> keys_in P y.
Proof. intros Wx Wy E. split; apply (eqb_keys c); auto. now apply eqb_sym. Qed.
Lemma zero_iff (c : pycls K) (x y : elt K A) : wf c x -> wf c y -> elt_eqb x y = true -> is_zero x <-> is_zero y.
Proof. intros Wx Wy E. split; apply (eqb_zero c); auto. now apply eqb_sym. Qed.
Lemma in_iff (c : pycls K) (x y : elt K A) k v : wf c x -> wf c y -> elt_eqb x y = true -> In (k, v) (data x) -> In (k, v) (data y).
Proof. intros Wx Wy E. apply (C95_order_l c) in E; auto. now apply Permutation_in. Qed.
End KE.
Ltac cong Wx Wy E F G ok := eapply (gives_cong _ ok); [|exact F|exact G|]; [assumption|]; intros ?; eapply (fun h => extend_cong _ _ _ _ _ h Wx Wy E); apply keq1.

(** #C95_simplicial# *)
Lemma C95_simplicial_l (dt n d times coord : Z) (x y : simp) :
  wf cls_simplicial x -> wf cls_simplicial y -> dt_ok dt (torsion x) -> equal_elts x y ->
  same (simp_boundary dt x) (simp_boundary dt y) /\ same (simp_one_reduced dt x) (simp_one_reduced dt y) /\
  simp_arity x = simp_arity y /\ simp_degree x = simp_degree y /\
  (simp_arity x = Some n -> simp_degree x = Some d -> 1 <= coord <= n -> 0 <= times ->
   same (simp_iterated_diagonal dt x times coord) (simp_iterated_diagonal dt y times coord)).
Proof.
  intros Wx Wy Hdt (E & T & Aa). pose proof (proj1 Wx) as Ht.
  assert (Ar : simp_arity x = simp_arity y /\ simp_degree x = simp_degree y).
  { split; apply opt_iff; intros m; [rewrite !(proj1 (C20_arity_degree_l m 0 _))|rewrite !(proj2 (C20_arity_degree_l 0 m _))]; rewrite (zero_iff cls_simplicial x y), (keys_iff cls_simplicial x y) by auto; reflexivity. }
  split; [|split; [|split; [exact (proj1 Ar)|split; [exact (proj2 Ar)|]]]].
  - pose proof (C20_boundary_formula_l dt x Wx Hdt) as F. pose proof (C20_boundary_formula_l dt y Wy ltac:(now rewrite T)) as G. rewrite T in G. cong Wx Wy E F G ok_simplicial.
  - apply (linop_cong cls_simplicial cls_simplicial ok_simplicial (torsion x) tt tt _ _ _ _ x y Ht (linop_red dt (torsion x) Ht Hdt)); auto; try (now destruct (attr x)); try (now destruct (attr y)); now intros k v _.
  - intros Ax Dx Hc Htm. pose proof (C24_diagonal_formula_l dt n d times coord x Wx Hdt Ax Dx Hc Htm) as F.
    pose proof (C24_diagonal_formula_l dt n d times coord y Wy ltac:(now rewrite T) ltac:(rewrite <- Ax; symmetry; apply Ar) ltac:(rewrite <- Dx; symmetry; apply Ar) Hc Htm) as G. rewrite T in G. cong Wx Wy E F G ok_simplicial.
Qed.
(** #C95_cubical# *)
Lemma C95_cubical_l (dt n d times coord : Z) (x y : cubc) :
  wf cls_cubical x -> wf cls_cubical y -> dt_ok dt (torsion x) -> equal_elts x y ->
  same (cub_boundary dt x) (cub_boundary dt y) /\ same (cub_cartan_serre dt x) (cub_cartan_serre dt y) /\
  cub_arity x = cub_arity y /\ cub_degree x = cub_degree y /\
  (cub_arity x = Some n -> cub_degree x = Some d -> 1 <= coord <= n -> 0 <= times ->
   same (cub_iterated_diagonal dt x times coord) (cub_iterated_diagonal dt y times coord)) /\
  (1 <= n -> keys_in (fun k => zlen k = n /\ cube_degree k = d /\ forall c c', In c k -> In c' k -> zlen c = zlen c') x ->
   same (cub_join dt x) (cub_join dt y)).
Proof.
  intros Wx Wy Hdt (E & T & Aa). pose proof (proj1 Wx) as Ht. assert (Hdy : dt_ok dt (torsion y)) by now rewrite T.
  assert (Ar : cub_arity x = cub_arity y /\ cub_degree x = cub_degree y).
  { split; apply opt_iff; intros m; [rewrite !(proj1 (C27_arity_degree_l m 0 _))|rewrite !(proj2 (C27_arity_degree_l 0 m _))]; rewrite (zero_iff cls_cubical x y), (keys_iff cls_cubical x y) by auto; reflexivity. }
  split; [|split; [|split; [exact (proj1 Ar)|split; [exact (proj2 Ar)|split]]]].
  - pose proof (C27_boundary_formula_l dt x Wx Hdt) as F. pose proof (C27_boundary_formula_l dt y Wy Hdy) as G. rewrite T in G. cong Wx Wy E F G ok_cubical.
  - pose proof (C33_formula_l dt x Wx Hdt) as F. pose proof (C33_formula_l dt y Wy Hdy) as G. rewrite T in G. cong Wx Wy E F G ok_simplicial.
  - intros Ax Dx Hc Htm. pose proof (C29_diagonal_formula_l dt n d times coord x Wx Hdt Ax Dx Hc Htm) as F.
    pose proof (C29_diagonal_formula_l dt n d times coord y Wy Hdy ltac:(rewrite <- Ax; symmetry; apply Ar) ltac:(rewrite <- Dx; symmetry; apply Ar) Hc Htm) as G. rewrite T in G. cong Wx Wy E F G ok_cubical.
  - intros Hn Kx. pose proof (proj1 (keys_iff cls_cubical x y _ Wx Wy E) Kx) as Ky. pose proof (C32_join_formula_l dt n d x Wx Hdt Hn Kx) as F. pose proof (C32_join_formula_l dt n d y Wy Hdy Hn Ky) as G. rewrite T in G. cong Wx Wy E F G ok_cubical.
Qed.
Lemma eq_max (o o' : res Z) (S : Z -> Prop) : (exists c, o = Ok c /\ 0 <= c /\ (forall z, S z -> z <= c) /\ (c = 0 \/ S c)) -> (exists c, o' = Ok c /\ 0 <= c /\ (forall z, S z -> z <= c) /\ (c = 0 \/ S c)) -> o = o'.
Proof.
  intros (c & -> & N & U & A) (c' & -> & N' & U' & A'). f_equal. destruct A as [-> | A], A' as [-> | A']; auto; [pose proof (U _ A')|pose proof (U' _ A)|pose proof (U _ A'); pose proof (U' _ A)]; lia.
Qed.
Lemma res_opt (o o' : option Z) : o = o' -> (Ok o : res (option Z)) = Ok o'. Proof. now intros ->. Qed.

(** #C95_surjection# *)
Lemma C95_surjection_l (dt n d : Z) (rep : repr) (x y : surj) :
  1 <= n -> wf cls_surj x -> wf cls_surj y -> dt_ok dt (torsion x) -> equal_elts x y ->
  surj_arity x = surj_arity y /\ surj_degree x = surj_degree y /\ surj_complexity x = surj_complexity y /\
  (keys_in (onto n) x -> surj_filtration x = surj_filtration y) /\
  (attr x = BF \/ attr x = MS \/ torsion x = 2 -> same (surj_boundary dt x) (surj_boundary dt y)) /\
  (attr x = BF \/ attr x = MS -> rep = Trivial \/ rep = SignRep -> keys_in (onto n) x -> same (surj_orbit dt x rep) (surj_orbit dt y rep)) /\
  (attr x = BF -> keys_in (surj_cell n d) x -> same (surj_suspension dt x) (surj_suspension dt y)).
Proof.
  intros Hn Wx Wy Hdt (E & T & Aa). pose proof (proj1 Wx) as Ht. assert (Hdy : dt_ok dt (torsion y)) by now rewrite T. pose proof (eqb_sym x y E) as E'.
  split; [|split; [|split; [|split; [|split; [|split]]]]].
  - destruct (C72_surj_arity_degree_l x (wf_sne x Wx)) as [(o & -> & Ho) _]. destruct (C72_surj_arity_degree_l y (wf_sne y Wy)) as [(o' & -> & Ho') _]. apply res_opt, opt_iff. intros m. rewrite Ho, Ho'. rewrite (zero_iff cls_surj x y), (keys_iff cls_surj x y) by auto. reflexivity.
  - destruct (C72_surj_arity_degree_l x (wf_sne x Wx)) as [_ (o & -> & Ho)]. destruct (C72_surj_arity_degree_l y (wf_sne y Wy)) as [_ (o' & -> & Ho')]. apply res_opt, opt_iff. intros m. rewrite Ho, Ho'. rewrite (zero_iff cls_surj x y), (keys_iff cls_surj x y) by auto. reflexivity.
  - destruct (complexity_le x y Wx Wy) as (c & c' & E1 & E2 & L); [intros k v i j Hin _ _ _; exists k, v, i, j; split; [now apply (in_iff cls_surj y x)|lia]|].
    destruct (complexity_le y x Wy Wx) as (e & e' & E3 & E4 & L'); [intros k v i j Hin _ _ _; exists k, v, i, j; split; [now apply (in_iff cls_surj x y)|lia]|]. rewrite E1, E2 in *. f_equal. injection E3 as <-. injection E4 as <-. lia.
  - intros Kx. pose proof (proj1 (keys_iff cls_surj x y _ Wx Wy E) Kx) as Ky. destruct (C54_filtration_value_l n x Hn Wx Kx) as (f & Ef & F0 & F1 & F2). destruct (C54_filtration_value_l n y Hn Wy Ky) as (g & Eg & G0 & G1 & G2).
    apply (eq_max _ _ (fun z => exists k v, In (k, v) (data x) /\ all_switches n k = z)).
    + exists f. split; [exact Ef|]. split; [exact F0|]. split; [intros z (k & v & Hin & <-); eauto|exact F2].
    + exists g. split; [exact Eg|]. split; [exact G0|]. split; [intros z (k & v & Hin & <-); apply (G1 k v); now apply (in_iff cls_surj x y)|]. destruct G2 as [G2|(k & v & Hin & G2)]; [now left|right]. exists k, v. split; [now apply (in_iff cls_surj y x)|exact G2].
  - intros Hk. assert (exists cv, (cv = BF \/ cv = MS) /\ (attr x = cv \/ torsion x = 2)) as (cv & Hcv & Hx) by (destruct Hk as [Hk|[Hk|Hk]]; [exists BF|exists MS|exists MS]; auto).
    pose proof (C45_boundary_formula_l dt cv x Wx Hdt Hcv Hx) as F. pose proof (C45_boundary_formula_l dt cv y Wy Hdy Hcv) as G. rewrite T, Aa in G. specialize (G Hx). cong Wx Wy E F G ok_surj.
  - intros Hc Hr Kx. pose proof (proj1 (keys_iff cls_surj x y _ Wx Wy E) Kx) as Ky. pose proof (C47_orbit_formula_l dt n rep x Hn Wx Hdt Kx Hc Hr) as F. pose proof (C47_orbit_formula_l dt n rep y Hn Wy Hdy Ky) as G. rewrite T, Aa in G. specialize (G Hc Hr). cong Wx Wy E F G ok_surj.
  - intros Hc Kx. pose proof (proj1 (keys_iff cls_surj x y _ Wx Wy E) Kx) as Ky. pose proof (C52_formula_l dt n d x Hn Wx Hdt Hc Kx) as F. pose proof (C52_formula_l dt n d y Hn Wy Hdy) as G. rewrite T, Aa in G. specialize (G Hc Ky). cong Wx Wy E F G ok_surj.
Qed.
(** #C95_barratt_eccles# *)
Lemma C95_barratt_eccles_l (dt n r : Z) (rep : repr) (x y : bee) :
  1 <= n -> wf cls_be x -> wf cls_be y -> dt_ok dt (torsion x) -> equal_elts x y ->
  same (be_boundary dt x) (be_boundary dt y) /\ same (be_diagonal dt x r) (be_diagonal dt y r) /\ be_degree x = be_degree y /\
  (keys_in (be_simplex n) x ->
    be_arity x = be_arity y /\ be_complexity x = be_complexity y /\ same (be_orbit dt x rep) (be_orbit dt y rep) /\ same (be_table_reduction dt x) (be_table_reduction dt y)).
Proof.
  intros Hn Wx Wy Hdt (E & T & Aa). pose proof (proj1 Wx) as Ht. assert (Hdy : dt_ok dt (torsion y)) by now rewrite T. pose proof (eqb_sym x y E) as E'.
  split; [|split; [|split]].
  - pose proof (C34_boundary_formula_l dt x Wx Hdt) as F. pose proof (C34_boundary_formula_l dt y Wy Hdy) as G. rewrite T in G. cong Wx Wy E F G ok_be.
  - pose proof (C42_diagonal_formula_l dt r x Wx Hdt) as F. pose proof (C42_diagonal_formula_l dt r y Wy Hdy) as G. rewrite T in G. cong Wx Wy E F G (ok_free (list bkey)).
  - apply opt_iff. intros m. rewrite !C72_be_degree_l. rewrite (zero_iff cls_be x y), (keys_iff cls_be x y) by auto. reflexivity.
  - intros Kx. pose proof (proj1 (keys_iff cls_be x y _ Wx Wy E) Kx) as Ky.
    assert (NE : forall z : bee, wf cls_be z -> keys_in (be_simplex n) z -> keys_in (fun k => k <> [] /\ forall s, In s k -> s <> []) z).
    { intros z Wz Kz k v Hin. split; [intros ->; apply (proj2 (proj2 Wz)) in Hin; destruct Hin as [_ B]; discriminate|]. intros s Hs ->. pose proof (Kz k v Hin [] Hs) as P. apply Permutation_length in P. rewrite zrange_length in P. cbn in P. lia. }
    split; [|split; [|split]].
    + destruct (C72_be_arity_l x (NE x Wx Kx)) as (o & -> & Ho). destruct (C72_be_arity_l y (NE y Wy Ky)) as (o' & -> & Ho'). apply res_opt, opt_iff. intros m. rewrite Ho, Ho'. rewrite (zero_iff cls_be x y), (keys_iff cls_be x y) by auto. reflexivity.
    + destruct (C43_value_l n x Hn Wx Kx) as (f & Ef & F0 & F1 & F2 & F3). destruct (C43_value_l n y Hn Wy Ky) as (g & Eg & G0 & G1 & G2 & G3). rewrite Ef, Eg. f_equal. destruct (Z.eq_dec n 1) as [-> | N1]; [rewrite F1, G1; auto|].
      assert (2 <= n) as N2 by lia. specialize (F2 N2). specialize (G2 N2). destruct F3 as [-> | (k & v & Hin & F3)], G3 as [-> | (k' & v' & Hin' & G3)]; auto.
      * pose proof (F2 k' v' (in_iff cls_be y x k' v' Wy Wx E' Hin')). lia.
      * pose proof (G2 k v (in_iff cls_be x y k v Wx Wy E Hin)). lia.
      * pose proof (F2 k' v' (in_iff cls_be y x k' v' Wy Wx E' Hin')). pose proof (G2 k v (in_iff cls_be x y k v Wx Wy E Hin)). lia.
    + pose proof (C36_orbit_formula_l dt n rep x Hn Wx Hdt Kx) as F. pose proof (C36_orbit_formula_l dt n rep y Hn Wy Hdy Ky) as G. rewrite T in G. cong Wx Wy E F G ok_be.
    + pose proof (C39_table_formula_l dt n x Hn Wx Hdt Kx) as F. pose proof (C39_table_formula_l dt n y Hn Wy Hdy Ky) as G. rewrite T in G. cong Wx Wy E F G ok_surj.
Qed.
Ltac cong2 W1 W1' E1 W2 W2' E2 F G ok := eapply (gives_cong _ ok); [|exact F|exact G|]; [assumption|]; intros ?; eapply (fun h h' => extend2_cong _ _ _ _ _ _ _ _ h h' W1 W1' E1 W2 W2' E2); intros ? ? ? Heq; first [apply keqb_eq in Heq; now subst | cbn in Heq; apply tup_eqb_eq in Heq; now rewrite Heq].

(** #C95_ring# Products and compositions in the group ring. *)
Lemma C95_ring_l (dt r s i : Z) (x x' y y' : ring) :
  0 <= r -> wf cls_ring x -> wf cls_ring x' -> wf cls_ring y -> wf cls_ring y' -> torsion y = torsion x -> dt_ok dt (torsion x) -> equal_elts x x' -> equal_elts y y' ->
  keys_in (fun k => perm r (kval k)) x ->
  (keys_in (fun k => perm r (kval k)) y -> same (ring_mul dt x y) (ring_mul dt x' y')) /\
  (keys_in (fun k => perm s (kval k)) y -> 1 <= i <= r -> keys_in (fun k => is_sge k = true) x -> keys_in (fun k => is_sge k = true) x' ->
    same (ring_compose dt x y i) (ring_compose dt x' y' i)) /\
  (1 <= r -> ring_arity x = ring_arity x').
Proof.
  intros Hr Wx Wx' Wy Wy' T Hdt (E & T1 & A1) (F & T2 & A2) Kx. pose proof (proj1 Wx) as Ht.
  pose proof (eqb_keys' cls_ring x x' _ (rkeq (perm r)) Wx Wx' E Kx) as Kx'.
  split; [|split].
  - intros Ky. pose proof (eqb_keys' cls_ring y y' _ (rkeq (perm r)) Wy Wy' F Ky) as Ky'.
    eapply (same_den cls_ring ok_ring (torsion x) tt); [exact Ht|apply (bilop_mul dt r (torsion x) Hr Ht x y); auto using ring_attr|apply (bilop_mul dt r (torsion x) Hr Ht x' y'); auto using ring_attr; congruence|].
    intros g [Hg _]. cbn beta. apply eqm_eq. rewrite (eqb_ev' cls_ring x x'); auto.
    + apply ev_ext. intros k v _. apply (eqb_ev' cls_ring); auto. intros k1 k2 Ek. cbn in Ek. apply tup_eqb_eq in Ek. unfold Pmul. now rewrite Ek.
    + intros k1 k2 Ek. cbn in Ek. apply tup_eqb_eq in Ek. apply ev_ext. intros k v _. unfold Pmul. now rewrite Ek.
  - intros Ky Hi Sx Sx'. pose proof (eqb_keys' cls_ring y y' _ (rkeq (perm s)) Wy Wy' F Ky) as Ky'. rewrite !ring_compose_rc by assumption.
    eapply (same_den cls_ring ok_ring (torsion x) tt); [exact Ht|apply (bilop_comp dt r s (torsion x) i Ht Hdt Hi x y); auto using ring_attr|apply (bilop_comp dt r s (torsion x) i Ht Hdt Hi x' y'); auto using ring_attr; congruence|].
    intros g [Hg _]. cbn beta. apply eqm_eq. rewrite (eqb_ev' cls_ring x x'); auto.
    + apply ev_ext. intros k v _. apply (eqb_ev' cls_ring); auto. intros k1 k2 Ek. cbn in Ek. apply tup_eqb_eq in Ek. unfold Pcomp. now rewrite Ek.
    + intros k1 k2 Ek. cbn in Ek. apply tup_eqb_eq in Ek. apply ev_ext. intros k v _. unfold Pcomp. now rewrite Ek.
  - intros H1. assert (NE : forall z : ring, keys_in (fun k => perm r (kval k)) z -> keys_in (fun k => kval k <> []) z) by (intros z Kz k v Hin N; pose proof (Kz k v Hin) as P; cbn beta in P; rewrite N in P; apply Permutation_length in P; rewrite zrange_length in P; cbn in P; lia).
    destruct (C72_ring_arity_l x (NE x Kx)) as (o & -> & Ho). destruct (C72_ring_arity_l x' (NE x' Kx')) as (o' & -> & Ho'). apply res_opt, opt_iff. intros m. rewrite Ho, Ho'. pose proof (eqb_sym x x' E) as E'.
    split; intros [N K]; split.
    + intros Z0. apply N. now apply (eqb_zero cls_ring x' x).
    + eapply (eqb_keys' cls_ring x x' _ (rkeq (largest m))); eauto.
    + intros Z0. apply N. now apply (eqb_zero cls_ring x x').
    + eapply (eqb_keys' cls_ring x' x _ (rkeq (largest m))); eauto.
Qed.
(** #C95_action# The action of the group ring. *)
Lemma C95_action_l (dt n : Z) (a a' : ring) (x x' : simp) (y y' : cubc) (u u' : surj) (v v' : bee) :
  1 <= n -> wf cls_ring a -> wf cls_ring a' -> wf cls_simplicial x -> wf cls_simplicial x' -> wf cls_cubical y -> wf cls_cubical y' -> wf cls_surj u -> wf cls_surj u' -> wf cls_be v -> wf cls_be v' ->
  torsion x = torsion a -> torsion y = torsion a -> torsion u = torsion a -> torsion v = torsion a -> dt_ok dt (torsion a) -> attr u = BF \/ attr u = MS ->
  equal_elts a a' -> equal_elts x x' -> equal_elts y y' -> equal_elts u u' -> equal_elts v v' ->
  keys_in (fun k => perm n (kval k)) a -> keys_in (fun k => zlen k = n) x -> keys_in (fun k => zlen k = n) y -> keys_in (onto n) u -> keys_in (be_simplex n) v ->
  ~ is_zero a -> ~ is_zero x -> ~ is_zero y -> ~ is_zero u -> ~ is_zero v ->
  same (simp_act dt a x) (simp_act dt a' x') /\ same (cub_act dt a y) (cub_act dt a' y') /\ same (surj_act dt a u) (surj_act dt a' u') /\
  (keys_in (fun k => is_sge k = true) a -> keys_in (fun k => is_sge k = true) a' -> same (be_act dt a v) (be_act dt a' v')).
Proof.
  intros Hn Wa Wa' Wx Wx' Wy Wy' Wu Wu' Wv Wv' Tx Ty Tu Tv Hdt Hc (Ea & Ta & _) (Ex & Tx' & _) (Ey & Ty' & _) (Eu & Tu' & Au) (Ev & Tv' & _) Ka Kx Ky Ku Kv Na Nx Ny Nu Nv. pose proof (proj1 Wa) as Ht.
  pose proof (eqb_keys' cls_ring a a' _ (rkeq (perm n)) Wa Wa' Ea Ka) as Ka'. pose proof (eqb_nonzero cls_ring a a' Wa Wa' Ea Na) as Na'.
  split; [|split; [|split]].
  - pose proof (C22_action_formula_l dt n a x Hn Wa Wx ltac:(congruence) ltac:(congruence) Ka Kx Na Nx) as F.
    pose proof (C22_action_formula_l dt n a' x' Hn Wa' Wx' ltac:(congruence) ltac:(congruence) Ka' (eqb_keys cls_simplicial x x' _ Wx Wx' Ex Kx) Na' (eqb_nonzero cls_simplicial x x' Wx Wx' Ex Nx)) as G. rewrite Tx', Tx in G. rewrite Tx in F. cong2 Wa Wa' Ea Wx Wx' Ex F G ok_simplicial.
  - pose proof (C28_action_formula_l dt n a y Hn Wa Wy ltac:(congruence) ltac:(congruence) Ka Ky Na Ny) as F.
    pose proof (C28_action_formula_l dt n a' y' Hn Wa' Wy' ltac:(congruence) ltac:(congruence) Ka' (eqb_keys cls_cubical y y' _ Wy Wy' Ey Ky) Na' (eqb_nonzero cls_cubical y y' Wy Wy' Ey Ny)) as G. rewrite Ty', Ty in G. rewrite Ty in F. cong2 Wa Wa' Ea Wy Wy' Ey F G ok_cubical.
  - pose proof (C46_action_formula_l dt n a u Hn Wa Wu ltac:(congruence) ltac:(congruence) Hc Ka Ku Na Nu) as F.
    pose proof (C46_action_formula_l dt n a' u' Hn Wa' Wu' ltac:(congruence) ltac:(congruence) ltac:(rewrite Au; exact Hc) Ka' (eqb_keys cls_surj u u' _ Wu Wu' Eu Ku) Na' (eqb_nonzero cls_surj u u' Wu Wu' Eu Nu)) as G. rewrite Tu', Tu, Au in G. rewrite Tu in F. cong2 Wa Wa' Ea Wu Wu' Eu F G ok_surj.
  - intros Sa Sa'. pose proof (C35_action_formula_l dt n a v Hn Wa Wv ltac:(congruence) ltac:(congruence) ltac:(intros k w Hin; split; [exact (Sa k w Hin)|exact (Ka k w Hin)]) Kv Na Nv) as F.
    pose proof (C35_action_formula_l dt n a' v' Hn Wa' Wv' ltac:(congruence) ltac:(congruence) ltac:(intros k w Hin; split; [exact (Sa' k w Hin)|exact (Ka' k w Hin)]) (eqb_keys cls_be v v' _ Wv Wv' Ev Kv) Na' (eqb_nonzero cls_be v v' Wv Wv' Ev Nv)) as G. rewrite Tv', Tv in G. rewrite Tv in F. cong2 Wa Wa' Ea Wv Wv' Ev F G ok_be.
Qed.
(** #C95_operad# Compositions in the two operads, and the action of surjections on tensors of simplices and of cubes. *)
Lemma C95_operad_l (dt n1 n2 p q i n e coord : Z) (x x' y y' : surj) (u u' v v' : bee) (z z' : simp) (w w' : cubc) :
  1 <= i <= n1 -> 1 <= n2 -> 1 <= coord <= n ->
  wf cls_surj x -> wf cls_surj x' -> wf cls_surj y -> wf cls_surj y' -> wf cls_be u -> wf cls_be u' -> wf cls_be v -> wf cls_be v' -> wf cls_simplicial z -> wf cls_simplicial z' -> wf cls_cubical w -> wf cls_cubical w' ->
  torsion y = torsion x -> torsion u = torsion x -> torsion v = torsion x -> torsion z = torsion x -> torsion w = torsion x -> dt_ok dt (torsion x) ->
  equal_elts x x' -> equal_elts y y' -> equal_elts u u' -> equal_elts v v' -> equal_elts z z' -> equal_elts w w' ->
  keys_in (surj_cell n1 p) x -> keys_in (surj_cell n2 q) y -> keys_in (be_cell n1 p) u -> keys_in (be_cell n2 q) v ->
  keys_in (fun k => zlen k = n /\ total_degree k = e) z -> keys_in (fun k => zlen k = n /\ cube_degree k = e) w ->
  (attr x = BF \/ torsion x = 2 -> same (surj_compose dt x y i) (surj_compose dt x' y' i)) /\
  (~ is_zero u -> ~ is_zero v -> same (be_compose dt u v i) (be_compose dt u' v' i)) /\
  (attr x = MS -> same (surj_call_simplicial dt x z coord) (surj_call_simplicial dt x' z' coord)) /\
  same (surj_call_cubical dt x w coord) (surj_call_cubical dt x' w' coord).
Proof.
  intros Hi Hn2 Hc Wx Wx' Wy Wy' Wu Wu' Wv Wv' Wz Wz' Ww Ww' Ty Tu Tv Tz Tw Hdt (Ex & Tx' & Ax) (Ey & Ty' & Ay) (Eu & Tu' & _) (Ev & Tv' & _) (Ez & Tz' & _) (Ew & Tw' & _) Kx Ky Ku Kv Kz Kw. pose proof (proj1 Wx) as Ht.
  pose proof (eqb_keys cls_surj x x' _ Wx Wx' Ex Kx) as Kx'. pose proof (eqb_keys cls_surj y y' _ Wy Wy' Ey Ky) as Ky'.
  split; [|split; [|split]].
  - intros H. assert (Ki : forall x0 : surj, keys_in (surj_cell n1 p) x0 -> keys_in (fun k => In i k) x0) by (intros x0 K0 k0 v0 Hin; apply (K0 _ _ Hin); lia).
    assert (Ko : forall x0 : surj, keys_in (surj_cell n2 q) x0 -> keys_in (onto n2) x0) by (intros x0 K0 k0 v0 Hin; apply (K0 _ _ Hin)).
    pose proof (C48_compose_formula_l dt n2 i x y Hn2 Wx Wy Ty Hdt H (Ki _ Kx) (Ko _ Ky)) as F.
    pose proof (C48_compose_formula_l dt n2 i x' y' Hn2 Wx' Wy' ltac:(congruence) ltac:(congruence) ltac:(rewrite Ax, Tx'; exact H) (Ki _ Kx') (Ko _ Ky')) as G. rewrite Tx', Ax in G. cong2 Wx Wx' Ex Wy Wy' Ey F G ok_surj.
  - intros Nu Nv. pose proof (C37_compose_formula_l dt n1 n2 p q i u v ltac:(lia) Hn2 Hi Wu Wv ltac:(congruence) ltac:(congruence) Ku Kv Nu Nv) as F.
    pose proof (C37_compose_formula_l dt n1 n2 p q i u' v' ltac:(lia) Hn2 Hi Wu' Wv' ltac:(congruence) ltac:(congruence) (eqb_keys cls_be u u' _ Wu Wu' Eu Ku) (eqb_keys cls_be v v' _ Wv Wv' Ev Kv) (eqb_nonzero cls_be u u' Wu Wu' Eu Nu) (eqb_nonzero cls_be v v' Wv Wv' Ev Nv)) as G.
    rewrite Tu', Tu in G. rewrite Tu in F. cong2 Wu Wu' Eu Wv Wv' Ev F G ok_be.
  - intros H. pose proof (C50_action_formula_l dt n1 p n e coord x z ltac:(lia) Hc Wx Wz Tz Hdt H Kx Kz) as F.
    pose proof (C50_action_formula_l dt n1 p n e coord x' z' ltac:(lia) Hc Wx' Wz' ltac:(congruence) ltac:(congruence) ltac:(congruence) Kx' (eqb_keys cls_simplicial z z' _ Wz Wz' Ez Kz)) as G. rewrite Tx' in G. cong2 Wx Wx' Ex Wz Wz' Ez F G ok_simplicial.
  - pose proof (C51_action_formula_l dt n1 p n e coord x w ltac:(lia) Hc Wx Ww Tw Hdt Kx Kw) as F.
    pose proof (C51_action_formula_l dt n1 p n e coord x' w' ltac:(lia) Hc Wx' Ww' ltac:(congruence) ltac:(congruence) Kx' (eqb_keys cls_cubical w w' _ Ww Ww' Ew Kw)) as G. rewrite Tx' in G. cong2 Wx Wx' Ex Ww Ww' Ew F G ok_cubical.
Qed.
(** #C95_refuted# The exceptions: a product of group ring elements is equal to an element of the constructor, but the composition accepts only the second one, and so does the action on Barratt-Eccles elements. *)
Lemma C95_refuted_l : exists (a p b : ring) (v : bee), wf cls_ring a /\ wf cls_ring b /\ wf cls_be v /\ ring_mul 0 a a = Ok p /\ wf cls_ring p /\ equal_elts p b /\
  ring_compose 0 p a 1 = Err AttributeError /\ (exists q, ring_compose 0 b a 1 = Ok q) /\
  be_act 0 p v = Err TypeError /\ (exists q, be_act 0 b v = Ok q).
Proof.
  exists (mkElt [(SGE [2; 1], 1)] 0 tt), (mkElt [(Tup [1; 2], 1)] 0 tt), (mkElt [(SGE [1; 2], 1)] 0 tt), (mkElt [([[1; 2]; [2; 1]], 1)] 0 tt).
  split; [now apply wfb_wf|]. split; [now apply wfb_wf|]. split; [now apply wfb_wf|]. split; [reflexivity|]. split; [now apply wfb_wf|]. split; [repeat split|]. split; [reflexivity|]. split; [eexists; reflexivity|].
  split; [reflexivity|eexists; reflexivity].
Qed.
(** #C95_example# Two equal elements with different insertion order: the hypotheses hold, and the composites are equal but have their terms in a different order. *)
Example C95_example_l :
  let x : surj := mkElt [([1; 2; 1; 3], 1); ([2; 1; 2; 3], 2)] 0 BF in
  let x' : surj := mkElt [([2; 1; 2; 3], 2); ([1; 2; 1; 3], 1)] 0 BF in
  let y : surj := mkElt [([1; 2; 1], 1); ([2; 1; 2], -1)] 0 BF in
  wf cls_surj x /\ wf cls_surj x' /\ equal_elts x x' /\ keys_in (surj_cell 3 1) x /\ keys_in (surj_cell 2 1) y /\ x <> x' /\
  exists z z', surj_compose 0 x y 2 = Ok z /\ surj_compose 0 x' y 2 = Ok z' /\ elt_eqb z z' = true /\ z <> z'.
Proof.
  cbv zeta. split; [now apply wfb_wf|]. split; [now apply wfb_wf|]. split; [repeat split|]. split; [|split; [|split]].
  - intros k v [[= <- <-]|[[= <- <-]|[]]]; (split; [|reflexivity]); intros j; cbn; lia.
  - intros k v [[= <- <-]|[[= <- <-]|[]]]; (split; [|reflexivity]); intros j; cbn; lia.
  - discriminate.
  - eexists. eexists. split; [vm_compute; reflexivity|]. split; [vm_compute; reflexivity|]. split; [reflexivity|discriminate].
Qed.
