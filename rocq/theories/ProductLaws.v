(** * C18: what products of ring elements can be used for *)
From Coq Require Import Setoid Morphisms.
From Verif Require Import PyBase Dict FreeModule Symmetric Simplicial Cubical Utils Surjection BarrattEccles GroupMul Eqm Spec SpecOperad SpecSurj FreeModuleFacts FreeModuleLaws ListFacts
  ClassFacts LinearFacts SymmetricFacts CycleFacts SymmetricLaws RingFacts RingLaws TensorAct LoopFacts ActGeneric SimplicialLaws CubicalLaws BEFacts BEOrbit BELaws SurjFacts SurjLaws SurjLaws2.

Lemma product_tuples dt (a b p : ring) : ring_mul dt a b = Ok p -> keys_in (fun k => is_sge k = false) p.
Proof.
  intros Ep. unfold ring_mul in Ep. destruct (negb _); [discriminate|]. rewrite zero_data in Ep. cbn [bind data] in Ep.
  destruct (for_ _ _ _) as [d|] eqn:Ed in Ep; cbn in Ep; [|discriminate].
  destruct (pref _ _ _) as [d'|] eqn:Ed' in Ep; cbn in Ep; [|discriminate]. injection Ep as <-. intros k v Hin. cbn in Hin.
  apply (pref_keys _ _ _ _ _ _ Ed') in Hin.
  assert (G : forall k, In k (dkeys d) -> is_sge k = false).
  { refine (for_inv (fun d => forall k, In k (dkeys d) -> is_sge k = false) _ _ _ _ _ _ Ed).
    - intros s [[k1 v1] [k2 v2]] s' _ Hs E. destruct (mapM _ _) as [r|]; cbn [bind] in E; [|discriminate]. injection E as <-.
      exact (dset_Forall (fun k => is_sge k = false) s (Tup r) _ Hs eq_refl).
    - intros ? []. }
  now apply G.
Qed.

(** #C18_products_rejected# Every non-zero product of two ring elements, whatever they are, is
    rejected when it is composed with a non-zero element of the same torsion (AttributeError) and by
    the operator ** with an exponent other than 0 (TypeError). *)
Lemma C18_products_rejected_l (dt i k : Z) (x y p z : ring) :
  ring_mul dt x y = Ok p -> ~ is_zero p ->
  (torsion z = torsion p -> ~ is_zero z -> ring_compose dt p z i = Err AttributeError) /\
  (k <> 0 -> ring_pow dt p k = Err TypeError).
Proof.
  intros E N. pose proof (product_tuples _ _ _ _ E) as Kt. split.
  - intros T Nz. unfold ring_compose. unfold is_zero in *. destruct (dempty (data p)) eqn:Ed; [destruct (data p); [congruence|discriminate]|].
    rewrite T, Z.eqb_refl. cbn [negb]. rewrite zero_data. cbn [bind]. apply for_err.
    + destruct (data p), (data z); cbn; congruence.
    + intros s [[k1 v1] [k2 v2]] Hin. apply in_prod_iff in Hin. destruct Hin as [H1 H2]. now rewrite (Kt _ _ H1).
  - intros Nk. unfold ring_pow. apply Z.eqb_neq in Nk. rewrite Nk. rewrite zero_data. cbn [bind]. apply for_err; [exact N|].
    intros s [k1 v1] Hin. now rewrite (Kt _ _ Hin).
Qed.

(** #C18_group_times_ring# A group element and a ring element cannot be multiplied, in either order. *)
Lemma C18_group_times_ring_l (dt : Z) (g : list Z) (x : ring) :
  0 <= torsion x -> ring_mul_group x g = Err TypeError /\ group_mul_ring dt g x = Err TypeError.
Proof.
  intros Ht. split; [reflexivity|]. unfold group_mul_ring.
  destruct (new_den cls_ring ok_ring dt (torsion x) (Some (torsion x)) tt [(SGE g, 1)] eq_refl Ht) as (q & Eq & _).
  - split; [intros ? []|exact I].
  - intros k [<-|[]]. apply ring_okey.
  - now rewrite Eq.
Qed.

Lemma ring_pow_den dt n m (x : ring) : 1 <= n -> 1 <= m -> wf cls_ring x -> dt_ok dt (torsion x) -> keys_in (rpk n) x ->
  returns (ring_pow dt x m) (den cls_ring (torsion x) tt (fun g => ev (fun k => g (SGE (ppow n (kval k) (Z.to_nat m)))) (data x))).
Proof.
  intros Hn Hm Wx Hdt Kx. pose proof (proj1 Wx) as Ht. unfold ring_pow. replace (m =? 0) with false by (symmetry; apply Z.eqb_neq; lia).
  eapply returns_bind; [apply (zero_den cls_ring ok_ring dt (torsion x)); auto|]. intros ans Hans.
  eapply returns_mono.
  - apply (for_den cls_ring (torsion x) (data x) _ (fun kv g => snd kv * g (SGE (ppow n (kval (fst kv)) (Z.to_nat m)))) tt); [|rewrite (ring_attr0 x) in Hans; exact Hans].
    intros [k v] F y Hin Hy. destruct (Kx _ _ Hin) as [Sk Pk]. cbn [fst snd]. change (is_sge k = true) in Sk. rewrite Sk. rewrite (sg_pow_ok n) by (auto; lia). cbn [bind].
    eapply returns_mono; [eapply (add_term_den cls_ring ok_ring dt (torsion x)); eauto; apply ring_okey|].
    intros z Hz. eapply den_ext; [|exact Hz]. intros g _. cbn beta. apply eqm_eq. unfold SGE. lia.
  - intros z Hz. eapply den_ext; [|exact Hz]. intros g _. cbn beta. apply eqm_eq. unfold ev, sumf. lia.
Qed.

(** #C17_power_formula# The power of a ring element of arity n with exponent m >= 1 is the sum of
    the powers of its permutations with the same coefficients; with exponent 0 it is the identity
    of the arity. *)
Lemma C17_power_formula_l (dt n m : Z) (x : ring) :
  1 <= n -> wf cls_ring x -> dt_ok dt (torsion x) -> keys_in (fun k => is_sge k = true /\ perm n (kval k)) x ->
  (1 <= m -> gives cls_ring (ring_pow dt x m) (torsion x) tt
     (extend (fun k => match sg_pow (kval k) m with Ok p => [(SGE p, 1)] | Err _ => [] end) x)) /\
  (~ is_zero x -> ring_pow dt x 0 = identity_element dt n (Some (torsion x))).
Proof.
  intros Hn Wx Hdt Kx. split.
  - intros Hm. eapply (den_gives cls_ring ok_ring); [exact (proj1 Wx)|apply (ring_pow_den dt n m x); auto|].
    intros g _. apply eqm_eq. rewrite ev_extend. apply ev_ext. intros k v Hin. rewrite (sg_pow_ok n) by (try lia; exact (proj2 (Kx _ _ Hin))).
    rewrite ev_cons, ev_nil. lia.
  - intros N. unfold ring_pow. cbn [Z.eqb]. rewrite (ring_arity_ok n); auto. intros k v Hin. exact (proj2 (Kx _ _ Hin)).
Qed.

(** #C18_products_usable# The product of two ring elements of arity n can be added to, subtracted
    from, compared with and multiplied by ring elements and by integers, and acts directly on
    simplicial, cubical and surjection elements; after re-creation it is an equal element that can
    also be raised to powers and act on Barratt-Eccles elements. *)
Lemma C18_products_usable_l (dt n m : Z) (a b p c : ring) (x : simp) (y : cubc) (u : surj) (v : bee) :
  1 <= n -> wf cls_ring a -> wf cls_ring b -> wf cls_ring c -> torsion b = torsion a -> torsion c = torsion a -> dt_ok dt (torsion a) ->
  keys_in (fun k => perm n (kval k)) a -> keys_in (fun k => perm n (kval k)) b -> keys_in (fun k => perm n (kval k)) c ->
  ring_mul dt a b = Ok p -> ~ is_zero p ->
  ((exists z, add dt cls_ring p c = Ok z) /\ (exists z, sub dt cls_ring p c = Ok z) /\ (exists z, scale dt cls_ring m p = Ok z) /\
   (exists z, ring_mul dt p c = Ok z) /\ (exists z, ring_mul dt c p = Ok z)) /\
  (wf cls_simplicial x -> torsion x = torsion a -> ~ is_zero x -> keys_in (fun k => zlen k = n) x -> exists z, simp_act dt p x = Ok z) /\
  (wf cls_cubical y -> torsion y = torsion a -> ~ is_zero y -> keys_in (fun k => zlen k = n) y -> exists z, cub_act dt p y = Ok z) /\
  (wf cls_surj u -> torsion u = torsion a -> ~ is_zero u -> attr u = BF \/ attr u = MS -> keys_in (onto n) u -> exists z, surj_act dt p u = Ok z) /\
  exists q, create dt cls_ring p (data p) = Ok q /\ elt_eqb q p = true /\ (0 <= m -> exists z, ring_pow dt q m = Ok z) /\
    (wf cls_be v -> torsion v = torsion a -> ~ is_zero v -> keys_in (be_simplex n) v -> exists z, be_act dt q v = Ok z).
Proof.
  intros Hn Wa Wb Wc Tb Tc Hdt Ka Kb Kc E N. pose proof (proj1 Wa) as Ht.
  destruct (C15_product_coefficients_l dt n a b Hn Wa Wb Tb Ka Kb) as (p' & E' & Wp & Tp & Kp & _).
  rewrite E in E'. injection E' as <-.
  assert (Dp := den_self cls_ring p Wp). assert (Dc := den_self cls_ring c Wc). rewrite Tp in Dp. rewrite Tc in Dc.
  split; [|split; [|split; [|split]]].
  - split; [|split; [|split; [|split]]].
    + destruct (add_den cls_ring ok_ring dt (torsion a) Ht Hdt _ _ _ _ p c Dp Dc) as (z & Ez & _). eauto.
    + destruct (sub_den cls_ring ok_ring dt (torsion a) Ht Hdt _ _ _ _ p c Dp Dc) as (z & Ez & _). eauto.
    + destruct (scale_den cls_ring ok_ring dt (torsion a) Ht Hdt _ _ m p Dp) as (z & Ez & _). eauto.
    + destruct (C15_product_coefficients_l dt n p c Hn Wp Wc ltac:(congruence) Kp Kc) as (z & Ez & _). eauto.
    + destruct (C15_product_coefficients_l dt n c p Hn Wc Wp ltac:(congruence) Kc Kp) as (z & Ez & _). eauto.
  - intros Wx Tx Nx Kx. destruct (C22_action_formula_l dt n p x Hn Wp Wx ltac:(congruence) ltac:(congruence) Kp Kx N Nx) as (z & Ez & _). eauto.
  - intros Wx Tx Nx Kx. destruct (C28_action_formula_l dt n p y Hn Wp Wx ltac:(congruence) ltac:(congruence) Kp Kx N Nx) as (z & Ez & _). eauto.
  - intros Wx Tx Nx Cx Kx. destruct (C46_action_formula_l dt n p u Hn Wp Wx ltac:(congruence) ltac:(congruence) Cx Kp Kx N Nx) as (z & Ez & _). eauto.
  - destruct (recreate dt n p Wp ltac:(congruence) Kp) as (q & Eq & Dq & Kq). exists q. split; [exact Eq|].
    rewrite Tp in Dq. assert (Wq : wf cls_ring q) by (exact (den_wf _ _ _ _ _ Ht Dq)).
    assert (Eqb : elt_eqb q p = true).
    { eapply (den_eqb cls_ring ok_ring (torsion a)); eauto. reflexivity. }
    split; [exact Eqb|].
    assert (Nq : ~ is_zero q).
    { intros Z0. apply N. unfold is_zero in *. pose proof (proj1 (C06_equality_l q p) Eqb) as G. destruct (data p) as [|[k w] l] eqn:Ed; [reflexivity|exfalso].
      specialize (G k). rewrite Z0 in G. destruct (proj2 (proj2 Wp) k w) as [Cv _]; [rewrite Ed; now left|].
      cbn [dget] in G. rewrite (keqb_refl k) in G. unfold canon_coef in Cv. lia. }
    split.
    + intros Hm. destruct (Z.eq_dec m 0) as [->|Nm].
      * rewrite (proj2 (C17_power_formula_l dt n 0 q Hn Wq ltac:(destruct Dq; congruence) Kq) Nq). unfold identity_element.
        destruct (new_den cls_ring ok_ring dt (torsion q) (Some (torsion q)) tt [(SGE (zrange 1 (n + 1)), 1)] eq_refl (proj1 Wq)) as (z & Ez & _); eauto.
        -- split; [intros ? []|exact I].
        -- intros k [<-|[]]. apply ring_okey.
      * destruct (ring_pow_den dt n m q Hn ltac:(lia) Wq ltac:(destruct Dq; congruence) Kq) as (z & Ez & _). eauto.
    + intros Wx Tx Nx Kx. destruct (C35_action_formula_l dt n q v Hn Wq Wx ltac:(destruct Dq; congruence) ltac:(congruence) Kq Kx Nq Nx) as (z & Ez & _). eauto.
Qed.

(** (2,1) squared is a non-zero product in arity two, over Z and over Z/3, with integral multiples
    and a partner of the same torsion. *)
Example ex_products_l : forall t, t = 0 \/ t = 3 ->
  let a : ring := mkElt [(SGE [2; 1], 2)] t tt in
  wf cls_ring a /\ keys_in (fun k => is_sge k = true /\ perm 2 (kval k)) a /\
  exists p, ring_mul 0 a a = Ok p /\ ~ is_zero p /\ ring_compose 0 p a 1 = Err AttributeError /\ ring_pow 0 p 3 = Err TypeError.
Proof.
  intros t [-> | ->]; (split; [now apply wfb_wf|split; [|eexists; split; [reflexivity|split; [discriminate|split; reflexivity]]]]).
  all: intros k v [[= <- <-]|[]]; split; [reflexivity|]; cbn [kval SGE]; apply perm_of_incl; try lia; try reflexivity;
    intros i Hi; assert (i = 1 \/ i = 2) as [-> | ->] by lia; cbn; tauto.
Qed.
