(** * Property theorems of the Barratt-Eccles operad: boundary, action, orbit, diagonal, complexity. *)
From Coq Require Import Setoid Morphisms.
From Verif Require Import PyBase Dict FreeModule Symmetric Simplicial Utils Surjection BarrattEccles Eqm Spec SpecOperad FreeModuleFacts FreeModuleLaws ListFacts
  ClassFacts LinearFacts SymmetricFacts CycleFacts SymmetricLaws RingFacts RingLaws TensorAct LoopFacts ActGeneric SimplicialLaws BEFacts BEOrbit.

Lemma be_faces_fbB k : be_faces k = fbB k.
Proof. unfold be_faces, fbB. now rewrite cuts_splits. Qed.
Ltac permtac := apply perm_of_incl; [lia|reflexivity|]; intros ? ?; cbn [In]; lia.

(** ** Boundary *)
(** #C34_degenerate# The basis elements that are declared zero: the empty tuple and those with two equal consecutive entries. *)
Lemma C34_degenerate_l (k : list (list Z)) : bad cls_be k = Ok true <-> k = [] \/ repeats k.
Proof.
  rewrite be_bad. rewrite <- bdup_repeats. destruct k as [|p k]; cbn [bbad].
  - split; auto.
  - split; [intros [= H]; now right|intros [H|H]; [discriminate|now rewrite H]].
Qed.
(** #C34_boundary_formula# The boundary is the alternating sum of the tuples
    with one permutation deleted, extended linearly; degenerate terms are zero. *)
Lemma C34_boundary_formula_l (dt : Z) (x : bee) : wf cls_be x -> dt_ok dt (torsion x) ->
  gives cls_be (be_boundary dt x) (torsion x) tt (extend be_faces x).
Proof.
  intros Wx Hdt. pose proof (proj1 Wx) as Ht. eapply (den_gives cls_be ok_be); [exact Ht|now apply be_boundary_den|].
  intros g _. cbn beta. apply eqm_eq. rewrite ev_extend. apply ev_ext. intros k v _. now rewrite be_faces_fbB.
Qed.
(** #C34_boundary_squared# *)
Lemma C34_boundary_squared_l (dt : Z) (x : bee) : wf cls_be x -> dt_ok dt (torsion x) ->
  same (let! y := be_boundary dt x in be_boundary dt y) (zero dt cls_be x).
Proof.
  intros Wx Hdt. pose proof (proj1 Wx) as Ht.
  pose proof (linop_beb dt (torsion x) bany bany Ht Hdt kpred_bany face_any) as L.
  refine (sq_zero cls_be ok_be tt dt (torsion x) bany bany bany fdB (be_boundary dt) x Ht Hdt kpred_bany L (rep_fdB _ _ face_any) L (adm_fdB _ _ face_any)
    _ Wx eq_refl (be_attr x) _).
  - intros g k _ _ _. now rewrite fdB_fdB.
  - intros k v _. exact I.
Qed.
(** #C34_boundary_linear# *)
Lemma C34_boundary_linear_l (dt n : Z) (x y : bee) : wf cls_be x -> wf cls_be y -> torsion y = torsion x -> dt_ok dt (torsion x) ->
  same (let! s := add dt cls_be x y in be_boundary dt s)
       (let! p := be_boundary dt x in let! q := be_boundary dt y in add dt cls_be p q) /\
  same (let! s := scale dt cls_be n x in be_boundary dt s)
       (let! p := be_boundary dt x in scale dt cls_be n p).
Proof.
  intros Wx Wy Ty Hdt. pose proof (proj1 Wx) as Ht.
  pose proof (linop_beb dt (torsion x) bany bany Ht Hdt kpred_bany face_any) as L.
  assert (Kx : forall z : bee, keys_in bany z) by (intros z k v _; exact I). split.
  - exact (linop_add cls_be cls_be ok_be ok_be dt (torsion x) tt tt bany bany fdB (be_boundary dt) x y Ht Hdt kpred_bany L (adm_fdB _ _ face_any)
      Wx eq_refl (be_attr x) (Kx x) Wy Ty (be_attr y) (Kx y)).
  - exact (linop_scale cls_be cls_be ok_be ok_be dt (torsion x) tt tt bany bany fdB (be_boundary dt) x n Ht Hdt kpred_bany L (adm_fdB _ _ face_any)
      Wx eq_refl (be_attr x) (Kx x)).
Qed.
(** #C34_boundary_degree# The boundary keeps the arity and lowers the degree by one. *)
Lemma C34_boundary_degree_l (dt n d : Z) (x : bee) : 1 <= n -> wf cls_be x -> dt_ok dt (torsion x) ->
  keys_in (fun k => be_simplex n k /\ zlen k = d + 1) x ->
  exists y, be_boundary dt x = Ok y /\ wf cls_be y /\ torsion y = torsion x /\
    keys_in (fun k => be_simplex n k /\ zlen k = d) y /\
    (~ is_zero y -> be_arity y = Ok (Some n) /\ be_degree y = Some (d - 1)).
Proof.
  intros Hn Wx Hdt Kx. pose proof (proj1 Wx) as Ht.
  destruct (linop_beb dt (torsion x) (be_cell n d) (be_cell n (d - 1)) Ht Hdt (kpred_bdeg n (d - 1)) (face_deg n d) x Wx eq_refl (be_attr x) Kx) as (y & E & Dy & Ky).
  assert (Wy : wf cls_be y) by (eapply den_wf; eauto).
  exists y. split; [exact E|]. split; [exact Wy|]. split; [exact (proj1 Dy)|]. split.
  - intros k v Hin. destruct (Ky _ _ Hin) as [K1 K2]. split; [exact K1|lia].
  - intros N. split; [|now apply (be_degree_ok n)]. apply be_arity_ok; auto. eapply bdeg_bsim; eauto.
Qed.
(** #C34_arity_degree# [arity] is [n] for every non-zero element all of whose
    entries are permutations of (1..n); [degree] has the value [d] exactly for the
    non-zero elements all of whose basis elements have [d + 1] entries. *)
Lemma C34_arity_degree_l (n d : Z) (x : bee) :
  (1 <= n -> wf cls_be x -> ~ is_zero x -> keys_in (be_simplex n) x -> be_arity x = Ok (Some n)) /\
  (be_degree x = Some d <-> ~ is_zero x /\ keys_in (fun k => zlen k - 1 = d) x).
Proof.
  split; [intros; now apply be_arity_ok|]. unfold be_degree. destruct (dempty (data x)) eqn:E.
  - split; [discriminate|]. intros [N _]. exfalso. apply N. unfold is_zero. now destruct (data x).
  - rewrite opt_of_zset. apply keys_of.
Qed.
(** #C34_example# *)
Example C34_example_l :
  let x := mkElt [([[1; 2; 3]; [2; 1; 3]; [1; 2; 3]], 5); ([[1; 2; 3]; [2; 1; 3]; [3; 2; 1]], 1)] 0 tt in
  wf cls_be x /\ keys_in (fun k => be_simplex 3 k /\ zlen k = 2 + 1) x /\
  be_boundary 0 x = Ok (mkElt [([[2; 1; 3]; [1; 2; 3]], 5); ([[1; 2; 3]; [2; 1; 3]], 6); ([[2; 1; 3]; [3; 2; 1]], 1); ([[1; 2; 3]; [3; 2; 1]], -1)] 0 tt).
Proof.
  cbn zeta. split; [apply wfb_wf; reflexivity|]. split; [|reflexivity].
  intros k v [[= <- <-]|[[= <- <-]|[]]]; (split; [|reflexivity]); intros p Hp; cbn in Hp; decompose [or] Hp; subst; try tauto; permtac.
Qed.

(** ** Action *)
Lemma move_pmul p k : be_move p k = map (pmul p) k.
Proof. reflexivity. Qed.
Definition rpk n (k : skey) : Prop := is_sge k = true /\ perm n (kval k).
Lemma rpk_pk n (a : ring) : keys_in (rpk n) a -> keys_in (pk n) a.
Proof. intros H k v Hin. exact (proj2 (H _ _ Hin)). Qed.
Lemma rpk_sge n (a : ring) : keys_in (rpk n) a -> keys_in sge a.
Proof. intros H k v Hin. exact (proj1 (H _ _ Hin)). Qed.

(** #C35_action_formula# A permutation acts by composing with every entry; extended bilinearly. *)
Lemma C35_action_formula_l (dt n : Z) (a : ring) (x : bee) :
  1 <= n -> wf cls_ring a -> wf cls_be x -> torsion a = torsion x -> dt_ok dt (torsion x) ->
  keys_in (fun k => is_sge k = true /\ perm n (kval k)) a -> keys_in (be_simplex n) x -> ~ is_zero a -> ~ is_zero x ->
  gives cls_be (be_act dt a x) (torsion x) tt (extend2 (fun p k => [(be_move (kval p) k, 1)]) a x).
Proof.
  intros Hn Wa Wx Ta Hdt Ka Kx Na Nx. pose proof (proj1 Wx) as Ht.
  replace (be_act dt a x) with (extended dt cls_be (be_act dt) a x).
  2:{ unfold extended. unfold is_zero in *. destruct (data a); [congruence|]. destruct (data x); [congruence|]. reflexivity. }
  rewrite be_act0_bact0 by now apply (rpk_sge n).
  apply (ga_gives cls_be ok_be tt n (be_simplex n) _ PactB (torsion x) Ht (bil_bact dt n _ Hn Ht Hdt)); auto using rpk_pk, be_attr.
  intros g k2 k1 _ _ _ _. rewrite ev_cons, ev_nil, Z.mul_1_l, Z.add_0_r. reflexivity.
Qed.
Lemma recreate dt n (p : ring) : wf cls_ring p -> dt_ok dt (torsion p) -> keys_in (pk n) p ->
  exists q, create dt cls_ring p (data p) = Ok q /\ den cls_ring (torsion p) tt (fun g => ev g (data p)) q /\ keys_in (rpk n) q.
Proof.
  intros Wp Hdt Kp. pose proof (proj1 Wp) as Ht.
  destruct (create_den cls_ring ok_ring dt (torsion p) p (data p) Ht Hdt eq_refl (proj1 (proj2 Wp)) ltac:(intros; apply ring_okey)) as (q & Eq & Dq).
  exists q. split; [exact Eq|]. rewrite (ring_attr0 p) in Dq. split; [exact Dq|].
  assert (Kq : keys_in (pk n) q).
  { eapply (den_keys cls_ring ok_ring (torsion p) tt _ q (pk n) Ht (kpred_pk n) Dq). intros g Hg H0. apply eqm_eq. apply ev_zero. intros k v Hin. apply H0. exact (Kp _ _ Hin). }
  intros k v Hin. split; [|exact (Kq _ _ Hin)]. eapply (create_keys cls_ring dt p q (data p) sge Eq); [reflexivity|exact Hin].
Qed.
(** #C35_left_action# (a * b) * x == a * (b * x), extended by zero, when the
    product is re-created so that its keys are group elements again (see
    [C35_products_rejected]). *)
Lemma C35_left_action_l (dt n : Z) (a b : ring) (x : bee) :
  1 <= n -> wf cls_ring a -> wf cls_ring b -> wf cls_be x -> torsion a = torsion x -> torsion b = torsion x -> dt_ok dt (torsion x) ->
  keys_in (fun k => is_sge k = true /\ perm n (kval k)) a -> keys_in (fun k => is_sge k = true /\ perm n (kval k)) b -> keys_in (be_simplex n) x ->
  same (let! p := ring_mul dt a b in let! ab := create dt cls_ring p (data p) in extended dt cls_be (be_act dt) ab x)
       (let! bx := extended dt cls_be (be_act dt) b x in extended dt cls_be (be_act dt) a bx).
Proof.
  intros Hn Wa Wb Wx Ta Tb Hdt Ka Kb Kx. pose proof (proj1 Wx) as Ht. assert (Hn0 : 0 <= n) by lia.
  pose proof (rpk_pk _ _ Ka) as Ka'. pose proof (rpk_pk _ _ Kb) as Kb'.
  rewrite be_act0_bact0 by now apply (rpk_sge n).
  assert (S1 : same (let! p := ring_mul dt a b in extended dt cls_be (bact dt) p x)
     (let! bx := extended dt cls_be (bact dt) b x in extended dt cls_be (bact dt) a bx)).
  { refine (ga_assoc cls_be ok_be tt dt n Hn (be_simplex n) (kpred_bsim n) _ PactB (torsion x) Ht (bil_bact dt n _ Hn Ht Hdt) (rep_bact n Hn0) (adm_bact n Hn0)
      a b x Wa Wb Wx Ta Tb eq_refl (be_attr x) Ka' Kb' Kx _ _).
    - intros g p q k _ Hp Hq Hk _. unfold PactB. cbn [kval SGE]. apply eqm_eq. f_equal. rewrite map_map. apply map_ext_in. intros r Hr. apply (pmul_assoc n); auto.
    - intros g k2 k2' k1 E. unfold PactB. now rewrite E. }
  assert (E2 : (let! bx := extended dt cls_be (bact dt) b x in extended dt cls_be (be_act dt) a bx) = (let! bx := extended dt cls_be (bact dt) b x in extended dt cls_be (bact dt) a bx)).
  { destruct (extended dt cls_be (bact dt) b x) as [bx|]; cbn [bind]; [|reflexivity]. apply be_act0_bact0. now apply (rpk_sge n). }
  rewrite E2. eapply same_trans; [|exact S1]. destruct S1 as (z & _ & Ez & _ & _).
  destruct (ring_mul dt a b) as [p|] eqn:Ep; [|discriminate]. cbn [bind] in Ez |- *.
  destruct (bilop_keys cls_ring cls_ring cls_ring ok_ring (torsion x) tt tt tt (pk n) (pk n) (pk n) Pmul _ Ht (kpred_pk n) (bilop_mul dt n _ Hn0 Ht) (rep2_local2 _ _ _ _ (rep_mul n Hn0))
    (rep2_zero _ _ _ _ (rep_mul n Hn0)) a b p Wa Ta (ring_attr0 a) Ka' Wb Tb (ring_attr0 b) Kb' Ep) as (Wp & Tp & Ap & Kp).
  assert (Hdp : dt_ok dt (torsion p)) by (rewrite Tp; exact Hdt). destruct (recreate dt n p Wp Hdp Kp) as (q & Eq & Dq & Kq). rewrite Eq. cbn [bind]. rewrite be_act0_bact0 by now apply (rpk_sge n).
  rewrite Tp in Dq. assert (Wq : wf cls_ring q) by (exact (den_wf _ _ _ _ _ Ht Dq)).
  pose proof (bil_bact dt n _ Hn Ht Hdt) as B. eapply (same_den cls_be ok_be (torsion x) tt); [exact Ht| | |].
  - apply B; auto using be_attr, ring_attr0; [exact (proj1 Dq)|now apply rpk_pk].
  - apply B; auto using be_attr, ring_attr0.
  - intros g Hg. cbn beta. assert (Hgg : adm cls_ring (fun k2 => ev (fun k1 => PactB g k2 k1) (data x))).
    { split; [|discriminate]. intros k k' Ek. cbn in Ek. apply tup_eqb_eq in Ek. apply ev_ext_all. intros k1. unfold PactB. now rewrite Ek. }
    rewrite (den_ev _ _ _ _ _ _ Dq Hgg). reflexivity.
Qed.
Lemma for_err {S B} (l : list B) (body : S -> B -> res S) e : l <> [] -> (forall s b, In b l -> body s b = Err e) -> forall s, for_ l s body = Err e.
Proof. destruct l as [|b l]; [congruence|]. intros _ H s. cbn. rewrite H by now left. reflexivity. Qed.
(** #C35_products_rejected# A product of ring elements, as returned by [*], cannot act: its keys are
    plain tuples and the action raises TypeError. *)
Lemma C35_products_rejected_l (dt n : Z) (a b p : ring) (x : bee) :
  1 <= n -> wf cls_ring a -> wf cls_ring b -> wf cls_be x -> torsion a = torsion x -> torsion b = torsion x -> dt_ok dt (torsion x) ->
  keys_in (fun k => perm n (kval k)) a -> keys_in (fun k => perm n (kval k)) b -> keys_in (be_simplex n) x ->
  ring_mul dt a b = Ok p -> ~ is_zero p -> ~ is_zero x -> be_act dt p x = Err TypeError.
Proof.
  intros Hn Wa Wb Wx Ta Tb Hdt Ka Kb Kx Ep Np Nx. pose proof (proj1 Wx) as Ht. assert (Hn0 : 0 <= n) by lia.
  destruct (bilop_keys cls_ring cls_ring cls_ring ok_ring (torsion x) tt tt tt (pk n) (pk n) (pk n) Pmul _ Ht (kpred_pk n) (bilop_mul dt n _ Hn0 Ht) (rep2_local2 _ _ _ _ (rep_mul n Hn0))
    (rep2_zero _ _ _ _ (rep_mul n Hn0)) a b p Wa Ta (ring_attr0 a) Ka Wb Tb (ring_attr0 b) Kb Ep) as (Wp & Tp & Ap & Kp).
  assert (Kt : keys_in (fun k => is_sge k = false) p).
  { unfold ring_mul in Ep. destruct (negb _); [discriminate|]. rewrite zero_data in Ep. cbn [bind data] in Ep.
    destruct (for_ _ _ _) as [d|] eqn:Ed in Ep; cbn in Ep; [|discriminate].
    destruct (pref _ _ _) as [d'|] eqn:Ed' in Ep; cbn in Ep; [|discriminate]. injection Ep as <-. intros k v Hin. cbn in Hin.
    apply (pref_keys _ _ _ _ _ _ Ed') in Hin.
    assert (G : forall k, In k (dkeys d) -> is_sge k = false).
    { refine (for_inv (fun d => forall k, In k (dkeys d) -> is_sge k = false) _ _ _ _ _ _ Ed).
      - intros s [[k1 v1] [k2 v2]] s' _ Hs E. destruct (mapM _ _) as [r|]; cbn [bind] in E; [|discriminate]. injection E as <-.
        exact (dset_Forall (fun k => is_sge k = false) s (Tup r) _ Hs eq_refl).
      - intros ? []. }
    now apply G. }
  unfold be_act. rewrite Tp, Z.eqb_refl. cbn [negb]. rewrite (be_arity_ok n) by auto. cbn [bind].
  rewrite (ring_arity_ok n) by auto. cbn [bind opt_eqb]. rewrite Z.eqb_refl. cbn [negb]. rewrite zero_data. cbn [bind].
  apply for_err.
  - unfold is_zero in *. destruct (data x), (data p); cbn; congruence.
  - intros s [[k1 v1] [k2 v2]] Hin. apply in_prod_iff in Hin. destruct Hin as [H1 H2]. rewrite (Kt _ _ H2).
    assert (Hb := proj2 (proj2 (proj2 Wx) _ _ H1)). rewrite be_bad in Hb. destruct k1; [discriminate|]. reflexivity.
Qed.
(** #C35_unit# *)
Lemma C35_unit_l (dt n : Z) (x : bee) :
  1 <= n -> wf cls_be x -> dt_ok dt (torsion x) -> torsion x <> 1 -> keys_in (be_simplex n) x ->
  same (let! e := identity_element dt n (Some (torsion x)) in extended dt cls_be (be_act dt) e x) (Ok x).
Proof.
  intros Hn Wx Hdt N Kx. pose proof (proj1 Wx) as Ht. assert (Hn0 : 0 <= n) by lia.
  destruct (identity_element dt n (Some (torsion x))) as [e|] eqn:Ee.
  2:{ unfold identity_element in Ee. rewrite (new_basis dt (Some (torsion x)) (torsion x)) in Ee by auto. discriminate. }
  cbn [bind]. rewrite be_act0_bact0.
  - pose proof (ga_unit cls_be ok_be tt dt n (be_simplex n) (kpred_bsim n) _ PactB (torsion x) Ht (bil_bact dt n _ Hn Ht Hdt) (rep_bact n Hn0)
      x N) as H. rewrite Ee in H. cbn [bind] in H. apply H; auto using be_attr.
    intros g k _ Hk _. unfold PactB. cbn [kval SGE]. apply eqm_eq. f_equal. rewrite <- (map_id k) at 2. apply map_ext_in. intros p Hp. apply (pmul_id_l n). now apply Hk.
  - unfold identity_element in Ee. eapply new_sge; eauto.
Qed.
(** #C35_bilinear# *)
Lemma C35_bilinear_l (dt n : Z) (a b : ring) (x y : bee) :
  1 <= n -> wf cls_ring a -> wf cls_ring b -> wf cls_be x -> wf cls_be y ->
  torsion a = torsion x -> torsion b = torsion x -> torsion y = torsion x -> dt_ok dt (torsion x) ->
  keys_in (fun k => is_sge k = true /\ perm n (kval k)) a -> keys_in (fun k => is_sge k = true /\ perm n (kval k)) b ->
  keys_in (be_simplex n) x -> keys_in (be_simplex n) y ->
  same (let! s := add dt cls_ring a b in extended dt cls_be (be_act dt) s x)
       (let! p := extended dt cls_be (be_act dt) a x in let! q := extended dt cls_be (be_act dt) b x in add dt cls_be p q) /\
  same (let! s := add dt cls_be x y in extended dt cls_be (be_act dt) a s)
       (let! p := extended dt cls_be (be_act dt) a x in let! q := extended dt cls_be (be_act dt) a y in add dt cls_be p q).
Proof.
  intros Hn Wa Wb Wx Wy Ta Tb Ty Hdt Ka Kb Kx Ky. pose proof (proj1 Wx) as Ht. assert (Hn0 : 0 <= n) by lia.
  pose proof (rpk_pk _ _ Ka) as Ka'. pose proof (rpk_pk _ _ Kb) as Kb'.
  rewrite !be_act0_bact0 by now apply (rpk_sge n). split.
  - assert (E : (let! s := add dt cls_ring a b in extended dt cls_be (be_act dt) s x) = (let! s := add dt cls_ring a b in extended dt cls_be (bact dt) s x)).
    { destruct (add dt cls_ring a b) as [s|] eqn:Es; cbn [bind]; [|reflexivity]. apply be_act0_bact0.
      unfold add in Es. destruct (negb _); [discriminate|]. destruct (create dt cls_ring a (data a)) as [u|] eqn:Eu; cbn [bind] in Es; [|discriminate].
      destruct (pref _ _ _) as [d|] eqn:Ed in Es; cbn [bind] in Es; [|discriminate]. injection Es as <-. intros k v Hin. cbn in Hin.
      apply (pref_keys _ _ _ _ _ _ Ed) in Hin. revert Hin. apply dupdate_Forall; intros k' Hk'; unfold dkeys in Hk'; apply in_map_iff in Hk';
        destruct Hk' as ([k1 v1] & <- & Hin).
      - eapply (create_keys cls_ring dt a u (data a) sge Eu); [reflexivity|exact Hin].
      - exact (proj1 (Kb _ _ Hin)). }
    rewrite E.
    exact (ga_add_l cls_be ok_be tt dt n (be_simplex n) (kpred_bsim n) _ PactB (torsion x) Ht Hdt (bil_bact dt n _ Hn Ht Hdt) (rep_bact n Hn0) (adm_bact n Hn0)
      a b x Wa Wb Wx Ta Tb eq_refl (be_attr x) Ka' Kb' Kx).
  - assert (E : (let! s := add dt cls_be x y in extended dt cls_be (be_act dt) a s) = (let! s := add dt cls_be x y in extended dt cls_be (bact dt) a s)).
    { destruct (add dt cls_be x y) as [s|] eqn:Es; cbn [bind]; [|reflexivity]. apply be_act0_bact0. now apply (rpk_sge n). }
    rewrite E.
    exact (ga_add_r cls_be ok_be tt dt n (be_simplex n) (kpred_bsim n) _ PactB (torsion x) Ht Hdt (bil_bact dt n _ Hn Ht Hdt) (rep_bact n Hn0) (adm_bact n Hn0)
      a x y Wa Wx Wy Ta eq_refl Ty (be_attr x) (be_attr y) Ka' Kx Ky).
Qed.
(** #C35_action_boundary# boundary(a * x) == a * boundary(x), extended by zero. *)
Lemma C35_action_boundary_l (dt n : Z) (a : ring) (x : bee) :
  1 <= n -> wf cls_ring a -> wf cls_be x -> torsion a = torsion x -> dt_ok dt (torsion x) ->
  keys_in (fun k => is_sge k = true /\ perm n (kval k)) a -> keys_in (be_simplex n) x ->
  same (let! y := extended dt cls_be (be_act dt) a x in be_boundary dt y)
       (let! y := be_boundary dt x in extended dt cls_be (be_act dt) a y).
Proof.
  intros Hn Wa Wx Ta Hdt Ka Kx. pose proof (proj1 Wx) as Ht. assert (Hn0 : 0 <= n) by lia.
  pose proof (rpk_pk _ _ Ka) as Ka'. rewrite be_act0_bact0 by now apply (rpk_sge n).
  assert (E : (let! y := be_boundary dt x in extended dt cls_be (be_act dt) a y) = (let! y := be_boundary dt x in extended dt cls_be (bact dt) a y)).
  { destruct (be_boundary dt x) as [s|] eqn:Es; cbn [bind]; [|reflexivity]. apply be_act0_bact0. now apply (rpk_sge n). }
  rewrite E.
  refine (ga_bnd cls_be ok_be tt n (be_simplex n) (kpred_bsim n) _ PactB (torsion x) Ht (bil_bact dt n _ Hn Ht Hdt) (rep_bact n Hn0) (adm_bact n Hn0)
    (be_boundary dt) fdB a x (linop_beb dt _ _ _ Ht Hdt (kpred_bsim n) (face_sim n)) (rep_fdB _ _ (face_sim n)) (adm_fdB _ _ (face_sim n)) _ Wa Wx Ta eq_refl (be_attr x) Ka' Kx).
  intros g k2 k _ _ _ _. unfold PactB. apply eqm_eq. apply fdB_map.
Qed.
(** #C35_mismatch# The action between different torsions or arities raises TypeError. *)
Lemma C35_mismatch_l (dt n m : Z) (a : ring) (x : bee) :
  (torsion a <> torsion x -> be_act dt a x = Err TypeError) /\
  (ring_arity a = Ok (Some n) -> be_arity x = Ok (Some m) -> n <> m -> be_act dt a x = Err TypeError).
Proof.
  unfold be_act. split.
  - intros N. destruct (Z.eqb_spec (torsion x) (torsion a)); [congruence|reflexivity].
  - intros -> -> N. destruct (negb (torsion x =? torsion a)); [reflexivity|]. cbn [bind opt_eqb]. destruct (Z.eqb_spec m n); [congruence|reflexivity].
Qed.
(** #C35_example# *)
Example C35_example_l :
  let x := mkElt [([[1; 2; 3]; [1; 3; 2]], 1)] 0 tt in
  let a := mkElt [(SGE [2; 1; 3], 1); (SGE [3; 1; 2], 5)] 0 tt in
  wf cls_be x /\ wf cls_ring a /\ keys_in (fun k => is_sge k = true /\ perm 3 (kval k)) a /\ keys_in (be_simplex 3) x /\
  be_act 0 a x = Ok (mkElt [([[2; 1; 3]; [2; 3; 1]], 1); ([[3; 1; 2]; [3; 2; 1]], 5)] 0 tt).
Proof.
  cbn zeta. split; [apply wfb_wf; reflexivity|]. split; [apply wfb_wf; reflexivity|]. split; [|split; [|reflexivity]].
  - intros k v [[= <- <-]|[[= <- <-]|[]]]; (split; [reflexivity|]); cbn [kval SGE]; permtac.
  - intros k v [[= <- <-]|[]] p Hp; cbn in Hp; decompose [or] Hp; subst; try tauto; permtac.
Qed.

(** ** Orbits *)
(** #C36_orbit_formula# Every basis element is replaced by the element of its
    orbit that starts with the identity; with ['sign'], times the sign of its
    first entry.  Any other string behaves as ['trivial']. *)
Lemma C36_orbit_formula_l (dt n : Z) (rep : repr) (x : bee) : 1 <= n -> wf cls_be x -> dt_ok dt (torsion x) -> keys_in (be_simplex n) x ->
  gives cls_be (be_orbit dt x rep) (torsion x) tt
    (extend (fun k => [(be_normal k, match rep with SignRep => sgn (inversions (hd [] k)) | _ => 1 end)]) x).
Proof.
  intros Hn Wx Hdt Kx. pose proof (proj1 Wx) as Ht. eapply (den_gives cls_be ok_be); [exact Ht|apply (orbit_den dt rep n); auto|].
  intros g Hg. cbn beta. apply eqm_eq. rewrite ev_extend. apply ev_ext. intros k v Hin. rewrite ev_cons, ev_nil.
  destruct k as [|k0 k]; cbn [be_normal hd Dorb].
  - rewrite (proj2 Hg []) by reflexivity. ring.
  - change (be_move (inverse k0) (k0 :: k)) with (map (pmul (pinv k0)) (k0 :: k)). unfold chi, psgn. ring.
Qed.
(** #C36_starts_with_identity# *)
Lemma C36_starts_with_identity_l (dt n : Z) (rep : repr) (x : bee) : 1 <= n -> wf cls_be x -> dt_ok dt (torsion x) -> keys_in (be_simplex n) x ->
  exists y, be_orbit dt x rep = Ok y /\ wf cls_be y /\ torsion y = torsion x /\
    keys_in (fun k => be_simplex n k /\ hd [] k = zrange 1 (n + 1)) y.
Proof.
  intros Hn Wx Hdt Kx. pose proof (proj1 Wx) as Ht.
  destruct (linop_orbit dt rep n _ Hn Ht Hdt x Wx eq_refl (be_attr x) Kx) as (y & E & Dy & Ky). exists y. split; [exact E|].
  split; [exact (den_wf _ _ _ _ _ Ht Dy)|]. split; [exact (proj1 Dy)|]. intros k v Hin. destruct (Ky _ _ Hin) as [H1 [k' ->]]. split; [exact H1|reflexivity].
Qed.
Lemma borb_sim n k : borb n k -> be_simplex n k. Proof. now intros [H _]. Qed.
Lemma linop_weaken {K A K' B} `{PyKey K} `{PyKey K'} (c : pycls K) (c' : pycls K') t (a : A) (b : B) (P P' : K -> Prop) (Q Q' : K' -> Prop) D f :
  (forall k, P' k -> P k) -> (forall k, Q k -> Q' k) -> linop c c' t a b P Q D f -> linop c c' t a b P' Q' D f.
Proof.
  intros HP HQ L x Wx Tx Ax Kx. eapply returns_mono; [apply L; auto; intros k v Hin; apply HP; eapply Kx; eauto|].
  intros y [Dy Ky]. split; [exact Dy|]. intros k v Hin. apply HQ. eapply Ky; eauto.
Qed.
(** #C36_idempotent# *)
Lemma C36_idempotent_l (dt n : Z) (rep : repr) (x : bee) : 1 <= n -> wf cls_be x -> dt_ok dt (torsion x) -> keys_in (be_simplex n) x ->
  same (let! y := be_orbit dt x rep in be_orbit dt y rep) (be_orbit dt x rep).
Proof.
  intros Hn Wx Hdt Kx. pose proof (proj1 Wx) as Ht. assert (Hn0 : 0 <= n) by lia.
  pose proof (linop_orbit dt rep n _ Hn Ht Hdt) as L.
  pose proof (linop_weaken cls_be cls_be _ tt tt _ (be_simplex n) _ (be_simplex n) _ _ (fun k H => H) (borb_sim n) L) as L1.
  refine (linop_same cls_be cls_be ok_be (torsion x) tt tt (be_simplex n) (borb n) (borb n) _ _ _ _ x Ht
    (linop_comp cls_be cls_be cls_be ok_be ok_be ok_be (torsion x) tt tt tt (be_simplex n) (be_simplex n) (borb n) _ _ _ _ Ht (kpred_bsim n) L1 L _ (adm_Dorb rep n Hn0))
    L Wx eq_refl (be_attr x) Kx _).
  - apply rep_local. intros k Hk. destruct (rep_Dorb rep n Hn0 k Hk) as (T & T1 & T2). exists T. split; [intros k' v Hin; apply borb_sim; eapply T1; eauto|exact T2].
  - intros g k Hg Hk Hb. destruct k as [|k0 k]; [reflexivity|]. assert (H0 : perm n k0) by (apply Hk; now left).
    change (eqm (torsion x) (chi rep k0 * Dorb rep g (map (pmul (pinv k0)) (k0 :: k))) (Dorb rep g (k0 :: k))).
    rewrite (Dorb_move rep n) by (auto; now apply perm_pinv). rewrite (chi_pinv rep n) by auto. apply eqm_eq.
    rewrite Z.mul_assoc, chi_sq. ring.
Qed.
(** #C36_constant_on_orbits# The orbit of [a * x] is the augmentation of [a]
    (with ['sign']: the sum of the coefficients times the signs) times the orbit of [x];
    in particular elements that differ by a permutation have equal orbits, up to the sign of the permutation for ['sign']. *)
Lemma C36_constant_on_orbits_l (dt n : Z) (rep : repr) (a : ring) (x : bee) :
  1 <= n -> wf cls_ring a -> wf cls_be x -> torsion a = torsion x -> dt_ok dt (torsion x) ->
  keys_in (fun k => is_sge k = true /\ perm n (kval k)) a -> keys_in (be_simplex n) x ->
  same (let! y := extended dt cls_be (be_act dt) a x in be_orbit dt y rep)
       (let! y := be_orbit dt x rep in
        scale dt cls_be (zsum (map (fun kv => snd kv * match rep with SignRep => sgn (inversions (kval (fst kv))) | _ => 1 end) (data a))) y).
Proof.
  intros Hn Wa Wx Ta Hdt Ka Kx. pose proof (proj1 Wx) as Ht. assert (Hn0 : 0 <= n) by lia. pose proof (rpk_pk _ _ Ka) as Ka'.
  rewrite be_act0_bact0 by now apply (rpk_sge n).
  pose proof (linop_orbit dt rep n _ Hn Ht Hdt) as L.
  pose proof (ga_linop cls_be ok_be tt n (be_simplex n) (kpred_bsim n) _ PactB (torsion x) Ht (bil_bact dt n _ Hn Ht Hdt) (rep_bact n Hn0) a Wa Ta Ka') as LA.
  pose proof (linop_comp cls_be cls_be cls_be ok_be ok_be ok_be (torsion x) tt tt tt (be_simplex n) (be_simplex n) (borb n) _ _ _ _ Ht (kpred_bsim n) LA L
    (rep_local _ _ _ (rep2_L _ _ _ PactB a (rep_bact n Hn0) Ka')) (adm_Dorb rep n Hn0)) as LC.
  eapply (same_den cls_be ok_be (torsion x) tt); [exact Ht| | |].
  - eapply returns_mono; [exact (LC x Wx eq_refl (be_attr x) Kx)|]. intros y [Dy _]. exact Dy.
  - eapply returns_bind; [exact (L x Wx eq_refl (be_attr x) Kx)|]. intros y [Dy _]. exact (scale_den cls_be ok_be dt (torsion x) Ht Hdt tt _ _ _ Dy).
  - intros g Hg. cbn beta. apply eqm_eq. unfold DBL. unfold ev at 1 3. rewrite <- sumf_scal. apply sumf_ext. intros [k v] Hin. cbn [fst snd].
    assert (Hk : be_simplex n k) by exact (Kx _ _ Hin).
    transitivity (v * (zsum (map (fun kv => snd kv * match rep with SignRep => sgn (inversions (kval (fst kv))) | _ => 1 end) (data a)) * Dorb rep g k)); [|ring]. f_equal.
    change (zsum (map (fun kv => snd kv * match rep with SignRep => sgn (inversions (kval (fst kv))) | _ => 1 end) (data a)))
      with (sumf (fun kv => snd kv * chi rep (kval (fst kv))) (data a)). rewrite Z.mul_comm, <- sumf_scal. unfold ev. apply sumf_ext. intros [k2 v2] Hin2. cbn [fst snd].
    unfold PactB. rewrite (Dorb_move rep n g (kval k2) k Hn0 (Ka' _ _ Hin2) Hk). ring.
Qed.
(** #C36_boundary_on_orbits# The boundary is defined on orbits: taking the
    orbit before the boundary does not change the orbit of the boundary. *)
Lemma C36_boundary_on_orbits_l (dt n : Z) (rep : repr) (x : bee) : 1 <= n -> wf cls_be x -> dt_ok dt (torsion x) -> keys_in (be_simplex n) x ->
  same (let! y := be_orbit dt x rep in let! z := be_boundary dt y in be_orbit dt z rep)
       (let! z := be_boundary dt x in be_orbit dt z rep).
Proof.
  intros Hn Wx Hdt Kx. pose proof (proj1 Wx) as Ht. assert (Hn0 : 0 <= n) by lia.
  pose proof (linop_orbit dt rep n _ Hn Ht Hdt) as L.
  pose proof (linop_weaken cls_be cls_be _ tt tt _ (be_simplex n) _ (be_simplex n) _ _ (fun k H => H) (borb_sim n) L) as L1.
  pose proof (linop_beb dt (torsion x) _ _ Ht Hdt (kpred_bsim n) (face_sim n)) as LB.
  assert (R1 : LinearFacts.rep (be_simplex n) (be_simplex n) (Dorb rep)).
  { intros k Hk. destruct (rep_Dorb rep n Hn0 k Hk) as (T & T1 & T2). exists T. split; [intros k' v Hin; apply borb_sim; eapply T1; eauto|exact T2]. }
  pose proof (linop_comp cls_be cls_be cls_be ok_be ok_be ok_be (torsion x) tt tt tt (be_simplex n) (be_simplex n) (borb n) _ _ _ _ Ht (kpred_bsim n) LB L
    (rep_local _ _ _ (rep_fdB _ _ (face_sim n))) (adm_Dorb rep n Hn0)) as LC.
  assert (AC : admop cls_be cls_be (be_simplex n) (borb n) (fun g => fdB (Dorb rep g))).
  { intros g Hg. apply (adm_fdB _ _ (face_sim n)). now apply (adm_Dorb rep n Hn0). }
  refine (linop_same cls_be cls_be ok_be (torsion x) tt tt (be_simplex n) (borb n) (borb n) _ _ _ _ x Ht
    (linop_comp cls_be cls_be cls_be ok_be ok_be ok_be (torsion x) tt tt tt (be_simplex n) (be_simplex n) (borb n) _ _ _ _ Ht (kpred_bsim n) L1 LC (rep_local _ _ _ R1) AC)
    LC Wx eq_refl (be_attr x) Kx _).
  intros g k Hg Hk Hb. destruct k as [|k0 k]; [reflexivity|]. assert (H0 : perm n k0) by (apply Hk; now left).
  change (eqm (torsion x) (chi rep k0 * fdB (Dorb rep g) (map (pmul (pinv k0)) (k0 :: k))) (fdB (Dorb rep g) (k0 :: k))).
  rewrite fdB_map. apply eqm_eq.
  rewrite (LinearFacts.rep_ext (be_simplex n) (be_simplex n) fdB (fun k' : bkey => Dorb rep g (map (pmul (pinv k0)) k')) (fun k' : bkey => chi rep k0 * Dorb rep g k') _ (rep_fdB _ _ (face_sim n)) Hk).
  - rewrite fdB_scal, Z.mul_assoc, chi_sq. ring.
  - intros k' Hk'. rewrite (Dorb_move rep n) by (auto; now apply perm_pinv). now rewrite (chi_pinv rep n).
Qed.
(** #C36_example# *)
Example C36_example_l :
  let x := mkElt [([[2; 1; 3]; [2; 3; 1]], 1); ([[1; 2; 3]; [1; 3; 2]], 1)] 0 tt in
  wf cls_be x /\ keys_in (be_simplex 3) x /\
  be_orbit 0 x Trivial = Ok (mkElt [([[1; 2; 3]; [1; 3; 2]], 2)] 0 tt) /\
  be_orbit 0 x SignRep = Ok (mkElt [] 0 tt).
Proof.
  cbn zeta. split; [apply wfb_wf; reflexivity|]. split; [|split; reflexivity].
  intros k v [[= <- <-]|[[= <- <-]|[]]] p Hp; cbn in Hp; decompose [or] Hp; subst; try tauto; permtac.
Qed.
