(** * Permutations acting directly (C73) *)
From Verif Require Import PyBase Dict FreeModule Symmetric Simplicial Cubical Utils Surjection BarrattEccles GroupMul Eqm Spec SpecChain SpecOperad SpecSurj SpecCube FreeModuleFacts FreeModuleLaws ListFacts
  ClassFacts LinearFacts SymmetricFacts CycleFacts SymmetricLaws RingFacts RingLaws TensorAct LoopFacts SimplicialLaws CubicalLaws BEFacts BELaws SurjFacts SurjLaws SurjLaws2.

Definition sing (g : list Z) (t : Z) : ring := mkElt [(SGE g, 1)] t tt.
Lemma sing_keys n g t : perm n g -> keys_in (fun k => perm n (kval k)) (sing g t).
Proof. intros Hg k v [[= <- <-]|[]]. exact Hg. Qed.
Lemma sing_keys' n g t : perm n g -> keys_in (fun k => is_sge k = true /\ perm n (kval k)) (sing g t).
Proof. intros Hg k v [[= <- <-]|[]]. split; [reflexivity|exact Hg]. Qed.
Lemma sing_nz g t : ~ is_zero (sing g t). Proof. discriminate. Qed.
Lemma nz_tors {K A} `{PyKey K} (c : pycls K) (x : elt K A) : wf c x -> ~ is_zero x -> torsion x <> 1.
Proof.
  intros (Ht & _ & Wx) N E. unfold is_zero in N. destruct (data x) as [|[k v] d] eqn:D; [congruence|]. destruct (Wx k v) as [[V1 V2] _]; [now left|]. rewrite E in V2. specialize (V2 eq_refl). lia.
Qed.
Lemma extend2_sing {K K' A} (f : skey -> K -> list (K' * Z)) g t (x : elt K A) : extend2 f (sing g t) x = extend (f (SGE g)) x.
Proof.
  unfold extend2, extend, sing. cbn [data flat_map fst snd]. rewrite app_nil_r. apply flat_map_ext. intros [k v]. apply map_ext. intros [k' v']. cbn [fst snd]. now rewrite Z.mul_1_l.
Qed.
Section Gen.
Context {K A : Type} `{KeyOk K}.
Variables (c : pycls K) (dt : Z) (act : ring -> elt K A -> res (elt K A)).
Definition gmul (g : list Z) (x : elt K A) : res (elt K A) := let! a := new dt cls_ring [(SGE g, 1)] (Some (torsion x)) tt in act a x.
Lemma gmul_act g x : wf c x -> torsion x <> 1 -> gmul g x = act (sing g (torsion x)) x.
Proof. intros Wx N. unfold gmul. rewrite (new_basis dt _ (torsion x)) by (auto; exact (proj1 Wx)). reflexivity. Qed.
Lemma gmul_ext g x t : wf c x -> torsion x = t -> t <> 1 -> extended1 dt c (gmul g) x = extended dt c act (sing g t) x.
Proof. intros Wx <- N. unfold extended1, extended. cbn [sing data dempty orb]. destruct (dempty (data x)); [reflexivity|]. now apply gmul_act. Qed.
Lemma zero_same (x y : elt K A) : torsion y = torsion x -> attr y = attr x -> same (zero dt c x) (zero dt c y).
Proof.
  intros Et Ea. rewrite !zero_data, Et, Ea. exists (mkElt [] (torsion x) (attr x)), (mkElt [] (torsion x) (attr x)). repeat split.
Qed.
Lemma gmul_assoc g h gh (x : elt K A) (r : res (elt K A)) : wf c x ->
  (~ is_zero x -> exists z, act (sing h (torsion x)) x = Ok z /\ wf c z /\ torsion z = torsion x) ->
  (~ is_zero x -> same r (let! bx := extended dt c act (sing h (torsion x)) x in extended dt c act (sing g (torsion x)) bx)) ->
  (~ is_zero x -> r = extended dt c act (sing gh (torsion x)) x) ->
  same (extended1 dt c (gmul gh) x) (let! y := extended1 dt c (gmul h) x in extended1 dt c (gmul g) y).
Proof.
  intros Wx Hz Hs Hr. destruct (dempty (data x)) eqn:E.
  - assert (Ez : forall q, extended1 dt c (gmul q) x = zero dt c x) by (intros q; unfold extended1; now rewrite E). rewrite !Ez. rewrite zero_data at 2. cbn [bind]. unfold extended1 at 1. cbn [data dempty].
    apply zero_same; reflexivity.
  - assert (Nx : ~ is_zero x) by (intros Z0; unfold is_zero in Z0; rewrite Z0 in E; discriminate). specialize (Hz Nx). specialize (Hs Nx). specialize (Hr Nx). pose proof (nz_tors c x Wx Nx) as N1.
    rewrite (gmul_ext gh x (torsion x)), (gmul_ext h x (torsion x)) by auto. rewrite <- Hr. destruct Hz as (z & Ez & Wz & Tz). assert (Ee : extended dt c act (sing h (torsion x)) x = Ok z) by (unfold extended; cbn [sing data dempty orb]; rewrite E; exact Ez). rewrite Ee in Hs |- *. cbn [bind] in *.
    rewrite (gmul_ext g z (torsion x)) by auto. exact Hs.
Qed.
Lemma gmul_unit n (x : elt K A) : wf c x -> (torsion x <> 1 -> same (let! e := identity_element dt n (Some (torsion x)) in extended dt c act e x) (Ok x)) ->
  same (extended1 dt c (gmul (zrange 1 (n + 1))) x) (Ok x).
Proof.
  intros Wx Hu. destruct (dempty (data x)) eqn:E.
  - unfold extended1. rewrite E. rewrite zero_data. exists (mkElt [] (torsion x) (attr x)), x. split; [reflexivity|]. split; [reflexivity|]. destruct x as [d t a]. cbn [data torsion attr] in *. destruct d; [|discriminate]. repeat split.
  - assert (Nx : ~ is_zero x) by (intros Z0; unfold is_zero in Z0; rewrite Z0 in E; discriminate). pose proof (nz_tors c x Wx Nx) as N1. specialize (Hu N1).
    rewrite (gmul_ext _ x (torsion x)) by auto. unfold identity_element in Hu. rewrite (new_basis dt _ (torsion x)) in Hu by (auto; exact (proj1 Wx)). exact Hu.
Qed.
End Gen.
Lemma ring_mul_sing dt n g h t : 1 <= n -> dt_ok dt t -> 0 <= t -> t <> 1 -> perm n g -> perm n h -> ring_mul dt (sing g t) (sing h t) = Ok (mkElt [(Tup (pmul g h), 1)] t tt).
Proof.
  intros Hn Hdt Ht N Hg Hh. unfold ring_mul. cbn [sing torsion data]. rewrite Z.eqb_refl. cbn [negb]. rewrite zero_data. cbn [bind data list_prod map app for_ kval SGE].
  rewrite (gets_pmul n) by (auto; intros i Hi; apply (perm_in n h i) in Hi; auto; lia). cbn [bind dset dget fst snd]. unfold pref. cbn.
  unfold reduce, strip. destruct (Z.eqb_spec t 0); cbn [map filter fst snd]; [reflexivity|]. rewrite Z.mod_small by lia. reflexivity.
Qed.

Lemma ring_arity_sing n g t : 1 <= n -> perm n g -> ring_arity (sing g t) = Ok (Some n).
Proof. intros Hn Hg. unfold ring_arity, sing. cbn [data dempty dkeys map mapM fst]. change (kval (SGE g)) with g. rewrite (perm_max n g) by auto. reflexivity. Qed.
Lemma pref1 t (k : skey) : 0 <= t -> t <> 1 -> pref cls_ring t [(k, 1)] = Ok [(k, 1)].
Proof. intros Ht N. unfold pref. cbn. unfold reduce, strip. destruct (Z.eqb_spec t 0); cbn [map filter fst snd Z.eqb negb]; [reflexivity|]. rewrite Z.mod_small by lia. reflexivity. Qed.
Lemma create_sing dt t g : 0 <= t -> t <> 1 -> dt_ok dt t -> create dt cls_ring (mkElt [(Tup g, 1)] t tt : ring) [(Tup g, 1)] = Ok (sing g t).
Proof.
  intros Ht N (D0 & D). assert (Nd : dt <> 1).
  { intros ->. destruct D as [D|[D1 D2]]; [lia|]. apply Z.divide_1_r_nonneg in D2; lia. }
  unfold create. change (convert cls_ring [(Tup g, 1)]) with [(SGE g, 1)]. rewrite pref1 by auto. cbn [bind torsion]. rewrite pref1 by auto. reflexivity.
Qed.
Lemma bind_same {X Y} (r : res X) (f f' : X -> res Y) : (forall a, f a = f' a) -> bind r f = bind r f'.
Proof. intros E. destruct r; [apply E|reflexivity]. Qed.
Lemma for_tup {X St} (d : list (X * Z)) p (s : St) (body body' : St -> (X * Z) * (skey * Z) -> res St) : (forall a k v, body a ((k, v), (Tup p, 1)) = body' a ((k, v), (SGE p, 1))) ->
  for_ (list_prod d [(Tup p, 1)]) s body = for_ (list_prod d [(SGE p, 1)]) s body'.
Proof.
  intros E. revert s. induction d as [|[k v] d IH]; intros s; [reflexivity|]. cbn [list_prod map app for_]. rewrite E. apply bind_same. intros s'. apply IH.
Qed.
Lemma simp_act_tup dt p t (x : simp) : simp_act dt (mkElt [(Tup p, 1)] t tt) x = simp_act dt (sing p t) x.
Proof.
  unfold simp_act, sing. cbn [torsion data]. change (ring_arity (mkElt [(Tup p, 1)] t tt)) with (ring_arity (mkElt [(SGE p, 1)] t tt)).
  repeat (match goal with |- bind _ ?f = bind _ ?f' => apply bind_same; intros ? | |- (if ?b then _ else _) = _ => destruct b; [reflexivity|] end). apply for_tup. intros ? k v. reflexivity.
Qed.
Lemma cub_act_tup dt p t (x : cubc) : cub_act dt (mkElt [(Tup p, 1)] t tt) x = cub_act dt (sing p t) x.
Proof.
  unfold cub_act, sing. cbn [torsion data]. change (ring_arity (mkElt [(Tup p, 1)] t tt)) with (ring_arity (mkElt [(SGE p, 1)] t tt)).
  repeat (match goal with |- bind _ ?f = bind _ ?f' => apply bind_same; intros ? | |- (if ?b then _ else _) = _ => destruct b; [reflexivity|] end). apply for_tup. intros ? k v. reflexivity.
Qed.
Lemma surj_act_tup dt p t (x : surj) : surj_act dt (mkElt [(Tup p, 1)] t tt) x = surj_act dt (sing p t) x.
Proof.
  unfold surj_act, sing. cbn [torsion data]. change (ring_arity (mkElt [(Tup p, 1)] t tt)) with (ring_arity (mkElt [(SGE p, 1)] t tt)).
  repeat (match goal with |- bind _ ?f = bind _ ?f' => apply bind_same; intros ? | |- (if ?b then _ else _) = _ => destruct b; [reflexivity|] end). apply for_tup. intros ? k v. reflexivity.
Qed.
(** #C73_simplicial# A permutation times a simplicial element permutes the factors with the Koszul sign; it is a left action, and raises [TypeError] on zero. *)
Lemma C73_simplicial_l (dt n : Z) (g h : list Z) (x : simp) :
  1 <= n -> perm n g -> perm n h -> wf cls_simplicial x -> dt_ok dt (torsion x) -> keys_in (fun k => zlen k = n) x ->
  (~ is_zero x -> gives cls_simplicial (group_mul_simp dt g x) (torsion x) tt (extend (fun k => koszul spx_dim g k) x)) /\
  (exists gh, sg_mul g h = Ok gh /\ same (extended1 dt cls_simplicial (group_mul_simp dt gh) x) (let! y := extended1 dt cls_simplicial (group_mul_simp dt h) x in extended1 dt cls_simplicial (group_mul_simp dt g) y)) /\
  same (extended1 dt cls_simplicial (group_mul_simp dt (zrange 1 (n + 1))) x) (Ok x) /\
  (is_zero x -> torsion x <> 1 -> group_mul_simp dt g x = Err TypeError).
Proof.
  intros Hn Hg Hh Wx Hdt Kx. pose proof (proj1 Wx) as Ht. change (group_mul_simp dt) with (gmul dt (simp_act dt)).
  assert (F : forall q, perm n q -> ~ is_zero x -> gives cls_simplicial (simp_act dt (sing q (torsion x)) x) (torsion x) tt (extend2 (fun p k => koszul spx_dim (kval p) k) (sing q (torsion x)) x)).
  { intros q Hq Nx. pose proof (nz_tors cls_simplicial x Wx Nx) as N1. apply (C22_action_formula_l dt n); auto using sing_keys, sing_nz. now apply wf_basis. }
  split; [|split; [|split]].
  - intros Nx. pose proof (nz_tors cls_simplicial x Wx Nx) as N1. rewrite (gmul_act cls_simplicial) by auto. pose proof (F g Hg Nx) as Fg. rewrite extend2_sing in Fg. exact Fg.
  - exists (pmul g h). split; [now apply (sg_mul_ok n)|].
    apply (gmul_assoc cls_simplicial dt (simp_act dt) g h (pmul g h) x (let! ab := ring_mul dt (sing g (torsion x)) (sing h (torsion x)) in extended dt cls_simplicial (simp_act dt) ab x) Wx).
    + intros Nx. destruct (F h Hh Nx) as (z & E1 & E2 & E3 & _). exists z. auto.
    + intros Nx. pose proof (nz_tors cls_simplicial x Wx Nx) as N1. apply (C22_left_action_l dt n); auto using sing_keys; now apply wf_basis.
    + intros Nx. pose proof (nz_tors cls_simplicial x Wx Nx) as N1. rewrite (ring_mul_sing dt n) by auto. cbn [bind]. unfold extended. cbn [sing data dempty orb]. now rewrite simp_act_tup.
  - apply (gmul_unit cls_simplicial); auto. intros N1. apply C22_unit_l; auto.
  - intros Z0 N1. rewrite (gmul_act cls_simplicial) by auto. unfold simp_act. cbn [sing torsion]. rewrite Z.eqb_refl. cbn [negb]. rewrite (ring_arity_sing n) by auto. cbn [bind]. unfold simp_arity, tensor_arity, is_zero in *. unfold simp, skey2 in *. rewrite Z0. reflexivity.
Qed.

(** #C73_cubical# The same for cubical elements. *)
Lemma C73_cubical_l (dt n : Z) (g h : list Z) (x : cubc) :
  1 <= n -> perm n g -> perm n h -> wf cls_cubical x -> dt_ok dt (torsion x) -> keys_in (fun k => zlen k = n) x ->
  (~ is_zero x -> gives cls_cubical (group_mul_cub dt g x) (torsion x) tt (extend (fun k => koszul dim g k) x)) /\
  (exists gh, sg_mul g h = Ok gh /\ same (extended1 dt cls_cubical (group_mul_cub dt gh) x) (let! y := extended1 dt cls_cubical (group_mul_cub dt h) x in extended1 dt cls_cubical (group_mul_cub dt g) y)) /\
  same (extended1 dt cls_cubical (group_mul_cub dt (zrange 1 (n + 1))) x) (Ok x) /\
  (is_zero x -> torsion x <> 1 -> group_mul_cub dt g x = Err TypeError).
Proof.
  intros Hn Hg Hh Wx Hdt Kx. pose proof (proj1 Wx) as Ht. change (group_mul_cub dt) with (gmul dt (cub_act dt)).
  assert (F : forall q, perm n q -> ~ is_zero x -> gives cls_cubical (cub_act dt (sing q (torsion x)) x) (torsion x) tt (extend2 (fun p k => koszul dim (kval p) k) (sing q (torsion x)) x)).
  { intros q Hq Nx. pose proof (nz_tors cls_cubical x Wx Nx) as N1. apply (C28_action_formula_l dt n); auto using sing_keys, sing_nz. now apply wf_basis. }
  split; [|split; [|split]].
  - intros Nx. pose proof (nz_tors cls_cubical x Wx Nx) as N1. rewrite (gmul_act cls_cubical) by auto. pose proof (F g Hg Nx) as Fg. rewrite extend2_sing in Fg. exact Fg.
  - exists (pmul g h). split; [now apply (sg_mul_ok n)|].
    apply (gmul_assoc cls_cubical dt (cub_act dt) g h (pmul g h) x (let! ab := ring_mul dt (sing g (torsion x)) (sing h (torsion x)) in extended dt cls_cubical (cub_act dt) ab x) Wx).
    + intros Nx. destruct (F h Hh Nx) as (z & E1 & E2 & E3 & _). exists z. auto.
    + intros Nx. pose proof (nz_tors cls_cubical x Wx Nx) as N1. apply (C28_left_action_l dt n); auto using sing_keys; now apply wf_basis.
    + intros Nx. pose proof (nz_tors cls_cubical x Wx Nx) as N1. rewrite (ring_mul_sing dt n) by auto. cbn [bind]. unfold extended. cbn [sing data dempty orb]. now rewrite cub_act_tup.
  - apply (gmul_unit cls_cubical); auto. intros N1. apply C28_unit_l; auto.
  - intros Z0 N1. rewrite (gmul_act cls_cubical) by auto. unfold cub_act. cbn [sing torsion]. rewrite Z.eqb_refl. cbn [negb]. rewrite (ring_arity_sing n) by auto. cbn [bind]. unfold cub_arity, tensor_arity, is_zero in *. unfold cubc, ckey2 in *. rewrite Z0. reflexivity.
Qed.

(** #C73_be# The same for Barratt-Eccles elements. *)
Lemma C73_be_l (dt n : Z) (g h : list Z) (x : bee) :
  1 <= n -> perm n g -> perm n h -> wf cls_be x -> dt_ok dt (torsion x) -> keys_in (be_simplex n) x ->
  (~ is_zero x -> gives cls_be (group_mul_be dt g x) (torsion x) tt (extend (fun k => [(be_move g k, 1)]) x)) /\
  (exists gh, sg_mul g h = Ok gh /\ same (extended1 dt cls_be (group_mul_be dt gh) x) (let! y := extended1 dt cls_be (group_mul_be dt h) x in extended1 dt cls_be (group_mul_be dt g) y)) /\
  same (extended1 dt cls_be (group_mul_be dt (zrange 1 (n + 1))) x) (Ok x) /\
  (is_zero x -> torsion x <> 1 -> group_mul_be dt g x = Err TypeError).
Proof.
  intros Hn Hg Hh Wx Hdt Kx. pose proof (proj1 Wx) as Ht. change (group_mul_be dt) with (gmul dt (be_act dt)).
  assert (F : forall q, perm n q -> ~ is_zero x -> gives cls_be (be_act dt (sing q (torsion x)) x) (torsion x) tt (extend2 (fun p k => [(be_move (kval p) k, 1)]) (sing q (torsion x)) x)).
  { intros q Hq Nx. pose proof (nz_tors cls_be x Wx Nx) as N1. apply (C35_action_formula_l dt n); auto using sing_keys', sing_nz. now apply wf_basis. }
  split; [|split; [|split]].
  - intros Nx. pose proof (nz_tors cls_be x Wx Nx) as N1. rewrite (gmul_act cls_be) by auto. pose proof (F g Hg Nx) as Fg. rewrite extend2_sing in Fg. exact Fg.
  - exists (pmul g h). split; [now apply (sg_mul_ok n)|].
    apply (gmul_assoc cls_be dt (be_act dt) g h (pmul g h) x (let! p := ring_mul dt (sing g (torsion x)) (sing h (torsion x)) in let! ab := create dt cls_ring p (data p) in extended dt cls_be (be_act dt) ab x) Wx).
    + intros Nx. destruct (F h Hh Nx) as (z & E1 & E2 & E3 & _). exists z. auto.
    + intros Nx. pose proof (nz_tors cls_be x Wx Nx) as N1. apply (C35_left_action_l dt n); auto using sing_keys'; now apply wf_basis.
    + intros Nx. pose proof (nz_tors cls_be x Wx Nx) as N1. rewrite (ring_mul_sing dt n) by auto. cbn [bind]. rewrite create_sing by auto. reflexivity.
  - apply (gmul_unit cls_be); auto. intros N1. apply C35_unit_l; auto.
  - intros Z0 N1. rewrite (gmul_act cls_be) by auto. unfold be_act. cbn [sing torsion]. rewrite Z.eqb_refl. cbn [negb]. unfold be_arity at 1. unfold is_zero in Z0. unfold bee, bkey in *. rewrite Z0. cbn [dempty bind]. rewrite (ring_arity_sing n) by auto. reflexivity.
Qed.

(** #C73_surjection# The same for surjection elements, in both conventions. *)
Lemma C73_surjection_l (dt n : Z) (g h : list Z) (x : surj) :
  1 <= n -> perm n g -> perm n h -> wf cls_surj x -> dt_ok dt (torsion x) -> attr x = BF \/ attr x = MS -> keys_in (onto n) x ->
  (~ is_zero x -> gives cls_surj (group_mul_surj dt g x) (torsion x) (attr x) (extend (fun k => surj_move (attr x) g k) x)) /\
  (exists gh, sg_mul g h = Ok gh /\ same (extended1 dt cls_surj (group_mul_surj dt gh) x) (let! y := extended1 dt cls_surj (group_mul_surj dt h) x in extended1 dt cls_surj (group_mul_surj dt g) y)) /\
  same (extended1 dt cls_surj (group_mul_surj dt (zrange 1 (n + 1))) x) (Ok x) /\
  (is_zero x -> torsion x <> 1 -> group_mul_surj dt g x = Err TypeError).
Proof.
  intros Hn Hg Hh Wx Hdt Hcv Kx. pose proof (proj1 Wx) as Ht. change (group_mul_surj dt) with (gmul dt (surj_act dt)).
  assert (F : forall q, perm n q -> ~ is_zero x -> gives cls_surj (surj_act dt (sing q (torsion x)) x) (torsion x) (attr x) (extend2 (fun p k => surj_move (attr x) (kval p) k) (sing q (torsion x)) x)).
  { intros q Hq Nx. pose proof (nz_tors cls_surj x Wx Nx) as N1. apply (C46_action_formula_l dt n); auto using sing_keys, sing_nz. now apply wf_basis. }
  split; [|split; [|split]].
  - intros Nx. pose proof (nz_tors cls_surj x Wx Nx) as N1. rewrite (gmul_act cls_surj) by auto. pose proof (F g Hg Nx) as Fg. rewrite extend2_sing in Fg. exact Fg.
  - exists (pmul g h). split; [now apply (sg_mul_ok n)|].
    apply (gmul_assoc cls_surj dt (surj_act dt) g h (pmul g h) x (let! ab := ring_mul dt (sing g (torsion x)) (sing h (torsion x)) in extended dt cls_surj (surj_act dt) ab x) Wx).
    + intros Nx. destruct (F h Hh Nx) as (z & E1 & E2 & E3 & _). exists z. auto.
    + intros Nx. pose proof (nz_tors cls_surj x Wx Nx) as N1. apply (C46_left_action_l dt n); auto using sing_keys; now apply wf_basis.
    + intros Nx. pose proof (nz_tors cls_surj x Wx Nx) as N1. rewrite (ring_mul_sing dt n) by auto. cbn [bind]. unfold extended. cbn [sing data dempty orb]. now rewrite surj_act_tup.
  - apply (gmul_unit cls_surj); auto. intros N1. apply C46_unit_l; auto.
  - intros Z0 N1. rewrite (gmul_act cls_surj) by auto. unfold surj_act. cbn [sing torsion]. rewrite Z.eqb_refl. cbn [negb]. unfold surj_arity at 1. unfold is_zero in Z0. rewrite Z0. cbn [dempty bind]. rewrite (ring_arity_sing n) by auto. reflexivity.
Qed.

(** #C73_example# *)
Example C73_example_l :
  perm 3 [2; 3; 1] /\ onto 3 [1; 2; 1; 3] /\ wf cls_surj (mkElt [([1; 2; 1; 3], 2)] 0 MS) /\
  group_mul_surj 0 [2; 3; 1] (mkElt [([1; 2; 1; 3], 2)] 0 MS) = Ok (mkElt [([2; 3; 2; 1], 2)] 0 MS) /\
  group_mul_simp 0 [2; 1] (mkElt [([[0; 1]; [1; 2]], 1)] 3 tt) = Ok (mkElt [([[1; 2]; [0; 1]], 2)] 3 tt) /\
  group_mul_be 0 [2; 1] (mkElt [([[1; 2]; [2; 1]], 1)] 0 tt) = Ok (mkElt [([[2; 1]; [1; 2]], 1)] 0 tt) /\
  group_mul_cub 0 [2; 1] (mkElt [] 0 tt) = Err TypeError.
Proof.
  split; [permtac|]. split; [ontotac|]. split; [apply wfb_wf; reflexivity|]. repeat split.
Qed.
