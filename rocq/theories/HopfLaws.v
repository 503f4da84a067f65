(** * The Hopf structure of the Barratt-Eccles operad. *)
From Coq Require Import Setoid Morphisms.
From Verif Require Import PyBase Dict FreeModule Symmetric Simplicial Utils Surjection BarrattEccles GroupMul Eqm Spec SpecOperad SpecHopf FreeModuleFacts FreeModuleLaws ListFacts
  ClassFacts LinearFacts BilFacts SymmetricFacts CycleFacts SymmetricLaws RingFacts TensorAct LoopFacts AW ActGeneric BEFacts BEDiag EZ BECompose BELaws4 GroupLaws HopfFacts.

Lemma tc_ev i a1 a2 b1 b2 g : ev g (tensor_compose i [a1; a2] [b1; b2]) =
  sgn ((zlen a2 - 1) * (zlen b1 - 1)) * EE (gc i) (fun u => EE (gc i) (fun v => g [u; v]) a2 b2) a1 b1.
Proof.
  cbn [tensor_compose]. unfold ev at 1. rewrite sumf_flat_map. unfold EE, ev. rewrite <- sumf_scal. apply sumf_ext. intros [w1 s1] _. cbn [fst snd].
  rewrite sumf_map, <- sumf_scal, <- sumf_scal. apply sumf_ext. intros [w2 s2] _. cbn [fst snd]. rewrite <- !Z.mul_assoc. reflexivity.
Qed.
Lemma bbad_false k : bbad k = false <-> k <> [] /\ ~ repeats k.
Proof.
  destruct k as [|v k]; [cbn; split; [discriminate|now intros [? _]]|]. cbn [bbad]. rewrite <- bdup_repeats. destruct (bdup (v :: k)); split.
  - discriminate.
  - intros [_ N]. now elim N.
  - intros _. split; [discriminate|congruence].
  - reflexivity.
Qed.
Lemma wf_be_nd (x : bee) k v : wf cls_be x -> In (k, v) (data x) -> k <> [] /\ ~ repeats k.
Proof. intros Wx Hin. apply bbad_false. apply (proj2 (proj2 Wx)) in Hin. destruct Hin as [_ Hb]. rewrite be_bad in Hb. now injection Hb. Qed.
Lemma den_of {K A} `{KO : KeyOk K} (c : pycls K) t (a : A) F (r : res (elt K A)) z : returns r (den c t a F) -> r = Ok z -> den c t a F z.
Proof. intros (z' & E & D) E'. rewrite E in E'. injection E' as ->. exact D. Qed.

(** #C93_compose# The diagonal is a map of operads: the diagonal of a composite
    is the composite of the diagonals, factor by factor with the sign of the
    exchange of the two factors in the middle. *)
Lemma C93_compose_l (dt n1 n2 p q i : Z) (x y z : bee) (dx dy : elt (list bkey) unit) :
  1 <= n1 -> 1 <= n2 -> 1 <= i <= n1 -> wf cls_be x -> wf cls_be y -> torsion y = torsion x -> dt_ok dt (torsion x) ->
  keys_in (be_cell n1 p) x -> keys_in (be_cell n2 q) y -> ~ is_zero x -> ~ is_zero y ->
  be_compose dt x y i = Ok z -> be_diagonal dt x 1 = Ok dx -> be_diagonal dt y 1 = Ok dy ->
  gives (cls_free (list bkey)) (be_diagonal dt z 1) (torsion x) tt (extend2 (tensor_compose i) dx dy).
Proof.
  intros Hn1 Hn2 Hi Wx Wy Ty Hdt Kx Ky Nx Ny Ez Ex Ey. pose proof (proj1 Wx) as Ht.
  pose proof (den_of _ _ _ _ _ _ (compose_den dt (torsion x) n1 n2 p q i x y Ht Hdt Hn1 Hn2 Hi Wx eq_refl Kx Wy Ty Ky Nx Ny) Ez) as Dz.
  pose proof (den_wf _ _ _ _ _ Ht Dz) as Wz. assert (Tz : torsion z = torsion x) by exact (proj1 Dz).
  pose proof (den_of _ _ _ _ _ _ (diagonal_den dt 1 (torsion x) x Ht Hdt Wx eq_refl) Ex) as Dx.
  assert (Hdty : dt_ok dt (torsion y)) by now rewrite Ty.
  pose proof (den_of _ _ _ _ _ _ (diagonal_den dt 1 (torsion x) y Ht Hdt Wy Ty) Ey) as Dy.
  eapply (den_gives _ (ok_free (list bkey))); [exact Ht|apply (diagonal_den dt 1 (torsion x)); auto|]. intros g Hg. cbn beta.
  change (Z.to_nat 1) with 1%nat in *. rewrite ev_extend2.
  (* the right side *)
  rewrite (den_ev _ _ _ _ _ _ Dx (adm_free _)).
  transitivity (ev (fun k1 => ev (fun k2 => AW.S 1 (fun m1 => AW.S 1 (fun m2 => ev g (tensor_compose i m1 m2)) k2) k1) (data y)) (data x)).
  2:{ apply ev_eqm. intros k1 v1 _. rewrite S_sum. rewrite (ev_ext_all _ (fun k2 => sumf (fun m1 => AW.S 1 (fun m2 => ev g (tensor_compose i m1 m2)) k2) (front_back 1 k1))) by (intros; apply S_sum).
      transitivity (sumf (fun m1 => ev (fun k2 => AW.S 1 (fun m2 => ev g (tensor_compose i m1 m2)) k2) (data y)) (front_back 1 k1)).
      - apply eqm_eq. unfold ev at 1. unfold ev at 2. rewrite (sumf_exch (fun (m1 : list bkey) (p0 : bkey * Z) => snd p0 * AW.S 1 (fun m2 => ev g (tensor_compose i m1 m2)) (fst p0))). apply sumf_ext. intros [k2 v2] _. cbn [fst snd]. symmetry. apply sumf_scal.
      - apply sumf_eqm. intros m1 _. symmetry. exact (den_ev _ _ _ _ _ _ Dy (adm_free _)). }
  (* the left side *)
  set (G := fun k : bkey => if bbad k then 0 else AW.S 1 g k).
  assert (AG : adm cls_be G).
  { split; [intros k k' E; apply keqb_eq in E; now subst|]. intros k Hb. rewrite be_bad in Hb. injection Hb as Hb. unfold G. now rewrite Hb. }
  transitivity (ev G (data z)).
  { apply eqm_eq, ev_ext. intros k v Hin. unfold G. destruct (wf_be_nd z k v Wz Hin) as [N1 N2]. now rewrite (proj2 (bbad_false k)). }
  rewrite (den_ev _ _ _ _ _ _ Dz AG). apply ev_eqm. intros k1 v1 H1. apply ev_eqm. intros k2 v2 H2. apply eqm_eq.
  destruct (wf_be_nd x k1 v1 Wx H1) as [_ R1]. destruct (wf_be_nd y k2 v2 Wy H2) as [_ R2]. apply Kx in H1. apply Ky in H2. destruct H1 as [S1 _]. destruct H2 as [S2 _].
  unfold Pcomp. rewrite (EE_in (gc i) G (aw (fun f b => g [f; b]))).
  - rewrite EE_aw. unfold RR. cbn [AW.S]. apply aw_ext. intros l1 a l2 _. apply aw_ext. intros m1 b m2 _. rewrite tc_ev. unfold QQ. f_equal. f_equal. ring.
  - intros w s Hin. unfold G. rewrite (proj2 (bbad_false w)); [reflexivity|]. split; [now apply grid_ne in Hin|].
    revert Hin. apply grid_norep; auto.
    + intros a a' b Ha Ha' Hb. apply (gc_inj_l n2); auto.
    + intros a b b' Ha Hb Hb' E. apply (gc_inj_r i b b') in E; auto.
      * apply S2 in Hb, Hb'. pose proof (perm_len n2 b ltac:(lia) Hb) as L1. pose proof (perm_len n2 b' ltac:(lia) Hb') as L2. unfold zlen in *. lia.
      * apply (perm_in n1); auto.
Qed.

(** #C93_chain_map# The diagonal commutes with the boundary, in the tensor power
    of the normalised chains (a product with a degenerate factor is zero). *)
Lemma C93_chain_map_l (dt r : Z) (x bx : bee) (dx dbx : elt (list bkey) unit) :
  wf cls_be x -> dt_ok dt (torsion x) -> be_boundary dt x = Ok bx -> be_diagonal dt x r = Ok dx -> be_diagonal dt bx r = Ok dbx ->
  forall m, be_nondegenerate m -> (torsion x | coef (extend be_tensor_faces dx) m - dget (data dbx) m).
Proof.
  intros Wx Hdt Eb Ex Ebx m Hm. pose proof (proj1 Wx) as Ht.
  pose proof (den_of _ _ _ _ _ _ (be_boundary_den dt (torsion x) x Ht Hdt Wx eq_refl) Eb) as Db.
  pose proof (den_wf _ _ _ _ _ Ht Db) as Wb. assert (Tb : torsion bx = torsion x) by exact (proj1 Db).
  pose proof (den_of _ _ _ _ _ _ (diagonal_den dt r (torsion x) x Ht Hdt Wx eq_refl) Ex) as Dx.
  pose proof (den_of _ _ _ _ _ _ (diagonal_den dt r (torsion x) bx Ht Hdt Wb Tb) Ebx) as Dbx.
  change (eqm (torsion x) (coef (extend be_tensor_faces dx) m) (dget (data dbx) m)).
  rewrite coef_ev, ev_extend, <- dget_ind by apply (proj1 (proj2 (proj2 Dbx))).
  rewrite (ev_ext_all _ (tB (ind m))) by (intros; apply tB_ev). rewrite (den_ev _ _ _ _ _ _ Dx (adm_free _)), (den_ev _ _ _ _ _ _ Dbx (adm_free _)).
  assert (HI : forall u k, In k u -> k = [] \/ repeats k -> ind m u = 0).
  { intros u k Hk Hd. unfold ind. destruct (keqb u m) eqn:E; [|reflexivity]. apply keqb_eq in E. subst u. apply Hm in Hk. destruct Hd; tauto. }
  rewrite (den_ev _ _ _ _ _ _ Db).
  - apply eqm_eq, ev_ext_all. intros k. apply S_chainB. intros u Hu. apply (HI u []); auto.
  - split; [intros k k' E; apply keqb_eq in E; now subst|]. intros k Hb. rewrite be_bad in Hb. injection Hb as Hb. now apply S_bbad.
Qed.

(** #C93_equivariant# The diagonal commutes with the action of the symmetric
    group: it acts on all the factors at once. *)
Lemma C93_equivariant_l (dt n r : Z) (p : list Z) (x y : bee) (dx : elt (list bkey) unit) :
  1 <= n -> perm n p -> wf cls_be x -> dt_ok dt (torsion x) -> keys_in (be_simplex n) x -> ~ is_zero x ->
  group_mul_be dt p x = Ok y -> be_diagonal dt x r = Ok dx ->
  gives (cls_free (list bkey)) (be_diagonal dt y r) (torsion x) tt (extend (fun m => [(map (be_move p) m, 1)]) dx).
Proof.
  intros Hn Hp Wx Hdt Kx Nx Ey Ex. pose proof (proj1 Wx) as Ht. pose proof (nz_tors cls_be x Wx Nx) as N1.
  assert (Dy : den cls_be (torsion x) tt (fun g => ev (fun k1 => g (be_move p k1)) (data x)) y).
  { change (group_mul_be dt p x) with (gmul dt (be_act dt) p x) in Ey. rewrite (gmul_act cls_be) in Ey by auto.
    rewrite be_act_bact in Ey by (intros k v [[= <- <-]|[]]; reflexivity).
    pose proof (den_of cls_be _ _ _ _ _ (bact_den dt n (torsion x) (GroupLaws.sing p (torsion x)) x Hn Ht Hdt ltac:(now apply wf_basis) Wx eq_refl eq_refl (sing_keys n p _ Hp) Kx (or_introl (conj (sing_nz p (torsion x)) Nx))) Ey) as D.
    eapply den_ext; [|exact D]. intros g _. apply eqm_eq. unfold GroupLaws.sing. cbn [data]. rewrite ev_cons, ev_nil. unfold PactB. cbn [kval]. rewrite Z.mul_1_l, Z.add_0_r. reflexivity. }
  pose proof (den_wf _ _ _ _ _ Ht Dy) as Wy. assert (Ty : torsion y = torsion x) by exact (proj1 Dy).
  pose proof (den_of _ _ _ _ _ _ (diagonal_den dt r (torsion x) x Ht Hdt Wx eq_refl) Ex) as Dx.
  eapply (den_gives _ (ok_free (list bkey))); [exact Ht|apply (diagonal_den dt r (torsion x)); auto|]. intros g Hg. cbn beta.
  set (G := fun k : bkey => if bbad k then 0 else AW.S (Z.to_nat r) g k).
  assert (AG : adm cls_be G).
  { split; [intros k k' E; apply keqb_eq in E; now subst|]. intros k Hb. rewrite be_bad in Hb. injection Hb as Hb. unfold G. now rewrite Hb. }
  transitivity (ev G (data y)).
  { apply eqm_eq, ev_ext. intros k v Hin. unfold G. destruct (wf_be_nd y k v Wy Hin) as [M1 M2]. now rewrite (proj2 (bbad_false k)). }
  rewrite (den_ev _ _ _ _ _ _ Dy AG), ev_extend, (den_ev _ _ _ _ _ _ Dx (adm_free _)). apply eqm_eq, ev_ext. intros k v Hin.
  destruct (wf_be_nd x k v Wx Hin) as [M1 M2]. apply Kx in Hin. unfold G.
  assert (E : bbad (be_move p k) = false).
  { rewrite <- (proj2 (bbad_false k) (conj M1 M2)). destruct k as [|v0 k]; [reflexivity|]. exact (bdup_map n p (v0 :: k) ltac:(lia) Hp Hin). }
  rewrite E. unfold be_move. rewrite S_map. apply S_ext. intros u. rewrite ev_cons, ev_nil. rewrite Z.mul_1_l, Z.add_0_r. reflexivity.
Qed.

(** #C93_counit# The augmentation is a counit: it removes either factor. *)
Lemma C93_counit_l (dt : Z) (x : bee) (dx : elt (list bkey) unit) :
  wf cls_be x -> dt_ok dt (torsion x) -> be_diagonal dt x 1 = Ok dx ->
  represents cls_be x (extend augment_first dx) /\ represents cls_be x (extend augment_second dx).
Proof.
  intros Wx Hdt Ex. pose proof (proj1 Wx) as Ht. pose proof (den_of _ _ _ _ _ _ (diagonal_den dt 1 (torsion x) x Ht Hdt Wx eq_refl) Ex) as Dx.
  change (Z.to_nat 1) with 1%nat in Dx.
  split; intros k _; match goal with |- (?t | ?a - ?b) => change (eqm t a b) end; symmetry; rewrite coef_ev, ev_extend, <- dget_ind by apply (proj2 Wx);
    rewrite (den_ev _ _ _ _ _ _ Dx (adm_free _)); apply eqm_eq, ev_ext; intros s v Hin; destruct (wf_be_nd x s v Wx Hin) as [M1 _]; cbn [AW.S]; clear -M1.
  - destruct s as [|a s]; [congruence|]. rewrite aw_cons. cbn [augment_first]. rewrite ev_cons, ev_nil, Z.mul_1_l, Z.add_0_r.
    rewrite (aw_ext _ (fun _ _ => 0)), aw_0; [ring|]. intros l1 b l2 _. destruct l1; reflexivity.
  - generalize (ind k). intros g. revert g. induction s as [|a s IH]; intros g; [congruence|]. rewrite aw_cons. destruct s as [|b s].
    + rewrite aw_nil. cbn [augment_second]. rewrite ev_cons, ev_nil. ring.
    + specialize (IH ltac:(discriminate) (fun w => g (a :: w))). rewrite <- IH.
      cbn [augment_second]. rewrite ev_nil, Z.add_0_l. apply aw_ext. intros l1 c l2 _. cbn [augment_second]. destruct l2; [|reflexivity]. rewrite !ev_cons, !ev_nil. reflexivity.
Qed.

(** #C93_example# The hypotheses hold for a composite of two elements of degree
    1 and the diagonal of the composite has 6 terms, 3 of them negative. *)
Example C93_example_l : let x := mkElt [([[1; 2]; [2; 1]], 1)] 0 tt : bee in
  wf cls_be x /\ keys_in (be_cell 2 1) x /\ dt_ok 0 (torsion x) /\
  (exists z dx, be_compose 0 x x 1 = Ok z /\ be_diagonal 0 x 1 = Ok dx /\
    exists dz, be_diagonal 0 z 1 = Ok dz /\ length (data dz) = 6%nat /\ length (filter (fun p => 0 <? snd p) (data dz)) = 3%nat) /\
  (exists bx, be_boundary 0 x = Ok bx /\ length (data bx) = 2%nat).
Proof.
  intros x. split; [apply wfb_wf; reflexivity|]. split; [intros k v [[= <- <-]|[]]; split; [intros p [<- | [<- | []]]; [apply Permutation_refl|apply perm_swap]|reflexivity]|].
  split; [split; [cbn; lia|now left]|]. split.
  - do 2 eexists. split; [vm_compute; reflexivity|]. split; [vm_compute; reflexivity|]. eexists. split; [vm_compute; reflexivity|]. split; reflexivity.
  - eexists. split; [vm_compute; reflexivity|reflexivity].
Qed.
