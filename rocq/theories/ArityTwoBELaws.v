(** * Arity two in the Barratt-Eccles operad: the stages of the complexity filtration are spheres (C97) *)
From Coq Require Import Setoid Morphisms.
From Verif Require Import PyBase Dict FreeModule Symmetric Simplicial Cubical Utils Surjection BarrattEccles Eqm Spec SpecChain SpecOperad SpecSurj SpecCup FreeModuleFacts FreeModuleLaws ListFacts
  ClassFacts LinearFacts BilFacts SymmetricFacts CycleFacts SymmetricLaws RingFacts Tensor TensorAct KoszulFacts LoopFacts MayFacts BEFacts BELaws BELaws2 BELaws3 CupI CongFacts AcyclicFacts AcyclicLaws ArityTwo ArityTwoLaws ArityTwoBE.

(** #C97_simplices# The basis elements of arity 2 and degree [d] are the two alternating simplices with d + 1 vertices. *)
Lemma C97_simplices_l (d : Z) (k : list (list Z)) : 0 <= d ->
  (be_cell 2 d k /\ ~ repeats k) <-> (k = alt_simplex 1 (Z.to_nat (d + 1)) \/ k = alt_simplex 2 (Z.to_nat (d + 1))).
Proof.
  intros Hd. replace (Z.to_nat (d + 1)) with (Z.to_nat d + 1)%nat by lia. split.
  - intros [Hk Nr]. apply cell2_als; [exact Hd|exact Hk|]. destruct (bdup k) eqn:A; [|reflexivity]. now apply bdup_repeats in A.
  - intros H. assert (Ha : exists a, (a = 1 \/ a = 2) /\ k = als a (Z.to_nat d + 1)) by (destruct H as [-> | ->]; eauto). destruct Ha as (a & Ha & ->).
    split; [|rewrite <- bdup_repeats, als_dup by exact Ha; discriminate]. pose proof (als_cell a (Z.to_nat d)) as C. now rewrite Z2Nat.id in C by lia.
Qed.
Lemma cell_sim2 d (x : bee) : keys_in (be_cell 2 d) x -> keys_in (be_simplex 2) x.
Proof. intros K k v Hin. exact (proj1 (K _ _ Hin)). Qed.
(** #C97_be_complexity# A nonzero element of arity 2 and degree [d] has complexity [d]. *)
Lemma C97_be_complexity_l (d : Z) (x : bee) : 0 <= d -> wf cls_be x -> keys_in (be_cell 2 d) x -> ~ is_zero x -> be_complexity x = Ok d.
Proof.
  intros Hd Wx Kx Nx. destruct (C43_value_l 2 x ltac:(lia) Wx (cell_sim2 d x Kx)) as (c & Ec & Hc & _ & H1 & H2). rewrite Ec. f_equal.
  destruct x as [[|[k v] l] tx ax]; [now exfalso; apply Nx|]. pose proof (H1 ltac:(lia) k v (or_introl eq_refl)) as L. assert (Kk : be_cell 2 d k) by exact (Kx k v (or_introl eq_refl)). destruct Kk as [_ Lk].
  destruct H2 as [->|(k' & v' & Hin & E)]; [lia|]. assert (Kk : be_cell 2 d k') by exact (Kx _ _ Hin). destruct Kk as [_ Lk']. lia.
Qed.
Lemma be_complexity_le d c (x : bee) : 0 <= d -> wf cls_be x -> keys_in (be_cell 2 d) x -> be_complexity x = Ok c -> c <= d.
Proof.
  intros Hd Wx Kx Ec. destruct (C43_value_l 2 x ltac:(lia) Wx (cell_sim2 d x Kx)) as (c' & Ec' & _ & _ & _ & H2). assert (c' = c) by congruence. subst c'.
  destruct H2 as [->|(k' & v' & Hin & E)]; [lia|]. assert (Kk : be_cell 2 d k') by exact (Kx _ _ Hin). destruct Kk as [_ Lk']. lia.
Qed.
Lemma adm_zdup g : adm cls_be g -> zdup g.
Proof. intros [_ Hg] u Hu. apply Hg. rewrite be_bad. f_equal. now apply bdup_bad. Qed.
Lemma zdup_fdB g : adm cls_be g -> zdup (fdB g).
Proof. intros [_ Hg] u Hu. apply fdB_bad; [|now apply bdup_bad]. intros w Hw. apply Hg. rewrite be_bad. now f_equal. Qed.
Lemma ev_als (G : bkey -> Z) c d (y : bee) : 0 <= d -> wf cls_be y -> keys_in (be_cell 2 d) y -> G (als 2 (Z.to_nat d + 1)) = c * G (als 1 (Z.to_nat d + 1)) ->
  ev G (data y) = ev (fun k => if keqb (hd [] k) [1; 2] then 1 else c) (data y) * G (als 1 (Z.to_nat d + 1)).
Proof.
  intros Hd Wy Ky Hc. rewrite Z.mul_comm, <- ev_scal. apply ev_ext. intros k v Hin.
  assert (A : bdup k = false). { pose proof (proj2 (proj2 (proj2 Wy) _ _ Hin)) as Hb. rewrite be_bad in Hb. injection Hb as Hb. destruct k; [reflexivity|exact Hb]. }
  pose proof (cell2_als d k Hd (Ky _ _ Hin) A) as E. rewrite Nat.add_comm in *. cbn [Nat.add] in *. rewrite !als_S in *.
  destruct E as [-> | ->]; cbn [hd]; [change (keqb (vtx 1) [1; 2]) with true|change (keqb (vtx 2) [1; 2]) with false]; cbn iota; [ring|rewrite Hc; ring].
Qed.
Lemma bdB_den dt d (y : bee) : wf cls_be y -> dt_ok dt (torsion y) -> keys_in (be_cell 2 (Z.of_nat (S d))) y ->
  exists c, returns (be_boundary dt y) (den cls_be (torsion y) tt (fun g => c * fdB g (als 1 (S (S d))))).
Proof.
  intros Wy Hdt Ky. pose proof (proj1 Wy) as Ht. destruct (be_boundary_den dt (torsion y) y Ht Hdt Wy eq_refl) as (z & E & Dz).
  set (s := sgn (Z.of_nat (S d))). exists (ev (fun k => if keqb (hd [] k) [1; 2] then 1 else s) (data y)). exists z. split; [exact E|].
  eapply den_ext; [|exact Dz]. intros g Hg. cbn beta. apply eqm_eq. rewrite (ev_als (fdB g) s (Z.of_nat (S d)) y ltac:(lia) Wy Ky); rewrite Nat2Z.id, Nat.add_comm; cbn [Nat.add]; [reflexivity|].
  apply fdB_als2. now apply adm_zdup.
Qed.
Lemma mayB_bd dt d t : 0 <= t -> t <> 1 -> dt_ok dt t ->
  exists e b, be_may_steenrod dt 2 (Z.of_nat (S d)) (Some t) = Ok e /\ wf cls_be e /\ torsion e = t /\ be_boundary dt e = Ok b /\ den cls_be t tt (fun g => fdB g (als 1 (S (S d)))) b.
Proof.
  intros Ht N1 Hdt.
  assert (Eu : t = match Some t with Some t0 => if t0 =? 0 then dt else t0 | None => dt end).
  { destruct (Z.eqb_spec t 0) as [->|]; [|reflexivity]. destruct Hdt as [_ [->|[N _]]]; [reflexivity|congruence]. }
  destruct (may_ok dt 2 (S d) (Some t) t Eu ltac:(lia) Ht N1 Hdt) as (e & Ee & De & _).
  assert (We : wf cls_be e) by (eapply (den_wf cls_be); eauto). assert (Te : torsion e = t) by apply De.
  destruct (be_boundary_den dt t e Ht Hdt We Te) as (b & E & Db). exists e, b. split; [exact Ee|]. split; [exact We|]. split; [exact Te|]. split; [exact E|].
  eapply den_ext; [|exact Db]. intros g Hg. cbn beta. rewrite <- (Fpsi_als (S d) (fdB g) (zdup_fdB g Hg)). destruct De as (_ & _ & _ & De). apply De.
  split; [intros k k' Hk; apply keqb_eq in Hk; now subst|]. intros k Hk. rewrite be_bad in Hk. injection Hk as Hk. apply fdB_bad; [|exact Hk]. intros w Hw. apply Hg. rewrite be_bad. now f_equal.
Qed.
(** #C97_be_cycles# The cycles of arity 2 and degree d >= 1 are exactly the multiples of the boundary of
    may_steenrod_structure(2, d + 1). *)
Lemma C97_be_cycles_l (dt d : Z) (x : bee) : 1 <= d -> wf cls_be x -> torsion x <> 1 -> dt_ok dt (torsion x) -> keys_in (be_cell 2 d) x ->
  (exists z, be_boundary dt x = Ok z /\ is_zero z) <->
  (exists c, same (Ok x) (let! e := be_may_steenrod dt 2 (d + 1) (Some (torsion x)) in let! b := be_boundary dt e in scale dt cls_be c b)).
Proof.
  intros Hd Wx N1 Hdt Kx. pose proof (proj1 Wx) as Ht.
  destruct (mayB_bd dt (Z.to_nat d) (torsion x) Ht N1 Hdt) as (e & b & Ee & We & Te & Eb & Db).
  replace (Z.of_nat (S (Z.to_nat d))) with (d + 1) in Ee by lia. rewrite Ee. cbn [bind]. rewrite Eb. cbn [bind]. split.
  - intros Hz. destruct (C69_barratt_eccles_l dt 2 d x ltac:(lia) Hd Wx Hdt Kx Hz) as (y & Wy & Ty & Ky & Sy).
    replace (d + 1) with (Z.of_nat (S (Z.to_nat d))) in Ky by lia. destruct (bdB_den dt (Z.to_nat d) y Wy ltac:(congruence) Ky) as (c & Dy). rewrite Ty in Dy. exists c.
    apply same_sym. eapply same_trans; [|exact Sy]. eapply (same_den cls_be ok_be (torsion x) tt); [exact Ht|apply (scale_den cls_be ok_be dt (torsion x)); eauto|exact Dy|].
    intros g Hg. cbn beta. reflexivity.
  - intros (c & x' & w & E1 & Ew & E3). injection E1 as <-. destruct E3 as (E3 & Tw & Aw).
    destruct (scale_den cls_be ok_be dt (torsion x) Ht Hdt tt _ c b Db) as (w' & Ew' & Dw). assert (w' = w) by congruence. subst w'.
    assert (Ww : wf cls_be w) by (eapply (den_wf cls_be); eauto).
    destruct (be_boundary_den dt (torsion x) x Ht Hdt Wx eq_refl) as (z & Ez & Dz). exists z. split; [exact Ez|].
    apply (den0_zero cls_be (torsion x) tt _ z ok_be Ht Dz). intros g Hg. cbn beta.
    assert (Ag : adm cls_be (fdB g)). { split; [intros k k' Hk; apply keqb_eq in Hk; now subst|]. intros k Hk. rewrite be_bad in Hk. injection Hk as Hk. apply fdB_bad; [|exact Hk]. intros u Hu. apply Hg. rewrite be_bad. now f_equal. }
    transitivity (ev (fdB g) (data w)). { apply eqm_eq. eapply (eqb_ev cls_be); eauto. }
    destruct Dw as (_ & _ & _ & Dw). rewrite (Dw (fdB g) Ag). cbn beta. rewrite fdB_fdB. apply eqm_eq. ring.
Qed.
(** #C97_be_generator# The multiple [c] of that cycle is zero exactly when the torsion divides [c]. *)
Lemma C97_be_generator_l (dt t d c : Z) : 0 <= d -> 0 <= t -> t <> 1 -> dt_ok dt t ->
  exists e b z, be_may_steenrod dt 2 (d + 1) (Some t) = Ok e /\ be_boundary dt e = Ok b /\ scale dt cls_be c b = Ok z /\ wf cls_be z /\ keys_in (be_cell 2 d) z /\
    (is_zero z <-> (t | c)).
Proof.
  intros Hd Ht N1 Hdt. destruct (mayB_bd dt (Z.to_nat d) t Ht N1 Hdt) as (e & b & Ee & We & Te & Eb & Db).
  replace (Z.of_nat (S (Z.to_nat d))) with (d + 1) in Ee by lia.
  destruct (scale_den cls_be ok_be dt t Ht Hdt tt _ c b Db) as (z & Ez & Dz). exists e, b, z. split; [exact Ee|]. split; [exact Eb|]. split; [exact Ez|].
  assert (Wz : wf cls_be z) by (eapply (den_wf cls_be); eauto). split; [exact Wz|].
  assert (C : forall a, be_cell 2 d (als a (S (Z.to_nat d)))). { intros a. pose proof (als_cell a (Z.to_nat d)) as C. rewrite Z2Nat.id, Nat.add_comm in C by lia. exact C. }
  split.
  - apply (den_keys cls_be ok_be t tt _ z _ Ht (kpred_bdeg 2 d) Dz). intros g Hg H0. cbn beta. rewrite fdB_als by now apply adm_zdup. apply eqm_eq. rewrite !H0 by apply C. ring.
  - change (3 - 1) with 2 in *. set (w2 := als 2 (S (Z.to_nat d))). set (w1 := als 1 (S (Z.to_nat d))).
    assert (A2 : adm cls_be (ind w2)). { apply (adm_ind cls_be ok_be). rewrite be_bad. f_equal. unfold w2. pose proof (als_dup (S (Z.to_nat d)) 2 (or_intror eq_refl)) as E. rewrite als_S in *. exact E. }
    assert (E12 : ind w2 w1 = 0). { unfold w1, w2. rewrite !als_S. reflexivity. }
    assert (E22 : ind w2 w2 = 1). { unfold ind. now rewrite (proj2 (keqb_eq _ _)). }
    split.
    + intros Z0. destruct Dz as (_ & _ & _ & HD). pose proof (HD _ A2) as Hq. cbn beta in Hq. rewrite fdB_als in Hq by now apply adm_zdup. change (3 - 1) with 2 in Hq. fold w1 w2 in Hq. rewrite E12, E22 in Hq. red in Z0. rewrite Z0, ev_nil in Hq.
      assert (Q : eqm t c 0); [|red in Q; now rewrite Z.sub_0_r in Q]. symmetry. rewrite Hq. apply eqm_eq. ring.
    + intros [q ->]. apply (den0_zero cls_be t tt _ z ok_be Ht Dz). intros g _. cbn beta. exists (q * fdB g (als 1 (S (S (Z.to_nat d))))). ring.
Qed.
(** #C97_be_stages# The elements of arity 2 and complexity at most [m] have the homology of a sphere of
    dimension [m]: there is nothing in degrees > m; a cycle whose degree is between 1 and m - 1 is the boundary of an
    element of the stage; in degree 0 (m >= 1) an element is the boundary of an element of the stage exactly if the
    torsion divides the sum of its coefficients; in degree [m] only zero is the boundary of an element of
    the stage (the cycles there: C97_be_cycles, C97_be_generator). *)
Lemma C97_be_stages_l (dt m d cx : Z) (x : bee) : 0 <= d -> wf cls_be x -> dt_ok dt (torsion x) -> keys_in (be_cell 2 d) x ->
  be_complexity x = Ok cx -> cx <= m ->
  let bounds := exists y cy, wf cls_be y /\ torsion y = torsion x /\ keys_in (be_cell 2 (d + 1)) y /\ be_complexity y = Ok cy /\ cy <= m /\ same (be_boundary dt y) (Ok x) in
  (m < d -> is_zero x) /\
  (1 <= d <= m - 1 -> (exists z, be_boundary dt x = Ok z /\ is_zero z) -> bounds) /\
  (d = 0 -> 1 <= m -> bounds <-> (torsion x | zsum (map snd (data x)))) /\
  (d = m -> bounds -> is_zero x).
Proof.
  intros Hd Wx Hdt Kx Ex Hm bounds. pose proof (proj1 Wx) as Ht.
  assert (UP : forall y, wf cls_be y -> keys_in (be_cell 2 (d + 1)) y -> d + 1 <= m -> exists cy, be_complexity y = Ok cy /\ cy <= m).
  { intros y Wy Ky Hdm. destruct (C43_value_l 2 y ltac:(lia) Wy (cell_sim2 _ y Ky)) as (cy & Ey & _). exists cy. split; [exact Ey|]. pose proof (be_complexity_le (d + 1) cy y ltac:(lia) Wy Ky Ey). lia. }
  split; [|split; [|split]].
  - intros H. destruct (data x) eqn:E; [exact E|]. exfalso. assert (Nx : ~ is_zero x) by (unfold is_zero; rewrite E; discriminate). rewrite (C97_be_complexity_l d x Hd Wx Kx Nx) in Ex. injection Ex as <-. lia.
  - intros H Hz. destruct (C69_barratt_eccles_l dt 2 d x ltac:(lia) ltac:(lia) Wx Hdt Kx Hz) as (y & Wy & Ty & Ky & Sy). destruct (UP y Wy Ky ltac:(lia)) as (cy & Ey & Hcy). exists y, cy. tauto.
  - intros -> Hm2. rewrite <- (C69_barratt_eccles_zero_l dt 2 x ltac:(lia) Wx Hdt Kx). split.
    + intros (y & cy & Wy & Ty & Ky & _ & _ & Sy). exists y. tauto.
    + intros (y & Wy & Ty & Ky & Sy). destruct (UP y Wy Ky ltac:(lia)) as (cy & Ey & Hcy). exists y, cy. tauto.
  - intros Hdm (y & cy & Wy & Ty & Ky & Ey & Hcy & Sy).
    assert (Zy : is_zero y). { destruct (data y) eqn:E; [exact E|]. exfalso. assert (Ny : ~ is_zero y) by (unfold is_zero; rewrite E; discriminate). rewrite (C97_be_complexity_l (d + 1) y ltac:(lia) Wy Ky Ny) in Ey. injection Ey as <-. lia. }
    destruct (be_boundary_den dt (torsion y) y ltac:(lia) ltac:(congruence) Wy eq_refl) as (b & Eb & Db).
    destruct Sy as (b' & x' & Eb' & Ex' & Eq & _). injection Ex' as <-. assert (b' = b) by congruence. subst b'.
    assert (Zb : is_zero b). { apply (den0_zero cls_be (torsion y) tt _ b ok_be ltac:(lia) Db). intros g _. cbn beta. red in Zy. rewrite Zy, ev_nil. reflexivity. }
    refine (eqb_zero cls_be b x _ Wx Eq Zb). eapply (den_wf cls_be); [|exact Db]. lia.
Qed.
(** #C97_be_example# *)
Example C97_be_example_l : let x : bee := mkElt [([[1; 2]; [2; 1]; [1; 2]], 3); ([[2; 1]; [1; 2]; [2; 1]], -3)] 0 tt in
  wf cls_be x /\ keys_in (be_cell 2 2) x /\ be_complexity x = Ok 2 /\ be_boundary 0 x = Ok (mkElt [] 0 tt) /\
  be_may_steenrod 0 2 3 (Some 0) = Ok (mkElt [(alt_simplex 1 4, 1)] 0 tt) /\
  be_boundary 0 (mkElt [(alt_simplex 1 4, 1)] 0 tt) = Ok (mkElt [([[2; 1]; [1; 2]; [2; 1]], 1); ([[1; 2]; [2; 1]; [1; 2]], -1)] 0 tt).
Proof.
  intros x. split; [apply wfb_wf; reflexivity|]. split; [|repeat split; reflexivity].
  intros k v Hin. destruct (C97_simplices_l 2 k ltac:(lia)) as [_ A]. apply A. cbn in Hin. destruct Hin as [Hin|[Hin|[]]]; injection Hin as <- _; [left|right]; reflexivity.
Qed.
