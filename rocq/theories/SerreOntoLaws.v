(** * The Cartan-Serre map is onto and a quasi-isomorphism on all tensor powers (C101) *)
From Coq Require Import Setoid Morphisms Sorting.Sorted.
From Verif Require Import PyBase Dict FreeModule Symmetric Simplicial Cubical Eqm Spec SpecChain SpecCube SpecCone FreeModuleFacts FreeModuleLaws ListFacts ClassFacts LinearFacts SymmetricFacts
  CycleFacts SymmetricLaws RingFacts Tensor TensorAct KoszulFacts LoopFacts SimplicialFacts SimplicialLaws CubicalFacts CubicalSerre CubicalLaws AcyclicFacts AcyclicLaws ConeFacts ConeLaws CongFacts SerreOnto.

(** #C101_cells# The Cartan-Serre map sends the tensor products of r faces of the cube of dimension m of total degree d to combinations of
    tensor products of r faces of the simplex of dimension m of total degree d. *)
Lemma C101_cells_l (dt m r d : Z) (x : cubc) :
  wf cls_cubical x -> dt_ok dt (torsion x) -> keys_in (cub_cell m r d) x ->
  exists y, cub_cartan_serre dt x = Ok y /\ wf cls_simplicial y /\ torsion y = torsion x /\ keys_in (simp_cell (simplex_face m) r d) y.
Proof.
  intros W Hdt K. destruct (linop_serre_cell dt (torsion x) m r d (proj1 W) Hdt x W eq_refl (cub_attr x) K) as (y & E & D & Ky).
  exists y. split; [exact E|]. split; [eapply den_wf; [exact (proj1 W)|exact D]|]. split; [exact (proj1 D)|exact Ky].
Qed.
(** #C101_onto# The Cartan-Serre map is onto, in every dimension, number of factors and degree: every element of the simplicial side is the
    image of an element of the cubical side with the same number of terms and the same coefficients. *)
Lemma C101_onto_l (dt m r d : Z) (y : simp) :
  0 <= m -> wf cls_simplicial y -> dt_ok dt (torsion y) -> keys_in (simp_cell (simplex_face m) r d) y ->
  exists x, wf cls_cubical x /\ torsion x = torsion y /\ keys_in (cub_cell m r d) x /\ map snd (data x) = map snd (data y) /\ same (cub_cartan_serre dt x) (Ok y).
Proof.
  intros Hm W Hdt K. exists (lift m y). split; [exact (lift_wf m r d y Hm W K)|]. split; [reflexivity|]. split; [now apply lift_keys|]. split; [|now apply (lift_serre dt m r d)].
  cbn [lift data]. rewrite map_map. reflexivity.
Qed.
Lemma cub_cycle0 dt m r (x : cubc) : wf cls_cubical x -> dt_ok dt (torsion x) -> keys_in (cub_cell m r 0) x -> exists z, cub_boundary dt x = Ok z /\ is_zero z.
Proof.
  intros W Hdt K. destruct (C27_boundary_degree_l dt r 0 x W Hdt) as (z & Ez & Wz & _ & Kz & _). { intros k v Hin. destruct (K k v Hin) as (A & B & _). now split. }
  exists z. split; [exact Ez|]. destruct z as [[|[k v] l] t a]; [reflexivity|]. exfalso. destruct (Kz k v (or_introl eq_refl)) as [_ L].
  unfold cube_degree in L. assert (P : forall l : list (list Z), 0 <= zsum (map dim l)). { induction l0 as [|c l0 IH]; [cbn; lia|]. cbn [map]. change (0 <= dim c + zsum (map dim l0)). pose proof (cube_dim_nonneg c). rewrite cube_dim_dim in *. lia. }
  specialize (P k). lia.
Qed.
Lemma wf_bnd dt (x u : cubc) : wf cls_cubical x -> dt_ok dt (torsion x) -> cub_boundary dt x = Ok u -> wf cls_cubical u.
Proof. intros W Hdt E. destruct (cub_boundary_den dt (torsion x) x (proj1 W) Hdt W eq_refl) as (u' & Eu & D). rewrite E in Eu. injection Eu as <-. eapply den_wf; [exact (proj1 W)|exact D]. Qed.
Lemma same_is_zero {K A} `{KO : KeyOk K} (c : pycls K) (r : res (elt K A)) z : same r (Ok z) -> is_zero z -> (forall y, r = Ok y -> wf c y) -> exists y, r = Ok y /\ is_zero y.
Proof.
  intros (x & y & Ex & Ey & E & _) Zz W. injection Ey as <-. exists x. split; [exact Ex|]. specialize (W x Ex). destruct W as (_ & Kd & Cv). unfold is_zero in *. destruct (data x) as [|[k v] l] eqn:D; [reflexivity|]. exfalso.
  unfold elt_eqb in E. rewrite dict_eqb_dget in E. specialize (E k). rewrite Zz, D in E. cbn [dget] in E. rewrite keqb_refl in E. destruct (Cv k v (or_introl eq_refl)) as [[Nv _] _]. auto.
Qed.
Lemma bnd_cell dt m r d (x : cubc) : wf cls_cubical x -> dt_ok dt (torsion x) -> keys_in (cub_cell m r (d + 1)) x ->
  exists y, cub_boundary dt x = Ok y /\ wf cls_cubical y /\ torsion y = torsion x /\ keys_in (cub_cell m r d) y.
Proof.
  intros W Hdt K. rewrite <- keys_ccell in K.
  assert (L : linop cls_cubical cls_cubical (torsion x) tt tt (ccell cube_dim (mcube m) r (d + 1)) (ccell cube_dim (mcube m) r d) tDC (cub_boundary dt)).
  { apply (linop_bnd cls_cubical cck fbC cube_dim dt (cub_boundary dt) (fun t x => cub_boundary_den dt t x)); [exact (proj1 W)|exact Hdt|exact (kpred_ccell cube_dim (mcube m) (mcube_dec m) r d)|].
    intros k k' v Hk Hin. pose proof (tb_ccell fbC cube_dim dim_fbC (mcube m) (Cfb_C m) r (d + 1) k k' v Hk Hin) as T. replace (d + 1 - 1) with d in T by lia. exact T. }
  destruct (L x W eq_refl (cub_attr x) K) as (y & E & D & Ky). exists y. split; [exact E|]. split; [eapply den_wf; [exact (proj1 W)|exact D]|]. split; [exact (proj1 D)|now apply keys_ccell].
Qed.
Lemma simp_bnd_cong dt (x y : simp) : wf cls_simplicial x -> wf cls_simplicial y -> torsion y = torsion x -> dt_ok dt (torsion x) -> elt_eqb x y = true -> same (simp_boundary dt x) (simp_boundary dt y).
Proof.
  intros Wx Wy T Hdt E.
  assert (bs : linop cls_simplicial cls_simplicial (torsion x) tt tt anyk anyk tDS (simp_boundary dt))
    by exact (linop_bnd cls_simplicial sck fbS spx_dim dt (simp_boundary dt) (fun t x => simp_boundary_den dt t x) (torsion x) _ _ (proj1 Wx) Hdt kpred_any (fun _ _ _ _ _ => I)).
  eapply (linop_cong cls_simplicial cls_simplicial ok_simplicial (torsion x) tt tt); [exact (proj1 Wx)|exact bs|exact Wx|exact Wy|reflexivity|exact T|now destruct (attr x)|now destruct (attr y)|intros ? ? ?; exact I|exact E].
Qed.
(** #C101_cycles# Every cycle of the simplicial side is the image of a cycle of the cubical side. *)
Lemma C101_cycles_l (dt m r d : Z) (y : simp) :
  0 <= m -> 0 <= d -> wf cls_simplicial y -> dt_ok dt (torsion y) -> keys_in (simp_cell (simplex_face m) r d) y -> (exists z, simp_boundary dt y = Ok z /\ is_zero z) ->
  exists x, wf cls_cubical x /\ torsion x = torsion y /\ keys_in (cub_cell m r d) x /\ (exists z, cub_boundary dt x = Ok z /\ is_zero z) /\ same (cub_cartan_serre dt x) (Ok y).
Proof.
  intros Hm Hd W Hdt K Hz. destruct (Z.eq_dec d 0) as [-> | Nd].
  - destruct (C101_onto_l dt m r 0 y Hm W Hdt K) as (x & Wx & Tx & Kx & _ & Sx). exists x. split; [exact Wx|]. split; [exact Tx|]. split; [exact Kx|]. split; [|exact Sx]. apply (cub_cycle0 dt m r); auto. congruence.
  - destruct (C98_simplex_l dt m r d y Hm ltac:(lia) W Hdt K Hz) as (w & Ww & Tw & Kw & Sw).
    destruct (C101_onto_l dt m r (d + 1) w Hm Ww ltac:(congruence) Kw) as (v & Wv & Tv & Kv & _ & (v' & w2 & Ev & Ew2 & F & F1 & F2)). injection Ew2 as <-.
    assert (Hdv : dt_ok dt (torsion v)) by congruence.
    destruct (bnd_cell dt m r d v Wv Hdv Kv) as (x & Ex & Wx & Tx & Kx).
    exists x. split; [exact Wx|]. split; [congruence|]. split; [exact Kx|]. split.
    + pose proof (C27_boundary_squared_l dt v Wv Hdv) as S. rewrite Ex in S. cbn [bind] in S. rewrite zero_data in S. eapply (same_is_zero cls_cubical); [exact S|reflexivity|]. intros u Eu. eapply wf_bnd; [exact Wx| |exact Eu]. congruence.
    + pose proof (C33_chain_map_l dt v Wv Hdv) as C. rewrite Ex, Ev in C. cbn [bind] in C. eapply same_trans; [apply same_sym, C|]. eapply same_trans; [|exact Sw].
      destruct (C101_cells_l dt m r (d + 1) v Wv Hdv Kv) as (v2 & Ev2 & Wv2 & Tv2 & _). rewrite Ev in Ev2. injection Ev2 as <-. apply simp_bnd_cong; auto; try congruence.
Qed.
Lemma serre_total dt m r (x : cubc) y : wf cls_cubical x -> dt_ok dt (torsion x) -> keys_in (cub_cell m r 0) x -> cub_cartan_serre dt x = Ok y -> eqm (torsion x) (total y) (total x).
Proof.
  intros W Hdt K Ey. destruct (C101_cells_l dt m r 0 x W Hdt K) as (y' & Ey' & Wy & Ty & Ky). rewrite Ey in Ey'. injection Ey' as <-.
  destruct (serre_den dt (torsion x) x (proj1 W) Hdt W eq_refl) as (u & Eu & Du). rewrite Ey in Eu. injection Eu as <-.
  set (g := fun k : list (list Z) => if existsb spx_is_degenerate k then 0 else 1).
  assert (Ag : adm cls_simplicial g). { split; [intros k k' E; apply keqb_eq in E; now subst|]. intros k Hb. unfold g. rewrite sbad in Hb. injection Hb as ->. reflexivity. }
  pose proof (den_ev cls_simplicial (torsion x) tt _ y g Du Ag) as Dg. cbn beta in Dg. unfold total. transitivity (ev g (data y)).
  - apply eqm_eq. apply ev_ext. intros k v Hin. pose proof (wf_good cls_simplicial spx_is_degenerate sbad y k v Wy Hin) as G. unfold g. now rewrite G.
  - rewrite Dg. apply eqm_eq. apply ev_ext. intros k v Hin. destruct (K k v Hin) as (L & D0 & Hc). clear - D0 Hc. unfold DC.
    assert (A : exists u, collapses k = Some u /\ existsb spx_is_degenerate u = false).
    { revert D0 Hc. induction k as [|c k IH]; intros D0 Hc; [exists []; split; reflexivity|]. change (cube_degree (c :: k)) with (dim c + cube_degree k) in D0.
      assert (P : forall l : list (list Z), 0 <= cube_degree l). { induction l as [|b l IHl]; [cbn; lia|]. change (cube_degree (b :: l)) with (dim b + cube_degree l). pose proof (cube_dim_nonneg b). rewrite cube_dim_dim in *. lia. }
      specialize (P k). pose proof (cube_dim_nonneg c) as Pc. rewrite cube_dim_dim in Pc. destruct IH as (u & Eu & Du); [lia|intros; apply Hc; now right|].
      assert (B : forall c o, dim c = 0 -> exists a, collapse o c = Some [a]).
      { clear. induction c as [|b c IH]; intros o D; [now exists o|]. cbn [dim] in D. pose proof (cube_dim_nonneg c) as P. rewrite cube_dim_dim in P. cbn [collapse]. destruct (b =? 0); [exists o; assert (D' : dim c = 0) by (destruct (b =? 2); lia); now rewrite D'|].
        destruct (b =? 2) eqn:E2; [lia|]. destruct (IH (o + 1)) as [a Ea]; [lia|]. exists a. now rewrite Ea. }
      destruct (B c 0) as [a Ea]; [lia|]. exists ([a] :: u). cbn [collapses]. rewrite Ea, Eu. split; [reflexivity|]. cbn [existsb]. rewrite Du. reflexivity. }
    destruct A as (u & -> & G). unfold g. now rewrite G.
Qed.
Lemma serre_cycle dt m r d (x : cubc) y : wf cls_cubical x -> dt_ok dt (torsion x) -> keys_in (cub_cell m r d) x -> (exists z, cub_boundary dt x = Ok z /\ is_zero z) -> cub_cartan_serre dt x = Ok y ->
  exists z, simp_boundary dt y = Ok z /\ is_zero z.
Proof.
  intros W Hdt K (z & Ez & Zz) Ey. pose proof (C33_chain_map_l dt x W Hdt) as C. rewrite Ez, Ey in C. cbn [bind] in C.
  destruct (C101_cells_l dt m r d x W Hdt K) as (y' & Ey' & Wy & Ty & Ky). rewrite Ey in Ey'. injection Ey' as <-.
  assert (E0 : cub_cartan_serre dt z = Ok (mkElt [] (torsion z) tt)). { unfold cub_cartan_serre. unfold is_zero in Zz. destruct z as [lz tz []]. cbn [data] in Zz. subst lz. rewrite zero_data. unfold new, pref, reduce. cbn. destruct (tz =? 0); reflexivity. }
  rewrite E0 in C. eapply (same_is_zero cls_simplicial); [exact C|reflexivity|]. intros u Eu. destruct (simp_boundary_den dt (torsion y) y (proj1 Wy)) as (u' & Eu' & D); [congruence|exact Wy|reflexivity|]. rewrite Eu in Eu'. injection Eu' as <-. eapply den_wf; [exact (proj1 Wy)|exact D].
Qed.
(** #C101_boundaries# A cycle of the cubical side is a boundary if and only if its image is a boundary. *)
Lemma C101_boundaries_l (dt m r d : Z) (x : cubc) (y : simp) :
  0 <= m -> 0 <= d -> wf cls_cubical x -> dt_ok dt (torsion x) -> keys_in (cub_cell m r d) x -> (exists z, cub_boundary dt x = Ok z /\ is_zero z) -> cub_cartan_serre dt x = Ok y ->
  (exists v, wf cls_cubical v /\ torsion v = torsion x /\ keys_in (cub_cell m r (d + 1)) v /\ same (cub_boundary dt v) (Ok x)) <->
  (exists w, wf cls_simplicial w /\ torsion w = torsion x /\ keys_in (simp_cell (simplex_face m) r (d + 1)) w /\ same (simp_boundary dt w) (Ok y)).
Proof.
  intros Hm Hd W Hdt K Hz Ey. destruct (C101_cells_l dt m r d x W Hdt K) as (y' & Ey' & Wy & Ty & Ky). rewrite Ey in Ey'. injection Ey' as <-.
  destruct (Z.eq_dec d 0) as [-> | Nd].
  - pose proof (C98_cube_zero_l dt m r x Hm W Hdt K) as B. pose proof (C98_simplex_zero_l dt m r y Hm Wy) as S. rewrite Ty in S. specialize (S Hdt Ky). rewrite Z.add_0_l. rewrite B, S. rewrite <- !total_zsum.
    pose proof (serre_total dt m r x y W Hdt K Ey) as E.
    split; intros D; [replace (total y) with ((total y - total x) + total x) by ring|replace (total x) with (total y - (total y - total x)) by ring]; [apply Z.divide_add_r|apply Z.divide_sub_r]; auto.
  - split; intros _.
    + destruct (C98_simplex_l dt m r d y Hm ltac:(lia) Wy ltac:(congruence) Ky) as (w & Ww & Tw & Kw & Sw); [eapply serre_cycle; eauto|]. exists w. split; [exact Ww|]. split; [congruence|]. split; auto.
    + apply C98_cube_l; auto; lia.
Qed.
Lemma collapse_top n : forall o, collapse o (repeat 2 n) = Some (zrange o (o + Z.of_nat n + 1)).
Proof.
  induction n as [|n IH]; intros o; [cbn [repeat collapse]; replace (o + Z.of_nat 0 + 1) with (o + 1) by lia; f_equal; unfold zrange; replace (Z.to_nat (o + 1 - o)) with 1%nat by lia; cbn [seq map]; f_equal; lia|].
  cbn [repeat collapse]. change (2 =? 0) with false. change (2 =? 2) with true. cbn iota. rewrite IH. f_equal. replace (o + Z.of_nat (S n) + 1) with (o + 1 + Z.of_nat n + 1) by lia. symmetry. apply zrange_cons. lia.
Qed.

(** #C101_top# The Cartan-Serre map sends the standard element of the cube to the standard element of the simplex. *)
Lemma C101_top_l (dt m r t : Z) (ot : option Z) :
  0 <= m -> t = match ot with Some u => u | None => dt end -> 0 <= t -> t <> 1 -> dt_ok dt t ->
  same (let! x := cub_standard_element dt m r ot in cub_cartan_serre dt x) (simp_standard_element dt m r ot).
Proof.
  intros Hm Et Ht Nt Hdt. destruct (C27_basis_elements_l dt m r t ot Et Ht Nt) as (_ & Ec). pose proof (proj2 (C26_basis_elements_l dt m r t ot Et Ht Nt Hm)) as Es. rewrite Ec, Es. cbn [bind].
  set (x := mkElt [(repeat (repeat 2 (Z.to_nat m)) (Z.to_nat r), 1)] t tt : cubc).
  assert (Wx : wf cls_cubical x). { split; [exact Ht|]. split; [split; [intros ? []|exact I]|]. intros k v [[= <- <-]|[]]. split; [|reflexivity]. split; [lia|]. cbn [torsion x]. lia. }
  destruct (new_den cls_simplicial ok_simplicial dt t ot tt [(repeat (zrange 0 (m + 1)) (Z.to_nat r), 1)] Et Ht) as (y & Ey & Dy); [split; [intros ? []|exact I]|intros k _; eexists; apply sbad|].
  unfold simp_standard_element, simp_new in Es. change (dict_of [(repeat (zrange 0 (m + 1)) (Z.to_nat r), 1)]) with [(repeat (zrange 0 (m + 1)) (Z.to_nat r), 1)] in Es. rewrite Ey in Es. injection Es as ->.
  eapply (same_den cls_simplicial ok_simplicial t tt); [exact Ht|apply (serre_den dt t x Ht Hdt Wx eq_refl)|eexists; split; [reflexivity|exact Dy]|].
  intros g _. apply eqm_eq. cbn [x data]. rewrite !ev_cons, !ev_nil. unfold DC.
  assert (A : forall n, collapses (repeat (repeat 2 (Z.to_nat m)) n) = Some (repeat (zrange 0 (m + 1)) n)).
  { induction n as [|n IH]; [reflexivity|]. cbn [repeat collapses]. rewrite collapse_top, IH. do 3 f_equal. lia. }
  now rewrite A.
Qed.
(** #C101_example# A cycle of the square of the simplex of dimension 2 and the cycle of the square of the cube of dimension 2 over it. *)
Example C101_example_l : let y : simp := mkElt [([[1]; [0; 2]], 1); ([[0]; [0; 2]], -1); ([[0; 1]; [2]], -1); ([[0; 1]; [0]], 1)] 0 tt in
  let x : cubc := mkElt [([[1; 0]; [2; 1]], 1); ([[0; 0]; [2; 1]], -1); ([[2; 0]; [1; 1]], -1); ([[2; 0]; [0; 1]], 1)] 0 tt in
  wf cls_simplicial y /\ keys_in (simp_cell (simplex_face 2) 2 1) y /\ simp_boundary 0 y = Ok (mkElt [] 0 tt) /\ wf cls_cubical x /\ keys_in (cub_cell 2 2 1) x /\ cub_boundary 0 x = Ok (mkElt [] 0 tt) /\ cub_cartan_serre 0 x = Ok y.
Proof.
  cbv zeta. split; [apply wfb_wf; reflexivity|]. split.
  { intros k v [[= <- <-]|[[= <- <-]|[[= <- <-]|[[= <- <-]|[]]]]]; (split; [reflexivity|split; [reflexivity|]]); intros s [<-|[<-|[]]]; (split; [congruence|split; [repeat constructor|]]); intros a Ha; cbn in Ha; lia. }
  split; [reflexivity|]. split; [apply wfb_wf; reflexivity|]. split; [|split; reflexivity].
  intros k v [[= <- <-]|[[= <- <-]|[[= <- <-]|[[= <- <-]|[]]]]]; (split; [reflexivity|split; [reflexivity|]]); intros c [<-|[<-|[]]]; (split; [|reflexivity]); intros a Ha; cbn in Ha; lia.
Qed.
