(** * Which integer arguments are accepted, and what out-of-range arguments do (C96) *)
From Coq Require Import Setoid Morphisms.
From Verif Require Import PyBase Dict FreeModule Symmetric Simplicial Cubical Surjection Eqm Spec SpecChain SpecCube SpecSurj SpecArgs FreeModuleFacts FreeModuleLaws ListFacts ClassFacts LinearFacts SymmetricFacts
  CycleFacts SymmetricLaws RingFacts Tensor TensorAct LoopFacts AW SimplicialFacts SimplicialDiag SimplicialLaws CubicalFacts CubicalDiag CubicalLaws SurjBoundary SurjLaws SurjCompose3 SurjLaws3.

Lemma neg_slices {B} (k : list B) n c : zlen k = n -> 1 - n <= c < 0 ->
  slice_to k (c - 1) = slice_to k (c + n - 1) /\ py_get k (c - 1) = py_get k (c + n - 1) /\ slice_from k c = slice_from k (c + n).
Proof.
  intros L Hc. unfold slice_to, py_get, slice_from, clamp. rewrite L.
  destruct (Z.ltb_spec (c - 1) 0); [|lia]. destruct (Z.ltb_spec (c + n - 1) 0); [lia|]. destruct (Z.ltb_spec c 0); [|lia]. destruct (Z.ltb_spec (c + n) 0); [lia|].
  split; [do 2 f_equal; lia|]. split; [|do 2 f_equal; lia]. replace (c - 1 + n) with (c + n - 1) by lia. reflexivity.
Qed.
Lemma low_get {B} (k : list B) n c : zlen k = n -> c < 1 - n -> py_get k (c - 1) = Err IndexError.
Proof.
  intros L Hc. unfold py_get. rewrite L. pose proof (zlen_nonneg k). destruct (Z.ltb_spec (c - 1) 0); [|lia]. destruct (Z.ltb_spec (c - 1 + n) 0); [reflexivity|lia].
Qed.
Lemma zero_slices {B} (l1 : list B) s : slice_to (l1 ++ [s]) (0 - 1) = l1 /\ py_get (l1 ++ [s]) (0 - 1) = Ok s /\ slice_from (l1 ++ [s]) 0 = l1 ++ [s].
Proof.
  assert (L : zlen (l1 ++ [s]) = zlen l1 + 1) by (rewrite zlen_app, zlen_cons, zlen_nil; lia). pose proof (zlen_nonneg l1).
  split; [|split; [|now rewrite slice_from_skipn by lia]].
  - rewrite <- (slice_to_app l1 [s]) at 2. unfold slice_to, clamp. rewrite L. destruct (Z.ltb_spec (0 - 1) 0); [|lia]. destruct (Z.ltb_spec (zlen l1) 0); [lia|]. do 2 f_equal. lia.
  - rewrite <- (py_get_app l1 [] s). unfold py_get. rewrite L. destruct (Z.ltb_spec (0 - 1) 0); [|lia]. destruct (Z.ltb_spec (zlen l1) 0); [lia|].
    replace (0 - 1 + (zlen l1 + 1)) with (zlen l1) by lia. destruct (Z.ltb_spec (zlen l1) 0); [lia|]. reflexivity.
Qed.
Lemma get_ok {B} (k : list B) n c : zlen k = n -> 1 - n <= c <= n -> exists s, py_get k (c - 1) = Ok s.
Proof.
  intros L Hc. destruct (Z_lt_le_dec c 0) as [H0|H0].
  - destruct (neg_slices k n c L ltac:(lia)) as (_ & -> & _). destruct (split_at k (c + n - 1)) as (l1 & s & l2 & -> & E); [lia|]. rewrite <- E, py_get_app. eauto.
  - destruct (Z.eq_dec c 0) as [->|H1].
    + destruct (split_at k (n - 1)) as (l1 & s & l2 & -> & E); [lia|]. rewrite zlen_app, zlen_cons in L. assert (zlen l2 = 0) as Z0 by lia. apply zlen_0 in Z0. subst l2.
      destruct (zero_slices l1 s) as (_ & -> & _). eauto.
    + destruct (split_at k (c - 1)) as (l1 & s & l2 & -> & E); [lia|]. rewrite <- E, py_get_app. eauto.
Qed.
Lemma last_split {B} (k : list B) n : zlen k = n -> 1 <= n -> exists l1 s, k = l1 ++ [s] /\ zlen l1 = n - 1.
Proof.
  intros L Hn. destruct (split_at k (n - 1)) as (l1 & s & l2 & -> & E); [lia|]. rewrite zlen_app, zlen_cons in L. assert (zlen l2 = 0) as Z0 by lia. apply zlen_0 in Z0. subst l2. eauto.
Qed.

(** ** simplicial elements *)
(** #C96_simplicial_negative# Coordinates from [1 - arity] to [-1] count from the end: [-1] is the factor before the last. *)
Lemma C96_simplicial_negative_l (dt n times coord : Z) (x : simp) :
  simp_arity x = Some n -> 1 - n <= coord < 0 ->
  simp_iterated_diagonal dt x times coord = simp_iterated_diagonal dt x times (coord + n).
Proof.
  intros Ar Hc. unfold simp_iterated_diagonal. rewrite Ar. destruct (simp_degree x) as [d|]; [|reflexivity].
  apply (proj1 (C20_arity_degree_l n 0 x)) in Ar. destruct Ar as [_ Kx].
  destruct (Z.ltb_spec n coord); [lia|]. destruct (Z.ltb_spec n (coord + n)); [lia|].
  destruct (zero dt cls_simplicial x) as [y|]; [|reflexivity]. cbn [bind]. apply for_ext. intros s [k v] Hin.
  destruct (neg_slices k n coord (Kx _ _ Hin) Hc) as (-> & -> & ->). reflexivity.
Qed.
(** #C96_simplicial_zero# The coordinate 0 is not rejected: the last factor is split and the whole original
    tensor is appended, so that an element of arity [n] and degree [d] gives one of arity [2 n + times] and degree [2 d]
    instead of [n + times] and [d]. *)
Lemma C96_simplicial_zero_l (dt n d times : Z) (x : simp) :
  wf cls_simplicial x -> dt_ok dt (torsion x) -> simp_arity x = Some n -> simp_degree x = Some d -> 1 <= n -> 0 <= times ->
  gives cls_simplicial (simp_iterated_diagonal dt x times 0) (torsion x) tt
    (extend (fun k => map (fun p => (fst p ++ k, snd p)) (simp_splittings (Z.to_nat times) n k)) x) /\
  exists z, simp_iterated_diagonal dt x times 0 = Ok z /\ keys_in (fun k => zlen k = 2 * n + times /\ total_degree k = 2 * d) z.
Proof.
  intros Wx Hdt Ar De Hn Htm. pose proof (proj1 Wx) as Ht.
  pose proof Ar as Ar0. pose proof De as De0.
  apply (proj1 (C20_arity_degree_l n d x)) in Ar. apply (proj2 (C20_arity_degree_l n d x)) in De. destruct Ar as [N K1], De as [_ K2].
  assert (G : gives cls_simplicial (simp_iterated_diagonal dt x times 0) (torsion x) tt
    (extend (fun k => map (fun p => (fst p ++ k, snd p)) (simp_splittings (Z.to_nat times) n k)) x)).
  { apply (den_gives cls_simplicial ok_simplicial _ _ (fun g => ev (fun k => Sd (Z.to_nat times) n (fun u => g (u ++ k)) k) (data x))); [exact Ht| |].
    2:{ intros g _. apply eqm_eq. rewrite ev_extend. apply ev_ext. intros k v _. rewrite Sd_splittings. unfold ev. rewrite sumf_map. reflexivity. }
    unfold simp_iterated_diagonal. rewrite De0, Ar0. destruct (Z.ltb_spec n 0); [lia|].
    eapply returns_bind; [apply (zero_den cls_simplicial ok_simplicial dt (torsion x)); auto|]. intros y0 Hy0. replace (attr x) with tt in Hy0 by now destruct (attr x).
    eapply returns_mono.
    - apply (loop_den cls_simplicial ok_simplicial (torsion x) tt (data x) _ (fun k g => at_pos (n - 1) (fun l1 s l2 =>
         sumf (fun p => g (l1 ++ map (fun ij => slice s (fst ij) (snd ij + 1)) (pairwise (0 :: p ++ [d])) ++ k)) (cwr (Z.to_nat times) (zrange 0 (d + 1)))) k)); [|exact Hy0].
      intros k v F y Hin Hy. destruct (last_split k n (K1 _ _ Hin) Hn) as (l1 & s & -> & E1).
      destruct (zero_slices l1 s) as (-> & -> & ->). cbn [bind].
      unfold py_cwr. destruct (Z.ltb_spec times 0); [lia|]. cbn [bind]. eapply returns_mono.
      + apply (for_den cls_simplicial (torsion x) _ _ (fun p g => v * g (l1 ++ map (fun ij => slice s (fst ij) (snd ij + 1)) (pairwise (0 :: p ++ [d])) ++ l1 ++ [s])) tt); [|exact Hy].
        intros p F1 y1 _ Hy1. eapply returns_mono; [eapply (add_term_den cls_simplicial ok_simplicial dt (torsion x)); eauto; eexists; reflexivity|].
        intros z Hz. exact Hz.
      + intros z Hz. eapply den_ext; [|exact Hz]. intros g _. cbn beta. apply eqm_eq. f_equal. rewrite sumf_scal. f_equal. now rewrite at_pos_app by exact E1.
    - intros z Hz. eapply den_ext; [|exact Hz]. intros g Hg. cbn beta. apply eqm_eq. rewrite Z.add_0_l. apply ev_ext. intros k v Hin.
      unfold Sd, at_pos. apply sumf_ext. intros [[l1 s] l2] Hs. apply splits_in in Hs. destruct (Z.eqb_spec (zlen l1) (n - 1)) as [E1|]; [|reflexivity].
      pose proof (K1 _ _ Hin) as Lk. rewrite Hs, zlen_app, zlen_cons in Lk. assert (zlen l2 = 0) as Z0 by lia. apply zlen_0 in Z0. subst l2.
      pose proof (proj2 (proj2 (proj2 Wx) _ _ Hin)) as Hb. injection Hb as Hb. pose proof (dim_le_deg _ _ _ _ Hb Hs) as Hdim.
      assert (Dk : tdeg spx_dim k = d) by exact (K2 _ _ Hin). rewrite Dk in Hdim. unfold spx_dim in Hdim.
      rewrite <- (code_cuts d s ltac:(lia) (Z.to_nat times) (fun u => g ((l1 ++ u ++ []) ++ k)) [] s eq_refl).
      + apply sumf_ext. intros p _. f_equal. rewrite app_nil_r, <- app_assoc. reflexivity.
      + intros u Hu. apply (proj2 Hg). cbn. f_equal. apply existsb_exists. exists []. split; [|reflexivity]. apply in_or_app. left. apply in_or_app. right. apply in_or_app. now left. }
  split; [exact G|]. pose proof G as (z & Ez & _). exists z. split; [exact Ez|]. intros k v Hin.
  destruct (gives_keys _ _ _ _ _ _ _ _ G Ez Hin) as (k' & s & Hl & Hk). apply keqb_eq in Hk. subst k'.
  unfold extend in Hl. apply in_flat_map in Hl. destruct Hl as ([k0 v0] & H0 & Hl). cbn [fst snd] in Hl. rewrite map_map in Hl. apply in_map_iff in Hl.
  destruct Hl as ([k1 v1] & [= <- <-] & H1). cbn [fst] in *.
  destruct (splittings_deg n d (Z.to_nat times) n k0 k1 v1 ltac:(lia) (conj (K1 _ _ H0) (K2 _ _ H0)) H1) as [L1 D1].
  assert (L0 : zlen k0 = n) by exact (K1 _ _ H0). assert (D0 : tdeg spx_dim k0 = d) by exact (K2 _ _ H0). change (total_degree (k1 ++ k0)) with (tdeg spx_dim (k1 ++ k0)).
  rewrite zlen_app, tdeg_app. lia.
Qed.
(** #C96_simplicial# [iterated_diagonal(times, coord)] accepts exactly homogeneous elements (in degree and arity), coordinates
    from [1 - arity] to [arity] and [times >= 0]; the exception in every other case. *)
Lemma C96_simplicial_l (dt times coord : Z) (x : simp) :
  wf cls_simplicial x -> dt_ok dt (torsion x) ->
  (simp_degree x = None \/ simp_arity x = None -> simp_iterated_diagonal dt x times coord = Err TypeError) /\
  forall n d, simp_arity x = Some n -> simp_degree x = Some d ->
    (n < coord -> simp_iterated_diagonal dt x times coord = Err TypeError) /\
    (coord < 1 - n -> simp_iterated_diagonal dt x times coord = Err IndexError) /\
    (1 - n <= coord <= n -> times < 0 -> simp_iterated_diagonal dt x times coord = Err ValueError) /\
    (1 - n <= coord <= n -> 0 <= times -> exists z, simp_iterated_diagonal dt x times coord = Ok z /\ wf cls_simplicial z /\ torsion z = torsion x).
Proof.
  intros Wx Hdt. split.
  { intros Hn. unfold simp_iterated_diagonal. destruct (simp_degree x); [|reflexivity]. destruct Hn as [Hn|Hn]; [discriminate|]. now rewrite Hn. }
  intros n d Ar De.
  pose proof (proj1 (proj1 (C20_arity_degree_l n d x)) Ar) as [N Kx].
  assert (Z0 : exists o, zero dt cls_simplicial x = Ok o).
  { assert (R : returns (zero dt cls_simplicial x) (fun _ => True)) by (eapply returns_mono; [apply (zero_den cls_simplicial ok_simplicial dt (torsion x)); auto; apply Wx|auto]). destruct R as (o & Eo & _). eauto. }
  destruct Z0 as [o Eo]. assert (Ed : exists k0 v0 l0, zlen k0 = n /\ data x = (k0, v0) :: l0).
  { clear -N Kx. destruct x as [[|[k0 v0] l0] tx ax]; [destruct N; reflexivity|]. exists k0, v0, l0. split; [|reflexivity]. apply (Kx k0 v0). now left. }
  destruct Ed as (k0 & v0 & l0 & L0 & Ed).
  split; [|split; [|split]].
  - intros Hc. unfold simp_iterated_diagonal. rewrite De, Ar. destruct (Z.ltb_spec n coord); [reflexivity|lia].
  - intros Hc. unfold simp_iterated_diagonal. rewrite De, Ar. pose proof (zlen_nonneg k0). destruct (Z.ltb_spec n coord); [lia|]. rewrite Eo, Ed. cbn [bind for_]. now rewrite (low_get k0 n coord L0 Hc).
  - intros Hc Htm. unfold simp_iterated_diagonal. rewrite De, Ar. destruct (Z.ltb_spec n coord); [lia|]. rewrite Eo, Ed. cbn [bind for_].
    destruct (get_ok k0 n coord L0 Hc) as [s ->]. cbn [bind]. unfold py_cwr. destruct (Z.ltb_spec times 0); [reflexivity|lia].
  - intros Hc Htm.
    assert (G : exists l, gives cls_simplicial (simp_iterated_diagonal dt x times coord) (torsion x) tt l).
    { destruct (Z_lt_le_dec coord 0) as [H0|H0].
      - rewrite (C96_simplicial_negative_l dt n times coord x Ar) by lia. eexists. apply (C24_diagonal_formula_l dt n d); auto. lia.
      - destruct (Z.eq_dec coord 0) as [->|H1]; eexists; [apply (C96_simplicial_zero_l dt n d); auto; lia|apply (C24_diagonal_formula_l dt n d); auto; lia]. }
    destruct G as (l & z & Ez & Wz & Tz & _). exists z. auto.
Qed.

(** ** cubical elements *)
Definition CC (times : Z) (G : list (list Z) -> Z) (s : list Z) : Z :=
  if times <? 0 then (if cube_dim s =? 0 then G [] else 0) else SC (Z.to_nat times) G s.
Lemma cub_body dt t times (s : list Z) l1 l2 v F (y : cubc) : 0 <= t -> dt_ok dt t -> den cls_cubical t tt F y ->
  returns (for_ (product_rep (zrange 0 (times + 1)) (Z.to_nat (py_count s 2))) y (fun answer p =>
             let! new_k := diag_cubes s times p in add_term dt cls_cubical answer answer (l1 ++ new_k ++ l2) (v * inv_sign p)))
    (den cls_cubical t tt (fun g => F g + v * CC times (fun u => g (l1 ++ u ++ l2)) s)).
Proof.
  intros Ht Hdt Hy. unfold CC. destruct (Z.ltb_spec times 0) as [Htm|Htm].
  - rewrite (zrange_nil 0 (times + 1)) by lia. change (py_count s 2) with (cube_dim s). pose proof (cube_dim_nonneg s). destruct (Z.eqb_spec (cube_dim s) 0) as [->|N].
    + change (product_rep [] (Z.to_nat 0)) with [@nil Z]. cbn [for_]. unfold diag_cubes. cbn [enumerate zlen length zrange map seq combine for_ bind].
      change (for_ (enumerate []) ?m ?f) with (@Ok (list (list Z)) m). cbn [bind]. rewrite (zrange_nil 0 (times + 1)) by lia. cbn [map].
      eapply returns_bind; [eapply (add_term_den cls_cubical ok_cubical dt t); eauto; [exact (proj1 Hy)|eexists; reflexivity]|].
      intros z Hz. eexists. split; [reflexivity|]. eapply den_ext; [|exact Hz]. intros g _. cbn beta. apply eqm_eq. change (inv_sign []) with 1. ring.
    + destruct (Z.to_nat (cube_dim s)) as [|m] eqn:Em; [lia|]. cbn [product_rep flat_map for_]. eexists. split; [reflexivity|].
      eapply den_ext; [|exact Hy]. intros g _. cbn beta. apply eqm_eq. ring.
  - fold (cube_dim s). eapply returns_mono.
    + apply (for_den cls_cubical t _ _ (fun p g => v * (inv_sign p * g (l1 ++ rows times s p ++ l2))) tt); [|exact Hy].
      intros p F1 y1 Hp Hy1. apply in_product_rep in Hp. destruct Hp as [Lp _]. rewrite diag_cubes_ok by (auto; unfold zlen; pose proof (cube_dim_nonneg s); lia). cbn [bind].
      eapply returns_mono; [eapply (add_term_den cls_cubical ok_cubical dt t); eauto; [exact (proj1 Hy1)|eexists; reflexivity]|].
      intros z Hz. eapply den_ext; [|exact Hz]. intros g _. cbn beta. apply eqm_eq. ring.
    + intros z Hz. eapply den_ext; [|exact Hz]. intros g _. cbn beta. apply eqm_eq. f_equal. rewrite sumf_scal. f_equal.
      apply (code_rows times s (fun u => g (l1 ++ u ++ l2))). exact Htm.
Qed.
Definition CCd (times coord : Z) (g : list (list Z) -> Z) (k : list (list Z)) : Z :=
  at_pos (coord - 1) (fun l1 s l2 => CC times (fun u => g (l1 ++ u ++ l2)) s) k.
Lemma CCd_ev times coord g k : CCd times coord g k = ev g (if times <? 0 then counit_at coord k else serre_at (Z.to_nat times) coord k).
Proof.
  unfold CCd, CC. destruct (times <? 0); [|apply SdC_serre].
  unfold at_pos, counit_at, ev. rewrite sumf_flat_map, cuts_splits. apply sumf_ext. intros [[l1 s] l2] _.
  destruct (zlen l1 =? coord - 1); [|reflexivity]. rewrite cube_dim_dim. destruct (dim s =? 0); [|reflexivity]. rewrite sumf_cons, sumf_nil. cbn [fst snd app]. ring.
Qed.

(** #C96_cubical_negative# As for simplicial elements, negative coordinates count from the end. *)
Lemma C96_cubical_negative_l (dt n times coord : Z) (x : cubc) :
  cub_arity x = Some n -> 1 - n <= coord < 0 ->
  cub_iterated_diagonal dt x times coord = cub_iterated_diagonal dt x times (coord + n).
Proof.
  intros Ar Hc. unfold cub_iterated_diagonal. rewrite Ar. destruct (cub_degree x) as [d|]; [|reflexivity].
  apply (proj1 (C27_arity_degree_l n 0 x)) in Ar. destruct Ar as [_ Kx].
  destruct (Z.ltb_spec n coord); [lia|]. destruct (Z.ltb_spec n (coord + n)); [lia|].
  destruct (zero dt cls_cubical x) as [y|]; [|reflexivity]. cbn [bind]. apply for_ext. intros s [k v] Hin.
  destruct (neg_slices k n coord (Kx _ _ Hin) Hc) as (-> & -> & ->). reflexivity.
Qed.
(** #C96_cubical_counit# A negative [times] is not rejected: it applies the counit to the factor [coord], which drops a vertex
    and kills a cube of positive dimension. *)
Lemma C96_cubical_counit_l (dt n d times coord : Z) (x : cubc) :
  wf cls_cubical x -> dt_ok dt (torsion x) -> cub_arity x = Some n -> cub_degree x = Some d -> 1 <= coord <= n -> times < 0 ->
  gives cls_cubical (cub_iterated_diagonal dt x times coord) (torsion x) tt (extend (counit_at coord) x).
Proof.
  intros Wx Hdt Ar De Hc Htm. pose proof (proj1 Wx) as Ht. pose proof (proj1 (proj1 (C27_arity_degree_l n d x)) Ar) as [_ K1].
  apply (den_gives cls_cubical ok_cubical _ _ (fun g => ev (fun k => CCd times coord g k) (data x))); [exact Ht| |].
  2:{ intros g _. apply eqm_eq. rewrite ev_extend. apply ev_ext. intros k v _. rewrite CCd_ev. destruct (Z.ltb_spec times 0); [reflexivity|lia]. }
  unfold cub_iterated_diagonal. rewrite De, Ar. destruct (Z.ltb_spec n coord); [lia|].
  eapply returns_bind; [apply (zero_den cls_cubical ok_cubical dt (torsion x)); auto|]. intros y0 Hy0. rewrite cub_attr in Hy0.
  eapply returns_mono.
  - apply (loop_den cls_cubical ok_cubical (torsion x) tt (data x) _ (fun k g => CCd times coord g k)); [|exact Hy0].
    intros k v F y Hin Hy. destruct (split_at k (coord - 1)) as (l1 & s & l2 & -> & E1); [rewrite (K1 _ _ Hin); lia|].
    rewrite <- E1, slice_to_app, py_get_app. cbn [bind]. replace coord with (zlen l1 + 1) by lia. rewrite slice_from_app_S.
    eapply returns_mono; [apply (cub_body dt (torsion x) times s l1 l2 v F y); auto|].
    intros z Hz. eapply den_ext; [|exact Hz]. intros g _. cbn beta. apply eqm_eq. unfold CCd. rewrite at_pos_app by lia. reflexivity.
  - intros z Hz. eapply den_ext; [|exact Hz]. intros g _. apply eqm_eq. reflexivity.
Qed.
(** #C96_cubical_zero# The coordinate 0 is not rejected: the last factor is replaced and the whole original tensor is appended. *)
Lemma C96_cubical_zero_l (dt n d times : Z) (x : cubc) :
  wf cls_cubical x -> dt_ok dt (torsion x) -> cub_arity x = Some n -> cub_degree x = Some d -> 1 <= n ->
  gives cls_cubical (cub_iterated_diagonal dt x times 0) (torsion x) tt
    (extend (fun k => map (fun p => (fst p ++ k, snd p)) (if times <? 0 then counit_at n k else serre_at (Z.to_nat times) n k)) x).
Proof.
  intros Wx Hdt Ar De Hn. pose proof (proj1 Wx) as Ht. pose proof (proj1 (proj1 (C27_arity_degree_l n d x)) Ar) as [_ K1].
  apply (den_gives cls_cubical ok_cubical _ _ (fun g => ev (fun k => CCd times n (fun u => g (u ++ k)) k) (data x))); [exact Ht| |].
  2:{ intros g _. apply eqm_eq. rewrite ev_extend. apply ev_ext. intros k v _. rewrite CCd_ev. unfold ev. rewrite sumf_map. reflexivity. }
  unfold cub_iterated_diagonal. rewrite De, Ar. destruct (Z.ltb_spec n 0); [lia|].
  eapply returns_bind; [apply (zero_den cls_cubical ok_cubical dt (torsion x)); auto|]. intros y0 Hy0. rewrite cub_attr in Hy0.
  eapply returns_mono.
  - apply (loop_den cls_cubical ok_cubical (torsion x) tt (data x) _ (fun k g => CCd times n (fun u => g (u ++ k)) k)); [|exact Hy0].
    intros k v F y Hin Hy. destruct (last_split k n (K1 _ _ Hin) Hn) as (l1 & s & -> & E1).
    destruct (zero_slices l1 s) as (-> & -> & ->). cbn [bind].
    eapply returns_mono; [apply (cub_body dt (torsion x) times s l1 (l1 ++ [s]) v F y); auto|].
    intros z Hz. eapply den_ext; [|exact Hz]. intros g _. cbn beta. apply eqm_eq. unfold CCd. rewrite at_pos_app by exact E1.
    f_equal. f_equal. unfold CC. destruct (times <? 0); [destruct (cube_dim s =? 0); [|reflexivity]; now rewrite app_nil_r|].
    rewrite !SC_sum. apply sumf_ext. intros [u e] _. cbn [fst snd]. rewrite app_nil_r, <- app_assoc. reflexivity.
  - intros z Hz. eapply den_ext; [|exact Hz]. intros g _. apply eqm_eq. reflexivity.
Qed.
(** #C96_cubical# [iterated_diagonal(times, coord)] accepts exactly homogeneous elements (in degree and arity) and coordinates
    from [1 - arity] to [arity], and every [times]. *)
Lemma C96_cubical_l (dt times coord : Z) (x : cubc) :
  wf cls_cubical x -> dt_ok dt (torsion x) ->
  (cub_degree x = None \/ cub_arity x = None -> cub_iterated_diagonal dt x times coord = Err TypeError) /\
  forall n d, cub_arity x = Some n -> cub_degree x = Some d ->
    (n < coord -> cub_iterated_diagonal dt x times coord = Err TypeError) /\
    (coord < 1 - n -> cub_iterated_diagonal dt x times coord = Err IndexError) /\
    (1 - n <= coord <= n -> exists z, cub_iterated_diagonal dt x times coord = Ok z /\ wf cls_cubical z /\ torsion z = torsion x).
Proof.
  intros Wx Hdt. split.
  { intros Hn. unfold cub_iterated_diagonal. destruct (cub_degree x); [|reflexivity]. destruct Hn as [Hn|Hn]; [discriminate|]. now rewrite Hn. }
  intros n d Ar De.
  pose proof (proj1 (proj1 (C27_arity_degree_l n d x)) Ar) as [N Kx].
  assert (Z0 : exists o, zero dt cls_cubical x = Ok o).
  { assert (R : returns (zero dt cls_cubical x) (fun _ => True)) by (eapply returns_mono; [apply (zero_den cls_cubical ok_cubical dt (torsion x)); auto; apply Wx|auto]). destruct R as (o & Eo & _). eauto. }
  destruct Z0 as [o Eo]. assert (Ed : exists k0 v0 l0, zlen k0 = n /\ data x = (k0, v0) :: l0).
  { clear -N Kx. destruct x as [[|[k0 v0] l0] tx ax]; [destruct N; reflexivity|]. exists k0, v0, l0. split; [|reflexivity]. apply (Kx k0 v0). now left. }
  destruct Ed as (k0 & v0 & l0 & L0 & Ed).
  split; [|split].
  - intros Hc. unfold cub_iterated_diagonal. rewrite De, Ar. destruct (Z.ltb_spec n coord); [reflexivity|lia].
  - intros Hc. unfold cub_iterated_diagonal. rewrite De, Ar. pose proof (zlen_nonneg k0). destruct (Z.ltb_spec n coord); [lia|]. rewrite Eo, Ed. cbn [bind for_]. now rewrite (low_get k0 n coord L0 Hc).
  - intros Hc.
    assert (Pos : forall c, 1 <= c <= n -> exists l, gives cls_cubical (cub_iterated_diagonal dt x times c) (torsion x) tt l).
    { intros c H1. destruct (Z_lt_le_dec times 0); eexists; [apply (C96_cubical_counit_l dt n d); auto|apply (C29_diagonal_formula_l dt n d); auto]. }
    assert (G : exists l, gives cls_cubical (cub_iterated_diagonal dt x times coord) (torsion x) tt l).
    { destruct (Z_lt_le_dec coord 0) as [H0|H0].
      - rewrite (C96_cubical_negative_l dt n times coord x Ar) by lia. apply Pos. lia.
      - destruct (Z.eq_dec coord 0) as [->|H1]; [eexists; apply (C96_cubical_zero_l dt n d); auto; lia|apply Pos; lia]. }
    destruct G as (l & z & Ez & Wz & Tz & _). exists z. auto.
Qed.

(** ** the action of surjections *)
Lemma zero_ok {K A} `{KeyOk K} (c : pycls K) dt (x : elt K A) : cls_ok c -> wf c x -> dt_ok dt (torsion x) -> exists o, zero dt c x = Ok o.
Proof.
  intros Hc Wx Hdt. assert (R : returns (zero dt c x) (fun _ => True)) by (eapply returns_mono; [apply (zero_den c Hc dt (torsion x)); auto; apply Wx|auto]).
  destruct R as (o & Eo & _). eauto.
Qed.
(** #C96_call# A surjection element of arity [r] and degree [d] applied to an element that is not homogeneous raises [TypeError]; a coordinate
    below [1 - arity] raises [IndexError].  (Above the arity: C50 and C51.) *)
Lemma C96_call_l (dt r d n coord : Z) (x : surj) (y : simp) (z : cubc) :
  1 <= r -> keys_in (surj_cell r d) x -> ~ is_zero x ->
  (wf cls_simplicial y -> ~ is_zero y -> torsion x = torsion y -> dt_ok dt (torsion y) -> attr x = MS ->
     (simp_arity y = None \/ simp_degree y = None -> surj_call_simplicial dt x y coord = Err TypeError) /\
     (forall e, simp_arity y = Some n -> simp_degree y = Some e -> coord < 1 - n -> surj_call_simplicial dt x y coord = Err IndexError)) /\
  (wf cls_cubical z -> ~ is_zero z -> torsion x = torsion z -> dt_ok dt (torsion z) ->
     (cub_arity z = None \/ cub_degree z = None -> surj_call_cubical dt x z coord = Err TypeError) /\
     (forall e, cub_arity z = Some n -> cub_degree z = Some e -> coord < 1 - n -> surj_call_cubical dt x z coord = Err IndexError)).
Proof.
  intros Hr Kx Nx. unfold is_zero in *. assert (E1 : dempty (data x) = false) by (destruct (data x); [congruence|reflexivity]).
  assert (Ca : forall t oa, call_check x t oa coord = match oa with None => Err TypeError | Some m => if m <? coord then Err TypeError else if negb (torsion x =? t) then Err TypeError else Ok (r, d) end).
  { intros t oa. unfold call_check. rewrite (surj_degree_ok r d) by assumption. rewrite (surj_arity_ok r) by (try assumption; intros k v Hin; apply (Kx _ _ Hin)). reflexivity. }
  split.
  - intros Wy Ny Et Hdt Ax. assert (E2 : dempty (data y) = false) by (destruct (data y); [congruence|reflexivity]).
    unfold surj_call_simplicial. rewrite E1, E2, Ca, Ax, Et, Z.eqb_refl. cbn [orb negb]. destruct (zero_ok cls_simplicial dt y ok_simplicial Wy Hdt) as [o Eo].
    pose proof (fun tm => C96_simplicial_l dt tm coord y Wy Hdt) as Sd. split.
    + intros Hn. destruct (simp_arity y) as [m|] eqn:Ea; [|reflexivity]. destruct (m <? coord); [reflexivity|]. cbn [bind fst snd]. unfold surj_call_simplicial_body. rewrite Eo. cbn [bind].
      rewrite (proj1 (Sd _)) by (destruct Hn; [discriminate|now left]). reflexivity.
    + intros e Ea Ee Hc. rewrite Ea. pose proof (proj1 (proj1 (C20_arity_degree_l n e y)) Ea) as [_ Kn].
      assert (0 <= n). { destruct y as [[|[k v] l] ty ay]; [destruct Ny; reflexivity|]. specialize (Kn k v (or_introl eq_refl)). cbn beta in Kn. pose proof (zlen_nonneg k). lia. }
      destruct (Z.ltb_spec n coord); [lia|]. cbn [bind fst snd]. unfold surj_call_simplicial_body. rewrite Eo. cbn [bind].
      destruct (proj2 (Sd (r + d - 1)) n e Ea Ee) as (_ & -> & _); [reflexivity|exact Hc].
  - intros Wy Ny Et Hdt. assert (E2 : dempty (data z) = false) by (destruct (data z); [congruence|reflexivity]).
    unfold surj_call_cubical. rewrite E1, E2, Ca, Et, Z.eqb_refl. cbn [orb negb]. destruct (zero_ok cls_cubical dt z ok_cubical Wy Hdt) as [o Eo].
    pose proof (fun tm => C96_cubical_l dt tm coord z Wy Hdt) as Sd. split.
    + intros Hn. destruct (cub_arity z) as [m|] eqn:Ea; [|reflexivity]. destruct (m <? coord); [reflexivity|]. cbn [bind fst snd]. unfold surj_call_cubical_body. rewrite Eo. cbn [bind].
      rewrite (proj1 (Sd _)) by (destruct Hn; [discriminate|now left]). reflexivity.
    + intros e Ea Ee Hc. rewrite Ea. pose proof (proj1 (proj1 (C27_arity_degree_l n e z)) Ea) as [_ Kn].
      assert (0 <= n). { destruct z as [[|[k v] l] ty ay]; [destruct Ny; reflexivity|]. specialize (Kn k v (or_introl eq_refl)). cbn beta in Kn. pose proof (zlen_nonneg k). lia. }
      destruct (Z.ltb_spec n coord); [lia|]. cbn [bind fst snd]. unfold surj_call_cubical_body. rewrite Eo. cbn [bind].
      destruct (proj2 (Sd (r + d - 1)) n e Ea Ee) as (_ & -> & _); [reflexivity|exact Hc].
Qed.

(** ** positions of composition *)
Lemma lp_nil {X Y} (l : list X) : list_prod l (@nil Y) = [].
Proof. induction l as [|a l IH]; [reflexivity|exact IH]. Qed.
Lemma times_out i k : ~ In i k -> times_in i k = 0.
Proof. induction k as [|a k IH]; intros N; [reflexivity|]. cbn [times_in]. destruct (Z.eqb_spec a i) as [->|]; [destruct N; now left|]. rewrite IH; [reflexivity|]. intros Hin. apply N. now right. Qed.
Lemma index_out i k : ~ In i k -> py_index k i = Err ValueError.
Proof.
  unfold py_index. generalize 0. induction k as [|a k IH]; intros off N; [reflexivity|]. cbn [index_from]. destruct (Z.eqb_spec a i) as [->|]; [destruct N; now left|].
  apply IH. intros Hin. apply N. now right.
Qed.
(** #C96_position# [x.compose(y, i)] of non-zero elements of the group ring or of the surjection operad, [x] of arity [n], raises [ValueError] when [i] is not one of
    [1, ..., n], whatever the conventions are; if [x] or [y] is zero the composition is zero for every integer [i].  (For Barratt-Eccles elements: C37.) *)
Lemma C96_position_l (dt n m i : Z) (x y : surj) (a b : ring) :
  (wf cls_surj x -> wf cls_surj y -> dt_ok dt (torsion x) -> 1 <= m -> keys_in (onto n) x -> keys_in (onto m) y -> ~ is_zero x -> ~ is_zero y ->
     ~ 1 <= i <= n -> surj_compose dt x y i = Err ValueError) /\
  (wf cls_ring a -> torsion a = torsion b -> dt_ok dt (torsion a) -> keys_in (fun k => is_sge k = true /\ perm n (kval k)) a -> ~ is_zero a -> ~ is_zero b ->
     ~ 1 <= i <= n -> ring_compose dt a b i = Err ValueError) /\
  (keys_in (fun k => k <> []) y -> is_zero x \/ is_zero y -> surj_compose dt x y i = zero dt cls_surj x) /\
  (torsion a = torsion b -> is_zero a \/ is_zero b -> ring_compose dt a b i = zero dt cls_ring a).
Proof.
  split; [|split; [|split]].
  - intros Wx Wy Hdt Hm Kx Ky Nx Ny Hi. unfold surj_compose. destruct (zero_ok cls_surj dt x ok_surj Wx Hdt) as [o ->]. cbn [bind].
    rewrite (surj_arity_ok m) by assumption. cbn [bind]. unfold is_zero in *.
    destruct x as [[|[k1 v1] l1] tx ax]; [destruct Nx; reflexivity|]. destruct y as [[|[k2 v2] l2] ty ay]; [destruct Ny; reflexivity|]. cbn [data torsion attr].
    cbn [list_prod map app for_]. rewrite pos_code, zlen_pos. rewrite times_out; [reflexivity|]. intros Hin. apply Hi. apply (Kx k1 v1 (or_introl eq_refl)), Hin.
  - intros Wa Et Hdt Ka Na Nb Hi. unfold ring_compose, is_zero in *.
    destruct (zero_ok cls_ring dt a ok_ring Wa Hdt) as [o Eo]. rewrite Et, Z.eqb_refl. cbn [negb]. rewrite Eo. clear Eo.
    destruct a as [[|[k1 v1] l1] tx ax]; [destruct Na; reflexivity|]. destruct b as [[|[k2 v2] l2] ty ay]; [destruct Nb; reflexivity|]. cbn [data torsion attr dempty bind].
    cbn [list_prod map app for_]. destruct (Ka k1 v1 (or_introl eq_refl)) as [-> Hp]. unfold sg_compose. rewrite index_out; [reflexivity|].
    intros Hin. apply Hi. eapply (Permutation_in i) in Hp; [|exact Hin]. apply in_zrange in Hp. lia.
  - intros Ky Hz. unfold surj_compose. assert (Ea : exists oa, surj_arity y = Ok oa).
    { unfold surj_arity. destruct (dempty (data y)); [eauto|]. destruct (mapM_ok py_max (dkeys (data y))) as [rs ->]; [|cbn [bind]; destruct (zset rs) as [|? [|]]; eauto].
      intros k Hk. apply in_map_iff in Hk. destruct Hk as ([k' v] & <- & Hin). apply Ky in Hin. cbn [fst]. destruct k'; [congruence|]. cbn. eauto. }
    destruct Ea as [oa ->]. destruct (zero dt cls_surj x) as [o|]; cbn [bind]; [|reflexivity].
    destruct x as [l1 tx ax], y as [l2 ty ay]. unfold is_zero in Hz. cbn [data] in *. destruct Hz as [-> | ->]; [reflexivity|]. now rewrite lp_nil.
  - intros Et Hz. unfold ring_compose. rewrite Et, Z.eqb_refl. cbn [negb]. destruct (zero dt cls_ring a) as [o|]; cbn [bind]; [|now destruct (dempty (data a))].
    destruct a as [l1 tx ax], b as [l2 ty ay]. unfold is_zero in Hz. cbn [data] in *. destruct Hz as [-> | ->]; [reflexivity|]. rewrite lp_nil. now destruct (dempty l1).
Qed.

(** ** single simplices *)
(** #C96_face# [face(i)]: [0 <= i <= dim] removes the vertex [i]; indices from [-dim - 1] to [-2] count from the end;
    other indices except [-1] return the simplex unchanged; [face(-1)] does not remove the last vertex: it
    returns the simplex without its last vertex followed by the whole simplex. *)
Lemma C96_face_l (s : list Z) (i : Z) :
  (forall l1 v l2, s = l1 ++ v :: l2 -> zlen l1 = i -> spx_face s i = l1 ++ l2) /\
  (- zlen s <= i < -1 -> spx_face s i = spx_face s (i + zlen s)) /\
  (i < - zlen s \/ zlen s <= i -> i <> -1 -> spx_face s i = s) /\
  (forall l v, s = l ++ [v] -> spx_face s (-1) = l ++ l ++ [v]).
Proof.
  split; [|split; [|split]].
  - intros l1 v l2 -> <-. unfold spx_face. now rewrite slice_to_app, slice_from_app_S.
  - intros Hi. unfold spx_face, slice_to, slice_from, clamp. destruct (Z.ltb_spec i 0); [|lia]. destruct (Z.ltb_spec (i + zlen s) 0); [lia|]. destruct (Z.ltb_spec (i + 1) 0); [|lia].
    destruct (Z.ltb_spec (i + zlen s + 1) 0); [lia|]. f_equal; do 2 f_equal; lia.
  - intros Hi N. unfold spx_face, slice_to, slice_from, clamp. pose proof (zlen_nonneg s).
    destruct Hi as [Hi|Hi].
    + destruct (Z.ltb_spec i 0); [|lia]. destruct (Z.ltb_spec (i + 1) 0); [|lia]. rewrite !Z.max_l by lia. reflexivity.
    + destruct (Z.ltb_spec i 0); [lia|]. destruct (Z.ltb_spec (i + 1) 0); [lia|]. rewrite !Z.min_r by lia. rewrite firstn_all2 by (unfold zlen; lia). rewrite skipn_all2 by (unfold zlen; lia). apply app_nil_r.
  - intros l v ->. unfold spx_face. destruct (zero_slices l v) as (E & _ & E2). change (-1) with (0 - 1). rewrite E. replace (0 - 1 + 1) with 0 by lia. now rewrite E2.
Qed.
(** #C96_degeneracy# [degeneracy(i)]: [0 <= i <= dim] repeats the vertex [i]; indices from [-dim - 1] to [-2] count from the
    end; other indices except [-1] return the simplex unchanged; [degeneracy(-1)] returns the last vertex alone. *)
Lemma C96_degeneracy_l (s : list Z) (i : Z) :
  (forall l1 v l2, s = l1 ++ v :: l2 -> zlen l1 = i -> spx_degeneracy s i = l1 ++ v :: v :: l2) /\
  (- zlen s <= i < -1 -> spx_degeneracy s i = spx_degeneracy s (i + zlen s)) /\
  (i < - zlen s \/ zlen s <= i -> i <> -1 -> spx_degeneracy s i = s) /\
  (forall l v, s = l ++ [v] -> spx_degeneracy s (-1) = [v]).
Proof.
  split; [|split; [|split]].
  - intros l1 v l2 -> <-. unfold spx_degeneracy. rewrite slice_to_app_S, slice_from_app, <- app_assoc. reflexivity.
  - intros Hi. unfold spx_degeneracy, slice_to, slice_from, clamp. destruct (Z.ltb_spec i 0); [|lia]. destruct (Z.ltb_spec (i + zlen s) 0); [lia|]. destruct (Z.ltb_spec (i + 1) 0); [|lia].
    destruct (Z.ltb_spec (i + zlen s + 1) 0); [lia|]. f_equal; do 2 f_equal; lia.
  - intros Hi N. unfold spx_degeneracy, slice_to, slice_from, clamp. pose proof (zlen_nonneg s).
    destruct Hi as [Hi|Hi].
    + destruct (Z.ltb_spec i 0); [|lia]. destruct (Z.ltb_spec (i + 1) 0); [|lia]. rewrite !Z.max_l by lia. reflexivity.
    + destruct (Z.ltb_spec i 0); [lia|]. destruct (Z.ltb_spec (i + 1) 0); [lia|]. rewrite !Z.min_r by lia. rewrite firstn_all2 by (unfold zlen; lia). rewrite skipn_all2 by (unfold zlen; lia). apply app_nil_r.
  - intros l v ->. unfold spx_degeneracy. assert (L : zlen (l ++ [v]) = zlen l + 1) by (rewrite zlen_app, zlen_cons, zlen_nil; lia). pose proof (zlen_nonneg l).
    transitivity (slice_from (l ++ [v]) (zlen l)); [|apply slice_from_app]. unfold slice_to, slice_from, clamp. rewrite L. change (-1 + 1 <? 0) with false. change (-1 <? 0) with true. cbn iota.
    destruct (Z.ltb_spec (zlen l) 0); [lia|]. replace (Z.min (-1 + 1) (zlen l + 1)) with 0 by lia. change (firstn (Z.to_nat 0) (l ++ [v])) with (@nil Z). cbn [app]. do 2 f_equal. lia.
Qed.

(** #C96_example# For [x = [0,1] (x) [0,1,2] (x) [0,1]]: the coordinate [-1] is the coordinate 2, the coordinate 0 gives an element
    of arity 7 and degree 8; for the square [2] (x) [0]: [times = -1] is the counit; [(1,2,1)] composed at the positions 0 and 3. *)
Example C96_example_l :
  let x := mkElt [([[0;1];[0;1;2];[0;1]], 1)] 0 tt in
  let y := mkElt [([[2];[0]], 1)] 0 tt in
  let w := mkElt [([1;2;1], 1)] 0 BF in
  wf cls_simplicial x /\ simp_arity x = Some 3 /\ simp_degree x = Some 4 /\ wf cls_cubical y /\ cub_arity y = Some 2 /\ cub_degree y = Some 1 /\
  simp_iterated_diagonal 0 x 1 (-1) = simp_iterated_diagonal 0 x 1 2 /\
  simp_iterated_diagonal 0 x 1 0 = Ok (mkElt [([[0;1];[0;1;2];[0];[0;1];[0;1];[0;1;2];[0;1]], 1); ([[0;1];[0;1;2];[0;1];[1];[0;1];[0;1;2];[0;1]], 1)] 0 tt) /\
  simp_iterated_diagonal 0 x (-1) 1 = Err ValueError /\ simp_iterated_diagonal 0 x 1 (-3) = Err IndexError /\ simp_iterated_diagonal 0 x 1 4 = Err TypeError /\
  cub_iterated_diagonal 0 y (-1) 2 = Ok (mkElt [([[2]], 1)] 0 tt) /\ cub_iterated_diagonal 0 y (-1) 1 = Ok (mkElt [] 0 tt) /\
  cub_iterated_diagonal 0 y 1 0 = Ok (mkElt [([[2];[0];[0];[2];[0]], 1)] 0 tt) /\
  surj_compose 0 w w 0 = Err ValueError /\ surj_compose 0 w w 3 = Err ValueError /\
  spx_face [4;5;6] (-1) = [4;5;4;5;6] /\ spx_face [4;5;6] (-2) = [4;6] /\ spx_face [4;5;6] 3 = [4;5;6].
Proof.
  cbv zeta. split; [apply wfb_wf; reflexivity|]. do 2 (split; [reflexivity|]). split; [apply wfb_wf; reflexivity|].
  repeat (split; [vm_compute; reflexivity|]). vm_compute. reflexivity.
Qed.
