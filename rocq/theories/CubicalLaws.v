(** * Laws of cubical chains (C27-C33). *)
From Coq Require Import Setoid Morphisms.
From Verif Require Import PyBase Dict FreeModule Symmetric Simplicial Cubical Eqm Spec SpecChain SpecCube FreeModuleFacts FreeModuleLaws ListFacts ClassFacts LinearFacts SymmetricFacts
  CycleFacts SymmetricLaws RingFacts Tensor TensorAct KoszulFacts LoopFacts SimplicialFacts SimplicialDiag SimplicialLaws CubicalFacts CubicalDiag CubicalJoin CubicalSerre.

Definition noc (c : list Z) : bool := false.
Lemma cbad k : bad cls_cubical k = Ok (existsb noc k). Proof. cbn. f_equal. induction k; auto. Qed.
Lemma cck k : ckey cls_cubical k = k. Proof. reflexivity. Qed.
Lemma fdC_bad g c : (forall u, noc u = true -> g u = 0) -> noc c = true -> fdC g c = 0. Proof. discriminate. Qed.
Lemma cdeg k : cube_degree k = tdeg cube_dim k.
Proof. unfold cube_degree, tdeg. f_equal. apply map_ext. intros c. symmetry. apply cube_dim_dim. Qed.
Lemma cub_faces_tD g k : ev g (cub_faces k) = tDC g k.
Proof.
  rewrite tD_splits. unfold cub_faces, ev. rewrite sumf_flat_map, cuts_splits. apply sumf_ext. intros [[l1 s] l2] _. rewrite fdC_splits, sumf_map.
  unfold cube_faces. rewrite cuts_splits, sumf_flat_map, <- sumf_scal. apply sumf_ext. intros [[m1 a] m2] _. rewrite cdeg, <- (cube_dim_dim m1).
  destruct (a =? 2); rewrite ?sumf_cons, ?sumf_nil; cbn [fst snd]; ring.
Qed.

(** #C27_boundary_formula# The boundary of a tensor product of cubes is the
    signed sum of the tensor products with one interval replaced by its end
    points, extended linearly. *)
Lemma C27_boundary_formula_l (dt : Z) (x : cubc) : wf cls_cubical x -> dt_ok dt (torsion x) ->
  gives cls_cubical (cub_boundary dt x) (torsion x) tt (extend cub_faces x).
Proof.
  intros Wx Hdt. pose proof (proj1 Wx) as Ht. eapply (den_gives cls_cubical ok_cubical); [exact Ht|now apply cub_boundary_den|].
  intros g _. cbn beta. apply eqm_eq. rewrite ev_extend. apply ev_ext. intros k v _. symmetry. apply cub_faces_tD.
Qed.
(** #C27_boundary_squared# *)
Lemma C27_boundary_squared_l (dt : Z) (x : cubc) : wf cls_cubical x -> dt_ok dt (torsion x) ->
  same (let! y := cub_boundary dt x in cub_boundary dt y) (zero dt cls_cubical x).
Proof.
  intros Wx Hdt. exact (bnd_bnd cls_cubical noc cbad cck fbC cube_dim dim_fbC fdC_fdC fdC_bad dt (cub_boundary dt) (fun t x => cub_boundary_den dt t x) x Hdt Wx).
Qed.
(** #C27_boundary_linear# *)
Lemma C27_boundary_linear_l (dt n : Z) (x y : cubc) : wf cls_cubical x -> wf cls_cubical y -> torsion y = torsion x -> dt_ok dt (torsion x) ->
  same (let! s := add dt cls_cubical x y in cub_boundary dt s)
       (let! p := cub_boundary dt x in let! q := cub_boundary dt y in add dt cls_cubical p q) /\
  same (let! s := scale dt cls_cubical n x in cub_boundary dt s)
       (let! p := cub_boundary dt x in scale dt cls_cubical n p).
Proof.
  intros Wx Wy Ty Hdt. split.
  - exact (bnd_add cls_cubical noc cbad cck fbC cube_dim fdC_bad dt (cub_boundary dt) (fun t x => cub_boundary_den dt t x) x y Hdt Wx Wy Ty).
  - exact (bnd_scale cls_cubical noc cbad cck fbC cube_dim fdC_bad dt (cub_boundary dt) (fun t x => cub_boundary_den dt t x) n x Hdt Wx).
Qed.
(** #C27_boundary_degree# The boundary keeps the arity and lowers the degree
    by one. *)
Lemma C27_boundary_degree_l (dt n d : Z) (x : cubc) : wf cls_cubical x -> dt_ok dt (torsion x) ->
  keys_in (fun k => zlen k = n /\ cube_degree k = d) x ->
  exists y, cub_boundary dt x = Ok y /\ wf cls_cubical y /\ torsion y = torsion x /\
    keys_in (fun k => zlen k = n /\ cube_degree k = d - 1) y /\
    (~ is_zero y -> cub_arity y = Some n /\ cub_degree y = Some (d - 1)).
Proof.
  intros Wx Hdt Kx. assert (Kx' : keys_in (kdegC n d) x) by (intros k v Hin; unfold kdeg; rewrite <- cdeg; exact (Kx _ _ Hin)).
  destruct (bnd_deg cls_cubical cck fbC cube_dim dim_fbC dt (cub_boundary dt) (fun t x => cub_boundary_den dt t x) n d x Hdt Wx Kx') as (y & E & Wy & Ty & Ky).
  exists y. split; [exact E|]. split; [exact Wy|]. split; [exact Ty|]. split; [intros k v Hin; rewrite cdeg; exact (Ky _ _ Hin)|]. intros N. split.
  - apply tensor_arity_ok; [|exact N]. intros k v Hin. exact (proj1 (Ky _ _ Hin)).
  - now apply (cub_degree_ok n).
Qed.
(** #C27_arity_degree# The properties [arity] and [degree] have a value
    exactly for the non-zero elements all of whose basis elements have that
    number of factors, and that degree. *)
Lemma C27_arity_degree_l (n d : Z) (x : cubc) :
  (cub_arity x = Some n <-> ~ is_zero x /\ keys_in (fun k => zlen k = n) x) /\
  (cub_degree x = Some d <-> ~ is_zero x /\ keys_in (fun k => cube_degree k = d) x).
Proof.
  split; [unfold cub_arity, tensor_arity|unfold cub_degree]; rewrite opt_of_zset.
  - apply keys_of.
  - rewrite (map_ext _ cube_degree) by (intros k; rewrite cdeg; reflexivity). apply keys_of.
Qed.
(** #C27_basis# [Cubical.basis(n)] lists exactly once each tuple of length n of 0, 1 and 2. *)
Lemma C27_basis_l (n : Z) : 0 <= n ->
  NoDup (cub_basis_keys n) /\ forall k, In k (cub_basis_keys n) <-> exists c, k = [c] /\ zlen c = n /\ is_cube c.
Proof.
  intros Hn. unfold cub_basis_keys. split.
  - apply FinFun.Injective_map_NoDup; [intros ? ? E; congruence|]. induction (Z.to_nat n) as [|m IH]; [repeat constructor; auto|].
    cbn [product_rep flat_map]. rewrite app_nil_r.
    assert (Hm : forall a, NoDup (map (cons a) (product_rep [0; 1; 2] m))) by (intros a; apply FinFun.Injective_map_NoDup; [intros ? ? E; congruence|exact IH]).
    apply NoDup_app_intro; [apply Hm|apply NoDup_app_intro; [apply Hm|apply Hm|]|].
    + intros c H1 H2. apply in_map_iff in H1, H2. destruct H1 as (? & <- & _), H2 as (? & E & _). discriminate.
    + intros c H1 H2. rewrite in_app_iff, !in_map_iff in H2. apply in_map_iff in H1. destruct H1 as (? & <- & _), H2 as [(? & E & _)|(? & E & _)]; discriminate.
  - intros k. rewrite in_map_iff. split.
    + intros (c & <- & Hc). apply in_product_rep in Hc. destruct Hc as [L H]. exists c. split; [reflexivity|]. split; [unfold zlen; lia|]. intros a Ha. specialize (H a Ha). cbn in H. intuition.
    + intros (c & -> & L & H). exists c. split; [reflexivity|]. apply in_product_rep. split; [unfold zlen in L; lia|]. intros a Ha. specialize (H a Ha). cbn. intuition.
Qed.
(** #C27_basis_elements# The elements of the basis, and the standard
    element: the tensor power of the cube. *)
Lemma C27_basis_elements_l (dt n times t : Z) (ot : option Z) :
  t = match ot with Some t => t | None => dt end -> 0 <= t -> t <> 1 ->
  cub_basis dt n ot = map (fun k => Ok (mkElt [(k, 1)] t tt)) (cub_basis_keys n) /\
  cub_standard_element dt n times ot = Ok (mkElt [(repeat (repeat 2 (Z.to_nat n)) (Z.to_nat times), 1)] t tt).
Proof.
  intros Et Ht N. split.
  - unfold cub_basis. apply map_ext_in. intros k _. apply (new_basis_gen cls_cubical); auto.
  - unfold cub_standard_element. apply (new_basis_gen cls_cubical); auto.
Qed.
(** #C27_example# *)
Example C27_example_l :
  let x := mkElt [([[2; 0]; [1; 2; 2]], 1)] 0 tt in
  wf cls_cubical x /\ keys_in (fun k => zlen k = 2 /\ cube_degree k = 3) x /\
  cub_boundary 0 x = Ok (mkElt [([[1; 0]; [1; 2; 2]], 1); ([[0; 0]; [1; 2; 2]], -1); ([[2; 0]; [1; 1; 2]], -1); ([[2; 0]; [1; 0; 2]], 1); ([[2; 0]; [1; 2; 1]], 1); ([[2; 0]; [1; 2; 0]], -1)] 0 tt).
Proof.
  cbn zeta. split; [apply wfb_wf; reflexivity|]. split; [|reflexivity]. intros k v [[= <- <-]|[]]. split; reflexivity.
Qed.

(** ** Action of the symmetric group ring *)
Lemma cub_act_tact dt : cub_act dt = tact cls_cubical cube_dim dt. Proof. reflexivity. Qed.
Lemma placed_koszul p k : koszul dim p k = koszul cube_dim p k.
Proof.
  unfold koszul. do 5 f_equal. apply map_ext. intros c. symmetry. apply cube_dim_dim.
Qed.
(** #C28_action_formula# The action of a permutation rearranges the factors
    with the Koszul sign; it is extended bilinearly. *)
Lemma C28_action_formula_l (dt n : Z) (a : ring) (x : cubc) :
  1 <= n -> wf cls_ring a -> wf cls_cubical x -> torsion a = torsion x -> dt_ok dt (torsion x) ->
  keys_in (fun k => perm n (kval k)) a -> keys_in (fun k => zlen k = n) x -> ~ is_zero a -> ~ is_zero x ->
  gives cls_cubical (cub_act dt a x) (torsion x) tt (extend2 (fun p k => koszul dim (kval p) k) a x).
Proof.
  intros Hn Wa Wx Ta Hdt Ka Kx Na Nx. rewrite cub_act_tact.
  apply (act_gives cls_cubical noc cbad cck cube_dim dt n); auto.
  intros g k2 k1 H2 H1. rewrite placed_koszul. apply (koszul_kact n); auto. lia.
Qed.
(** #C28_left_action# (a * b) * x == a * (b * x), extended by zero. *)
Lemma C28_left_action_l (dt n : Z) (a b : ring) (x : cubc) :
  1 <= n -> wf cls_ring a -> wf cls_ring b -> wf cls_cubical x -> torsion a = torsion x -> torsion b = torsion x -> dt_ok dt (torsion x) ->
  keys_in (fun k => perm n (kval k)) a -> keys_in (fun k => perm n (kval k)) b -> keys_in (fun k => zlen k = n) x ->
  same (let! ab := ring_mul dt a b in extended dt cls_cubical (cub_act dt) ab x)
       (let! bx := extended dt cls_cubical (cub_act dt) b x in extended dt cls_cubical (cub_act dt) a bx).
Proof.
  intros Hn Wa Wb Wx Ta Tb Hdt Ka Kb Kx. rewrite cub_act_tact.
  exact (act_assoc cls_cubical noc cbad cck cube_dim dt n a b x Hn Hdt Wa Wb Wx Ta Tb Ka Kb Kx).
Qed.
(** #C28_unit# *)
Lemma C28_unit_l (dt n : Z) (x : cubc) :
  1 <= n -> wf cls_cubical x -> dt_ok dt (torsion x) -> torsion x <> 1 -> keys_in (fun k => zlen k = n) x ->
  same (let! e := identity_element dt n (Some (torsion x)) in extended dt cls_cubical (cub_act dt) e x) (Ok x).
Proof.
  intros Hn Wx Hdt N Kx. rewrite cub_act_tact.
  exact (act_unit cls_cubical noc cbad cck cube_dim dt n x Hn Hdt N Wx Kx).
Qed.
(** #C28_bilinear# *)
Lemma C28_bilinear_l (dt n : Z) (a b : ring) (x y : cubc) :
  1 <= n -> wf cls_ring a -> wf cls_ring b -> wf cls_cubical x -> wf cls_cubical y ->
  torsion a = torsion x -> torsion b = torsion x -> torsion y = torsion x -> dt_ok dt (torsion x) ->
  keys_in (fun k => perm n (kval k)) a -> keys_in (fun k => perm n (kval k)) b ->
  keys_in (fun k => zlen k = n) x -> keys_in (fun k => zlen k = n) y ->
  same (let! s := add dt cls_ring a b in extended dt cls_cubical (cub_act dt) s x)
       (let! p := extended dt cls_cubical (cub_act dt) a x in let! q := extended dt cls_cubical (cub_act dt) b x in add dt cls_cubical p q) /\
  same (let! s := add dt cls_cubical x y in extended dt cls_cubical (cub_act dt) a s)
       (let! p := extended dt cls_cubical (cub_act dt) a x in let! q := extended dt cls_cubical (cub_act dt) a y in add dt cls_cubical p q).
Proof.
  intros Hn Wa Wb Wx Wy Ta Tb Ty Hdt Ka Kb Kx Ky. rewrite cub_act_tact. split.
  - exact (act_add_l cls_cubical noc cbad cck cube_dim dt n a b x Hn Hdt Wa Wb Wx Ta Tb Ka Kb Kx).
  - exact (act_add_r cls_cubical noc cbad cck cube_dim dt n a x y Hn Hdt Wa Wx Wy Ta Ty Ka Kx Ky).
Qed.
(** #C28_mismatch# The action between different torsions or arities raises TypeError. *)
Lemma C28_mismatch_l (dt n m : Z) (a : ring) (x : cubc) :
  (torsion a <> torsion x -> cub_act dt a x = Err TypeError) /\
  (ring_arity a = Ok (Some n) -> cub_arity x = Some m -> n <> m -> cub_act dt a x = Err TypeError).
Proof.
  unfold cub_act. split.
  - intros N. destruct (Z.eqb_spec (torsion x) (torsion a)); [congruence|reflexivity].
  - intros -> -> N. destruct (negb (torsion x =? torsion a)); [reflexivity|]. cbn [bind opt_eqb]. destruct (Z.eqb_spec m n); [congruence|reflexivity].
Qed.
(** #C28_action_boundary# boundary(a * x) == a * boundary(x), extended by zero. *)
Lemma C28_action_boundary_l (dt n : Z) (a : ring) (x : cubc) :
  1 <= n -> wf cls_ring a -> wf cls_cubical x -> torsion a = torsion x -> dt_ok dt (torsion x) ->
  keys_in (fun k => perm n (kval k)) a -> keys_in (fun k => zlen k = n) x ->
  same (let! y := extended dt cls_cubical (cub_act dt) a x in cub_boundary dt y)
       (let! y := cub_boundary dt x in extended dt cls_cubical (cub_act dt) a y).
Proof.
  intros Hn Wa Wx Ta Hdt Ka Kx. rewrite cub_act_tact.
  exact (act_bnd cls_cubical noc cbad cck fbC cube_dim dim_fbC fdC_bad dt (cub_boundary dt) (fun t x => cub_boundary_den dt t x) n a x Hn Hdt Wa Wx Ta Ka Kx).
Qed.
(** #C28_example# *)
Example C28_example_l :
  let x := mkElt [([[2; 0]; [1; 2]; [0; 0]], 1)] 0 tt in
  let a := mkElt [(SGE [2; 1; 3], 1); (SGE [3; 1; 2], 5)] 0 tt in
  wf cls_cubical x /\ wf cls_ring a /\ keys_in (fun k => perm 3 (kval k)) a /\ keys_in (fun k => zlen k = 3) x /\
  cub_act 0 a x = Ok (mkElt [([[1; 2]; [2; 0]; [0; 0]], -1); ([[1; 2]; [0; 0]; [2; 0]], -5)] 0 tt).
Proof.
  cbn zeta. split; [apply wfb_wf; reflexivity|]. split; [apply wfb_wf; reflexivity|]. split; [|split; [|reflexivity]].
  - intros k v [[= <- <-]|[[= <- <-]|[]]]; cbn [kval SGE]; apply perm_of_incl; try lia; try reflexivity;
    intros i Hi; (assert (i = 1 \/ i = 2 \/ i = 3) as [-> | [-> | ->]] by lia); cbn; tauto.
  - intros k v [[= <- <-]|[]]. reflexivity.
Qed.

(** ** Serre diagonal *)
(** #C29_diagonal_formula# [iterated_diagonal(times, coord)] is the iterated
    Serre diagonal of the factor [coord], extended linearly. *)
Lemma C29_diagonal_formula_l (dt n d times coord : Z) (x : cubc) :
  wf cls_cubical x -> dt_ok dt (torsion x) -> cub_arity x = Some n -> cub_degree x = Some d ->
  1 <= coord <= n -> 0 <= times ->
  gives cls_cubical (cub_iterated_diagonal dt x times coord) (torsion x) tt (extend (serre_at (Z.to_nat times) coord) x).
Proof.
  intros Wx Hdt Ar De Hc Htm. pose proof (proj1 Wx) as Ht.
  apply (proj1 (C27_arity_degree_l n d x)) in Ar. apply (proj2 (C27_arity_degree_l n d x)) in De. destruct Ar as [N K1], De as [_ K2].
  eapply (den_gives cls_cubical ok_cubical); [exact Ht| |].
  - apply (diagC_den dt (torsion x) n d); auto. intros k v Hin. split; [exact (K1 _ _ Hin)|]. rewrite <- cdeg. exact (K2 _ _ Hin).
  - intros g _. cbn beta. apply eqm_eq. rewrite ev_extend. apply ev_ext. intros k v _. apply SdC_serre.
Qed.
(** #C29_chain_map# The iterated diagonal commutes with the boundary (extended by zero: on
    the zero element the code raises TypeError). *)
Lemma C29_chain_map_l (dt n d times coord : Z) (x : cubc) :
  wf cls_cubical x -> dt_ok dt (torsion x) -> keys_in (fun k => zlen k = n /\ cube_degree k = d) x ->
  1 <= coord <= n -> 0 <= times ->
  let diagonal := extended1 dt cls_cubical (fun y => cub_iterated_diagonal dt y times coord) in
  same (let! y := diagonal x in cub_boundary dt y) (let! y := cub_boundary dt x in diagonal y).
Proof.
  intros Wx Hdt Kx Hc Htm. cbn zeta. pose proof (proj1 Wx) as Ht. fold (ext_diagC dt times coord).
  assert (Kx' : keys_in (kdegC n d) x) by (intros k v Hin; unfold kdeg; rewrite <- cdeg; exact (Kx _ _ Hin)).
  assert (Hnt : Z.of_nat (Z.to_nat times) = times) by lia.
  assert (bd : forall n d, linop cls_cubical cls_cubical (torsion x) tt tt (kdegC n d) (kdegC n (d - 1)) tDC (cub_boundary dt)).
  { intros n' d'. exact (linop_bnd cls_cubical cck fbC cube_dim dt (cub_boundary dt) (fun t x => cub_boundary_den dt t x) (torsion x) _ _ Ht Hdt (kpred_kdegC _ _) (tb_kdeg fbC cube_dim dim_fbC n' d')). }
  pose proof (rep_SdC n d (Z.to_nat times) coord Hc) as R1. rewrite Hnt in *.
  pose proof (rep_tD fbC cube_dim (kdegC n d) (kdegC n (d - 1)) (tb_kdeg fbC cube_dim dim_fbC n d)) as R2.
  refine (linop_same cls_cubical cls_cubical ok_cubical (torsion x) tt tt (kdegC n d) _ _ _ _ _ _ x Ht
    (linop_comp _ _ _ ok_cubical ok_cubical ok_cubical (torsion x) tt tt tt _ _ _ _ _ _ _ Ht (kpred_kdegC _ _) (linop_diagC dt (torsion x) n d times coord Ht Hdt Hc Htm) (bd (n + times) d) (rep_local _ _ _ R1) (cub_admop _ _ _ _))
    (linop_comp _ _ _ ok_cubical ok_cubical ok_cubical (torsion x) tt tt tt _ _ _ _ _ _ _ Ht (kpred_kdegC _ _) (bd n d) (linop_diagC dt (torsion x) n (d - 1) times coord Ht Hdt Hc Htm) (rep_local _ _ _ R2) (cub_admop _ _ _ _))
    Wx eq_refl (cub_attr x) Kx' _).
  intros g k Hg [Lk Dk] Hb. cbn beta. apply eqm_eq. destruct (split_at k (coord - 1)) as (l1 & s & l2 & -> & E1); [lia|].
  now apply SdC_chain.
Qed.
(** #C29_example# *)
Example C29_example_l :
  let x := mkElt [([[2; 2]; [0; 2]], 1)] 0 tt in
  cub_arity x = Some 2 /\ cub_degree x = Some 3 /\
  cub_iterated_diagonal 0 x 1 1 = Ok (mkElt [([[2; 2]; [1; 1]; [0; 2]], 1); ([[2; 0]; [1; 2]; [0; 2]], 1); ([[0; 2]; [2; 1]; [0; 2]], -1); ([[0; 0]; [2; 2]; [0; 2]], 1)] 0 tt).
Proof. repeat split; vm_compute; reflexivity. Qed.
(** #C30_coassociative# Applying the diagonal to any of the factors produced
    by the diagonal gives the iterated diagonal. *)
Lemma C30_coassociative_l (dt n d t t' i j : Z) (x : cubc) :
  wf cls_cubical x -> dt_ok dt (torsion x) -> keys_in (fun k => zlen k = n /\ cube_degree k = d) x ->
  1 <= i <= n -> 0 <= t -> 0 <= t' -> i <= j <= i + t ->
  let diagonal times coord := extended1 dt cls_cubical (fun y => cub_iterated_diagonal dt y times coord) in
  same (let! y := diagonal t i x in diagonal t' j y) (diagonal (t + t') i x).
Proof.
  intros Wx Hdt Kx Hi H1 H2 Hj. cbn zeta. pose proof (proj1 Wx) as Ht. change (same (let! y := ext_diagC dt t i x in ext_diagC dt t' j y) (ext_diagC dt (t + t') i x)).
  assert (Kx' : keys_in (kdegC n d) x) by (intros k v Hin; unfold kdeg; rewrite <- cdeg; exact (Kx _ _ Hin)).
  assert (Hj' : 1 <= j <= n + t) by lia.
  pose proof (rep_SdC n d (Z.to_nat t) i Hi) as R1. rewrite !Z2Nat.id in * by lia.
  refine (linop_same cls_cubical cls_cubical ok_cubical (torsion x) tt tt (kdegC n d) _ _ _ _ _ _ x Ht
    (linop_comp _ _ _ ok_cubical ok_cubical ok_cubical (torsion x) tt tt tt _ _ _ _ _ _ _ Ht (kpred_kdegC _ _)
       (linop_diagC dt (torsion x) n d t i Ht Hdt Hi H1) (linop_diagC dt (torsion x) (n + t) d t' j Ht Hdt Hj' H2) (rep_local _ _ _ R1) (cub_admop _ _ _ _))
    (linop_diagC dt (torsion x) n d (t + t') i Ht Hdt Hi ltac:(lia)) Wx eq_refl (cub_attr x) Kx' _).
  intros g k _ [Lk Dk] _. cbn beta. apply eqm_eq. destruct (split_at k (i - 1)) as (l1 & s & l2 & -> & E1); [lia|].
  rewrite Z2Nat.inj_add by lia. apply SdC_coassoc; auto. lia.
Qed.
(** #C30_example# *)
Example C30_example_l :
  let x := mkElt [([[2; 2]; [0; 2]], 1)] 0 tt in
  same (let! y := cub_iterated_diagonal 0 x 1 1 in cub_iterated_diagonal 0 y 1 1) (cub_iterated_diagonal 0 x 2 1).
Proof.
  cbn zeta. eexists. eexists. split; [vm_compute; reflexivity|]. split; [vm_compute; reflexivity|]. split; [|split]; vm_compute; reflexivity.
Qed.

(** ** Join *)
(** Pairs of cubes of the same length, of total dimension d. *)
Definition cube_pair (d : Z) (k : list (list Z)) : Prop :=
  exists c1 c2, k = [c1; c2] /\ zlen c1 = zlen c2 /\ is_cube c1 /\ is_cube c2 /\ dim c1 + dim c2 = d.
Lemma is_cube_dec c : is_cube c \/ ~ is_cube c.
Proof.
  induction c as [|a c [H|H]]; [left; intros a []| |right; intros F; apply H; intros b Hb; apply F; now right].
  destruct (Z.eq_dec a 0) as [E|N0]; [|destruct (Z.eq_dec a 1) as [E|N1]; [|destruct (Z.eq_dec a 2) as [E|N2]]].
  1,2,3: left; intros b [<-|Hb]; [tauto|now apply H].
  right. intros F. specialize (F a (or_introl eq_refl)). tauto.
Qed.
Lemma kpred_pair d : kpred (cube_pair d).
Proof.
  apply kpred_eq. intros k. destruct k as [|c1 [|c2 [|c3 k]]]; try (right; intros (? & ? & ? & _); discriminate).
  destruct (Z.eq_dec (zlen c1) (zlen c2)); [|right; intros (? & ? & [= <- <-] & ? & _); lia].
  destruct (Z.eq_dec (dim c1 + dim c2) d); [|right; intros (? & ? & [= <- <-] & _ & _ & _ & ?); lia].
  destruct (is_cube_dec c1); [|right; intros (? & ? & [= <- <-] & _ & ? & _); contradiction].
  destruct (is_cube_dec c2); [|right; intros (? & ? & [= <- <-] & _ & _ & ? & _); contradiction].
  left. exists c1, c2. tauto.
Qed.
Lemma pair_kdeg d k : cube_pair d k -> kdegC 2 d k /\ even_cubes k.
Proof.
  intros (c1 & c2 & -> & L & _ & _ & E). split; [split; [reflexivity|]|].
  - rewrite !tdeg_cons. change (tdeg cube_dim []) with 0. rewrite !cube_dim_dim. lia.
  - intros c [<-|[<-|[]]]; cbn [hd]; congruence.
Qed.
Lemma tb_pair d k k' v : cube_pair d k -> In (k', v) (tb fbC cube_dim k) -> cube_pair (d - 1) k'.
Proof.
  intros (c1 & c2 & -> & L & I1 & I2 & E) Hin. cbn [tb] in Hin. rewrite app_nil_r in Hin. rewrite in_app_iff, !in_map_iff in Hin. destruct Hin as [([b e] & [= <- <-] & Hin)|([k2 e] & [= <- <-] & Hin)].
  - pose proof (dim_fbC _ _ _ Hin) as D. apply len_fbC in Hin. destruct Hin as [L' C']. cbn [fst]. exists b, c2. split; [reflexivity|]. split; [congruence|]. split; [now apply C'|]. split; [exact I2|]. rewrite !cube_dim_dim in D. lia.
  - apply in_map_iff in Hin. destruct Hin as ([b e'] & [= <- <-] & Hin). pose proof (dim_fbC _ _ _ Hin) as D. apply len_fbC in Hin. destruct Hin as [L' C']. cbn [fst]. exists c1, b. split; [reflexivity|]. split; [congruence|]. split; [exact I1|]. split; [now apply C'|]. rewrite !cube_dim_dim in D. lia.
Qed.
Lemma rep_DJ d : rep (cube_pair d) (kdegC 1 (d + 1)) DJ.
Proof.
  intros k (c1 & c2 & -> & L & I1 & I2 & E). exists (map (fun '(b, e) => ([b], e)) (joins [c1; c2])). split.
  - intros k' v Hin. apply in_map_iff in Hin. destruct Hin as ([b e] & [= <- <-] & Hin). cbn [joins fold_left flat_map] in Hin. rewrite app_nil_r in Hin. apply in_map_iff in Hin.
    destruct Hin as ([b' e'] & [= -> _] & Hin). apply join2_len in Hin; [|exact L]. destruct Hin as [_ D]. split; [reflexivity|]. rewrite tdeg_cons. change (tdeg cube_dim []) with 0. rewrite !cube_dim_dim in *. lia.
  - intros g. unfold DJ, ev. rewrite sumf_map. apply sumf_ext. intros [b e] _. reflexivity.
Qed.
Lemma linop_join dt t d : 0 <= t -> dt_ok dt t -> linop cls_cubical cls_cubical t tt tt (cube_pair d) (kdegC 1 (d + 1)) DJ (cub_join dt).
Proof.
  intros Ht Hdt. apply (linop_intro cls_cubical cls_cubical ok_cubical); auto using kpred_kdegC.
  - apply rep_local, rep_DJ.
  - apply (rep_zero _ _ _ (rep_DJ d)).
  - intros x Wx Tx _ Kx. apply (join_den dt t 2 d); auto; [lia| |]; intros k v Hin; now apply (pair_kdeg d), (Kx _ v).
Qed.
Lemma e0_augmentation c : e0 c = augmentation c. Proof. unfold e0, augmentation. now rewrite cube_dim_dim. Qed.
Lemma DJ_pair g c1 c2 : DJ g [c1; c2] = jj (fun b => g [b]) c1 c2.
Proof. unfold DJ. rewrite joins_Jn. cbn [Jn]. apply join2_jj. Qed.
(** #C31_join_homotopy# The join of two cubes is a chain homotopy between
    the two projections: the boundary of join(x) plus the join of the boundary of x is
    the sum of the second factor of the terms whose first factor is a vertex
    minus the sum of the first factor of the terms whose second factor is a
    vertex. *)
Lemma C31_join_homotopy_l (dt d : Z) (x : cubc) : wf cls_cubical x -> dt_ok dt (torsion x) ->
  keys_in (fun k => exists c1 c2, k = [c1; c2] /\ zlen c1 = zlen c2 /\ is_cube c1 /\ is_cube c2 /\ dim c1 + dim c2 = d) x ->
  gives cls_cubical (let! y := cub_join dt x in let! dy := cub_boundary dt y in
                     let! dx := cub_boundary dt x in let! j := cub_join dt dx in add dt cls_cubical dy j)
    (torsion x) tt
    (extend (fun k => match k with [c1; c2] => [([c2], augmentation c1); ([c1], - augmentation c2)] | _ => [] end) x).
Proof.
  intros Wx Hdt Kx. pose proof (proj1 Wx) as Ht. change (keys_in (cube_pair d) x) in Kx.
  assert (bd1 : linop cls_cubical cls_cubical (torsion x) tt tt (kdegC 1 (d + 1)) (kdegC 1 (d + 1 - 1)) tDC (cub_boundary dt))
    by exact (linop_bnd cls_cubical cck fbC cube_dim dt (cub_boundary dt) (fun t x => cub_boundary_den dt t x) (torsion x) _ _ Ht Hdt (kpred_kdegC _ _) (tb_kdeg fbC cube_dim dim_fbC _ _)).
  assert (bd2 : linop cls_cubical cls_cubical (torsion x) tt tt (cube_pair d) (cube_pair (d - 1)) tDC (cub_boundary dt))
    by exact (linop_bnd cls_cubical cck fbC cube_dim dt (cub_boundary dt) (fun t x => cub_boundary_den dt t x) (torsion x) _ _ Ht Hdt (kpred_pair _) (tb_pair d)).
  pose proof (rep_tD fbC cube_dim (cube_pair d) (cube_pair (d - 1)) (tb_pair d)) as R2.
  destruct (linop_comp _ _ _ ok_cubical ok_cubical ok_cubical (torsion x) tt tt tt _ _ _ _ _ _ _ Ht (kpred_kdegC _ _) (linop_join dt (torsion x) d Ht Hdt) bd1 (rep_local _ _ _ (rep_DJ d)) (cub_admop _ _ _ _) x Wx eq_refl (cub_attr x) Kx) as (p & Ep & Hp & _).
  destruct (linop_comp _ _ _ ok_cubical ok_cubical ok_cubical (torsion x) tt tt tt _ _ _ _ _ _ _ Ht (kpred_pair _) bd2 (linop_join dt (torsion x) (d - 1) Ht Hdt) (rep_local _ _ _ R2) (cub_admop _ _ _ _) x Wx eq_refl (cub_attr x) Kx) as (q & Eq & Hq & _).
  eapply (den_gives cls_cubical ok_cubical (torsion x) tt); [exact Ht| |].
  - destruct (cub_join dt x) as [y|]; [|discriminate Ep]. cbn [bind] in *. destruct (cub_boundary dt y) as [dy|]; [|discriminate Ep]. injection Ep as ->. cbn [bind].
    destruct (cub_boundary dt x) as [dx|]; [|discriminate Eq]. cbn [bind] in *. rewrite Eq. cbn [bind]. exact (add_den cls_cubical ok_cubical dt (torsion x) Ht Hdt tt tt _ _ p q Hp Hq).
  - intros g _. cbn beta. apply eqm_eq. rewrite ev_extend, <- ev_add. apply ev_ext. intros k v Hin. destruct (Kx _ _ Hin) as (c1 & c2 & -> & L & I1 & I2 & _).
    pose proof (jj_homotopy (fun b => g [b]) c1 c2 L I1 I2) as J. unfold d2j in J. rewrite !ev_cons, ev_nil, <- !e0_augmentation. rewrite DJ_pair, tD_cons.
    rewrite (jj_ext_all (fun b => tDC g [b]) (fdC (fun b => g [b]))) by (intros b; rewrite tD_cons, tD_nil; change (fun b' => g [b']) with (fun b' => g [b']); ring).
    rewrite (fdC_ext (fun b' => DJ g [b'; c2]) (fun b' => jj (fun b => g [b]) b' c2)) by (intros; apply DJ_pair).
    rewrite tD_cons, tD_nil, Z.mul_0_r, Z.add_0_r. rewrite (fdC_ext (fun b' => DJ g [c1; b']) (fun b' => jj (fun b => g [b]) c1 b')) by (intros; apply DJ_pair). lia.
Qed.
(** #C31_example# *)
Example C31_example_l :
  let x := mkElt [([[2; 0; 0]; [0; 1; 1]], 1)] 0 tt in
  wf cls_cubical x /\ cub_join 0 x = Ok (mkElt [([[2; 2; 1]], -1); ([[2; 0; 2]], -1)] 0 tt) /\
  (let! y := cub_join 0 x in let! dy := cub_boundary 0 y in let! dx := cub_boundary 0 x in let! j := cub_join 0 dx in add 0 cls_cubical dy j)
    = Ok (mkElt [([[2; 0; 0]], -1)] 0 tt).
Proof. cbn zeta. split; [apply wfb_wf; reflexivity|]. split; vm_compute; reflexivity. Qed.

(** #C32_join_formula# The join of a homogeneous element of arity n, on
    cubes of equal lengths in each basis element, is the iterated binary join. *)
Lemma C32_join_formula_l (dt n d : Z) (x : cubc) : wf cls_cubical x -> dt_ok dt (torsion x) -> 1 <= n ->
  keys_in (fun k => zlen k = n /\ cube_degree k = d /\ forall c c', In c k -> In c' k -> zlen c = zlen c') x ->
  gives cls_cubical (cub_join dt x) (torsion x) tt (extend (fun k => map (fun '(b, e) => ([b], e)) (joins k)) x).
Proof.
  intros Wx Hdt Hn Kx. pose proof (proj1 Wx) as Ht. eapply (den_gives cls_cubical ok_cubical); [exact Ht|apply (join_den dt (torsion x) n d); auto|].
  - intros k v Hin. destruct (Kx _ _ Hin) as (L & D & _). split; [exact L|]. now rewrite <- cdeg.
  - intros k v Hin c Hc. destruct (Kx _ _ Hin) as (L & _ & H). apply H; [exact Hc|]. destruct k; [rewrite zlen_nil in L; lia|]. now left.
  - intros g _. cbn beta. apply eqm_eq. rewrite ev_extend. apply ev_ext. intros k v _. unfold DJ. change (ev g ?l) with (ev g l). unfold ev. rewrite sumf_map. apply sumf_ext. intros [b e] _. reflexivity.
Qed.
(** #C32_degree# The join of n cubes raises the degree by n - 1 and has arity 1. *)
Lemma C32_degree_l (dt n d : Z) (x : cubc) : wf cls_cubical x -> dt_ok dt (torsion x) -> 1 <= n ->
  keys_in (fun k => zlen k = n /\ cube_degree k = d /\ forall c c', In c k -> In c' k -> zlen c = zlen c') x ->
  exists y, cub_join dt x = Ok y /\ wf cls_cubical y /\ torsion y = torsion x /\ keys_in (fun k => zlen k = 1 /\ cube_degree k = d + n - 1) y.
Proof.
  intros Wx Hdt Hn Kx. pose proof (proj1 Wx) as Ht.
  set (P := fun k : list (list Z) => kdegC n d k /\ forallb (fun c => zlen c =? zlen (hd [] k)) k = true).
  assert (HP : forall k, P k -> even_cubes k) by (intros k [_ H] c Hc; rewrite forallb_forall in H; now apply Z.eqb_eq, H).
  assert (R : rep P (kdegC 1 (d + n - 1)) DJ).
  { intros k [[L D] H]. exists (map (fun '(b, e) => ([b], e)) (joins k)). split.
    - intros k' v Hin. apply in_map_iff in Hin. destruct Hin as ([b e] & [= <- <-] & Hin). split; [reflexivity|]. destruct k as [|c k]; [destruct Hin|]. cbn [joins] in Hin. cbn [hd] in H.
      assert (H' : forall c', In c' k -> zlen c' = zlen c) by (intros c' Hc'; rewrite forallb_forall in H; apply Z.eqb_eq, H; now right).
      assert (G : forall k acc m, (forall c', In c' k -> zlen c' = zlen c) -> (forall b e, In (b, e) acc -> zlen b = zlen c /\ cube_dim b = m) -> forall b e,
        In (b, e) (fold_left (fun acc c' => flat_map (fun '(b, e) => map (fun '(b', e') => (b', e * e')) (join2 b c')) acc) k acc) -> zlen b = zlen c /\ cube_dim b = m + tdeg cube_dim k + zlen k).
      { clear. induction k as [|c1 k IH]; intros acc m Hk Hacc b e Hin.
        - apply Hacc in Hin. change (tdeg cube_dim []) with 0. change (zlen (@nil (list Z))) with 0. lia.
        - cbn [fold_left] in Hin. apply (IH _ (m + cube_dim c1 + 1)) in Hin; [rewrite tdeg_cons, zlen_cons; lia|intros; apply Hk; now right|].
          intros b' e' Hb. apply in_flat_map in Hb. destruct Hb as ([b1 e1] & Hb1 & Hb). apply in_map_iff in Hb. destruct Hb as ([b2 e2] & [= <- <-] & Hb).
          apply Hacc in Hb1. apply join2_len in Hb; [|rewrite (Hk c1) by (now left); tauto]. lia. }
      apply (G k [(c, 1)] (cube_dim c)) in Hin; [|exact H'|intros ? ? [[= <- <-]|[]]; auto].
      rewrite tdeg_cons in *. change (tdeg cube_dim []) with 0. rewrite zlen_cons in L. lia.
    - intros g. unfold DJ, ev. rewrite sumf_map. apply sumf_ext. intros [b e] _. reflexivity. }
  assert (Kx' : keys_in P x).
  { intros k v Hin. destruct (Kx _ _ Hin) as (L & D & H). split; [split; [exact L|now rewrite <- cdeg]|]. apply forallb_forall. intros c Hc. apply Z.eqb_eq. apply H; [exact Hc|]. destruct k; [rewrite zlen_nil in L; lia|]. now left. }
  assert (Lj : linop cls_cubical cls_cubical (torsion x) tt tt P (kdegC 1 (d + n - 1)) DJ (cub_join dt)).
  { apply (linop_intro cls_cubical cls_cubical ok_cubical); auto using kpred_kdegC.
    - now apply rep_local.
    - apply (rep_zero _ _ _ R).
    - intros y Wy Ty _ Ky. apply (join_den dt (torsion x) n d); auto; intros k v Hin; [exact (proj1 (Ky _ _ Hin))|apply HP, (Ky _ _ Hin)]. }
  destruct (Lj x Wx eq_refl (cub_attr x) Kx') as (y & E & Hy & Ky). exists y. split; [exact E|]. split; [eapply den_wf; eauto|]. split; [exact (proj1 Hy)|].
  intros k v Hin. rewrite cdeg. exact (Ky _ _ Hin).
Qed.
(** #C32_example# *)
Example C32_example_l :
  cub_join 0 (mkElt [([[0; 0; 1]; [1; 0; 0]; [1; 1; 1]], 1)] 0 tt) = Ok (mkElt [([[2; 2; 1]], -1); ([[2; 0; 2]], -1)] 0 tt) /\
  joins [[0; 0; 1]; [1; 0; 0]; [1; 1; 1]] = [([2; 2; 1], -1); ([2; 0; 2], -1)].
Proof. split; vm_compute; reflexivity. Qed.

(** ** Cartan-Serre map *)
(** #C33_formula# *)
Lemma C33_formula_l (dt : Z) (x : cubc) : wf cls_cubical x -> dt_ok dt (torsion x) ->
  gives cls_simplicial (cub_cartan_serre dt x) (torsion x) tt (extend cub_collapse x).
Proof.
  intros Wx Hdt. pose proof (proj1 Wx) as Ht. eapply (den_gives cls_simplicial ok_simplicial); [exact Ht|now apply serre_den|].
  intros g _. cbn beta. apply eqm_eq. rewrite ev_extend. apply ev_ext. intros k v _. symmetry. apply DC_ev.
Qed.
Definition anyk (k : list (list Z)) : Prop := True.
Lemma linop_serre dt t : 0 <= t -> dt_ok dt t -> linop cls_cubical cls_simplicial t tt tt anyk anyk DC (cub_cartan_serre dt).
Proof.
  intros Ht Hdt x Wx Tx _ _. eapply returns_mono; [now apply (serre_den dt t)|]. intros y Hy. split; [exact Hy|]. intros k v _. exact I.
Qed.
Lemma rep_DC : rep anyk anyk DC.
Proof. intros k _. exists (cub_collapse k). split; [intros; exact I|]. intros g. symmetry. apply DC_ev. Qed.
(** #C33_linear# *)
Lemma C33_linear_l (dt n : Z) (x y : cubc) : wf cls_cubical x -> wf cls_cubical y -> torsion y = torsion x -> dt_ok dt (torsion x) ->
  same (let! s := add dt cls_cubical x y in cub_cartan_serre dt s)
       (let! p := cub_cartan_serre dt x in let! q := cub_cartan_serre dt y in add dt cls_simplicial p q) /\
  same (let! s := scale dt cls_cubical n x in cub_cartan_serre dt s)
       (let! p := cub_cartan_serre dt x in scale dt cls_simplicial n p).
Proof.
  intros Wx Wy Ty Hdt. pose proof (proj1 Wx) as Ht. split.
  - exact (linop_add _ _ ok_cubical ok_simplicial dt (torsion x) tt tt _ _ _ _ x y Ht Hdt kpred_any (linop_serre dt _ Ht Hdt) (cub_admop _ _ _ _)
      Wx eq_refl (cub_attr x) (fun _ _ _ => I) Wy Ty (cub_attr y) (fun _ _ _ => I)).
  - exact (linop_scale _ _ ok_cubical ok_simplicial dt (torsion x) tt tt _ _ _ _ x n Ht Hdt kpred_any (linop_serre dt _ Ht Hdt) (cub_admop _ _ _ _)
      Wx eq_refl (cub_attr x) (fun _ _ _ => I)).
Qed.
(** #C33_chain_map# The Cartan-Serre map commutes with the boundaries. *)
Lemma C33_chain_map_l (dt : Z) (x : cubc) : wf cls_cubical x -> dt_ok dt (torsion x) ->
  same (let! y := cub_cartan_serre dt x in simp_boundary dt y) (let! y := cub_boundary dt x in cub_cartan_serre dt y).
Proof.
  intros Wx Hdt. pose proof (proj1 Wx) as Ht.
  assert (bs : linop cls_simplicial cls_simplicial (torsion x) tt tt anyk anyk tDS (simp_boundary dt))
    by exact (linop_bnd cls_simplicial sck fbS spx_dim dt (simp_boundary dt) (fun t x => simp_boundary_den dt t x) (torsion x) _ _ Ht Hdt kpred_any (fun _ _ _ _ _ => I)).
  assert (bc : linop cls_cubical cls_cubical (torsion x) tt tt anyk anyk tDC (cub_boundary dt))
    by exact (linop_bnd cls_cubical cck fbC cube_dim dt (cub_boundary dt) (fun t x => cub_boundary_den dt t x) (torsion x) _ _ Ht Hdt kpred_any (fun _ _ _ _ _ => I)).
  pose proof (rep_tD fbC cube_dim anyk anyk (fun _ _ _ _ _ => I)) as R2.
  pose proof (adm_tD cls_simplicial spx_is_degenerate sbad fbS spx_dim fdS_bad anyk anyk (fun _ _ _ _ _ => I)) as A2.
  refine (linop_same cls_cubical cls_simplicial ok_simplicial (torsion x) tt tt anyk _ _ _ _ _ _ x Ht
    (linop_comp _ _ _ ok_cubical ok_simplicial ok_simplicial (torsion x) tt tt tt _ _ _ _ _ _ _ Ht kpred_any (linop_serre dt (torsion x) Ht Hdt) bs (rep_local _ _ _ rep_DC) A2)
    (linop_comp _ _ _ ok_cubical ok_cubical ok_simplicial (torsion x) tt tt tt _ _ _ _ _ _ _ Ht kpred_any bc (linop_serre dt (torsion x) Ht Hdt) (rep_local _ _ _ R2) (cub_admop _ _ _ _))
    Wx eq_refl (cub_attr x) (fun _ _ _ => I) _).
  intros g k Hg _ _. cbn beta. apply eqm_eq. apply DC_chain. intros r Hr. apply (proj2 Hg). cbn. f_equal. apply existsb_exists. exists []. now split.
Qed.
(** #C33_example# *)
Example C33_example_l :
  cub_cartan_serre 0 (mkElt [([[2; 1; 2; 0]; [2; 1; 1; 1]], 3)] 0 tt) = Ok (mkElt [([[0; 2; 3]; [0; 4]], 3)] 0 tt) /\
  cub_cartan_serre 0 (mkElt [([[2; 0; 2]], 1)] 0 tt) = Ok (mkElt [] 0 tt).
Proof. split; vm_compute; reflexivity. Qed.
