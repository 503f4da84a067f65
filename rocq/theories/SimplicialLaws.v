(** * Laws of simplicial chains (C20-C26, C59). *)
From Coq Require Import Setoid Morphisms Sorting.Sorted.
From Verif Require Import PyBase Dict FreeModule Symmetric Simplicial Eqm Spec SpecChain FreeModuleFacts FreeModuleLaws ListFacts ClassFacts LinearFacts SymmetricFacts
  CycleFacts SymmetricLaws RingFacts Tensor TensorAct KoszulFacts LoopFacts SimplicialFacts AW SimplicialDiag.

Lemma sbad k : bad cls_simplicial k = Ok (existsb spx_is_degenerate k). Proof. reflexivity. Qed.
Lemma sck k : ckey cls_simplicial k = k. Proof. reflexivity. Qed.
Lemma s_attr (w : simp) : attr w = tt. Proof. now destruct (attr w). Qed.
Lemma simp_faces_tD g k : ev g (simp_faces k) = tDS g k.
Proof.
  rewrite tD_splits. unfold simp_faces, ev. rewrite sumf_flat_map, cuts_splits. apply sumf_ext. intros [[l1 s] l2] _.
  unfold faces, fd, fbS, ev. rewrite cuts_splits, map_map, !sumf_map, <- sumf_scal. apply sumf_ext. intros [[m1 a] m2] _. cbn [fst snd].
  change (total_degree l1) with (tdeg spx_dim l1). ring.
Qed.

(** #C20_boundary_formula# The boundary of a tensor product of simplices is
    the signed sum of the tensor products with one vertex deleted, extended
    linearly; degenerate terms are zero. *)
Lemma C20_boundary_formula_l (dt : Z) (x : simp) : wf cls_simplicial x -> dt_ok dt (torsion x) ->
  gives cls_simplicial (simp_boundary dt x) (torsion x) tt (extend simp_faces x).
Proof.
  intros Wx Hdt. pose proof (proj1 Wx) as Ht. eapply (den_gives cls_simplicial ok_simplicial); [exact Ht|now apply simp_boundary_den|].
  intros g _. cbn beta. apply eqm_eq. rewrite ev_extend. apply ev_ext. intros k v _. symmetry. apply simp_faces_tD.
Qed.
(** #C20_boundary_squared# *)
Lemma C20_boundary_squared_l (dt : Z) (x : simp) : wf cls_simplicial x -> dt_ok dt (torsion x) ->
  same (let! y := simp_boundary dt x in simp_boundary dt y) (zero dt cls_simplicial x).
Proof.
  intros Wx Hdt. exact (bnd_bnd cls_simplicial spx_is_degenerate sbad sck fbS spx_dim dim_fbS fdS_fdS fdS_bad dt (simp_boundary dt) (fun t x => simp_boundary_den dt t x) x Hdt Wx).
Qed.
(** #C20_boundary_linear# *)
Lemma C20_boundary_linear_l (dt n : Z) (x y : simp) : wf cls_simplicial x -> wf cls_simplicial y -> torsion y = torsion x -> dt_ok dt (torsion x) ->
  same (let! s := add dt cls_simplicial x y in simp_boundary dt s)
       (let! p := simp_boundary dt x in let! q := simp_boundary dt y in add dt cls_simplicial p q) /\
  same (let! s := scale dt cls_simplicial n x in simp_boundary dt s)
       (let! p := simp_boundary dt x in scale dt cls_simplicial n p).
Proof.
  intros Wx Wy Ty Hdt. split.
  - exact (bnd_add cls_simplicial spx_is_degenerate sbad sck fbS spx_dim fdS_bad dt (simp_boundary dt) (fun t x => simp_boundary_den dt t x) x y Hdt Wx Wy Ty).
  - exact (bnd_scale cls_simplicial spx_is_degenerate sbad sck fbS spx_dim fdS_bad dt (simp_boundary dt) (fun t x => simp_boundary_den dt t x) n x Hdt Wx).
Qed.
(** #C20_boundary_degree# The boundary keeps the arity and lowers the degree
    by one. *)
Lemma C20_boundary_degree_l (dt n d : Z) (x : simp) : wf cls_simplicial x -> dt_ok dt (torsion x) ->
  keys_in (fun k => zlen k = n /\ total_degree k = d) x ->
  exists y, simp_boundary dt x = Ok y /\ wf cls_simplicial y /\ torsion y = torsion x /\
    keys_in (fun k => zlen k = n /\ total_degree k = d - 1) y /\
    (~ is_zero y -> simp_arity y = Some n /\ simp_degree y = Some (d - 1)).
Proof.
  intros Wx Hdt Kx.
  destruct (bnd_deg cls_simplicial sck fbS spx_dim dim_fbS dt (simp_boundary dt) (fun t x => simp_boundary_den dt t x) n d x Hdt Wx Kx) as (y & E & Wy & Ty & Ky).
  exists y. split; [exact E|]. split; [exact Wy|]. split; [exact Ty|]. split; [exact Ky|]. intros N. split.
  - apply tensor_arity_ok; [|exact N]. intros k v Hin. exact (proj1 (Ky _ _ Hin)).
  - now apply (simp_degree_ok n).
Qed.
Lemma zset_one l n : zset l = [n] <-> l <> [] /\ forall m, In m l -> m = n.
Proof.
  split.
  - intros E. split; [intros ->; discriminate|]. intros m Hm. unfold zset in E. apply (nodup_In Z.eq_dec) in Hm. rewrite E in Hm. destruct Hm as [->|[]]. reflexivity.
  - intros [N H]. now apply zset_const.
Qed.
Lemma opt_of_zset l n : match zset l with [m] => Some m | _ => None end = Some n <-> l <> [] /\ forall m, In m l -> m = n.
Proof.
  rewrite <- zset_one. destruct (zset l) as [|m [|? ?]]; split; try discriminate; try congruence.
Qed.
Lemma keys_of {A B} (f : A -> Z) (x : elt A B) n : (map f (dkeys (data x)) <> [] /\ (forall m, In m (map f (dkeys (data x))) -> m = n)) <-> ~ is_zero x /\ keys_in (fun k => f k = n) x.
Proof.
  unfold is_zero, keys_in, dkeys. rewrite map_map. split.
  - intros [N H]. split; [intros E; apply N; now rewrite E|]. intros k v Hin. apply H. apply in_map_iff. now exists (k, v).
  - intros [N H]. split; [intros E; apply N; now destruct (data x)|]. intros m Hm. apply in_map_iff in Hm. destruct Hm as ([k v] & <- & Hin). eauto.
Qed.
(** #C20_arity_degree# The properties [arity] and [degree] have a value
    exactly for the non-zero elements all of whose basis elements have that
    number of factors, and that degree. *)
Lemma C20_arity_degree_l (n d : Z) (x : simp) :
  (simp_arity x = Some n <-> ~ is_zero x /\ keys_in (fun k => zlen k = n) x) /\
  (simp_degree x = Some d <-> ~ is_zero x /\ keys_in (fun k => total_degree k = d) x).
Proof. split; [unfold simp_arity, tensor_arity|unfold simp_degree]; rewrite opt_of_zset; apply keys_of. Qed.
(** #C20_example# A product of two simplices of degree 3: hypotheses and boundary. *)
Example C20_example_l :
  let x := mkElt [([[0; 1]; [0; 1; 2]], 1)] 0 tt in
  wf cls_simplicial x /\ keys_in (fun k => zlen k = 2 /\ total_degree k = 3) x /\
  simp_boundary 0 x = Ok (mkElt [([[1]; [0; 1; 2]], 1); ([[0]; [0; 1; 2]], -1); ([[0; 1]; [1; 2]], -1); ([[0; 1]; [0; 2]], 1); ([[0; 1]; [0; 1]], -1)] 0 tt).
Proof.
  cbn zeta. split; [apply wfb_wf; reflexivity|]. split; [|reflexivity]. intros k v [[= <- <-]|[]]. split; reflexivity.
Qed.

(** ** Simplices *)
Lemma nth_error_firstn {B} (l : list B) n m : nth_error (firstn n l) m = if Nat.ltb m n then nth_error l m else None.
Proof.
  revert n m. induction l as [|a l IH]; intros n m.
  - rewrite firstn_nil. destruct (Nat.ltb m n), m; reflexivity.
  - destruct n as [|n]; [destruct m; reflexivity|]. destruct m as [|m]; [reflexivity|]. cbn [firstn nth_error]. rewrite IH. reflexivity.
Qed.
Lemma nth_error_skipn {B} (l : list B) n m : nth_error (skipn n l) m = nth_error l (n + m).
Proof. revert n. induction l as [|a l IH]; intros [|n]; cbn; auto. destruct m; reflexivity. Qed.
Lemma nth_error_ext {B} (l l' : list B) : (forall m, nth_error l m = nth_error l' m) -> l = l'.
Proof.
  revert l'. induction l as [|a l IH]; intros [|b l'] H; [reflexivity|specialize (H O); discriminate|specialize (H O); discriminate|].
  f_equal; [specialize (H O); cbn in H; congruence|]. apply IH. intros m. exact (H (Datatypes.S m)).
Qed.
Lemma nth_face s i m : (i < length s)%nat -> nth_error (spx_face s (Z.of_nat i)) m = if Nat.ltb m i then nth_error s m else nth_error s (m + 1).
Proof.
  intros Hi. unfold spx_face. rewrite slice_to_firstn, slice_from_skipn by lia. replace (Z.to_nat (Z.of_nat i + 1)) with (i + 1)%nat by lia. rewrite Nat2Z.id.
  assert (L : length (firstn i s) = i) by (rewrite firstn_length; lia).
  destruct (Nat.ltb_spec m i).
  - rewrite nth_error_app1 by lia. rewrite nth_error_firstn. destruct (Nat.ltb_spec m i); [reflexivity|lia].
  - rewrite nth_error_app2 by lia. rewrite nth_error_skipn, L. f_equal. lia.
Qed.
Lemma len_face s i : (i < length s)%nat -> length (spx_face s (Z.of_nat i)) = (length s - 1)%nat.
Proof.
  intros Hi. unfold spx_face. rewrite slice_to_firstn, slice_from_skipn by lia. rewrite app_length, firstn_length, skipn_length. lia.
Qed.
Lemma nth_degen s i m : (i < length s)%nat -> nth_error (spx_degeneracy s (Z.of_nat i)) m = if Nat.ltb m (i + 1) then nth_error s m else nth_error s (m - 1).
Proof.
  intros Hi. unfold spx_degeneracy. rewrite slice_to_firstn, slice_from_skipn by lia. replace (Z.to_nat (Z.of_nat i + 1)) with (i + 1)%nat by lia. rewrite Nat2Z.id.
  assert (L : length (firstn (i + 1) s) = (i + 1)%nat) by (rewrite firstn_length; lia).
  destruct (Nat.ltb_spec m (i + 1)).
  - rewrite nth_error_app1 by lia. rewrite nth_error_firstn. destruct (Nat.ltb_spec m (i + 1)); [reflexivity|lia].
  - rewrite nth_error_app2 by lia. rewrite nth_error_skipn, L. f_equal. lia.
Qed.
Lemma len_degen s i : (i < length s)%nat -> length (spx_degeneracy s (Z.of_nat i)) = (length s + 1)%nat.
Proof.
  intros Hi. unfold spx_degeneracy. rewrite slice_to_firstn, slice_from_skipn by lia. rewrite app_length, firstn_length, skipn_length. lia.
Qed.
Ltac spx_norm i j := 
  let i' := fresh "i" in let j' := fresh "j" in
  assert (Ei : i = Z.of_nat (Z.to_nat i)) by lia; assert (Ej : j = Z.of_nat (Z.to_nat j)) by lia;
  set (i' := Z.to_nat i) in *; set (j' := Z.to_nat j) in *; clearbody i' j'; subst i j.
Ltac spx_go := apply nth_error_ext; intros m; 
  repeat (first [rewrite nth_face by (rewrite ?len_face, ?len_degen by lia; lia) | rewrite nth_degen by (rewrite ?len_face, ?len_degen by lia; lia)]);
  repeat match goal with |- context [Nat.ltb ?a ?b] => destruct (Nat.ltb_spec a b) end; try lia; try reflexivity; try (f_equal; lia).
(** #C21_simplicial_identities# The simplicial identities, for all
    simplices and indices in range. *)
Lemma C21_simplicial_identities_l (s : list Z) (i j : Z) : 0 <= i <= j -> j <= spx_dim s ->
  (i < j -> spx_face (spx_face s j) i = spx_face (spx_face s i) (j - 1)) /\
  spx_degeneracy (spx_degeneracy s j) i = spx_degeneracy (spx_degeneracy s i) (j + 1) /\
  (i < j -> spx_face (spx_degeneracy s j) i = spx_degeneracy (spx_face s i) (j - 1)) /\
  spx_face (spx_degeneracy s j) j = s /\
  spx_face (spx_degeneracy s j) (j + 1) = s /\
  (i < j -> spx_face (spx_degeneracy s i) (j + 1) = spx_degeneracy (spx_face s j) i).
Proof.
  intros Hi Hj. unfold spx_dim, zlen in Hj. spx_norm i j.
  assert (Hj' : (j0 < length s)%nat) by lia. assert (Hij : (i0 <= j0)%nat) by lia. clear Hi Hj.
  replace (Z.of_nat j0 + 1) with (Z.of_nat (j0 + 1)) by lia.
  split; [|split; [|split; [|split; [|split]]]].
  - intros N. replace (Z.of_nat j0 - 1) with (Z.of_nat (j0 - 1)) by lia. assert (i0 < j0)%nat by lia. clear N. spx_go.
  - spx_go.
  - intros N. replace (Z.of_nat j0 - 1) with (Z.of_nat (j0 - 1)) by lia. assert (i0 < j0)%nat by lia. clear N. spx_go.
  - spx_go.
  - spx_go.
  - intros N. assert (i0 < j0)%nat by lia. clear N. spx_go.
Qed.
(** #C21_cosimplicial_identities# The cosimplicial identities, for all
    simplices and all indices. *)
Lemma C21_cosimplicial_identities_l (s : list Z) (i j : Z) :
  (i < j -> spx_coface (spx_coface s i) j = spx_coface (spx_coface s (j - 1)) i) /\
  (i <= j -> spx_codegeneracy (spx_codegeneracy s i) j = spx_codegeneracy (spx_codegeneracy s (j + 1)) i) /\
  (i < j -> spx_codegeneracy (spx_coface s i) j = spx_coface (spx_codegeneracy s (j - 1)) i) /\
  spx_codegeneracy (spx_coface s j) j = s /\
  spx_codegeneracy (spx_coface s (j + 1)) j = s /\
  (i > j + 1 -> spx_codegeneracy (spx_coface s i) j = spx_coface (spx_codegeneracy s j) (i - 1)).
Proof.
  unfold spx_coface, spx_codegeneracy. rewrite !map_map.
  assert (Hid : forall f, (forall a, f a = a) -> map f s = s) by (intros f Hf; rewrite (map_ext _ (fun a => a)) by assumption; apply map_id).
  repeat split; intros; (apply map_ext || apply Hid); intros a;
    repeat match goal with |- context [?u <=? ?v] => destruct (Z.leb_spec u v) | |- context [?u <? ?v] => destruct (Z.ltb_spec u v) end; lia.
Qed.
(** #C21_dimension# Faces lower the dimension by one, degeneracies raise it. *)
Lemma C21_dimension_l (s : list Z) (i : Z) : 0 <= i <= spx_dim s ->
  spx_dim (spx_face s i) = spx_dim s - 1 /\ spx_dim (spx_degeneracy s i) = spx_dim s + 1 /\
  spx_dim (spx_coface s i) = spx_dim s /\ spx_dim (spx_codegeneracy s i) = spx_dim s.
Proof.
  intros Hi. unfold spx_dim, zlen in *. assert (E : i = Z.of_nat (Z.to_nat i)) by lia. rewrite E.
  rewrite len_face, len_degen by lia. unfold spx_coface, spx_codegeneracy. rewrite !map_length. lia.
Qed.
(** #C21_is_degenerate# *)
Lemma C21_is_degenerate_l (s : list Z) :
  (spx_is_degenerate s = true <-> s = [] \/ exists l1 a l2, s = l1 ++ a :: a :: l2) /\
  spx_is_nondegenerate s = negb (spx_is_degenerate s).
Proof.
  split; [|reflexivity]. rewrite deg_dupb. destruct s as [|v s]; [split; [now left|reflexivity]|]. revert v. induction s as [|w s IH]; intros v.
  - split; [discriminate|]. intros [E|(l1 & a & l2 & E)]; [discriminate|]. destruct l1 as [|? [|? ?]]; discriminate.
  - rewrite dupb_cons2. rewrite orb_true_iff, IH, Z.eqb_eq. split.
    + intros [->|[E|(l1 & a & l2 & E)]]; [|discriminate|].
      * right. exists [], w, s. reflexivity.
      * right. exists (v :: l1), a, l2. cbn. now rewrite E.
    + intros [E|(l1 & a & l2 & E)]; [discriminate|]. destruct l1 as [|b l1]; cbn in E; injection E as E1 E2.
      * left. congruence.
      * right. right. eauto.
Qed.
(** #C21_degeneracy_degenerate# Every degeneracy of a simplex is degenerate, and every degenerate
    non-empty simplex is a degeneracy of one of its faces. *)
Lemma C21_degeneracy_degenerate_l (s : list Z) :
  (forall i, 0 <= i <= spx_dim s -> spx_is_degenerate (spx_degeneracy s i) = true) /\
  (s <> [] -> spx_is_degenerate s = true -> exists i, 0 <= i < spx_dim s /\ s = spx_degeneracy (spx_face s i) i).
Proof.
  split.
  - intros i Hi. unfold spx_dim in Hi. destruct (split_at s i) as (l1 & a & l2 & -> & <-); [lia|]. apply (proj1 (C21_is_degenerate_l _)). right.
    unfold spx_degeneracy. rewrite slice_to_app_S, slice_from_app. exists l1, a, l2. now rewrite <- app_assoc.
  - intros N Hd. apply (proj1 (C21_is_degenerate_l _)) in Hd. destruct Hd as [Hd|(l1 & a & l2 & ->)]; [contradiction|]. exists (zlen l1). split.
    + unfold spx_dim. rewrite zlen_app, !zlen_cons. pose proof (zlen_nonneg l1). pose proof (zlen_nonneg l2). lia.
    + unfold spx_face. rewrite slice_to_app, slice_from_app_S. unfold spx_degeneracy. rewrite slice_to_app_S, slice_from_app. now rewrite <- app_assoc.
Qed.
(** #C21_example# *)
Example C21_example_l : spx_face (spx_degeneracy [4; 7; 9] 1) 0 = [7; 7; 9] /\ spx_is_degenerate [7; 7; 9] = true /\ spx_coface [0; 1; 2] 1 = [0; 2; 3].
Proof. repeat split. Qed.

(** ** Action of the symmetric group ring *)
Lemma simp_act_tact dt : simp_act dt = tact cls_simplicial spx_dim dt. Proof. reflexivity. Qed.
(** #C22_action_formula# The action of a permutation rearranges the factors
    with the Koszul sign; it is extended bilinearly. *)
Lemma C22_action_formula_l (dt n : Z) (a : ring) (x : simp) :
  1 <= n -> wf cls_ring a -> wf cls_simplicial x -> torsion a = torsion x -> dt_ok dt (torsion x) ->
  keys_in (fun k => perm n (kval k)) a -> keys_in (fun k => zlen k = n) x -> ~ is_zero a -> ~ is_zero x ->
  gives cls_simplicial (simp_act dt a x) (torsion x) tt (extend2 (fun p k => koszul spx_dim (kval p) k) a x).
Proof.
  intros Hn Wa Wx Ta Hdt Ka Kx Na Nx. rewrite simp_act_tact.
  apply (act_gives cls_simplicial spx_is_degenerate sbad sck spx_dim dt n); auto.
  intros g k2 k1 H2 H1. apply (koszul_kact n); auto. lia.
Qed.
(** #C22_left_action# (a * b) * x == a * (b * x), extended by zero. *)
Lemma C22_left_action_l (dt n : Z) (a b : ring) (x : simp) :
  1 <= n -> wf cls_ring a -> wf cls_ring b -> wf cls_simplicial x -> torsion a = torsion x -> torsion b = torsion x -> dt_ok dt (torsion x) ->
  keys_in (fun k => perm n (kval k)) a -> keys_in (fun k => perm n (kval k)) b -> keys_in (fun k => zlen k = n) x ->
  same (let! ab := ring_mul dt a b in extended dt cls_simplicial (simp_act dt) ab x)
       (let! bx := extended dt cls_simplicial (simp_act dt) b x in extended dt cls_simplicial (simp_act dt) a bx).
Proof.
  intros Hn Wa Wb Wx Ta Tb Hdt Ka Kb Kx. rewrite simp_act_tact.
  exact (act_assoc cls_simplicial spx_is_degenerate sbad sck spx_dim dt n a b x Hn Hdt Wa Wb Wx Ta Tb Ka Kb Kx).
Qed.
(** #C22_unit# *)
Lemma C22_unit_l (dt n : Z) (x : simp) :
  1 <= n -> wf cls_simplicial x -> dt_ok dt (torsion x) -> torsion x <> 1 -> keys_in (fun k => zlen k = n) x ->
  same (let! e := identity_element dt n (Some (torsion x)) in extended dt cls_simplicial (simp_act dt) e x) (Ok x).
Proof.
  intros Hn Wx Hdt N Kx. rewrite simp_act_tact.
  exact (act_unit cls_simplicial spx_is_degenerate sbad sck spx_dim dt n x Hn Hdt N Wx Kx).
Qed.
(** #C22_bilinear# *)
Lemma C22_bilinear_l (dt n : Z) (a b : ring) (x y : simp) :
  1 <= n -> wf cls_ring a -> wf cls_ring b -> wf cls_simplicial x -> wf cls_simplicial y ->
  torsion a = torsion x -> torsion b = torsion x -> torsion y = torsion x -> dt_ok dt (torsion x) ->
  keys_in (fun k => perm n (kval k)) a -> keys_in (fun k => perm n (kval k)) b ->
  keys_in (fun k => zlen k = n) x -> keys_in (fun k => zlen k = n) y ->
  same (let! s := add dt cls_ring a b in extended dt cls_simplicial (simp_act dt) s x)
       (let! p := extended dt cls_simplicial (simp_act dt) a x in let! q := extended dt cls_simplicial (simp_act dt) b x in add dt cls_simplicial p q) /\
  same (let! s := add dt cls_simplicial x y in extended dt cls_simplicial (simp_act dt) a s)
       (let! p := extended dt cls_simplicial (simp_act dt) a x in let! q := extended dt cls_simplicial (simp_act dt) a y in add dt cls_simplicial p q).
Proof.
  intros Hn Wa Wb Wx Wy Ta Tb Ty Hdt Ka Kb Kx Ky. rewrite simp_act_tact. split.
  - exact (act_add_l cls_simplicial spx_is_degenerate sbad sck spx_dim dt n a b x Hn Hdt Wa Wb Wx Ta Tb Ka Kb Kx).
  - exact (act_add_r cls_simplicial spx_is_degenerate sbad sck spx_dim dt n a x y Hn Hdt Wa Wx Wy Ta Ty Ka Kx Ky).
Qed.
(** #C22_mismatch# The action between different torsions or arities raises TypeError. *)
Lemma C22_mismatch_l (dt n m : Z) (a : ring) (x : simp) :
  (torsion a <> torsion x -> simp_act dt a x = Err TypeError) /\
  (ring_arity a = Ok (Some n) -> simp_arity x = Some m -> n <> m -> simp_act dt a x = Err TypeError).
Proof.
  unfold simp_act. split.
  - intros N. destruct (Z.eqb_spec (torsion x) (torsion a)); [congruence|reflexivity].
  - intros -> -> N. destruct (negb (torsion x =? torsion a)); [reflexivity|]. cbn [bind opt_eqb]. destruct (Z.eqb_spec m n); [congruence|reflexivity].
Qed.
(** #C22_example# Exchange of two simplices of odd dimension changes the sign. *)
Example C22_example_l :
  let x := mkElt [([[0; 1]; [3; 4]; [5]], 1)] 0 tt in
  let a := mkElt [(SGE [2; 1; 3], 1); (SGE [3; 1; 2], 5)] 0 tt in
  wf cls_simplicial x /\ wf cls_ring a /\ keys_in (fun k => perm 3 (kval k)) a /\ keys_in (fun k => zlen k = 3) x /\
  simp_act 0 a x = Ok (mkElt [([[3; 4]; [0; 1]; [5]], -1); ([[3; 4]; [5]; [0; 1]], -5)] 0 tt).
Proof.
  cbn zeta. split; [apply wfb_wf; reflexivity|]. split; [apply wfb_wf; reflexivity|]. split; [|split; [|reflexivity]].
  - intros k v [[= <- <-]|[[= <- <-]|[]]]; cbn [kval SGE]; apply perm_of_incl; try lia; try reflexivity;
    intros i Hi; (assert (i = 1 \/ i = 2 \/ i = 3) as [-> | [-> | ->]] by lia); cbn; tauto.
  - intros k v [[= <- <-]|[]]. reflexivity.
Qed.
(** #C23_action_boundary# boundary(a * x) == a * boundary(x), extended by
    zero (the boundary of a non-zero element may be zero). *)
Lemma C23_action_boundary_l (dt n : Z) (a : ring) (x : simp) :
  1 <= n -> wf cls_ring a -> wf cls_simplicial x -> torsion a = torsion x -> dt_ok dt (torsion x) ->
  keys_in (fun k => perm n (kval k)) a -> keys_in (fun k => zlen k = n) x ->
  same (let! y := extended dt cls_simplicial (simp_act dt) a x in simp_boundary dt y)
       (let! y := simp_boundary dt x in extended dt cls_simplicial (simp_act dt) a y).
Proof.
  intros Hn Wa Wx Ta Hdt Ka Kx. rewrite simp_act_tact.
  exact (act_bnd cls_simplicial spx_is_degenerate sbad sck fbS spx_dim dim_fbS fdS_bad dt (simp_boundary dt) (fun t x => simp_boundary_den dt t x) n a x Hn Hdt Wa Wx Ta Ka Kx).
Qed.
(** #C23_example# *)
Example C23_example_l :
  let x := mkElt [([[0; 1]; [3; 4]], 1)] 0 tt in
  let a := mkElt [(SGE [2; 1], 1)] 0 tt in
  (let! y := simp_act 0 a x in simp_boundary 0 y) = Ok (mkElt [([[4]; [0; 1]], -1); ([[3]; [0; 1]], 1); ([[3; 4]; [1]], 1); ([[3; 4]; [0]], -1)] 0 tt) /\
  (let! y := simp_boundary 0 x in simp_act 0 a y) = Ok (mkElt [([[3; 4]; [1]], 1); ([[3; 4]; [0]], -1); ([[4]; [0; 1]], -1); ([[3]; [0; 1]], 1)] 0 tt).
Proof. split; reflexivity. Qed.

(** ** Diagonal *)
(** #C24_diagonal_formula# [iterated_diagonal(times, coord)] on a
    homogeneous element cuts the factor [coord] of every basis element in all
    possible ways in [times + 1] pieces. *)
Lemma C24_diagonal_formula_l (dt n d times coord : Z) (x : simp) :
  wf cls_simplicial x -> dt_ok dt (torsion x) -> simp_arity x = Some n -> simp_degree x = Some d ->
  1 <= coord <= n -> 0 <= times ->
  gives cls_simplicial (simp_iterated_diagonal dt x times coord) (torsion x) tt (extend (simp_splittings (Z.to_nat times) coord) x).
Proof.
  intros Wx Hdt Ar De Hc Htm. pose proof (proj1 Wx) as Ht.
  apply (proj1 (C20_arity_degree_l n d x)) in Ar. apply (proj2 (C20_arity_degree_l n d x)) in De. destruct Ar as [N K1], De as [_ K2].
  eapply (den_gives cls_simplicial ok_simplicial); [exact Ht| |].
  - apply (diag_den dt (torsion x) n d); auto. intros k v Hin. split; [exact (K1 _ _ Hin)|exact (K2 _ _ Hin)].
  - intros g _. cbn beta. apply eqm_eq. rewrite ev_extend. apply ev_ext. intros k v _. apply Sd_splittings.
Qed.
(** #C24_chain_map# The iterated diagonal commutes with the boundary (extended by zero: on
    the zero element the code raises TypeError). *)
Lemma C24_chain_map_l (dt n d times coord : Z) (x : simp) :
  wf cls_simplicial x -> dt_ok dt (torsion x) -> keys_in (fun k => zlen k = n /\ total_degree k = d) x ->
  1 <= coord <= n -> 0 <= times ->
  let diagonal := extended1 dt cls_simplicial (fun y => simp_iterated_diagonal dt y times coord) in
  same (let! y := diagonal x in simp_boundary dt y) (let! y := simp_boundary dt x in diagonal y).
Proof.
  intros Wx Hdt Kx Hc Htm. cbn zeta. pose proof (proj1 Wx) as Ht. fold (ext_diag dt times coord).
  assert (Hnt : Z.of_nat (Z.to_nat times) = times) by lia.
  assert (bd : forall n d, linop cls_simplicial cls_simplicial (torsion x) tt tt (kdegS n d) (kdegS n (d - 1)) tDS (simp_boundary dt)).
  { intros n' d'. exact (linop_bnd cls_simplicial sck fbS spx_dim dt (simp_boundary dt) (fun t x => simp_boundary_den dt t x) (torsion x) _ _ Ht Hdt (kpred_kdegS _ _) (tb_kdeg fbS spx_dim dim_fbS n' d')). }
  pose proof (rep_Sd n d (Z.to_nat times) coord Hc) as R1. pose proof (adm_Sd n (d - 1) (Z.to_nat times) coord Hc) as A1. rewrite Hnt in *.
  pose proof (rep_tD fbS spx_dim (kdegS n d) (kdegS n (d - 1)) (tb_kdeg fbS spx_dim dim_fbS n d)) as R2.
  pose proof (adm_tD cls_simplicial spx_is_degenerate sbad fbS spx_dim fdS_bad (kdegS (n + times) d) (kdegS (n + times) (d - 1)) (tb_kdeg fbS spx_dim dim_fbS _ d)) as A2.
  refine (linop_same cls_simplicial cls_simplicial ok_simplicial (torsion x) tt tt (kdegS n d) _ _ _ _ _ _ x Ht
    (linop_comp _ _ _ ok_simplicial ok_simplicial ok_simplicial (torsion x) tt tt tt _ _ _ _ _ _ _ Ht (kpred_kdegS _ _) (linop_diag dt (torsion x) n d times coord Ht Hdt Hc Htm) (bd (n + times) d) (rep_local _ _ _ R1) A2)
    (linop_comp _ _ _ ok_simplicial ok_simplicial ok_simplicial (torsion x) tt tt tt _ _ _ _ _ _ _ Ht (kpred_kdegS _ _) (bd n d) (linop_diag dt (torsion x) n (d - 1) times coord Ht Hdt Hc Htm) (rep_local _ _ _ R2) A1)
    Wx eq_refl (s_attr x) Kx _).
  intros g k Hg [Lk Dk] Hb. cbn beta. apply eqm_eq. destruct (split_at k (coord - 1)) as (l1 & s & l2 & -> & E1); [lia|].
  apply Sd_chain; [|exact E1]. intros k' Hk'. apply (proj2 Hg). cbn. f_equal. apply existsb_exists. exists []. now split.
Qed.
Lemma Sd_coassoc t t' i j g l1 s l2 : zlen l1 = i - 1 -> i <= j <= i + Z.of_nat t -> Sd t i (Sd t' j g) (l1 ++ s :: l2) = Sd (t + t') i g (l1 ++ s :: l2).
Proof.
  intros E Hj. rewrite !Sd_app by assumption. rewrite <- (S_coassoc t t' (fun u => g (l1 ++ u ++ l2)) (j - i) s) by lia.
  rewrite !S_sum. apply sumf_ext. intros u Hu. apply front_back_deg in Hu. destruct Hu as [_ Lu].
  destruct (split_at u (j - i)) as (u1 & b & u2 & -> & E1); [lia|]. rewrite at_pos_app by assumption.
  replace (l1 ++ (u1 ++ b :: u2) ++ l2) with ((l1 ++ u1) ++ b :: (u2 ++ l2)) by (rewrite <- !app_assoc; reflexivity).
  rewrite Sd_app by (rewrite zlen_app; lia). apply S_ext. intros w. f_equal. now rewrite <- !app_assoc.
Qed.
(** #C25_coassociative# Applying the diagonal to any of the factors produced
    by the diagonal gives the twice iterated diagonal; more generally, any
    iteration of diagonals in factors coming from factor [i] is the iterated
    diagonal. *)
Lemma C25_coassociative_l (dt n d t t' i j : Z) (x : simp) :
  wf cls_simplicial x -> dt_ok dt (torsion x) -> keys_in (fun k => zlen k = n /\ total_degree k = d) x ->
  1 <= i <= n -> 0 <= t -> 0 <= t' -> i <= j <= i + t ->
  let diagonal times coord := extended1 dt cls_simplicial (fun y => simp_iterated_diagonal dt y times coord) in
  same (let! y := diagonal t i x in diagonal t' j y) (diagonal (t + t') i x).
Proof.
  intros Wx Hdt Kx Hi H1 H2 Hj. cbn zeta. pose proof (proj1 Wx) as Ht. change (same (let! y := ext_diag dt t i x in ext_diag dt t' j y) (ext_diag dt (t + t') i x)).
  assert (Hj' : 1 <= j <= n + t) by lia.
  pose proof (rep_Sd n d (Z.to_nat t) i Hi) as R1. pose proof (adm_Sd (n + t) d (Z.to_nat t') j Hj') as A1. rewrite !Z2Nat.id in * by lia.
  refine (linop_same cls_simplicial cls_simplicial ok_simplicial (torsion x) tt tt (kdegS n d) _ _ _ _ _ _ x Ht
    (linop_comp _ _ _ ok_simplicial ok_simplicial ok_simplicial (torsion x) tt tt tt _ _ _ _ _ _ _ Ht (kpred_kdegS _ _)
       (linop_diag dt (torsion x) n d t i Ht Hdt Hi H1) (linop_diag dt (torsion x) (n + t) d t' j Ht Hdt Hj' H2) (rep_local _ _ _ R1) A1)
    (linop_diag dt (torsion x) n d (t + t') i Ht Hdt Hi ltac:(lia)) Wx eq_refl (s_attr x) Kx _).
  intros g k _ [Lk Dk] _. cbn beta. apply eqm_eq. destruct (split_at k (i - 1)) as (l1 & s & l2 & -> & E1); [lia|].
  rewrite Z2Nat.inj_add by lia. apply Sd_coassoc; auto. lia.
Qed.
(** #C25_example# The diagonal of a triangle times an edge, and coassociativity on it. *)
Example C25_example_l :
  let x := mkElt [([[0; 1; 2]; [5; 6]], 1)] 0 tt in
  simp_arity x = Some 2 /\ simp_degree x = Some 3 /\
  simp_iterated_diagonal 0 x 1 1 = Ok (mkElt [([[0]; [0; 1; 2]; [5; 6]], 1); ([[0; 1]; [1; 2]; [5; 6]], 1); ([[0; 1; 2]; [2]; [5; 6]], 1)] 0 tt) /\
  same (let! y := simp_iterated_diagonal 0 x 1 1 in simp_iterated_diagonal 0 y 1 2) (simp_iterated_diagonal 0 x 2 1).
Proof.
  cbn zeta. split; [reflexivity|]. split; [reflexivity|]. split; [vm_compute; reflexivity|].
  eexists. eexists. split; [vm_compute; reflexivity|]. split; [vm_compute; reflexivity|]. split; [|split]; vm_compute; reflexivity.
Qed.
(** #C24_example# *)
Example C24_example_l :
  simp_splittings 1 2 [[5; 6]; [0; 1; 2]] = [([[5; 6]; [0]; [0; 1; 2]], 1); ([[5; 6]; [0; 1]; [1; 2]], 1); ([[5; 6]; [0; 1; 2]; [2]], 1)].
Proof. reflexivity. Qed.

(** ** Bases *)
Lemma combinations_cons {A} r a (l : list A) : combinations (Datatypes.S r) (a :: l) = map (cons a) (combinations r l) ++ combinations (Datatypes.S r) l.
Proof. reflexivity. Qed.
Lemma combinations_in m a b c : In c (combinations m (zrange a b)) <-> length c = m /\ StronglySorted Z.lt c /\ (forall v, In v c -> a <= v < b).
Proof.
  revert c. remember (Z.to_nat (b - a)) as N eqn:EN. revert a m EN. induction N as [|N IH]; intros a m EN c.
  - rewrite (zrange_nil a b) by lia. destruct m as [|m].
    + cbn. split; [intros [<-|[]]; split; [reflexivity|split; [apply SSorted_nil|intros v []]]|]. intros (L & _). destruct c; [now left|discriminate].
    + cbn. split; [intros []|]. intros (L & _ & H). destruct c as [|v c]; [discriminate|]. specialize (H v (or_introl eq_refl)). lia.
  - rewrite (zrange_cons a b) by lia. destruct m as [|m].
    + cbn. split; [intros [<-|[]]; split; [reflexivity|split; [apply SSorted_nil|intros v []]]|]. intros (L & _). destruct c; [now left|discriminate].
    + rewrite combinations_cons, in_app_iff, in_map_iff, (IH (a + 1) (Datatypes.S m)) by lia. split.
      * intros [(c' & <- & Hc')|(L & S1 & H)].
        -- apply (IH (a + 1) m) in Hc'; [|lia]. destruct Hc' as (L & S1 & H). split; [cbn; lia|]. split.
           ++ constructor; [exact S1|]. apply Forall_forall. intros v Hv. specialize (H v Hv). lia.
           ++ intros v [<-|Hv]; [lia|]. specialize (H v Hv). lia.
        -- split; [exact L|]. split; [exact S1|]. intros v Hv. specialize (H v Hv). lia.
      * intros (L & S1 & H). destruct c as [|v c]; [discriminate|]. inversion S1 as [|? ? S2 F]; subst. rewrite Forall_forall in F.
        pose proof (H v (or_introl eq_refl)) as Hv. destruct (Z.eq_dec v a) as [->|Nv].
        -- left. exists c. split; [reflexivity|]. apply (IH (a + 1) m); [lia|]. split; [cbn in L; lia|]. split; [exact S2|].
           intros v Hv'. specialize (F v Hv'). specialize (H v (or_intror Hv')). lia.
        -- right. split; [exact L|]. split; [exact S1|]. intros u [<-|Hu]; [lia|]. specialize (F u Hu). specialize (H u (or_intror Hu)). lia.
Qed.
Lemma NoDup_app_intro {A} (l l' : list A) : NoDup l -> NoDup l' -> (forall a, In a l -> In a l' -> False) -> NoDup (l ++ l').
Proof.
  induction l as [|a l IH]; intros H1 H2 H; [exact H2|]. inversion H1 as [|? ? N H1']; subst. cbn. constructor.
  - rewrite in_app_iff. intros [Hi|Hi]; [contradiction|]. apply (H a); [now left|exact Hi].
  - apply IH; auto. intros b Hb. apply H. now right.
Qed.
Lemma combinations_nodup m a b : NoDup (combinations m (zrange a b)).
Proof.
  remember (Z.to_nat (b - a)) as N eqn:EN. revert a m EN. induction N as [|N IH]; intros a m EN.
  - rewrite (zrange_nil a b) by lia. destruct m as [|m]; cbn; repeat constructor; auto.
  - rewrite (zrange_cons a b) by lia. destruct m as [|m]; [cbn; repeat constructor; auto|]. rewrite combinations_cons. apply NoDup_app_intro.
    + apply FinFun.Injective_map_NoDup; [intros ? ? E; congruence|]. apply IH. lia.
    + apply IH. lia.
    + intros c Hc Hc'. apply in_map_iff in Hc. destruct Hc as (c' & <- & _). apply combinations_in in Hc'. destruct Hc' as (_ & _ & H). specialize (H a (or_introl eq_refl)). lia.
Qed.
(** #C26_basis# [Simplicial.basis(n)] lists exactly once each non-empty
    strictly increasing tuple of vertices in 0..n. *)
Lemma C26_basis_l (n : Z) :
  NoDup (simp_basis_keys n) /\ forall k, In k (simp_basis_keys n) <-> exists s, k = [s] /\ s <> [] /\ Sorted Z.lt s /\ forall v, In v s -> 0 <= v <= n.
Proof.
  unfold simp_basis_keys. split.
  - assert (G : forall l, NoDup l -> (forall m, In m l -> 1 <= m) -> NoDup (flat_map (fun m => map (fun b => [b]) (combinations (Z.to_nat m) (zrange 0 (n + 1)))) l)).
    { induction l as [|m l IH]; intros ND Hl; cbn [flat_map]; [constructor|]. inversion ND as [|? ? Nm ND']; subst. apply NoDup_app_intro.
      - apply FinFun.Injective_map_NoDup; [intros ? ? E; congruence|]. apply combinations_nodup.
      - apply IH; auto. intros m' Hm'. apply Hl. now right.
      - intros k Hk Hk'. apply in_map_iff in Hk. destruct Hk as (s & <- & Hs). apply in_flat_map in Hk'. destruct Hk' as (m' & Hm' & Hk').
        apply in_map_iff in Hk'. destruct Hk' as (s' & [= ->] & Hs'). apply combinations_in in Hs, Hs'. assert (Z.to_nat m = Z.to_nat m') by (destruct Hs, Hs'; congruence).
        pose proof (Hl m (or_introl eq_refl)). pose proof (Hl m' (or_intror Hm')). assert (m = m') by lia. congruence. }
    apply G; [apply NoDup_zrange|]. intros m Hm. apply in_zrange in Hm. lia.
  - intros k. rewrite in_flat_map. split.
    + intros (m & Hm & Hk). apply in_map_iff in Hk. destruct Hk as (s & <- & Hs). apply in_zrange in Hm. apply combinations_in in Hs. destruct Hs as (L & S1 & H).
      exists s. split; [reflexivity|]. split; [intros ->; cbn in L; lia|]. split; [now apply StronglySorted_Sorted|]. intros v Hv. specialize (H v Hv). lia.
    + intros (s & -> & N & S1 & H). apply Sorted_StronglySorted in S1; [|intros ? ? ?; lia].
      assert (B : forall s lo, StronglySorted Z.lt s -> (forall v, In v s -> lo <= v <= n) -> zlen s <= Z.max 0 (n + 1 - lo)).
      { clear. induction s as [|v s IH]; intros lo S1 H; [rewrite zlen_nil; lia|]. inversion S1 as [|? ? S2 F]; subst. rewrite Forall_forall in F.
        specialize (IH (v + 1) S2). rewrite zlen_cons. pose proof (H v (or_introl eq_refl)). assert (zlen s <= Z.max 0 (n + 1 - (v + 1))); [|lia].
        apply IH. intros u Hu. specialize (F u Hu). specialize (H u (or_intror Hu)). lia. }
      specialize (B s 0 S1 H). exists (zlen s). split.
      * apply in_zrange. destruct s as [|v s]; [congruence|]. rewrite zlen_cons in *. pose proof (zlen_nonneg s). pose proof (H v (or_introl eq_refl)). lia.
      * apply in_map_iff. exists s. split; [reflexivity|]. apply combinations_in. split; [symmetry; apply zlen_length|]. split; [exact S1|]. intros v Hv. specialize (H v Hv). lia.
Qed.
Lemma sorted_dupb s : Sorted Z.lt s -> dupb s = false.
Proof.
  induction s as [|v [|w s] IH]; intros H; [reflexivity|reflexivity|]. inversion H as [|? ? H1 H2]; subst. inversion H2; subst. rewrite dupb_cons2, IH by assumption.
  destruct (Z.eqb_spec v w); [lia|reflexivity].
Qed.
(** #C26_basis_elements# The elements of the basis: the list of the keys
    with coefficient one; [standard_element(n, times)] is the tensor power of
    the top simplex. *)
Lemma C26_basis_elements_l (dt n times t : Z) (ot : option Z) :
  t = match ot with Some t => t | None => dt end -> 0 <= t -> t <> 1 -> 0 <= n ->
  simp_basis dt n ot = map (fun k => Ok (mkElt [(k, 1)] t tt)) (simp_basis_keys n) /\ simp_standard_element dt n times ot = Ok (mkElt [(repeat (zrange 0 (n + 1)) (Z.to_nat times), 1)] t tt).
Proof.
  intros Et Ht N Hn. split.
  - unfold simp_basis. apply map_ext_in. intros k Hk. apply (proj2 (C26_basis_l n)) in Hk. destruct Hk as (s & -> & Ns & Hs & _).
    apply (new_basis_gen cls_simplicial); auto. cbn. f_equal. rewrite deg_dupb. destruct s; [congruence|]. now rewrite sorted_dupb.
  - unfold simp_standard_element. apply (new_basis_gen cls_simplicial); auto. cbn. f_equal.
    assert (E : spx_is_degenerate (zrange 0 (n + 1)) = false).
    { rewrite deg_dupb. rewrite (zrange_cons 0) by lia. rewrite <- (zrange_cons 0) by lia. apply sorted_dupb. generalize 0. intros a.
      remember (Z.to_nat (n + 1 - a)) as m eqn:Em. revert a Em. induction m as [|m IH]; intros a Em; [rewrite zrange_nil by lia; constructor|].
      rewrite zrange_cons by lia. constructor; [apply IH; lia|]. destruct (Z.ltb_spec (a + 1) (n + 1)); [rewrite zrange_cons by lia; constructor; lia|rewrite zrange_nil by lia; constructor]. }
    induction (Z.to_nat times) as [|m IH]; [reflexivity|]. cbn [repeat existsb]. now rewrite E, IH.
Qed.
(** #C26_example# *)
Example C26_example_l : simp_basis_keys 2 = [[[0]]; [[1]]; [[2]]; [[0; 1]]; [[0; 2]]; [[1; 2]]; [[0; 1; 2]]].
Proof. reflexivity. Qed.

(** ** One-reduction *)
Definition no_edge (k : list (list Z)) : bool := forallb (fun s => negb (zlen s =? 2)) k.
Lemma one_reduced_den dt t (x : simp) : 0 <= t -> dt_ok dt t -> wf cls_simplicial x -> torsion x = t ->
  returns (simp_one_reduced dt x) (den cls_simplicial t tt (fun g => ev (fun k => if forallb (fun spx => negb (spx_dim spx =? 1)) k then g k else 0) (data x))).
Proof.
  intros Ht Hdt Wx Tx. unfold simp_one_reduced.
  eapply returns_bind; [apply (zero_den cls_simplicial ok_simplicial dt t); auto|]. intros y0 Hy0. rewrite (s_attr x) in Hy0.
  eapply returns_mono.
  - apply (loop_den cls_simplicial ok_simplicial t tt (data x) _ (fun k g => if forallb (fun spx => negb (spx_dim spx =? 1)) k then g k else 0)); [|exact Hy0].
    intros k v F y _ Hy. destruct (forallb _ k).
    + eapply (add_term_den cls_simplicial ok_simplicial dt t); eauto. eexists; reflexivity.
    + apply returns_ok. eapply den_ext; [|exact Hy]. intros g _. apply eqm_eq. ring.
  - intros z Hz. eapply den_ext; [|exact Hz]. intros g _. cbn beta. apply eqm_eq. now rewrite Z.add_0_l.
Qed.

(** #C59_keeps_terms# [one_reduced] keeps exactly the terms with no factor of dimension 1. *)
Lemma C59_keeps_terms_l (dt : Z) (x : simp) : wf cls_simplicial x -> dt_ok dt (torsion x) ->
  same (simp_one_reduced dt x) (Ok (mkElt (filter (fun kv => forallb (fun s => negb (zlen s =? 2)) (fst kv)) (data x)) (torsion x) tt)).
Proof.
  intros Wx Hdt. pose proof (proj1 Wx) as Ht.
  assert (Ef : forall k : list (list Z), forallb (fun s => negb (zlen s =? 2)) k = forallb (fun spx => negb (spx_dim spx =? 1)) k).
  { intros k. induction k as [|s k IH]; [reflexivity|]. cbn [forallb]. rewrite IH. f_equal. unfold spx_dim. destruct (Z.eqb_spec (zlen s) 2), (Z.eqb_spec (zlen s - 1) 1); (lia || reflexivity). }
  set (y := mkElt (filter (fun kv => forallb (fun s => negb (zlen s =? 2)) (fst kv)) (data x)) (torsion x) tt).
  assert (Wy : wf cls_simplicial y).
  { split; [exact Ht|]. destruct Wx as (_ & Hd & Hx). split.
    - cbn [data y]. unfold y. cbn [data]. unfold dkeys in *. clear Hx. induction (data x) as [|[k v] d IH]; [exact I|]. cbn [map kdistinct fst] in Hd. destruct Hd as [H1 H2].
      cbn [filter fst]. destruct (forallb _ k); [|now apply IH]. cbn [map fst kdistinct]. split; [|now apply IH].
      intros k' Hk'. apply H1. apply in_map_iff in Hk'. destruct Hk' as (p & <- & Hp). apply filter_In in Hp. now apply in_map.
    - intros k v Hin. unfold y in Hin. cbn [data] in Hin. apply filter_In in Hin. now apply Hx. }
  eapply (same_den cls_simplicial ok_simplicial (torsion x) tt); [exact Ht|now apply one_reduced_den|apply returns_ok, (den_self cls_simplicial y Wy)|].
  intros g _. cbn beta. apply eqm_eq. unfold y. cbn [data]. unfold ev. rewrite sumf_filter. apply sumf_ext. intros [k v] _. cbn [fst snd]. rewrite Ef.
  destruct (forallb _ k); ring.
Qed.
Lemma linop_red dt t : 0 <= t -> dt_ok dt t -> linop cls_simplicial cls_simplicial t tt tt (fun _ => True) (fun _ => True) (fun g k => if forallb (fun spx => negb (spx_dim spx =? 1)) k then g k else 0) (simp_one_reduced dt).
Proof.
  intros Ht Hdt x Wx Tx _ _. eapply returns_mono; [now apply (one_reduced_den dt t)|]. intros y Hy. split; [exact Hy|]. intros k v _. exact I.
Qed.
Lemma adm_red : admop cls_simplicial cls_simplicial (fun _ => True) (fun _ => True) (fun g k => if forallb (fun spx => negb (spx_dim spx =? 1)) k then g k else 0).
Proof. intros g [_ Hg]. apply admP_keyeq. intros k _ Hb. destruct (forallb _ k); [now apply Hg|reflexivity]. Qed.
Lemma loc_red : local (fun _ => True) (fun _ => True) (fun g (k : list (list Z)) => if forallb (fun spx => negb (spx_dim spx =? 1)) k then g k else 0).
Proof. intros k _. exists [k]. split; [auto|]. intros g h E. now rewrite (E k) by now left. Qed.
(** #C59_linear# *)
Lemma C59_linear_l (dt n : Z) (x y : simp) : wf cls_simplicial x -> wf cls_simplicial y -> torsion y = torsion x -> dt_ok dt (torsion x) ->
  same (let! s := add dt cls_simplicial x y in simp_one_reduced dt s)
       (let! p := simp_one_reduced dt x in let! q := simp_one_reduced dt y in add dt cls_simplicial p q) /\
  same (let! s := scale dt cls_simplicial n x in simp_one_reduced dt s)
       (let! p := simp_one_reduced dt x in scale dt cls_simplicial n p).
Proof.
  intros Wx Wy Ty Hdt. pose proof (proj1 Wx) as Ht. split.
  - exact (linop_add _ _ ok_simplicial ok_simplicial dt (torsion x) tt tt _ _ _ _ x y Ht Hdt kpred_any (linop_red dt _ Ht Hdt) adm_red
      Wx eq_refl (s_attr x) (fun _ _ _ => I) Wy Ty (s_attr y) (fun _ _ _ => I)).
  - exact (linop_scale _ _ ok_simplicial ok_simplicial dt (torsion x) tt tt _ _ _ _ x n Ht Hdt kpred_any (linop_red dt _ Ht Hdt) adm_red
      Wx eq_refl (s_attr x) (fun _ _ _ => I)).
Qed.
(** #C59_idempotent# *)
Lemma C59_idempotent_l (dt : Z) (x : simp) : wf cls_simplicial x -> dt_ok dt (torsion x) ->
  same (let! y := simp_one_reduced dt x in simp_one_reduced dt y) (simp_one_reduced dt x).
Proof.
  intros Wx Hdt. pose proof (proj1 Wx) as Ht. pose proof (linop_red dt _ Ht Hdt) as L.
  refine (linop_same _ _ ok_simplicial (torsion x) tt tt _ _ _ _ _ _ _ x Ht
    (linop_comp _ _ _ ok_simplicial ok_simplicial ok_simplicial (torsion x) tt tt tt _ _ _ _ _ _ _ Ht kpred_any L L loc_red adm_red) L
    Wx eq_refl (s_attr x) (fun _ _ _ => I) _).
  intros g k _ _ _. cbn beta. apply eqm_eq. now destruct (forallb _ k).
Qed.
(** #C59_boundary_compatible_refuted# [one_reduced] does not commute with
    the boundary, and the boundary of its kernel is not in its kernel: the
    edge (0, 1) is sent to zero but its boundary (1) - (0) is kept. *)
Lemma C59_boundary_compatible_refuted_l :
  exists x : simp, wf cls_simplicial x /\ simp_one_reduced 0 x = Ok (mkElt [] 0 tt) /\
    (let! y := simp_boundary 0 x in simp_one_reduced 0 y) = Ok (mkElt [([[1]], 1); ([[0]], -1)] 0 tt) /\
    ~ same (let! y := simp_one_reduced 0 x in simp_boundary 0 y) (let! y := simp_boundary 0 x in simp_one_reduced 0 y).
Proof.
  exists (mkElt [([[0; 1]], 1)] 0 tt). split; [apply wfb_wf; reflexivity|]. split; [reflexivity|]. split; [reflexivity|].
  intros (a & b & E1 & E2 & E3 & _). vm_compute in E1, E2. injection E1 as <-. injection E2 as <-. vm_compute in E3. discriminate.
Qed.
(** #C59_example# *)
Example C59_example_l :
  simp_one_reduced 0 (mkElt [([[0; 1]; [2]], 3); ([[0; 1; 2]; [4]], 5)] 0 tt) = Ok (mkElt [([[0; 1; 2]; [4]], 5)] 0 tt).
Proof. reflexivity. Qed.
