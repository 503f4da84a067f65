(** * Single cubes: intervals, faces, Cartan-Serre vertex list (C71) *)
From Verif Require Import PyBase Dict FreeModule Symmetric Simplicial Cubical Eqm Spec SpecChain SpecCube FreeModuleFacts ListFacts ClassFacts LinearFacts
  SymmetricFacts Tensor TensorAct KoszulFacts LoopFacts SimplicialFacts SimplicialDiag SimplicialLaws CubicalFacts CubicalDiag CubicalJoin CubicalSerre CubicalLaws SpecCube.

Lemma dim_cd c : cube_dim c = dim c.
Proof. induction c as [|a c IH]; [reflexivity|]. rewrite cube_dim_cons. cbn [dim]. now rewrite IH. Qed.
Lemma dim_app' a b : dim (a ++ b) = dim a + dim b. Proof. rewrite <- !dim_cd. apply cube_dim_app. Qed.
Lemma dim_nonneg' c : 0 <= dim c.
Proof. induction c as [|a c IH]; [reflexivity|]. cbn [dim]. destruct (a =? 2); lia. Qed.
Lemma intervals_len c : zlen (cube_intervals c) = dim c.
Proof. induction c as [|a c IH]; [reflexivity|]. rewrite intervals_cons, zlen_app, zlen_map, IH. cbn [dim]. destruct (a =? 2); reflexivity. Qed.
(** #C71_intervals# [intervals] lists, in increasing order, the positions of the entries equal to 2; there are [dimension] of them. *)
Lemma C71_intervals_l (c : list Z) :
  (forall i, In i (cube_intervals c) <-> exists l1 l2, c = l1 ++ 2 :: l2 /\ zlen l1 = i) /\
  (forall l1 i j l2, cube_intervals c = l1 ++ i :: j :: l2 -> i < j) /\
  zlen (cube_intervals c) = dim c /\ cube_dim c = dim c.
Proof.
  split; [|split; [|split; [apply intervals_len|apply dim_cd]]].
  - induction c as [|a c IH]; intros i.
    + split; [intros []|]. intros (l1 & l2 & E & _). destruct l1; discriminate.
    + rewrite intervals_cons, in_app_iff, in_map_iff. split.
      * intros [H|(j & <- & H)].
        { destruct (Z.eqb_spec a 2) as [->|N]; [|destruct H]. destruct H as [<-|[]]. exists [], c. split; reflexivity. }
        { apply IH in H. destruct H as (l1 & l2 & -> & <-). exists (a :: l1), l2. split; [reflexivity|]. rewrite zlen_cons. lia. }
      * intros (l1 & l2 & E & <-). destruct l1 as [|b l1].
        { injection E as -> _. left. left. reflexivity. }
        { injection E as -> ->. right. exists (zlen l1). split; [rewrite zlen_cons; lia|]. apply IH. exists l1, l2. split; reflexivity. }
  - induction c as [|a c IH]; intros l1 i j l2 E; [destruct l1; discriminate|]. rewrite intervals_cons in E.
    assert (G : forall l1 i j l2, map (fun i => i + 1) (cube_intervals c) = l1 ++ i :: j :: l2 -> i < j).
    { clear -IH. intros l1 i j l2 E. apply map_eq_app in E. destruct E as (m1 & m2 & E & <- & E2). destruct m2 as [|x [|y m2]]; try discriminate. cbn in E2. injection E2 as <- <- <-.
      pose proof (IH _ _ _ _ E). lia. }
    destruct (a =? 2); [|apply (G l1 i j l2 E)]. destruct l1 as [|b l1].
    + cbn [app] in E. injection E as <- E. assert (Hj : In j (map (fun i => i + 1) (cube_intervals c))) by (rewrite E; now left). apply in_map_iff in Hj. destruct Hj as (x & <- & Hx).
      pose proof (intervals_nonneg c x Hx). lia.
    + cbn [app] in E. injection E as <- E. exact (G l1 i j l2 E).
Qed.
Lemma py_get_mid {A} (l1 : list A) a l2 : py_get (l1 ++ a :: l2) (zlen l1) = Ok a.
Proof.
  unfold py_get. pose proof (zlen_nonneg l1). replace (zlen l1 <? 0) with false by (symmetry; apply Z.ltb_ge; lia). rewrite (proj2 (Z.ltb_ge _ _)) by lia.
  unfold zlen. rewrite Nat2Z.id, nth_error_app2, Nat.sub_diag by lia. reflexivity.
Qed.
(** #C71_face# The i-th face replaces the i-th interval by 1 for epsilon 0 and by 0 for epsilon 1 (the docstring has epsilon itself). *)
Lemma C71_face_l (l1 l2 : list Z) (eps : Z) :
  cube_face (l1 ++ 2 :: l2) (dim l1) eps = Ok (l1 ++ ((eps + 1) mod 2) :: l2) /\
  cube_face (l1 ++ 2 :: l2) (dim l1) 0 = Ok (l1 ++ 1 :: l2) /\ cube_face (l1 ++ 2 :: l2) (dim l1) 1 = Ok (l1 ++ 0 :: l2).
Proof.
  assert (G : forall e, cube_face (l1 ++ 2 :: l2) (dim l1) e = Ok (l1 ++ ((e + 1) mod 2) :: l2)).
  { intros e. unfold cube_face. rewrite intervals_app, intervals_cons. cbn [app map Z.eqb Pos.eqb]. rewrite <- (intervals_len l1), py_get_mid. cbn [bind].
    rewrite Z.add_0_l. rewrite slice_to_app, slice_from_app_S. reflexivity. }
  split; [apply G|]. split; apply G.
Qed.
(** #C71_face_range# Indices: 0, ..., dimension - 1, or negative ones counted from the end; otherwise IndexError. *)
Lemma C71_face_range_l (c : list Z) (i eps : Z) :
  (0 <= i < dim c -> exists l1 l2, c = l1 ++ 2 :: l2 /\ dim l1 = i) /\
  (i < - dim c \/ dim c <= i -> cube_face c i eps = Err IndexError) /\
  (- dim c <= i < 0 -> cube_face c i eps = cube_face c (i + dim c) eps).
Proof.
  split; [|split].
  - revert i. induction c as [|a c IH]; intros i Hi; [cbn in Hi; lia|]. cbn [dim] in Hi. destruct (Z.eqb_spec a 2) as [->|N].
    + destruct (Z.eq_dec i 0) as [->|Ni]; [exists [], c; split; reflexivity|]. destruct (IH (i - 1) ltac:(lia)) as (l1 & l2 & -> & D). exists (2 :: l1), l2. split; [reflexivity|]. cbn [dim]. change (2 =? 2) with true. cbv iota. lia.
    + destruct (IH i ltac:(lia)) as (l1 & l2 & -> & D). exists (a :: l1), l2. split; [reflexivity|]. cbn [dim]. rewrite (proj2 (Z.eqb_neq a 2) N). lia.
  - intros Hi. unfold cube_face, py_get. rewrite intervals_len. pose proof (dim_nonneg' c).
    assert (E : forall j, dim c <= j -> nth_error (cube_intervals c) (Z.to_nat j) = None).
    { intros j Hj. apply nth_error_None. pose proof (intervals_len c) as L. unfold zlen in L. lia. }
    destruct Hi as [Hi|Hi].
    + rewrite (proj2 (Z.ltb_lt i 0)) by lia. rewrite (proj2 (Z.ltb_lt (i + dim c) 0)) by lia. reflexivity.
    + rewrite (proj2 (Z.ltb_ge i 0)) by lia. rewrite (proj2 (Z.ltb_ge i 0)) by lia. rewrite E by lia. reflexivity.
  - intros Hi. unfold cube_face, py_get. rewrite intervals_len. rewrite (proj2 (Z.ltb_lt i 0)) by lia. rewrite (proj2 (Z.ltb_ge (i + dim c) 0)) by lia. rewrite (proj2 (Z.ltb_ge (i + dim c) 0)) by lia. reflexivity.
Qed.
(** #C71_cubical_identities# For i < j, the face i of the face j is the face j - 1 of the face i; a face has one dimension less. *)
Lemma C71_cubical_identities_l (c : list Z) (i j e f : Z) : 0 <= i -> i < j -> j < dim c ->
  exists u v w, cube_face c j f = Ok u /\ cube_face c i e = Ok v /\ cube_face u i e = Ok w /\ cube_face v (j - 1) f = Ok w /\
    cube_dim u = cube_dim c - 1 /\ cube_dim w = cube_dim c - 2.
Proof.
  intros Hi Hij Hj. destruct (proj1 (C71_face_range_l c i 0) ltac:(lia)) as (l1 & l2 & E & D1).
  assert (Hj2 : 0 <= j - i - 1 < dim l2). { rewrite E, dim_app' in Hj. cbn [dim] in Hj. change (2 =? 2) with true in Hj. cbv iota in Hj. lia. }
  destruct (proj1 (C71_face_range_l l2 (j - i - 1) 0) Hj2) as (m1 & m2 & E2 & D2). subst l2 c.
  assert (Dm : forall a, a <> 2 -> dim (l1 ++ a :: m1) = j - 1).
  { intros a Na. rewrite dim_app'. cbn [dim]. rewrite (proj2 (Z.eqb_neq a 2) Na). lia. }
  assert (D2' : dim (l1 ++ 2 :: m1) = j). { rewrite dim_app'. cbn [dim]. change (2 =? 2) with true. cbv iota. lia. }
  assert (N : forall x, x mod 2 <> 2) by (intros x; pose proof (Z.mod_pos_bound x 2 ltac:(lia)); lia).
  exists (l1 ++ 2 :: m1 ++ (f + 1) mod 2 :: m2), (l1 ++ (e + 1) mod 2 :: m1 ++ 2 :: m2), (l1 ++ (e + 1) mod 2 :: m1 ++ (f + 1) mod 2 :: m2).
  assert (F1 : cube_face (l1 ++ 2 :: m1 ++ 2 :: m2) j f = Ok (l1 ++ 2 :: m1 ++ (f + 1) mod 2 :: m2)).
  { pose proof (proj1 (C71_face_l (l1 ++ 2 :: m1) m2 f)) as F. rewrite D2', <- !app_assoc in F. exact F. }
  assert (F2 : forall r, cube_face (l1 ++ 2 :: r) i e = Ok (l1 ++ (e + 1) mod 2 :: r)) by (intros r; rewrite <- D1; apply C71_face_l).
  assert (F3 : cube_face (l1 ++ (e + 1) mod 2 :: m1 ++ 2 :: m2) (j - 1) f = Ok (l1 ++ (e + 1) mod 2 :: m1 ++ (f + 1) mod 2 :: m2)).
  { pose proof (proj1 (C71_face_l (l1 ++ (e + 1) mod 2 :: m1) m2 f)) as F. rewrite Dm, <- !app_assoc in F by apply N. exact F. }
  split; [exact F1|]. split; [apply F2|]. split; [apply F2|]. split; [exact F3|].
  rewrite !dim_cd, !dim_app'. cbn [dim]. rewrite !dim_app'. cbn [dim]. change (2 =? 2) with true. rewrite !(proj2 (Z.eqb_neq _ 2) (N _)). cbv iota. lia.
Qed.
(** #C71_cartan_serre# The vertices of the Cartan-Serre simplex of a cube: the positions of the intervals before the first 0, and the position of the first 0 (the number of entries if there is none). *)
Lemma C71_cartan_serre_l (c l : list Z) : ~ In 0 c ->
  cube_cartan_serre c = Ok (cube_intervals c ++ [zlen c]) /\ cube_cartan_serre (c ++ 0 :: l) = Ok (cube_intervals c ++ [zlen c]).
Proof.
  intros N. rewrite !cs_ok.
  assert (G : forall o r, (forall o', cs o' r = [o']) -> cs o (c ++ r) = map (fun i => i + o) (cube_intervals c) ++ [o + zlen c]).
  { clear -N. induction c as [|a c IH]; intros o r Hr; [change ([] ++ r) with r; rewrite Hr; change (zlen (@nil Z)) with 0; rewrite Z.add_0_r; reflexivity|]. cbn [app cs]. rewrite (proj2 (Z.eqb_neq a 0)) by (intros ->; apply N; now left).
    rewrite (IH ltac:(intros H; apply N; now right)) by exact Hr. rewrite intervals_cons, zlen_cons, map_app, map_map.
    assert (Em : map (fun x => x + 1 + o) (cube_intervals c) = map (fun i => i + (o + 1)) (cube_intervals c)) by (apply map_ext; intros; ring). rewrite Em.
    replace (o + 1 + zlen c) with (o + (zlen c + 1)) by ring. destruct (a =? 2); cbn [map app]; [rewrite Z.add_0_l|]; reflexivity. }
  assert (E0 : map (fun i => i + 0) (cube_intervals c) = cube_intervals c) by (rewrite (map_ext _ (fun i => i)) by (intros; ring); apply map_id).
  split; f_equal.
  - rewrite <- (app_nil_r c) at 1. rewrite (G 0 []) by reflexivity. now rewrite E0.
  - rewrite (G 0 (0 :: l)) by reflexivity. now rewrite E0.
Qed.
(** #C71_example# *)
Example C71_example_l :
  cube_intervals [1; 2; 0; 2] = [1; 3] /\ cube_face [1; 2; 0; 2] 1 0 = Ok [1; 2; 0; 1] /\ cube_face [1; 2; 0; 2] (-1) 0 = Ok [1; 2; 0; 1] /\
  cube_face [1; 2; 0; 2] 2 0 = Err IndexError /\ cube_cartan_serre [2; 1; 2] = Ok [0; 2; 3] /\ cube_cartan_serre [2; 1; 0; 2] = Ok [0; 2].
Proof. repeat split. Qed.
