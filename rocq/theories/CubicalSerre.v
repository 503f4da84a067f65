(** * The Cartan-Serre map.  Proof library. *)
From Coq Require Import Setoid Morphisms.
From Verif Require Import PyBase Dict FreeModule Symmetric Simplicial Cubical Eqm Spec SpecChain SpecCube FreeModuleFacts FreeModuleLaws ListFacts ClassFacts LinearFacts SymmetricFacts
  CycleFacts SymmetricLaws RingFacts Tensor TensorAct KoszulFacts LoopFacts SimplicialFacts CubicalFacts CubicalJoin.

Fixpoint cs (o : Z) (c : list Z) : list Z :=
  match c with
  | [] => [o]
  | a :: c' => if a =? 0 then [o] else if a =? 2 then o :: cs (o + 1) c' else cs (o + 1) c'
  end.
Lemma cs_shift o c : map (fun i => i + o) (cs 0 c) = cs o c.
Proof.
  assert (H : forall c o p, map (fun i => i + o) (cs p c) = cs (p + o) c).
  { clear. induction c as [|a c IH]; intros o p; [reflexivity|]. cbn [cs]. destruct (a =? 0); [reflexivity|]. destruct (a =? 2); cbn [map]; rewrite IH; [f_equal|]; now replace (p + 1 + o) with (p + o + 1) by ring. }
  apply H.
Qed.
Lemma index_from_shift l a i : index_from l a i = match index_from l a 0 with Ok j => Ok (j + i) | Err e => Err e end.
Proof.
  revert i. induction l as [|b l IH]; intros i; [reflexivity|]. cbn [index_from]. destruct (b =? a); [f_equal; ring|]. rewrite (IH (i + 1)), (IH (0 + 1)). destruct (index_from l a 0); [f_equal; ring|reflexivity].
Qed.
Lemma cs_ok c : cube_cartan_serre c = Ok (cs 0 c).
Proof.
  unfold cube_cartan_serre.
  set (e := if mem 0 c then match py_index c 0 with Ok j => j | Err _ => 0 end else zlen c).
  assert (E : (if mem 0 c then py_index c 0 else Ok (zlen c)) = Ok e).
  { unfold e. destruct (mem 0 c) eqn:M; [|reflexivity]. apply mem_in in M. apply in_split in M. destruct (py_index c 0) eqn:Ei; [reflexivity|]. exfalso.
    assert (H : forall l i x, In x l -> index_from l x i <> Err e0).
    { clear. induction l as [|b l IH]; intros i x; [intros []|]. cbn [index_from]. destruct (Z.eqb_spec b x); [discriminate|]. intros [->|Hx]; [contradiction|]. now apply IH. }
    destruct M as (l1 & l2 & ->). apply (H (l1 ++ 0 :: l2) 0 0); [apply in_elt|exact Ei]. }
  rewrite E. cbn [bind]. f_equal. unfold e. clear E e. induction c as [|a c IH]; [reflexivity|].
  change (mem 0 (a :: c)) with ((0 =? a) || mem 0 c). rewrite (Z.eqb_sym 0 a). unfold py_index in *. cbn [index_from cs]. rewrite intervals_cons. destruct (Z.eqb_spec a 0) as [->|N0].
  - cbn [orb]. change (0 =? 2) with false. cbn iota. cbn [app].
    assert (F : filter (fun i => i <? 0) (map (fun i => i + 1) (cube_intervals c)) = []); [|now rewrite F].
    pose proof (intervals_nonneg c) as Hn. clear IH. revert Hn. generalize (cube_intervals c). intros l Hn. induction l as [|i l IHl]; [reflexivity|]. cbn [map filter]. pose proof (Hn i (or_introl eq_refl)) as Hi.
    destruct (Z.ltb_spec (i + 1) 0); [lia|]. apply IHl. intros j Hj. apply Hn. now right.
  - cbn [orb]. rewrite index_from_shift. replace (0 + 1) with 1 by reflexivity.
    assert (Ee : (if mem 0 c then match match index_from c 0 0 with Ok j => Ok (j + 1) | Err e => Err e end with Ok j => j | Err _ => 0 end else zlen (a :: c)) =
      (if mem 0 c then match index_from c 0 0 with Ok j => j | Err _ => 0 end else zlen c) + 1).
    { rewrite zlen_cons. destruct (mem 0 c) eqn:M; [|ring]. destruct (index_from c 0 0) eqn:Ei; [ring|]. exfalso. apply mem_in in M.
      assert (H : forall l i x, In x l -> index_from l x i <> Err e).
      { clear. induction l as [|b l IH]; intros i x; [intros []|]. cbn [index_from]. destruct (Z.eqb_spec b x); [discriminate|]. intros [->|Hx]; [contradiction|]. now apply IH. }
      exact (H _ _ _ M Ei). }
    rewrite Ee. set (m := if mem 0 c then match index_from c 0 0 with Ok j => j | Err _ => 0 end else zlen c) in *.
    rewrite <- (cs_shift 1), <- IH, map_app. cbn [map].
    assert (F : filter (fun i => i <? m + 1) (map (fun i => i + 1) (cube_intervals c)) = map (fun i => i + 1) (filter (fun i => i <? m) (cube_intervals c))).
    { clear. induction (cube_intervals c) as [|i l IHl]; [reflexivity|]. cbn [map filter]. destruct (Z.ltb_spec (i + 1) (m + 1)), (Z.ltb_spec i m); try lia; cbn [map]; now rewrite IHl. }
    assert (Hm : 0 <= m).
    { unfold m. destruct (mem 0 c); [|apply zlen_nonneg]. destruct (index_from c 0 0) eqn:Ei; [|lia].
      assert (H : forall l i x j, index_from l x i = Ok j -> i <= j).
      { clear. induction l as [|b l IH]; intros i x j; [discriminate|]. cbn [index_from]. destruct (Z.eqb_spec b x); [intros [= ->]; lia|]. intros H. apply IH in H. lia. }
      now apply H in Ei. }
    rewrite filter_app, F. destruct (a =? 2); cbn [filter app]; [|reflexivity]. destruct (Z.ltb_spec 0 (m + 1)); [reflexivity|lia].
Qed.
Lemma cs_collapse o c : (collapse o c = Some (cs o c) /\ zlen (cs o c) - 1 = cube_dim c) \/ (collapse o c = None /\ zlen (cs o c) - 1 < cube_dim c).
Proof.
  revert o. induction c as [|a c IH]; intros o; [left; split; reflexivity|]. cbn [collapse cs]. rewrite cube_dim_cons, <- (cube_dim_dim c). destruct (Z.eqb_spec a 0) as [->|N0].
  - change (0 =? 2) with false. cbn iota. change (zlen [o]) with 1. pose proof (cube_dim_nonneg c). destruct (Z.eqb_spec (cube_dim c) 0); [left|right]; (split; [reflexivity|lia]).
  - destruct (IH (o + 1)) as [[-> E]|[-> E]]; [left|right]; destruct (a =? 2); rewrite ?zlen_cons; (split; [reflexivity|lia]).
Qed.
Lemma collapses_spec k : (collapses k = Some (map (cs 0) k) /\ tdeg spx_dim (map (cs 0) k) = tdeg cube_dim k) \/ (collapses k = None /\ tdeg spx_dim (map (cs 0) k) < tdeg cube_dim k).
Proof.
  induction k as [|c k IH]; [left; split; reflexivity|]. cbn [collapses map]. rewrite !tdeg_cons. change (spx_dim (cs 0 c)) with (zlen (cs 0 c) - 1).
  destruct (cs_collapse 0 c) as [[H1 E1]|[H1 E1]], IH as [[H2 E2]|[H2 E2]]; rewrite ?H1, ?H2; [left|right|right|right]; (split; [reflexivity|lia]). 
Qed.

(** ** dual operators *)
Definition cg (o : Z) (G : list Z -> Z) (c : list Z) : Z := match collapse o c with Some s => G s | None => 0 end.
Definition DC (g : list (list Z) -> Z) (k : list (list Z)) : Z := match collapses k with Some r => g r | None => 0 end.
Lemma DC_nil g : DC g [] = g []. Proof. reflexivity. Qed.
Lemma DC_cons g c k : DC g (c :: k) = cg 0 (fun s => DC (fun r => g (s :: r)) k) c.
Proof. unfold DC, cg. cbn [collapses]. destruct (collapse 0 c); [|reflexivity]. destruct (collapses k); reflexivity. Qed.
Lemma DC_ev g k : ev g (cub_collapse k) = DC g k.
Proof. unfold cub_collapse, DC. destruct (collapses k); [rewrite ev_cons, ev_nil; ring|reflexivity]. Qed.
Lemma cg_0 o G w : cg o G (0 :: w) = e0 w * G [o].
Proof. unfold cg. cbn [collapse]. change (0 =? 0) with true. cbn iota. rewrite <- cube_dim_dim. unfold e0. destruct (cube_dim w =? 0); ring. Qed.
Lemma cg_2 o G w : cg o G (2 :: w) = cg (o + 1) (fun s => G (o :: s)) w.
Proof. unfold cg. cbn [collapse]. change (2 =? 0) with false. cbn iota. destruct (collapse (o + 1) w); reflexivity. Qed.
Lemma cg_n o G a w : a <> 0 -> a <> 2 -> cg o G (a :: w) = cg (o + 1) G w.
Proof. intros N0 N2. unfold cg. cbn [collapse]. destruct (Z.eqb_spec a 0); [contradiction|]. destruct (Z.eqb_spec a 2); [contradiction|]. destruct (collapse (o + 1) w); reflexivity. Qed.
Lemma cg_ext o G G' c : (forall s, spx_dim s = cube_dim c -> G s = G' s) -> cg o G c = cg o G' c.
Proof. intros E. unfold cg. destruct (cs_collapse o c) as [[-> H]|[-> _]]; [|reflexivity]. apply E. exact H. Qed.
Lemma cg_add o G G' c : cg o (fun s => G s + G' s) c = cg o G c + cg o G' c. Proof. unfold cg. destruct (collapse o c); ring. Qed.
Lemma cg_sub o G G' c : cg o (fun s => G s - G' s) c = cg o G c - cg o G' c. Proof. unfold cg. destruct (collapse o c); ring. Qed.
Lemma cg_scal n o G c : cg o (fun s => n * G s) c = n * cg o G c. Proof. unfold cg. destruct (collapse o c); ring. Qed.
Lemma cg_chain o G c : cg o (fdS G) c = fdC (cg o G) c + e0 c * G [].
Proof.
  revert o G. induction c as [|a w IH]; intros o G.
  - unfold cg. cbn [collapse]. rewrite fdS_cons, fdS_nil, fdC_nil. change (e0 []) with 1. ring.
  - rewrite e0_cons. destruct (Z.eq_dec a 2) as [->|N2].
    + rewrite cg_2, fdC_2, cg_0, cg_n by lia. rewrite (cg_ext _ _ (fun s => G s - fdS (fun u => G (o :: u)) s)) by (intros; apply fdS_cons). rewrite cg_sub.
      rewrite (fdC_ext (fun u => cg o G (2 :: u)) (cg (o + 1) (fun s => G (o :: s)))) by (intros; apply cg_2).
      change (fun s => fdS (fun u => G (o :: u)) s) with (fdS (fun u => G (o :: u))). rewrite IH. change (2 =? 2) with true. cbn iota. change (fun s => G s) with G. ring.
    + rewrite fdC_n by assumption. destruct (Z.eqb_spec a 2); [contradiction|]. destruct (Z.eq_dec a 0) as [->|N0].
      * rewrite cg_0. rewrite (fdC_ext _ (fun u => G [o] * e0 u)) by (intros; rewrite cg_0; ring). rewrite fdC_scal. change (fun u => e0 u) with e0. rewrite fdC_e0. rewrite fdS_cons, fdS_nil. ring.
      * rewrite cg_n, IH by assumption. f_equal. apply fdC_ext. intros u. now rewrite cg_n.
Qed.
Lemma DC_lin g h n m k : DC (fun r => n * g r + m * h r) k = n * DC g k + m * DC h k. Proof. unfold DC. destruct (collapses k); ring. Qed.
Lemma DC_ext g h k : (forall r, g r = h r) -> DC g k = DC h k. Proof. intros E. unfold DC. destruct (collapses k); auto. Qed.
Lemma DC_exch {B} (G : B -> list (list Z) -> Z) (d : dict B) k : DC (fun r => ev (fun b => G b r) d) k = ev (fun b => DC (G b) k) d.
Proof. unfold DC. destruct (collapses k); [reflexivity|]. symmetry. now apply ev_zero. Qed.
Lemma cg_exch {B} o (G : B -> list Z -> Z) (d : dict B) c : cg o (fun s => ev (fun b => G b s) d) c = ev (fun b => cg o (G b) c) d.
Proof. unfold cg. destruct (collapse o c); [reflexivity|]. symmetry. now apply ev_zero. Qed.
Lemma DC_zero k : DC (fun _ => 0) k = 0. Proof. unfold DC. now destruct (collapses k). Qed.
Lemma DC_chain g k : (forall r, In [] r -> g r = 0) -> DC (tDS g) k = tDC (DC g) k.
Proof.
  revert g. induction k as [|c k IH]; intros g Hg; [reflexivity|]. rewrite DC_cons, tD_cons.
  rewrite (cg_ext 0 _ (fun s => fdS (fun s' => DC (fun r => g (s' :: r)) k) s + sgn (cube_dim c) * tDC (DC (fun r => g (s :: r))) k)).
  2:{ intros s Es. rewrite (DC_ext _ (fun r => 1 * fdS (fun s' => g (s' :: r)) s + sgn (spx_dim s) * tDS (fun r' => g (s :: r')) r)) by (intros; rewrite tD_cons; ring).
      rewrite DC_lin, Z.mul_1_l, Es. rewrite <- IH by (intros r Hr; apply Hg; now right). f_equal. unfold fd. apply (DC_exch (fun s' r => g (s' :: r))). }
  rewrite cg_add, cg_scal. change (fun s => fdS (fun s' => DC (fun r => g (s' :: r)) k) s) with (fdS (fun s' => DC (fun r => g (s' :: r)) k)). rewrite cg_chain.
  rewrite (DC_ext (fun r => g ([] :: r)) (fun _ => 0)) by (intros; apply Hg; now left). rewrite DC_zero, Z.mul_0_r, Z.add_0_r. f_equal.
  - apply fdC_ext. intros b. symmetry. apply DC_cons.
  - f_equal. unfold tD. rewrite (cg_exch 0 (fun k' s => DC (fun r => g (s :: r)) k')). apply ev_ext_all. intros k'. symmetry. apply DC_cons.
Qed.

(** ** the operation *)
Lemma serre_den dt t (x : cubc) : 0 <= t -> dt_ok dt t -> wf cls_cubical x -> torsion x = t ->
  returns (cub_cartan_serre dt x) (den cls_simplicial t tt (fun g => ev (DC g) (data x))).
Proof.
  intros Ht Hdt Wx Tx. unfold cub_cartan_serre.
  eapply returns_bind; [apply (new_den cls_simplicial ok_simplicial dt t (Some (torsion x)) tt []); [now rewrite Tx|exact Ht|exact I|intros k []]|]. intros y0 Hy0.
  rewrite zero_data. cbn [bind]. destruct (elt_eqb x (mkElt [] (torsion x) (attr x))) eqn:Ez.
  - assert (D0 : data x = []).
    { destruct Wx as [_ Cx]. destruct (data x) as [|[k v] r] eqn:Ed; [reflexivity|]. exfalso. unfold elt_eqb in Ez. cbn [data] in Ez. rewrite Ed in Ez. rewrite dict_eqb_dget in Ez. specialize (Ez k).
      rewrite (dget_in _ k v) in Ez; [|apply Cx|now left]. cbn in Ez. destruct (proj2 Cx k v (or_introl eq_refl)) as [Hv _]. unfold canon_coef in Hv. lia. }
    rewrite D0. apply returns_ok. exact Hy0.
  - eapply returns_mono.
    + apply (loop_den cls_simplicial ok_simplicial t tt (data x) _ (fun k g => DC g k)); [|exact Hy0].
      intros k v F y Hin Hy. rewrite (mapM_map _ (cs 0)) by (intros; apply cs_ok). cbn [bind].
      change (zsum (map cube_dim k)) with (tdeg cube_dim k). change (zsum (map spx_dim (map (cs 0) k))) with (tdeg spx_dim (map (cs 0) k)). unfold DC.
      destruct (collapses_spec k) as [[-> E]|[-> E]].
      * rewrite E, Z.eqb_refl. eapply (add_term_den cls_simplicial ok_simplicial dt t); eauto; [exact (proj1 Hy)|eexists; reflexivity].
      * destruct (Z.eqb_spec (tdeg cube_dim k) (tdeg spx_dim (map (cs 0) k))); [lia|]. apply returns_ok. eapply den_ext; [|exact Hy]. intros g _. apply eqm_eq. ring.
    + intros w Hw. eapply den_ext; [|exact Hw]. intros g _. cbn beta. apply eqm_eq. now rewrite ev_nil, Z.add_0_l.
Qed.
