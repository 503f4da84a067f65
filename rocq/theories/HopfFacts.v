(** * The Alexander-Whitney diagonal and the shuffle product.  Proof library. *)
From Coq Require Import Setoid Morphisms.
From Verif Require Import PyBase Dict FreeModule Symmetric Simplicial Utils Surjection BarrattEccles Eqm Spec SpecOperad SpecHopf FreeModuleFacts FreeModuleLaws ListFacts
  ClassFacts LinearFacts BilFacts SymmetricFacts CycleFacts SymmetricLaws RingFacts TensorAct LoopFacts AW ActGeneric BEFacts BEDiag EZ BECompose BELaws4.

(** ** the shuffle product is a map of coalgebras *)
Section Core.
Context {X Y W : Type}.
Variable f : X -> Y -> W.
Definition QQ (H : list W -> list W -> Z) (Ab : list X) (Bb : list Y) (Af : list X) (Bf : list Y) : Z := EE f (fun u => EE f (H u) Ab Bb) Af Bf.
Definition RR (H : list W -> list W -> Z) (A : list X) (B : list Y) : Z :=
  aw (fun Af Ab => aw (fun Bf Bb => sgn ((zlen Bf - 1) * (zlen Ab - 1)) * QQ H Ab Bb Af Bf) B) A.
Lemma aw_0 {E} (s : list E) : aw (fun _ _ => 0) s = 0.
Proof. unfold aw. apply sumf_0. now intros [[? ?] ?] _. Qed.
Lemma aw_scal {E} n (H : list E -> list E -> Z) s : aw (fun f b => n * H f b) s = n * aw H s.
Proof. unfold aw. rewrite <- sumf_scal. apply sumf_ext. now intros [[? ?] ?] _. Qed.
Lemma RR_cons H a A b B : let c := f a b in let H' := fun u => H (c :: u) in
  RR H (a :: A) (b :: B) = EE f (H [c]) (a :: A) (b :: B) + RR H' A (b :: B) + sgn (zlen A) * RR H' (a :: A) B.
Proof.
  intros c H'. unfold RR. rewrite !aw_cons.
  assert (T1 : sgn ((zlen [b] - 1) * (zlen (a :: A) - 1)) * QQ H (a :: A) (b :: B) [a] [b] = EE f (H [c]) (a :: A) (b :: B)).
  { change (zlen [b]) with 1. rewrite Z.sub_diag, Z.mul_0_l, sgn_0. unfold QQ. rewrite EE_single_l. cbn [map]. fold c. ring. }
  assert (T2 : aw (fun Bf Bb => sgn ((zlen (b :: Bf) - 1) * (zlen (a :: A) - 1)) * QQ H (a :: A) Bb [a] (b :: Bf)) B =
               sgn (zlen A) * aw (fun Bf Bb => sgn ((zlen Bf - 1) * (zlen (a :: A) - 1)) * QQ H' (a :: A) Bb [a] Bf) B).
  { rewrite <- aw_scal. apply aw_ext. intros l1 b1 l2 _. unfold QQ. rewrite EE_cons, EE_nil_l. change (zlen (@nil X)) with 0. rewrite sgn_0. fold c.
    replace (one [] (l1 ++ [b1])) with 0 by now destruct l1. rewrite !zlen_cons. replace (zlen (l1 ++ [b1]) + 1 - 1) with ((zlen (l1 ++ [b1]) - 1) + 1) by ring.
    replace (zlen A + 1 - 1) with (zlen A) by ring. rewrite Z.mul_add_distr_r, Z.mul_1_l, sgn_add. unfold H'. ring. }
  assert (T34 : aw (fun Af Ab => aw (fun Bf Bb => sgn ((zlen Bf - 1) * (zlen Ab - 1)) * QQ H Ab Bb (a :: Af) Bf) (b :: B)) A =
    aw (fun Af Ab => aw (fun Bf Bb => sgn ((zlen Bf - 1) * (zlen Ab - 1)) * QQ H' Ab Bb Af Bf) (b :: B)) A +
    sgn (zlen A) * aw (fun Af Ab => aw (fun Bf Bb => sgn ((zlen Bf - 1) * (zlen Ab - 1)) * QQ H' Ab Bb (a :: Af) Bf) B) A).
  { rewrite <- aw_scal, <- aw_add. apply aw_ext. intros l1 a1 l2 EA. set (Af := l1 ++ [a1]). set (Ab := a1 :: l2). rewrite !aw_cons.
    assert (E1 : QQ H Ab (b :: B) (a :: Af) [b] = QQ H' Ab (b :: B) Af [b]).
    { unfold QQ. rewrite EE_cons, EE_nil_r. fold c. replace (one Af []) with 0 by (unfold Af; now destruct l1). unfold H'. ring. }
    rewrite E1. rewrite <- aw_scal, <- Z.add_assoc, <- aw_add. f_equal. apply aw_ext. intros m1 b1 m2 _. set (Bf := m1 ++ [b1]). set (Bb := b1 :: m2).
    assert (E2 : QQ H Ab Bb (a :: Af) (b :: Bf) = QQ H' Ab Bb Af (b :: Bf) + sgn (zlen Af) * QQ H' Ab Bb (a :: Af) Bf).
    { unfold QQ. rewrite EE_cons. fold c. replace (one Af Bf) with 0 by (unfold Af; now destruct l1). unfold H'. ring. }
    rewrite E2. assert (LA : zlen A = zlen Af + zlen Ab - 1) by (unfold Af, Ab; rewrite EA, !zlen_app, !zlen_cons, zlen_nil; lia).
    assert (ES : sgn ((zlen (b :: Bf) - 1) * (zlen Ab - 1)) * sgn (zlen Af) = sgn (zlen A) * sgn ((zlen Bf - 1) * (zlen Ab - 1))).
    { rewrite <- !sgn_add, LA, zlen_cons. f_equal. ring. }
    rewrite Z.mul_add_distr_l, !Z.mul_assoc, ES. ring. }
  rewrite T34, T1, T2. ring.
Qed.
Lemma EE_aw_aux n : forall A B H, (length A + length B <= n)%nat -> EE f (aw H) A B = RR H A B.
Proof.
  induction n as [|n IH]; intros A B H L.
  - destruct A; [reflexivity|cbn in L; lia].
  - destruct A as [|a A]; [reflexivity|]. destruct B as [|b B].
    + rewrite EE_nil_r. unfold RR. symmetry. rewrite (aw_ext _ (fun _ _ => 0)) by reflexivity. apply aw_0.
    + rewrite RR_cons. set (c := f a b). set (H' := fun u => H (c :: u)). cbn [length] in L.
      rewrite <- !IH by (cbn [length]; lia). rewrite (EE_cons f (aw H)), (EE_cons f (H [c])). fold c.
      rewrite !(EE_ext f (fun w => aw H (c :: w)) (fun w => H [c] (c :: w) + aw H' w)) by (intros; apply aw_cons). rewrite !EE_add, aw_cons, aw_nil. ring.
Qed.
Lemma EE_aw A B H : EE f (aw H) A B = RR H A B.
Proof. now apply (EE_aw_aux (length A + length B)). Qed.

(** a path of non-degenerate simplices is non-degenerate *)
Lemma grid_norep A : forall B w s,
  (forall a a' b, In a A -> In a' A -> In b B -> f a b = f a' b -> a = a') -> (forall a b b', In a A -> In b B -> In b' B -> f a b = f a b' -> b = b') ->
  ~ repeats A -> ~ repeats B -> In (w, s) (grid_paths f A B) -> ~ repeats w.
Proof.
  induction A as [|a A IHA]; intros B; [intros ? ? _ _ _ _ []|]. induction B as [|b B IHB]; intros w s IA IB NA NB Hin; [destruct Hin|].
  rewrite grid_cons in Hin. rewrite !in_app_iff, !in_map_iff in Hin. destruct Hin as [Hin|[([w' s'] & [= <- <-] & Hin)|([w' s'] & [= <- <-] & Hin)]].
  - destruct A; [|destruct Hin]. destruct B; [|destruct Hin]. destruct Hin as [[= <- <-]|[]]. intros (l1 & p & l2 & E). destruct l1 as [|? [|? ?]]; discriminate.
  - intros R. apply repeats_inv in R. destruct R as [[w1 E]|R].
    + destruct (grid_in _ _ _ _ _ Hin) as (_ & _ & a1 & A1 & b1 & B1 & w2 & -> & [= <- <-] & E2). rewrite E in E2. injection E2 as E2 _.
      apply IA in E2; cbn; auto. subst a1. apply NA. now exists [], a, A1.
    + revert R. apply (IHA (b :: B) w' s'); auto.
      * intros x x' y H1 H2 H3. apply IA; cbn in *; auto.
      * intros x y y' H1 H2 H3. apply IB; cbn in *; auto.
      * intros R. apply NA. now apply repeats_cons.
  - intros R. apply repeats_inv in R. destruct R as [[w1 E]|R].
    + destruct (grid_in _ _ _ _ _ Hin) as (_ & _ & a1 & A1 & b1 & B1 & w2 & [= <- <-] & -> & E2). rewrite E in E2. injection E2 as E2 _.
      apply IB in E2; cbn; auto. subst b1. apply NB. now exists [], b, B1.
    + revert R. apply (IHB w' s'); auto.
      * intros x x' y H1 H2 H3. apply IA; cbn in *; auto.
      * intros x y y' H1 H2 H3. apply IB; cbn in *; auto.
      * intros R. apply NB. now apply repeats_cons.
Qed.
End Core.

Lemma app_inj_pre {B} (a a' l l' : list B) : length a = length a' -> a ++ l = a' ++ l' -> a = a' /\ l = l'.
Proof. revert a'. induction a as [|x a IH]; intros [|x' a'] L E; try discriminate; auto. cbn in *. injection E as -> E. destruct (IH a' ltac:(lia) E) as [-> ->]. auto. Qed.
(** ** the composition of permutations is injective in each argument *)
Lemma graft_hd n b i v : perm n b -> 1 <= n -> exists h l, graft b i v = h :: l /\
  ((v < i /\ h = v) \/ (v = i /\ i <= h <= i + n - 1) \/ (i < v /\ h = v + n - 1)).
Proof.
  intros Hb Hn. unfold graft. destruct (Z.eqb_spec v i) as [->|Nv].
  - pose proof (perm_len n b ltac:(lia) Hb) as L. destruct b as [|h b]; [rewrite zlen_nil in L; lia|]. cbn [map]. exists (h + i - 1), (map (fun y => y + i - 1) b). split; [reflexivity|].
    right; left. assert (Hh : In h (h :: b)) by now left. apply (perm_in n) in Hh; [lia|exact Hb].
  - destruct (Z.ltb_spec i v).
    + rewrite (perm_len n b) by (auto; lia). do 2 eexists. split; [reflexivity|]. right; right. lia.
    + do 2 eexists. split; [reflexivity|]. left. lia.
Qed.
Lemma graft_inj n b i v v' l l' : perm n b -> 1 <= n -> graft b i v ++ l = graft b i v' ++ l' -> v = v'.
Proof.
  intros Hb Hn E. destruct (graft_hd n b i v Hb Hn) as (h & m & E1 & D1). destruct (graft_hd n b i v' Hb Hn) as (h' & m' & E2 & D2).
  rewrite E1, E2 in E. cbn [app] in E. injection E as E _. lia.
Qed.
Lemma gc_inj_l n i b : perm n b -> 1 <= n -> forall a a', gc i a b = gc i a' b -> a = a'.
Proof.
  intros Hb Hn. unfold gc, gcomp. induction a as [|v a IH]; intros [|v' a'] E; cbn [flat_map] in E; auto.
  - destruct (graft_hd n b i v' Hb Hn) as (h & m & E1 & _). rewrite E1 in E. discriminate.
  - destruct (graft_hd n b i v Hb Hn) as (h & m & E1 & _). rewrite E1 in E. discriminate.
  - pose proof (graft_inj _ _ _ _ _ _ _ Hb Hn E) as <-. apply app_inv_head in E. f_equal. now apply IH.
Qed.
Lemma gc_inj_r i b b' : length b = length b' -> forall a, In i a -> gc i a b = gc i a b' -> b = b'.
Proof.
  intros L. unfold gc, gcomp. assert (LG : forall v, length (graft b i v) = length (graft b' i v)).
  { intros v. unfold graft. destruct (v =? i); [now rewrite !map_length|]. destruct (i <? v); reflexivity. }
  induction a as [|v a IH]; intros Hin E; [destruct Hin|]. cbn [flat_map] in E. apply app_inj_pre in E; [|apply LG]. destruct E as [E1 E2]. destruct Hin as [->|Hin]; [|now apply IH].
  unfold graft in E1. rewrite Z.eqb_refl in E1. clear -E1. revert b' E1. induction b as [|x b IH]; intros [|x' b'] E; try discriminate; auto. cbn [map] in E. injection E as E1 E2. f_equal; [lia|now apply IH].
Qed.

(** ** the boundary of a tensor product *)
Fixpoint tB (G : list bkey -> Z) (u : list bkey) : Z :=
  match u with
  | [] => 0
  | s :: u' => fdB (fun s' => G (s' :: u')) s + sgn (zlen s - 1) * tB (fun v => G (s :: v)) u'
  end.
Lemma be_faces_ev g s : ev g (be_faces s) = fdB g s.
Proof. unfold be_faces, fdB, fbB. now rewrite cuts_splits. Qed.
Lemma tB_pre (pre : list bkey) u : forall G, sumf (fun '(l1, k, l2) => sgn (be_degrees (pre ++ l1)) * fdB (fun k' => G (pre ++ l1 ++ k' :: l2)) k) (splits u) = sgn (be_degrees pre) * tB (fun v => G (pre ++ v)) u.
Proof.
  revert pre. induction u as [|s u IH]; intros pre G; [cbn [tB]; rewrite Z.mul_0_r; reflexivity|].
  rewrite splits_cons, sumf_cons, sumf_map. cbn [tB app]. rewrite app_nil_r, Z.mul_add_distr_l. f_equal.
  rewrite (sumf_ext _ (fun '(l1, k, l2) => sgn (be_degrees ((pre ++ [s]) ++ l1)) * fdB (fun k' => G ((pre ++ [s]) ++ l1 ++ k' :: l2)) k)).
  2:{ intros [[l1 k] l2] _. rewrite <- !app_assoc. cbn [app]. f_equal. apply fdB_ext. intros v. now rewrite <- app_assoc. }
  rewrite IH. assert (E : be_degrees (pre ++ [s]) = be_degrees pre + (zlen s - 1)).
  { clear. unfold be_degrees. induction pre as [|k pre IH]; cbn [app map].
    - change (zsum [zlen s - 1]) with (zlen s - 1 + 0). change (zsum []) with 0. lia.
    - change (zsum (?a :: ?l)) with (a + zsum l). rewrite IH. lia. }
  rewrite E, sgn_add, Z.mul_assoc. f_equal. clear.
  assert (HT : forall u (G1 G2 : list bkey -> Z), (forall v, G1 v = G2 v) -> tB G1 u = tB G2 u).
  { clear. induction u as [|s u IH]; intros G1 G2 E; [reflexivity|]. cbn [tB]. rewrite (IH _ (fun v => G2 (s :: v))) by (intros; apply E). f_equal. apply fdB_ext. intros; apply E. }
  apply HT. intros v. now rewrite <- app_assoc.
Qed.
Lemma tB_ev G u : ev G (be_tensor_faces u) = tB G u.
Proof.
  unfold be_tensor_faces, ev at 1. rewrite sumf_flat_map, cuts_splits.
  pose proof (tB_pre [] u G) as E. cbn [app] in E. change (be_degrees []) with 0 in E. rewrite sgn_0, Z.mul_1_l in E. refine (eq_trans _ E).
  apply sumf_ext. intros [[l1 k] l2] _. rewrite <- be_faces_ev. unfold ev. rewrite sumf_map, <- sumf_scal. apply sumf_ext. intros [k' e] _. cbn [fst snd]. symmetry. apply Z.mul_assoc.
Qed.
Definition d2B (H : list (list Z) -> list (list Z) -> Z) (f b : list (list Z)) : Z := fdB (fun f' => H f' b) f - sgn (zlen f) * fdB (fun b' => H f b') b.
Lemma aw_chainB (H : list (list Z) -> list (list Z) -> Z) s : aw (d2B H) s = fdB (aw H) s + (match s with [] => 0 | _ => H [] s - sgn (zlen s) * H s [] end).
Proof.
  revert H. induction s as [|v w IH]; intros H; [reflexivity|].
  rewrite aw_cons. rewrite (aw_ext _ (fun f b => H f b - d2B (fun f b => H (v :: f) b) f b)).
  2:{ intros l1 a l2 _. unfold d2B. rewrite fdB_cons, (zlen_cons v), sgn_S. rewrite Z.mul_opp_l, Z.sub_opp_r. match goal with |- ?a - ?b + ?c = _ => change (a - b + c = a - (b - c)) end. clear. lia. }
  rewrite aw_sub, IH. rewrite fdB_cons, (fdB_ext (fun u => aw H (v :: u)) (fun u => H [v] (v :: u) + aw (fun f b => H (v :: f) b) u)) by (intros; apply aw_cons).
  rewrite fdB_add. unfold d2B. rewrite (fdB_cons _ v []), (fdB_cons _ v w), fdB_nil. change (sgn (zlen [v])) with (-1). rewrite (zlen_cons v w), (sgn_S (zlen w)).
  destruct w as [|v' w].
  - change (sgn (zlen [])) with 1. rewrite !fdB_nil, !aw_nil. ring.
  - ring.
Qed.
Lemma S_nilB t (G : list bkey -> Z) : (forall u, In [] u -> G u = 0) -> AW.S t G [] = 0.
Proof. intros HG. destruct t as [|t]; [|reflexivity]. apply HG. now left. Qed.
Lemma S_chainB t G s : (forall u, In [] u -> G u = 0) -> AW.S t (tB G) s = fdB (AW.S t G) s.
Proof.
  revert G s. induction t as [|t IH]; intros G s HG; cbn [AW.S].
  - cbn [tB]. rewrite Z.mul_0_r, Z.add_0_r. reflexivity.
  - rewrite (aw_ext _ (d2B (fun f b => AW.S t (fun u => G (f :: u)) b))).
    + rewrite aw_chainB. match goal with |- _ + ?e = _ => replace e with 0; [rewrite Z.add_0_r; reflexivity|] end.
      destruct s as [|v s]; [reflexivity|]. rewrite S_nilB by (intros u Hu; apply HG; now right).
      rewrite S_sum, sumf_0; [ring|]. intros u _. apply HG. now left.
    + intros l1 a l2 _. set (f := l1 ++ [a]). set (b := a :: l2). unfold d2B. cbn [tB].
      transitivity (AW.S t (fun u => fdB (fun f' => G (f' :: u)) f) b + sgn (zlen f - 1) * AW.S t (tB (fun u => G (f :: u))) b).
      { rewrite !S_sum, sumf_add, <- sumf_scal. reflexivity. }
      rewrite IH by (intros u Hu; apply HG; now right). rewrite sgn_sub, sgn_1.
      change (AW.S t (fun u => fdB (fun f' => G (f' :: u)) f) b) with (AW.S t (fun u => ev (fun f' => G (f' :: u)) (fbB f)) b).
      rewrite (S_exch t (fun f' u => G (f' :: u)) (fbB f) b). unfold fdB. match goal with |- ?a + ?b * -1 * ?c = _ => change (a + b * -1 * c = a - b * c) end. ring.
Qed.
Lemma repeats_cut {B} (l1 : list B) a l2 : repeats (l1 ++ a :: l2) -> repeats (l1 ++ [a]) \/ repeats (a :: l2).
Proof.
  induction l1 as [|v l1 IH]; cbn [app]; intros R; [now right|]. apply repeats_inv in R. destruct R as [[w E]|R].
  - left. destruct l1 as [|v' l1]; cbn [app] in *; injection E as -> _; [exists [], v, []|exists [], v, (l1 ++ [a])]; reflexivity.
  - destruct (IH R) as [R'|R']; [left; now apply repeats_cons|now right].
Qed.
Lemma S_repeats {B} t : forall (G : list (list B) -> Z) s, (forall u k, In k u -> repeats k -> G u = 0) -> repeats s -> AW.S t G s = 0.
Proof.
  induction t as [|t IH]; intros G s HG R; cbn [AW.S]; [apply (HG [s] s); [now left|exact R]|].
  rewrite (aw_ext _ (fun _ _ => 0)); [apply aw_0|]. intros l1 a l2 ->. apply repeats_cut in R. destruct R as [R|R].
  - rewrite S_sum. apply sumf_0. intros u _. apply (HG _ (l1 ++ [a])); [now left|exact R].
  - apply IH; [|exact R]. intros u k Hk. apply HG. now right.
Qed.
Lemma S_bbad t (G : list bkey -> Z) k : (forall u k, In k u -> k = [] \/ repeats k -> G u = 0) -> bbad k = true -> AW.S t G k = 0.
Proof.
  intros HG Hb. destruct k as [|v k]; [apply S_nilB; intros u Hu; apply (HG u []); auto|]. apply S_repeats; [intros u k' H1 H2; apply (HG u k'); auto|]. apply bdup_repeats. exact Hb.
Qed.
Lemma S_map {B C} (h : B -> C) t : forall (G : list (list C) -> Z) s, AW.S t G (map h s) = AW.S t (fun u => G (map (map h) u)) s.
Proof.
  assert (AM : forall H s, aw H (map h s) = aw (fun f b => H (map h f) (map h b)) s).
  { intros H s. revert H. induction s as [|v s IH]; intros H; [reflexivity|]. cbn [map]. rewrite !aw_cons, IH. reflexivity. }
  induction t as [|t IH]; intros G s; cbn [AW.S]; [reflexivity|]. rewrite AM. apply aw_ext. intros l1 a l2 _. rewrite IH. reflexivity.
Qed.
Lemma adm_free {K} `{KeyEq K} (g : K -> Z) : adm (cls_free K) g.
Proof. split; [intros k k' E; apply keqb_eq in E; now subst|]. intros k Hk. discriminate. Qed.
