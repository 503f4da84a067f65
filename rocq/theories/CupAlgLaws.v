(** * The algebra of cochains with the cup product computed by the code (C84) *)
From Coq Require Import Setoid Morphisms.
From Verif Require Import PyBase Dict FreeModule Symmetric Simplicial Utils Surjection Eqm Spec SpecChain SpecOperad SpecSurj SpecAction SpecCochain SpecCup SpecSimpCup SpecCupAlg FreeModuleFacts FreeModuleLaws ListFacts
  ClassFacts LinearFacts BilFacts SymmetricFacts CycleFacts SymmetricLaws RingFacts Tensor TensorAct KoszulFacts LoopFacts AW SimplicialFacts SimplicialDiag SimplicialLaws ActFacts ActLaws SimpCupLaws SqLaws.

Lemma val_eqm_t t (y : simp) f g f' g' : wf cls_simplicial y -> (forall s, s <> [] -> eqm t (f s) (f' s)) -> (forall s, s <> [] -> eqm t (g s) (g' s)) -> eqm t (simp_value (simp_pair f g) y) (simp_value (simp_pair f' g') y).
Proof.
  intros Wy F G. change (simp_value ?h ?x) with (ev h (data x)). apply ev_eqm. intros K v HK. destruct K as [|a [|b [|c K]]]; try reflexivity. cbn [simp_pair].
  rewrite (F a), (G b) by (eapply wf_nonempty; eauto; cbn; tauto). reflexivity.
Qed.
Lemma one_ok dt t s : 0 <= t -> s <> [] -> exists x, simp_new dt [([s], 1)] (Some t) = Ok x /\ den cls_simplicial t tt (fun g => g [s]) x /\ keys_in (kdegS 1 (zlen s - 1)) x.
Proof.
  intros Ht Ns. destruct (new_den cls_simplicial ok_simplicial dt t (Some t) tt [([s], 1)] eq_refl Ht) as (x & E & D).
  - split; [intros k' []|exact I].
  - intros k [<-|[]]. exists (spx_is_degenerate s). cbn [bad cls_simplicial existsb fst]. now rewrite orb_false_r.
  - exists x. split; [exact E|]. assert (D' : den cls_simplicial t tt (fun g => g [s]) x) by (eapply den_ext; [|exact D]; intros g _; apply eqm_eq; rewrite ev_cons, ev_nil; ring).
    split; [exact D'|]. apply (den_keys cls_simplicial ok_simplicial t tt _ x _ ltac:(lia) (kpred_kdegS 1 (zlen s - 1)) D'). intros g _ H0. apply eqm_eq. rewrite H0; [reflexivity|]. split; [reflexivity|]. rewrite tdeg_cons. change (tdeg spx_dim []) with 0. unfold spx_dim. lia.
Qed.
Definition cupf (a b : list Z -> Z) (s : list Z) : Z := aw (fun f k => a f * b k) s.
Definition nm (a : list Z -> Z) : Prop := forall s, spx_is_degenerate s = true -> a s = 0.
Definition neq (t : Z) (a a' : list Z -> Z) : Prop := forall s, s <> [] -> eqm t (a s) (a' s).
(** the value computed by the code, for cochains that are normalised up to congruence *)
Lemma cup_code dt t s : 0 <= t -> dt_ok dt t -> s <> [] -> exists x y, simp_new dt [([s], 1)] (Some t) = Ok x /\ extended1 dt cls_simplicial (fun y => simp_iterated_diagonal dt y 1 1) x = Ok y /\
  forall a b a' b', neq t a a' -> neq t b b' -> nm a' -> nm b' -> eqm t (simp_value (simp_pair a b) y) (cupf a' b' s).
Proof.
  intros Ht Hdt Ns. destruct (one_ok dt t s Ht Ns) as (x & Ex & Dx & Kx). pose proof (den_wf cls_simplicial t tt _ x Ht Dx) as Wx. pose proof (proj1 Dx) as Tx.
  destruct (linop_diag dt t 1 (zlen s - 1) 1 1 Ht Hdt ltac:(lia) ltac:(lia) x Wx Tx (s_attr' x) Kx) as (y & Ey & Dy & _). exists x, y. split; [exact Ex|]. split; [exact Ey|].
  intros a b a' b' Ha Hb Na Nb. rewrite (val_eqm_t t y a b a' b' (den_wf cls_simplicial t tt _ y Ht Dy) Ha Hb).
  assert (A : adm cls_simplicial (simp_pair a' b')) by (apply pair_adm'; auto).
  assert (As : adm cls_simplicial (Sd (Z.to_nat 1) 1 (simp_pair a' b'))).
  { assert (AU := U_adm 0 _ A). destruct AU as [A1 A2]. split; [intros w w' E; rewrite <- !U0_Sd; now apply A1|intros w Hw; change (Sd (Z.to_nat 1)) with (Sd 1); rewrite <- U0_Sd; now apply A2]. }
  change (simp_value ?g ?x) with (ev g (data x)). rewrite (den_ev cls_simplicial t tt _ y _ Dy A), (den_ev cls_simplicial t tt _ x _ Dx As). apply eqm_eq.
  change (Z.to_nat 1) with 1%nat. rewrite (Sd_app 1 1 _ [] s []) by reflexivity. cbn [AW.S app]. reflexivity.
Qed.
Lemma cup_is_iff dt t a b a' b' f : 0 <= t -> dt_ok dt t -> neq t a a' -> neq t b b' -> nm a' -> nm b' -> (cup_is dt t a b f <-> cochain_eq t f (cupf a' b')).
Proof.
  intros Ht Hdt Ha Hb Na Nb. split; intros H s Ns; destruct (cup_code dt t s Ht Hdt Ns) as (x & y & Ex & Ey & V); specialize (V a b a' b' Ha Hb Na Nb).
  - destruct (H s Ns) as (x' & y' & Ex' & Ey' & V'). rewrite Ex in Ex'. injection Ex' as <-. rewrite Ey in Ey'. injection Ey' as <-. change (eqm t (f s) (cupf a' b' s)). change (eqm t (simp_value (simp_pair a b) y) (f s)) in V'. rewrite <- V'. exact V.
  - exists x, y. split; [exact Ex|]. split; [exact Ey|]. change (eqm t (simp_value (simp_pair a b) y) (f s)). rewrite V. specialize (H s Ns). change (eqm t (f s) (cupf a' b' s)) in H. now rewrite H.
Qed.
Lemma nm_co m a : 0 <= m -> cochain m a -> nm a. Proof. intros Hm Ha s. now apply (co_deg m). Qed.
Lemma neq_refl t a : neq t a a. Proof. intros s _. reflexivity. Qed.
Lemma deg_split s : s <> [] -> spx_is_degenerate s = true -> exists l1 v l2, s = l1 ++ v :: v :: l2.
Proof.
  rewrite deg_dupb. destruct s as [|x s]; [congruence|]. intros _. revert x. induction s as [|y s IH]; intros x H; [discriminate|]. rewrite dupb_cons2 in H. apply orb_true_iff in H. destruct H as [E|E].
  - apply Z.eqb_eq in E. subst y. now exists [], x, s.
  - destruct (IH y E) as (l1 & v & l2 & ->). now exists (x :: l1), v, l2.
Qed.
(** the homogeneous formula *)
Lemma aw_pick (H : list Z -> list Z -> Z) (m : nat) : forall s, (forall f b, length f <> Datatypes.S m -> H f b = 0) -> aw H s = if (m <? length s)%nat then H (firstn (Datatypes.S m) s) (skipn m s) else 0.
Proof.
  revert H. induction m as [|m IH]; intros H s Hz.
  - destruct s as [|v w]; [reflexivity|]. rewrite aw_cons. cbn [length Nat.ltb Nat.leb firstn skipn]. rewrite (aw_ext _ (fun _ _ => 0)); [|intros l1 c l2 _; apply Hz; cbn [length]; rewrite app_length; cbn [length]; lia].
    rewrite Z.add_comm. unfold aw. rewrite sumf_0; [destruct w; reflexivity|]. now intros [[l1 c] l2] _.
  - destruct s as [|v w]; [reflexivity|]. rewrite aw_cons. rewrite (Hz [v]) by discriminate. rewrite (IH (fun f k => H (v :: f) k)); [|intros f k Hf; apply Hz; cbn [length]; lia].
    change (Datatypes.S m <? length (v :: w))%nat with (m <? length w)%nat. reflexivity.
Qed.
Definition cupm (m n : Z) (a b : list Z -> Z) (s : list Z) : Z := if zlen s - 1 =? m + n then a (firstn (Z.to_nat (m + 1)) s) * b (skipn (Z.to_nat m) s) else 0.
Lemma cupf_cupm m n a b s : 0 <= m -> 0 <= n -> cochain m a -> cochain n b -> cupf a b s = cupm m n a b s.
Proof.
  intros Hm Hn Ha Hb. unfold cupf, cupm. rewrite (aw_pick _ (Z.to_nat m)); [|intros f k Hf; rewrite (proj2 Ha); [ring|unfold zlen; lia]].
  rewrite <- Z2Nat.inj_succ by lia. change (Z.succ m) with (m + 1). unfold zlen. destruct (Nat.ltb_spec (Z.to_nat m) (length s)) as [L|L]; destruct (Z.eqb_spec (Z.of_nat (length s) - 1) (m + n)) as [E|E]; try reflexivity; try lia.
  rewrite (proj2 Hb (skipn _ _)); [ring|]. unfold zlen. rewrite skipn_length. lia.
Qed.
Lemma cupm_cochain m n a b : 0 <= m -> 0 <= n -> cochain m a -> cochain n b -> cochain (m + n) (cupm m n a b).
Proof.
  intros Hm Hn Ha Hb. split; [|intros s Hs; unfold cupm; destruct (Z.eqb_spec (zlen s - 1) (m + n)); [lia|reflexivity]].
  intros l1 v l2. set (s := l1 ++ v :: v :: l2). unfold cupm. destruct (Z.eqb_spec (zlen s - 1) (m + n)) as [E|E]; [|reflexivity]. unfold zlen in E.
  assert (Ls : length s = (length l1 + 2 + length l2)%nat) by (unfold s; rewrite app_length; cbn [length]; lia).
  destruct (Nat.leb_spec (length l1 + 2) (Z.to_nat (m + 1))) as [L|L].
  - replace (firstn (Z.to_nat (m + 1)) s) with (l1 ++ v :: v :: firstn (Z.to_nat (m + 1) - length l1 - 2) l2); [rewrite (proj1 Ha); ring|].
    unfold s. rewrite firstn_app, (firstn_all2 l1) by lia. f_equal. remember (Z.to_nat (m + 1) - length l1)%nat as q. destruct q as [|[|q]]; try (exfalso; lia). cbn [firstn Nat.sub]. now rewrite Nat.sub_0_r.
  - replace (skipn (Z.to_nat m) s) with (skipn (Z.to_nat m) l1 ++ v :: v :: l2); [rewrite (proj1 Hb); ring|]. unfold s. rewrite skipn_app. f_equal. replace (Z.to_nat m - length l1)%nat with 0%nat by lia. reflexivity.
Qed.
Lemma cup_is_m dt t m n a b f : 0 <= t -> dt_ok dt t -> 0 <= m -> 0 <= n -> cochain m a -> cochain n b -> (cup_is dt t a b f <-> cochain_eq t f (cupm m n a b)).
Proof.
  intros Ht Hdt Hm Hn Ha Hb. rewrite (cup_is_iff dt t a b a b f Ht Hdt (neq_refl _ _) (neq_refl _ _) (nm_co m a Hm Ha) (nm_co n b Hn Hb)). split; intros H s Ns; [rewrite <- (cupf_cupm m n) by auto|rewrite (cupf_cupm m n) by auto]; auto.
Qed.
(** #C84_formula# For cochains a, b of degrees m, n with coefficients in Z/t or Z, the cup
    product computed by the code is, up to congruence and only up to congruence, the cochain
    of degree m + n whose value on v_0 ... v_(m+n) is a(v_0 ... v_m) b(v_m ... v_(m+n)). *)
Lemma C84_formula_l (dt t m n : Z) (a b : list Z -> Z) : 0 <= t -> dt_ok dt t -> 0 <= m -> 0 <= n -> cochain m a -> cochain n b ->
  let f := fun s => if zlen s - 1 =? m + n then a (firstn (Z.to_nat (m + 1)) s) * b (skipn (Z.to_nat m) s) else 0 in
  cochain (m + n) f /\ forall g, cup_is dt t a b g <-> cochain_eq t g f.
Proof. intros Ht Hdt Hm Hn Ha Hb f. split; [now apply cupm_cochain|]. intros g. now apply cup_is_m. Qed.
(** #C84_associative# The cup product of cochains is associative on the nose, not only up
    to homotopy: (a u b) u c = a u (b u c), over Z and every Z/t. *)
Lemma C84_associative_l (dt t m n p : Z) (a b c ab bc l r : list Z -> Z) : 0 <= t -> dt_ok dt t -> 0 <= m -> 0 <= n -> 0 <= p -> cochain m a -> cochain n b -> cochain p c ->
  cup_is dt t a b ab -> cup_is dt t b c bc -> cup_is dt t ab c l -> cup_is dt t a bc r -> cochain_eq t l r.
Proof.
  intros Ht Hdt Hm Hn Hp Ha Hb Hc Hab Hbc Hl Hr s Ns. apply (cup_is_m dt t m n) in Hab; auto. apply (cup_is_m dt t n p) in Hbc; auto.
  apply (cup_is_iff dt t ab c (cupm m n a b) c) in Hl; auto using neq_refl; [|apply (nm_co (m + n)); [lia|now apply cupm_cochain]|now apply (nm_co p)].
  apply (cup_is_iff dt t a bc a (cupm n p b c)) in Hr; auto using neq_refl; [|now apply (nm_co m)|apply (nm_co (n + p)); [lia|now apply cupm_cochain]].
  specialize (Hl s Ns). specialize (Hr s Ns). change (eqm t (l s) (cupf (cupm m n a b) c s)) in Hl. change (eqm t (r s) (cupf a (cupm n p b c) s)) in Hr. change (eqm t (l s) (r s)). rewrite Hl, Hr. apply eqm_eq.
  unfold cupf. rewrite (aw_ext _ (fun f k => aw (fun f1 f2 => a f1 * b f2 * c k) f)).
  2:{ intros l1 v l2 _. rewrite <- (cupf_cupm m n) by auto. unfold cupf, aw. rewrite <- sumf_scal_r. apply sumf_ext. now intros [[q1 q] q2] _. }
  rewrite aw_coassoc. apply aw_ext. intros l1 v l2 _. rewrite <- (cupf_cupm n p) by auto. unfold cupf, aw. rewrite <- sumf_scal. apply sumf_ext. intros [[q1 q] q2] _. ring.
Qed.
(** #C84_unit# The cochain with value 1 on every vertex is a two-sided unit. *)
Lemma C84_unit_l (dt t m : Z) (a : list Z -> Z) : 0 <= t -> dt_ok dt t -> 0 <= m -> cochain m a ->
  cochain 0 unit_cochain /\ cup_is dt t unit_cochain a a /\ cup_is dt t a unit_cochain a.
Proof.
  intros Ht Hdt Hm Ha. assert (C1 : cochain 0 unit_cochain).
  { split; [intros [|x [|y l1]] v l2; reflexivity|]. intros [|x [|y s]] L; [reflexivity | | reflexivity]. exfalso. apply L. reflexivity. }
  split; [exact C1|]. split.
  - apply (cup_is_m dt t 0 m); auto; [lia|]. intros s Ns. change (eqm t (a s) (cupm 0 m unit_cochain a s)). apply eqm_eq. unfold cupm. change (Z.to_nat 0) with 0%nat. change (Z.to_nat (0 + 1)) with 1%nat.
    destruct s as [|x s]; [congruence|]. cbn [firstn skipn unit_cochain]. destruct (Z.eqb_spec (zlen (x :: s) - 1) (0 + m)) as [E|E]; [ring|]. apply Ha. lia.
  - apply (cup_is_m dt t m 0); auto; [lia|]. intros s Ns. change (eqm t (a s) (cupm m 0 a unit_cochain s)). apply eqm_eq. unfold cupm.
    destruct (Z.eqb_spec (zlen s - 1) (m + 0)) as [E|E]; [|apply Ha; lia]. unfold zlen in E. rewrite firstn_all2 by lia. assert (Lk : length (skipn (Z.to_nat m) s) = 1%nat) by (rewrite skipn_length; lia).
    destruct (skipn (Z.to_nat m) s) as [|v [|w k]]; try discriminate Lk. cbn [unit_cochain]. ring.
Qed.
(** #C84_leibniz# The coboundary is a derivation of the cochain algebra:
    d(a u b) = da u b + (-1)^m a u db as cochains. *)
Lemma C84_leibniz_l (dt t m n : Z) (a b ab p q : list Z -> Z) : 0 <= t -> dt_ok dt t -> 0 <= m -> 0 <= n -> cochain m a -> cochain n b ->
  cup_is dt t a b ab -> cup_is dt t (simp_coboundary a) b p -> cup_is dt t a (simp_coboundary b) q ->
  forall s, 2 <= zlen s -> congruent t (simp_coboundary ab s) (p s + sgn m * q s).
Proof.
  intros Ht Hdt Hm Hn Ha Hb Hab Hp Hq s Ls. assert (Ns : s <> []) by (intros ->; change (2 <= 0) in Ls; lia).
  pose proof (proj1 (C80_coboundary_l m a Hm Ha)) as Ca. pose proof (proj1 (C80_coboundary_l n b Hn Hb)) as Cb.
  apply (cup_is_iff dt t a b a b) in Hab; auto using neq_refl; [|now apply (nm_co m)|now apply (nm_co n)].
  apply (cup_is_iff dt t (simp_coboundary a) b (simp_coboundary a) b) in Hp; auto using neq_refl; [|apply (nm_co (m + 1)); auto; lia|now apply (nm_co n)].
  apply (cup_is_iff dt t a (simp_coboundary b) a (simp_coboundary b)) in Hq; auto using neq_refl; [|now apply (nm_co m)|apply (nm_co (n + 1)); auto; lia].
  specialize (Hp s Ns). specialize (Hq s Ns). change (eqm t (p s) (cupf (simp_coboundary a) b s)) in Hp. change (eqm t (q s) (cupf a (simp_coboundary b) s)) in Hq. change (eqm t (simp_coboundary ab s) (p s + sgn m * q s)). rewrite Hp, Hq. rewrite cob_fdS.
  transitivity (fdS (cupf a b) s).
  { apply ev_eqm. intros u v Hu. apply dim_fbS in Hu. unfold spx_dim in Hu. apply Hab. intros ->. change (zlen []) with 0 in Hu. lia. }
  apply eqm_eq. pose proof (aw_chain (fun f k => a f * b k) s) as E. change (fdS (aw (fun f k => a f * b k)) s) with (fdS (cupf a b) s) in E.
  assert (A0 : a [] = 0) by (apply (nm_co m a Hm Ha); reflexivity). assert (B0 : b [] = 0) by (apply (nm_co n b Hn Hb); reflexivity).
  destruct s as [|x s]; [congruence|]. rewrite A0, B0, !Z.mul_0_r, Z.mul_0_l, Z.sub_0_r, Z.add_0_r in E. rewrite <- E. unfold cupf, aw. rewrite <- sumf_scal, <- sumf_add. apply sumf_ext. intros [[l1 v] l2] _. unfold d2.
  rewrite !cob_fdS, fdS_scal. rewrite (fdS_ext (fun f' => a f' * b (v :: l2)) (fun f' => b (v :: l2) * a f')) by (intros; ring). rewrite fdS_scal.
  destruct (Z.eq_dec (zlen (l1 ++ [v]) - 1) m) as [D|D]; [|rewrite (proj2 Ha _ D); ring]. replace (zlen (l1 ++ [v])) with (m + 1) by lia. rewrite sgn_S. ring.
Qed.
(** #C84_example# The hypotheses hold with coefficients in Z/3 for a cochain of degree 1
    with itself; the product is not 0 and its coboundary is not 0. *)
Example C84_example_l :
  let a := fun s => match s with [x; y] => y * (y - x) | _ => 0 end in
  cochain 1 a /\ dt_ok 0 3 /\ cup_is 0 3 a a (fun s => match s with [x; y; z] => y * (y - x) * (z * (z - y)) | _ => 0 end) /\
  simp_coboundary (fun s => match s with [x; y; z] => y * (y - x) * (z * (z - y)) | _ => 0 end) [1; 2; 4; 0] = -16.
Proof.
  intros a. assert (Ca : cochain 1 a).
  { split; [|intros [|x [|y [|w s]]] L; try reflexivity; exfalso; apply L; reflexivity]. intros [|x [|y l1]] v l2; [|reflexivity|destruct l1; reflexivity]. destruct l2; [|reflexivity]. cbn [app]. unfold a. ring. }
  assert (Dt : dt_ok 0 3) by (split; [lia|now left]). split; [exact Ca|]. split; [exact Dt|]. split; [|vm_compute; reflexivity].
  apply (cup_is_m 0 3 1 1); auto; try lia. intros s Ns. exists 0. unfold cupm.
  destruct s as [|x [|y [|z [|w s]]]]; [congruence|reflexivity|reflexivity| |].
  - change (zlen [x; y; z] - 1 =? 1 + 1) with true. cbv match. change (Z.to_nat (1 + 1)) with 2%nat. change (Z.to_nat 1) with 1%nat. cbn [firstn skipn]. unfold a. ring.
  - destruct (Z.eqb_spec (zlen (x :: y :: z :: w :: s) - 1) (1 + 1)) as [E|E]; [|reflexivity]. rewrite !zlen_cons in E. pose proof (zlen_nonneg s). lia.
Qed.
