(** * The Cartan formula on simplicial chains, modulo 2 (C83) *)
From Coq Require Import Setoid Morphisms.
From Verif Require Import PyBase Dict FreeModule Symmetric Simplicial Utils Surjection Eqm Spec SpecChain SpecOperad SpecSurj SpecAction SpecCochain SpecSimpCup FreeModuleFacts FreeModuleLaws ListFacts
  ClassFacts LinearFacts BilFacts SymmetricFacts CycleFacts SymmetricLaws RingFacts Tensor TensorAct KoszulFacts LoopFacts AW SimplicialFacts SimplicialDiag SimplicialLaws BELaws BEDiag MayFacts SurjFacts SurjBoundary SurjLaws SurjAct SurjLaws2 ActFacts ActSign ActCore ActCode ActLaws
  EquivAct EquivLaws SurjMay SurjCompose SurjCompose2 SurjCompose3 SurjCompose4 SurjLaws6 CompEquiv OperadAct SteenrodAct CupI SimpCupLaws SqHtpy SqCartan.

Definition quad (f g h k : list Z -> Z) (K : list (list Z)) : Z := match K with [x; y; z; t] => f x * g y * (h z * k t) | _ => 0 end.
Lemma len1 (w : list (list Z)) : zlen w = 1 -> exists x, w = [x].
Proof. destruct w as [|x [|y w]]; intros L; [discriminate L|eauto|exfalso; rewrite !zlen_cons in L; pose proof (zlen_nonneg w); lia]. Qed.
Lemma len2 (w : list (list Z)) : zlen w = 2 -> exists x y, w = [x; y].
Proof. destruct w as [|x w]; [discriminate|]. rewrite zlen_cons. intros L. destruct (len1 w ltac:(lia)) as (y & ->). eauto. Qed.
Lemma len4 (w : list (list Z)) : zlen w = 4 -> exists x y z t, w = [x; y; z; t].
Proof. destruct w as [|x [|y w]]; [discriminate|discriminate|]. rewrite !zlen_cons. intros L. destruct (len2 w ltac:(lia)) as (z & t & ->). eauto. Qed.
(** the action only sees tensors with the right number of factors *)
Lemma Phi_len r g h k K : 1 <= r -> onto r k -> (forall w, zlen w = zlen K + r - 1 -> eqm 2 (g w) (h w)) -> forall co, eqm 2 (Phi r co g k K) (Phi r co h k K).
Proof.
  intros Hr Ho E co. unfold Phi. apply ev_eqm. intros w v Hw. apply E.
  assert (Ck : surj_cell r (zlen k - r) k) by (split; [exact Ho|lia]).
  exact (proj1 (acts_deg r (zlen k - r) (zlen K) (tdeg spx_dim K) co k K w v Hr Ck (conj eq_refl eq_refl) Hw)).
Qed.
Lemma Phi_first g u x l : Phi 2 1 g u (x :: l) = Phi 2 1 (fun w => g (w ++ l)) u [x].
Proof.
  change (x :: l) with ([] ++ x :: l). change [x] with ([] ++ x :: []). rewrite !(Phi_app 2 1) by reflexivity. f_equal.
Qed.
Lemma Phi_second g u x y : eqm 2 (Phi 2 2 g u [x; y]) (Phi 2 1 (fun w => g (x :: w)) u [y]).
Proof.
  change (Phi 2 2 g u [x; y]) with (Phi 2 2 g u ([x] ++ y :: [])). change [y] with ([] ++ y :: []) at 2. rewrite (Phi_app 2 2), (Phi_app 2 1) by reflexivity. rewrite !sgn_eqm2. apply eqm_eq. f_equal.
Qed.
Lemma Phi_scal r co c g k K : Phi r co (fun w => c * g w) k K = c * Phi r co g k K.
Proof. unfold Phi. apply ev_scal. Qed.
(** the action of a composite of three words on a product of functions of pairs *)
Lemma comp_eval H g1 g2 u v w s : (forall x y z t, H [x; y; z; t] = g1 [x; y] * g2 [z; t]) -> surj_cell 2 (zlen u - 2) u -> surj_cell 2 (zlen v - 2) v -> surj_cell 2 (zlen w - 2) w ->
  eqm 2 (Pc 2 2 (fun z => Pc 1 2 (fun k => Phi 4 1 H k [s]) z u) w v) (Phi 2 1 (simp_pair (fun x => Phi 2 1 g1 u [x]) (fun y => Phi 2 1 g2 v [y])) w [s]).
Proof.
  intros HH Cu Cv Cw. rewrite (Pc_eqm_on 2 2 (zlen w - 2) (zlen v - 2) 2 _ (fun z => Phi 3 1 (fun L => Phi 2 1 H u L) z [s]) w v ltac:(lia) ltac:(lia) Cw Cv).
  2:{ intros z [Hz _]. exact (Phi_compose 3 2 1 1 H z u [s] ltac:(lia) ltac:(lia) Hz (proj1 Cu) ltac:(rewrite zlen_cons, zlen_nil; lia)). }
  rewrite (Phi_compose 2 2 2 1 (fun L => Phi 2 1 H u L) w v [s] ltac:(lia) ltac:(lia) (proj1 Cw) (proj1 Cv) ltac:(rewrite zlen_cons, zlen_nil; lia)).
  apply Phi_len; [lia|apply Cw|]. intros L HL. destruct (len2 L HL) as (x & y & ->). cbn [simp_pair]. change (1 + 2 - 1) with 2. rewrite Phi_second.
  rewrite <- Phi_scal. apply Phi_len; [lia|apply Cv|]. intros w' Hw'. destruct (len2 w' Hw') as (z & t & ->). rewrite Phi_first, Z.mul_comm, <- Phi_scal.
  apply Phi_len; [lia|apply Cu|]. intros w2 Hw2. destruct (len2 w2 Hw2) as (x' & y' & ->). cbn [app]. rewrite HH. apply eqm_eq. ring.
Qed.
Lemma self_cell n k : onto n k -> surj_cell n (zlen k - n) k.
Proof. intros H. split; [exact H|lia]. Qed.
Lemma quad_adm m n f g h k : 0 <= m -> 0 <= n -> cochain m f -> cochain n g -> cochain m h -> cochain n k -> adm cls_simplicial (quad f g h k).
Proof.
  intros Hm Hn F G H K. split; [intros w w' E; now apply keqb_eq in E; subst|]. intros w Hw. injection Hw as Hw. destruct w as [|x [|y [|z [|t [|q w]]]]]; try reflexivity. cbn [existsb] in Hw. cbn [quad].
  rewrite orb_false_r in Hw. apply orb_true_iff in Hw. destruct Hw as [Hw|Hw]; [rewrite (co_deg m f) by auto; ring|]. apply orb_true_iff in Hw. destruct Hw as [Hw|Hw]; [rewrite (co_deg n g) by auto; ring|].
  apply orb_true_iff in Hw. destruct Hw as [Hw|Hw]; [rewrite (co_deg m h) by auto; ring|rewrite (co_deg n k) by auto; ring].
Qed.
Lemma Phi_adm r g k : 1 <= r -> onto r k -> adm cls_simplicial g -> adm cls_simplicial (fun K => Phi r 1 g k K).
Proof.
  intros Hr Ho Hg. split; [intros w w' E; now apply keqb_eq in E; subst|]. intros K HK. injection HK as HK. unfold Phi. apply ev_zero. intros w v' Hin. apply Hg. cbn [bad cls_simplicial]. f_equal.
  refine (acts_bad r 1 k K w v' Ho _ (or_intror HK) Hin). apply (onto_ne r); auto.
Qed.
Lemma fd_lin f (c : Z) x h : (forall x', h x' = c * f x') -> fdS h x = c * fdS f x.
Proof. intros E. unfold fd. rewrite <- ev_scal. apply ev_ext_all. exact E. Qed.
Lemma quad_tD f g h k x y z t : exists c1 c2 c3 c4, tDS (quad f g h k) [x; y; z; t] = c1 * fdS f x + c2 * fdS g y + c3 * fdS h z + c4 * fdS k t.
Proof.
  rewrite !tD_cons, tD_nil. cbn [quad].
  rewrite (fd_lin f (g y * (h z * k t)) x (fun x' => f x' * g y * (h z * k t))) by (intros; ring).
  rewrite (fd_lin g (f x * (h z * k t)) y (fun x' => f x * g x' * (h z * k t))) by (intros; ring).
  rewrite (fd_lin h (f x * g y * k t) z (fun x' => f x * g y * (h x' * k t))) by (intros; ring).
  rewrite (fd_lin k (f x * g y * h z) t (fun x' => f x * g y * (h z * k x'))) by (intros; ring).
  exists (g y * (h z * k t)), (sgn (spx_dim x) * (f x * (h z * k t))), (sgn (spx_dim x) * (sgn (spx_dim y) * (f x * g y * k t))), (sgn (spx_dim x) * (sgn (spx_dim y) * (sgn (spx_dim z) * (f x * g y * h z)))). ring.
Qed.
Lemma kact_eqm g p w : eqm 2 (kact spx_dim g p w) (g (placef p w)).
Proof. unfold kact. rewrite sgn_eqm2. apply eqm_eq. ring. Qed.
Lemma Phi_move r p g k s : 1 <= r -> perm r p -> onto r k -> eqm 2 (Phi r 1 g (map (image p) k) [s]) (Phi r 1 (fun K => g (placef p K)) k [s]).
Proof.
  intros Hr Hp Hk. transitivity (asg MS p k * Phi r 1 g (map (image p) k) [s]); [rewrite (asg_one MS 2 p k (or_intror eq_refl)); apply eqm_eq; ring|].
  rewrite Phi_equiv by auto. apply Phi_len; auto. intros w _. apply kact_eqm.
Qed.

Section Cartan.
Variables (dt e m n : Z) (XX : list Z -> Prop) (c bc : simp) (al be : list Z -> Z).
Hypothesis He : 0 <= e.
Hypothesis HX : simplicial_set XX.
Hypothesis Wc : wf cls_simplicial c.
Hypothesis Tc : torsion c = 2.
Hypothesis Hdt : dt_ok dt (torsion c).
Hypothesis Kc : keys_in (fun k => exists s, k = [s] /\ XX s /\ zlen s - 1 = e) c.
Hypothesis Eb : simp_boundary dt c = Ok bc.
Hypothesis Zb : data bc = [].
Hypothesis Hm : 0 <= m.
Hypothesis Hn : 0 <= n.
Hypothesis Hal : cochain m al.
Hypothesis Hbe : cochain n be.
Hypothesis Val : forall s, XX s -> eqm 2 (simp_coboundary al s) 0.
Hypothesis Vbe : forall s, XX s -> eqm 2 (simp_coboundary be s) 0.
Let G := quad al be al be.
Let GA : adm cls_simplicial G := quad_adm m n al be al be Hm Hn Hal Hbe Hal Hbe.
Definition g0 (k : list Z) : Z := ev (fun K => Phi 4 1 G k K) (data c).
Lemma nonempty_c K v : In (K, v) (data c) -> exists s, K = [s] /\ s <> [] /\ XX s.
Proof. intros HK. destruct (Kc _ _ HK) as (s & -> & Xs & Ls). exists s. split; [reflexivity|]. split; [|exact Xs]. intros ->. rewrite zlen_nil in Ls; lia. Qed.
Lemma g0_adm d : admc 4 d g0.
Proof.
  intros k [Hk _] Ak. apply ev_zero. intros K v HK. unfold Phi. apply ev_zero. intros w v' Hin. apply GA. cbn [bad cls_simplicial]. f_equal.
  refine (acts_bad 4 1 k K w v' Hk _ (or_introl Ak) Hin). apply (onto_ne 4); [lia|exact Hk].
Qed.
Lemma tDG w : zlen w = 4 -> (forall x, In x w -> XX x) -> eqm 2 (tDS G w) 0.
Proof.
  intros L Hw. destruct (len4 w L) as (x & y & z & t & ->). destruct (quad_tD al be al be x y z t) as (c1 & c2 & c3 & c4 & E). unfold G. rewrite E.
  assert (A : forall s, In s [x; y; z; t] -> eqm 2 (fdS al s) 0) by (intros s Hs; rewrite <- cob_fdS; apply Val, Hw, Hs).
  assert (B : forall s, In s [x; y; z; t] -> eqm 2 (fdS be s) 0) by (intros s Hs; rewrite <- cob_fdS; apply Vbe, Hw, Hs).
  rewrite (A x), (B y), (A z), (B t) by (cbn; tauto). apply eqm_eq. ring.
Qed.
Lemma g0_cocycle d k : surj_cell 4 d k -> eqm 2 (sd MS g0 k) 0.
Proof.
  intros Hk. rewrite sd_ev. unfold g0. rewrite ev_exch.
  transitivity (ev (fun K => Phi 4 1 (tDS G) k K + - sgn d * tDS (fun K' => Phi 4 1 G k K') K) (data c)).
  { apply eqm_eq. apply ev_ext. intros K v HK. destruct (nonempty_c _ _ HK) as (s & -> & Ns & _). rewrite <- (sd_ev MS (fun k' => Phi 4 1 G k' [s]) k).
    pose proof (Phi_chain 4 d 1 G k [] s [] ltac:(lia) Hk GA Ns eq_refl) as E. cbn [app] in E. rewrite E. ring. }
  rewrite ev_add, ev_scal. pose proof (cyc dt e XX c bc Wc Hdt Kc Eb Zb (fun K' => Phi 4 1 G k K') (Phi_adm 4 G k ltac:(lia) (proj1 Hk) GA)) as C. rewrite Tc in C. rewrite C.
  rewrite Z.mul_0_r, Z.add_0_r. transitivity (ev (fun _ => 0) (data c)); [|rewrite ev_zero by reflexivity; reflexivity]. apply ev_eqm. intros K v HK. destruct (nonempty_c _ _ HK) as (s & -> & Ns & Xs).
  unfold Phi. transitivity (ev (fun _ => 0) (simp_acts 4 (zlen k - 4) 1 k [s])); [|rewrite ev_zero by reflexivity; reflexivity]. apply ev_eqm. intros w v' Hw. apply tDG.
  - destruct Hk as [Ho _]. exact (proj1 (acts_deg 4 (zlen k - 4) 1 (tdeg spx_dim [s]) 1 k [s] w v' ltac:(lia) (self_cell 4 k Ho) (conj eq_refl eq_refl) Hw)).
  - exact (X_acts XX 4 _ k s w v' HX ltac:(lia) (proj1 Hk) Ns Xs Hw).
Qed.
Lemma g0_move p k : perm 4 p -> onto 4 k -> eqm 2 (mv p g0 k) (ev (fun K => Phi 4 1 (fun L => G (placef p L)) k K) (data c)).
Proof. intros Hp Hk. unfold mv, g0. apply ev_eqm. intros K v HK. destruct (nonempty_c _ _ HK) as (s & -> & Ns & _). apply Phi_move; auto. lia. Qed.
Lemma g0_inv k : onto 4 k -> eqm 2 (mv rho g0 k) (g0 k).
Proof.
  intros Hk. rewrite g0_move by (auto; plit). unfold g0. apply ev_eqm. intros K v HK. destruct (nonempty_c _ _ HK) as (s & -> & Ns & _). apply Phi_len; [lia|exact Hk|].
  intros w Hw. destruct (len4 w Hw) as (x & y & z & t & ->). change (placef rho [x; y; z; t]) with [z; t; x; y]. apply eqm_eq. unfold G, quad. ring.
Qed.
Definition cup0 (a b : list Z -> Z) (s : list Z) : Z := U 0 (simp_pair a b) [s].
Definition sq0 (d : nat) (a : list Z -> Z) (s : list Z) : Z := U d (simp_pair a a) [s].
(** the left side *)
Lemma FA_value d : eqm 2 (FA d g0) (V c d (simp_pair (cup0 al be) (cup0 al be))).
Proof.
  unfold FA, V. transitivity (W d (fun w => ev (fun K => Phi 2 1 (simp_pair (cup0 al be) (cup0 al be)) w K) (data c))).
  - apply W_eqm. intros w [Hw _]. unfold A2, A1, g0. transitivity (ev (fun K => Pc 2 2 (fun z => Pc 1 2 (fun k => Phi 4 1 G k K) z [1; 2]) w [1; 2]) (data c)).
    { apply eqm_eq. unfold Pc at 1. rewrite (ev_ext_all _ (fun z => ev (fun K => Pc 1 2 (fun k => Phi 4 1 G k K) z [1; 2]) (data c))) by (intros z; unfold Pc; apply (ev_exch (fun k K => Phi 4 1 G k K))).
      apply (ev_exch (fun z K => Pc 1 2 (fun k => Phi 4 1 G k K) z [1; 2])). }
    apply ev_eqm. intros K v HK. destruct (nonempty_c _ _ HK) as (s & -> & Ns & _).
    apply (comp_eval G (simp_pair al be) (simp_pair al be)); [intros; reflexivity|apply cell12|apply cell12|now apply self_cell].
  - apply eqm_eq. unfold U. apply (repF_exch 2 (Z.of_nat d) (W d) (fun w K => Phi 2 1 (simp_pair (cup0 al be) (cup0 al be)) w K) (data c) (W_rep d)).
Qed.
Lemma Q_value u v : onto 2 u -> onto 2 v -> eqm 2 (Q g0 u v) (V c 0 (simp_pair (fun x => Phi 2 1 (simp_pair al al) u [x]) (fun y => Phi 2 1 (simp_pair be be) v [y]))).
Proof.
  intros Hu Hv. unfold Q, Q1. set (H := fun L => G (placef sig L)).
  transitivity (Pc 2 2 (fun z => Pc 1 2 (fun k => ev (fun K => Phi 4 1 H k K) (data c)) z u) [1; 2] v).
  { apply (Pc_eqm_on 2 2 0 (zlen v - 2)); auto using cell12, self_cell; try lia. intros z Hz. apply (Pc_eqm_on 3 2 (0 + (zlen v - 2)) (zlen u - 2)); auto using self_cell; try lia.
    intros k [Hk _]. apply (g0_move sig k perm_sig Hk). }
  transitivity (ev (fun K => Pc 2 2 (fun z => Pc 1 2 (fun k => Phi 4 1 H k K) z u) [1; 2] v) (data c)).
  { apply eqm_eq. unfold Pc at 1. rewrite (ev_ext_all _ (fun z => ev (fun K => Pc 1 2 (fun k => Phi 4 1 H k K) z u) (data c))) by (intros z; unfold Pc; apply (ev_exch (fun k K => Phi 4 1 H k K))).
    apply (ev_exch (fun z K => Pc 1 2 (fun k => Phi 4 1 H k K) z u)). }
  unfold V. apply ev_eqm. intros K v' HK. destruct (nonempty_c _ _ HK) as (s & -> & Ns & _).
  apply (comp_eval H (simp_pair al al) (simp_pair be be)); [|now apply self_cell|now apply self_cell|apply cell12].
  intros x y z t. unfold H. change (placef sig [x; y; z; t]) with [x; z; y; t]. unfold G, quad, simp_pair. ring.
Qed.
Lemma tp_value a v y : onto 2 v -> eqm 2 (Phi 2 1 (simp_pair be be) (tp a v) [y]) (Phi 2 1 (simp_pair be be) v [y]).
Proof.
  intros Hv. unfold tp. destruct (Nat.even a); [reflexivity|]. rewrite Phi_move by (auto using perm_tau; lia). apply Phi_len; [lia|exact Hv|]. intros w Hw. destruct (len2 w Hw) as (p & q & ->).
  change (placef tau [p; q]) with [q; p]. apply eqm_eq. unfold simp_pair. ring.
Qed.
Lemma V_eqm d f g : (forall w, zlen w = 2 -> eqm 2 (f w) (g w)) -> eqm 2 (V c d f) (V c d g).
Proof.
  intros E. unfold V. apply ev_eqm. intros K v HK. destruct (nonempty_c _ _ HK) as (s & -> & Ns & _). unfold U. apply W_eqm. intros k [Hk _]. apply Phi_len; auto. lia.
Qed.
Lemma V_pair_exch (F : (list Z -> Z) -> Z) n' d' f (h : list Z -> list Z -> Z) : repF n' d' F -> F (fun v => V c 0 (simp_pair f (fun y => h v y))) = V c 0 (simp_pair f (fun y => F (fun v => h v y))).
Proof.
  intros (T & T1 & T2). rewrite T2. unfold V. rewrite ev_exch. apply ev_ext_all. intros K. unfold U. cbn [FpS]. unfold Phi. rewrite ev_exch. apply ev_ext_all. intros w.
  destruct w as [|x [|y [|z w]]]; cbn [simp_pair]; [now apply ev_zero|now apply ev_zero| |now apply ev_zero]. rewrite T2, <- ev_scal. reflexivity.
Qed.
Lemma V_pair_exchl (F : (list Z -> Z) -> Z) n' d' f (h : list Z -> list Z -> Z) : repF n' d' F -> F (fun v => V c 0 (simp_pair (fun y => h v y) f)) = V c 0 (simp_pair (fun y => F (fun v => h v y)) f).
Proof.
  intros (T & T1 & T2). rewrite T2. unfold V. rewrite ev_exch. apply ev_ext_all. intros K. unfold U. cbn [FpS]. unfold Phi. rewrite ev_exch. apply ev_ext_all. intros w.
  destruct w as [|x [|y [|z w]]]; cbn [simp_pair]; [now apply ev_zero|now apply ev_zero| |now apply ev_zero]. rewrite T2, Z.mul_comm, <- ev_scal. apply ev_ext_all. intros k. ring.
Qed.
Lemma X_value a b : eqm 2 (X g0 a b) (V c 0 (simp_pair (sq0 a al) (sq0 b be))).
Proof.
  unfold X. transitivity (W a (fun u => W b (fun v => V c 0 (simp_pair (fun x => Phi 2 1 (simp_pair al al) u [x]) (fun y => Phi 2 1 (simp_pair be be) v [y]))))).
  - apply W_eqm. intros u [Hu _]. apply W_eqm. intros v Hv. rewrite Q_value by (auto; apply (cell_tp a _ v Hv)). apply V_eqm. intros w Hw. destruct (len2 w Hw) as (p & q & ->). unfold simp_pair at 1 3. rewrite tp_value by apply Hv. reflexivity.
  - apply eqm_eq. rewrite (repF_ext 2 (Z.of_nat a) (W a) _ (fun u => V c 0 (simp_pair (fun x => Phi 2 1 (simp_pair al al) u [x]) (sq0 b be))) (W_rep a)).
    + exact (V_pair_exchl (W a) 2 (Z.of_nat a) (sq0 b be) (fun u x => Phi 2 1 (simp_pair al al) u [x]) (W_rep a)).
    + intros u _. exact (V_pair_exch (W b) 2 (Z.of_nat b) _ (fun v y => Phi 2 1 (simp_pair be be) v [y]) (W_rep b)).
Qed.
(** the Cartan formula *)
Theorem cartan_chains d : eqm 2 (V c d (simp_pair (cup0 al be) (cup0 al be))) (sumf (fun a => V c 0 (simp_pair (sq0 a al) (sq0 (d - a) be))) (seq 0 (Datatypes.S d))).
Proof.
  rewrite <- FA_value, (cartan_words d g0 g0_adm g0_cocycle g0_inv). unfold FB. change (fun a => W a (fun u => W (d - a) (fun v => Q g0 u (tp a v)))) with (fun a => X g0 a (d - a)).
  apply sumf_eqm. intros a _. apply X_value.
Qed.
End Cartan.
