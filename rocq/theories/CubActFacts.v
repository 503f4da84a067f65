(** * The action of a word on a cube: combinatorics modulo 2.  Proof library. *)
From Coq Require Import Setoid Morphisms.
From Verif Require Import PyBase Dict FreeModule Symmetric Simplicial Cubical Utils Surjection Eqm Spec SpecChain SpecOperad SpecSurj SpecAction SpecCube SpecCubAction FreeModuleFacts FreeModuleLaws ListFacts
  ClassFacts LinearFacts Tensor TensorAct SymmetricFacts SimplicialFacts AW SimplicialDiag SurjFacts SurjBoundary CycleFacts ActFacts SpecCube CubicalFacts CubicalDiag CubicalJoin.

Definition eqc (N : Z) (c : list Z) : Prop := zlen c = N /\ is_cube c.
Definition Jg (G : list Z -> Z) (K : list (list Z)) : Z := ev G (SpecCube.joins K).
Lemma Jg_nil G : Jg G [] = 0. Proof. reflexivity. Qed.
Lemma Jg_1 G c : Jg G [c] = G c. Proof. unfold Jg. rewrite joins_Jn. reflexivity. Qed.
Lemma Jg_2 G b c K : Jg G (b :: c :: K) = ev (fun v => Jg G (v :: K)) (join2 b c).
Proof. unfold Jg. rewrite joins_Jn. cbn [Jn]. apply ev_ext_all. intros v. now rewrite joins_Jn. Qed.
Lemma Jg_ext G G' K : (forall v, G v = G' v) -> Jg G K = Jg G' K. Proof. intros E. unfold Jg. now apply ev_ext_all. Qed.
Lemma join2_cube b c v e : is_cube b -> is_cube c -> In (v, e) (join2 b c) -> is_cube v.
Proof.
  intros Hb Hc Hin. unfold join2 in Hin. rewrite !cuts_splits, in_flat_map in Hin. destruct Hin as ([[[l1 x] l2] [[m1 y] m2]] & Hs & Hin).
  pose proof (in_combine_l _ _ _ _ Hs) as H1. pose proof (in_combine_r _ _ _ _ Hs) as H2. apply splits_in in H1. apply splits_in in H2. subst b c.
  assert (C : is_cube (l1 ++ 2 :: m2)).
  { intros a Ha. apply in_app_or in Ha. destruct Ha as [Ha|[<-|Ha]]; [apply Hb; apply in_or_app; now left|auto|apply Hc; apply in_or_app; right; now right]. }
  destruct ((dim (x :: l2) =? 0) && (dim (m1 ++ [y]) =? 0)); [|destruct Hin].
  destruct ((x =? 0) && (y =? 1)); [destruct Hin as [[= <- _]|[]]; exact C|]. destruct ((x =? 1) && (y =? 0)); [destruct Hin as [[= <- _]|[]]; exact C|destruct Hin].
Qed.
Lemma fd_exch {B} (G : B -> list Z -> Z) (d : dict B) c : fdC (fun c' => ev (fun b => G b c') d) c = ev (fun b => fdC (G b) c) d.
Proof. unfold fd. apply (ev_exch (fun c' b => G b c')). Qed.
Lemma eqm_opp2 t a b : eqm 2 (a + t) (a + b) -> eqm 2 (a - t) (a + b).
Proof. intros [z E]. exists (z - t). lia. Qed.
Lemma JB N F : forall K, (forall c, In c K -> eqc N c) ->
  eqm 2 (Jg (fdC F) K) (sumf (fun '(K1, c, K2) => fdC (fun c' => Jg F (K1 ++ c' :: K2)) c + e0 c * Jg F (K1 ++ K2)) (splits K)).
Proof.
  intros K. remember (length K) as n eqn:En. revert K En. induction n as [|n IH]; intros K En HK.
  - destruct K; [|discriminate]. reflexivity.
  - destruct K as [|b [|c K]]; [discriminate| |].
    + change (splits [b]) with [(@nil (list Z), b, @nil (list Z))]. rewrite sumf_cons, sumf_nil. cbn [app]. rewrite Jg_nil, Jg_1. rewrite (fdC_ext (fun c' => Jg F [c']) F) by (intros; apply Jg_1). apply eqm_eq. ring.
    + destruct (HK b) as [Lb Cb]; [now left|]. destruct (HK c) as [Lc Cc]; [right; now left|].
      rewrite !splits_cons, !sumf_cons, !sumf_map, !sumf_cons, !sumf_map. cbn [fst snd app].
      rewrite Jg_2. set (H := fun v => Jg F (v :: K)).
      transitivity (ev (fun v => fdC H v + sumf (fun '(K1, c', K2) => fdC (fun c'' => Jg F (v :: K1 ++ c'' :: K2)) c' + e0 c' * Jg F (v :: K1 ++ K2)) (splits K)) (join2 b c)).
      * apply ev_eqm. intros v e Hv. pose proof (join2_cube b c v e Cb Cc Hv) as Cv. apply join2_len in Hv; [|lia]. destruct Hv as [Lv Dv].
        rewrite IH; [|cbn in En |- *; lia|]. 2:{ intros x [<-|Hx]; [split; [lia|exact Cv]|]. apply HK. right. now right. }
        rewrite splits_cons, sumf_cons, sumf_map. cbn [fst snd app].
        assert (E : e0 v = 0). { unfold e0. pose proof (cube_dim_nonneg b). pose proof (cube_dim_nonneg c). destruct (Z.eqb_spec (cube_dim v) 0); [lia|reflexivity]. }
        rewrite E. fold H. apply eqm_eq. rewrite Z.mul_0_l, Z.add_0_r. f_equal. apply sumf_ext. now intros [[K1 c'] K2] _.
      * rewrite ev_lin2. rewrite join2_jj. pose proof (jj_homotopy H b c ltac:(lia) Cb Cc) as E. unfold d2j in E.
        assert (E1 : eqm 2 (jj (fdC H) b c) (fdC (fun b' => jj H b' c) b + fdC (fun c' => jj H b c') c + e0 b * H c + e0 c * H b)).
        { destruct (sgn_cases (cube_dim b)) as [S1|S1]; rewrite S1 in E.
          - exists (- (fdC (fun b' => jj H b' c) b + fdC (fun c' => jj H b c') c + e0 c * H b)). lia.
          - exists (- (fdC (fun b' => jj H b' c) b + e0 c * H b)). lia. }
        rewrite E1. apply eqm_eq.
        rewrite (fdC_ext (fun c' => Jg F (c' :: c :: K)) (fun b' => jj H b' c)) by (intros; rewrite Jg_2, join2_jj; reflexivity).
        rewrite (fdC_ext (fun c' => Jg F (b :: c' :: K)) (fun c' => jj H b c')) by (intros; rewrite Jg_2, join2_jj; reflexivity).
        fold (H c). fold (H b).
        match goal with |- _ + ?e = _ => set (X := e) end.
        assert (EX : X = sumf (fun a : list (list Z) * list Z * list (list Z) => fdC (fun c' => Jg F (b :: c :: fst (fst a) ++ c' :: snd a)) (snd (fst a)) + e0 (snd (fst a)) * Jg F (b :: c :: fst (fst a) ++ snd a)) (splits K)).
        { unfold X. rewrite (ev_sumf (fun (p : list (list Z) * list Z * list (list Z)) v => let '(K1, c', K2) := p in fdC (fun c'' => Jg F (v :: K1 ++ c'' :: K2)) c' + e0 c' * Jg F (v :: K1 ++ K2)) (splits K)).
          apply sumf_ext. intros [[K1 c'] K2] _. cbn [fst snd]. rewrite ev_lin2, ev_scal. f_equal; [|f_equal; now rewrite Jg_2].
          rewrite <- fd_exch. apply fdC_ext. intros c''. now rewrite Jg_2. }
        rewrite EX. ring.
Qed.

(** ** Products of joins *)
Lemma grouped_app {A} i (L M : list (Z * A)) : grouped i (L ++ M) = grouped i L ++ grouped i M.
Proof. unfold grouped. now rewrite filter_app, map_app. Qed.
Lemma grouped_cons {A} i a (c : A) L : grouped i ((a, c) :: L) = (if a =? i then [c] else []) ++ grouped i L.
Proof. unfold grouped. cbn [filter fst]. destruct (a =? i); reflexivity. Qed.
Fixpoint MJ (is : list Z) (g : list (list Z) -> Z) (L : list (Z * list Z)) : Z :=
  match is with
  | [] => g []
  | i :: is' => Jg (fun b => MJ is' (fun w => g (b :: w)) L) (grouped i L)
  end.
Lemma MJ_ext is g g' L : (forall w, g w = g' w) -> MJ is g L = MJ is g' L.
Proof. revert g g'. induction is as [|i is IH]; intros g g' E; cbn [MJ]; [apply E|]. apply Jg_ext. intros b. apply IH. intros w. apply E. Qed.
Lemma MJ_keys is g L L' : (forall i, In i is -> grouped i L = grouped i L') -> MJ is g L = MJ is g L'.
Proof.
  revert g. induction is as [|i is IH]; intros g E; cbn [MJ]; [reflexivity|]. rewrite (E i) by now left. apply Jg_ext. intros b. apply IH. intros j Hj. apply E. now right.
Qed.
Lemma MJ_tensor is g L : MJ is g L = ev g (tensor_chains (map (fun i => SpecCube.joins (grouped i L)) is)).
Proof.
  revert g. induction is as [|i is IH]; intros g; cbn [MJ map tensor_chains].
  - rewrite ev_cons, ev_nil. ring.
  - unfold Jg, ev. rewrite sumf_flat_map. apply sumf_ext. intros [b e] _. cbn [fst snd]. rewrite IH. unfold ev. rewrite sumf_map, <- sumf_scal. apply sumf_ext. intros [w e'] _. cbn [fst snd]. ring.
Qed.
Lemma MJ_lin2 is g h L : MJ is (fun w => g w + h w) L = MJ is g L + MJ is h L.
Proof. rewrite !MJ_tensor. apply ev_lin2. Qed.
Lemma MJ_scal is n g L : MJ is (fun w => n * g w) L = n * MJ is g L.
Proof. rewrite !MJ_tensor. apply ev_scal. Qed.
Lemma MJ_eqm t is g h L : (forall w, eqm t (g w) (h w)) -> eqm t (MJ is g L) (MJ is h L).
Proof. intros E. rewrite !MJ_tensor. apply ev_eqm. intros; apply E. Qed.
Lemma Jg_eqm t G H K : (forall w, eqm t (G w) (H w)) -> eqm t (Jg G K) (Jg H K).
Proof. intros E. unfold Jg. apply ev_eqm. intros; apply E. Qed.
Lemma Jg_lin2 G H K : Jg (fun w => G w + H w) K = Jg G K + Jg H K. Proof. apply ev_lin2. Qed.
Lemma Jg_scal n G K : Jg (fun w => n * G w) K = n * Jg G K. Proof. apply ev_scal. Qed.
Lemma MJ_exch_fd is (G : list Z -> list (list Z) -> Z) L b : MJ is (fun w => fdC (fun b' => G b' w) b) L = fdC (fun b' => MJ is (G b') L) b.
Proof.
  rewrite MJ_tensor. rewrite (fdC_ext _ (fun b' => ev (G b') (tensor_chains (map (fun i => SpecCube.joins (grouped i L)) is)))) by (intros; apply MJ_tensor).
  rewrite (fd_exch (fun w b' => G b' w)). reflexivity.
Qed.
Lemma Jg_exch_fd (G : list Z -> list Z -> Z) K c : Jg (fun b => fdC (G b) c) K = fdC (fun c' => Jg (fun b => G b c') K) c.
Proof. unfold Jg. symmetry. apply fd_exch. Qed.
Lemma splits_grouped i (F : list (list Z) -> list Z -> list (list Z) -> Z) L :
  sumf (fun '(K1, c, K2) => F K1 c K2) (splits (grouped i L)) = sumf (fun '(L1, p, L2) => if fst p =? i then F (grouped i L1) (snd p) (grouped i L2) else 0) (splits L).
Proof.
  revert F. induction L as [|[a c] L IH]; intros F; [reflexivity|]. rewrite grouped_cons, (splits_cons (a, c)), sumf_cons, sumf_map. cbn [fst snd].
  destruct (Z.eqb_spec a i) as [->|N].
  - cbn [app]. rewrite splits_cons, sumf_cons, sumf_map. cbn [fst snd]. f_equal. etransitivity; [|etransitivity; [exact (IH (fun K1 c' K2 => F (c :: K1) c' K2))|]].
    + apply sumf_ext. now intros [[K1 c'] K2] _.
    + apply sumf_ext. intros [[L1 p] L2] _. cbn [fst snd]. rewrite grouped_cons, Z.eqb_refl. reflexivity.
  - cbn [app]. rewrite Z.add_0_l. etransitivity; [exact (IH F)|]. apply sumf_ext. intros [[L1 p] L2] _. cbn [fst snd]. rewrite grouped_cons. destruct (Z.eqb_spec a i); [contradiction|]. reflexivity.
Qed.
Definition drops (is : list Z) (g : list (list Z) -> Z) (L : list (Z * list Z)) : Z :=
  sumf (fun '(L1, p, L2) => if mem (fst p) is then fdC (fun c' => MJ is g (L1 ++ (fst p, c') :: L2)) (snd p) + e0 (snd p) * MJ is g (L1 ++ L2) else 0) (splits L).
Lemma grouped_eqc N i (L : list (Z * list Z)) c : (forall p, In p L -> eqc N (snd p)) -> In c (grouped i L) -> eqc N c.
Proof. intros HL Hc. unfold grouped in Hc. apply in_map_iff in Hc. destruct Hc as (p & <- & Hp). apply filter_In in Hp. now apply HL. Qed.
Lemma MB N L : (forall p, In p L -> eqc N (snd p)) -> forall is g, NoDup is -> eqm 2 (MJ is (tDC g) L) (drops is g L).
Proof.
  intros HL. induction is as [|i is IH]; intros g Nd.
  - cbn [MJ]. rewrite tD_nil. unfold drops. rewrite sumf_0; [reflexivity|]. now intros [[L1 p] L2] _.
  - inversion Nd as [|? ? Ni Nd']; subst. cbn [MJ].
    transitivity (Jg (fdC (fun b => MJ is (fun w => g (b :: w)) L)) (grouped i L) + Jg (fun b => drops is (fun w => g (b :: w)) L) (grouped i L)).
    + rewrite <- Jg_lin2. apply Jg_eqm. intros b. rewrite <- (IH _ Nd'), <- (MJ_exch_fd is (fun b w => g (b :: w))), <- MJ_lin2.
      apply MJ_eqm. intros w. rewrite tD_cons. rewrite (sgn_eqm2 (cube_dim b)). apply eqm_eq. ring.
    + rewrite (JB N) by (intros c; now apply grouped_eqc).
      rewrite (splits_grouped i (fun K1 c K2 => fdC (fun c' => Jg _ (K1 ++ c' :: K2)) c + e0 c * Jg _ (K1 ++ K2))).
      unfold drops at 1. unfold Jg at 3. rewrite (ev_sumf (fun (q : list (Z * list Z) * (Z * list Z) * list (Z * list Z)) b => let '(L1, p, L2) := q in _)). rewrite <- sumf_add.
      unfold drops. apply sumf_eqm. intros [[L1 [a c]] L2] Hs. apply splits_in in Hs. cbn [fst snd]. cbn [mem]. apply eqm_eq.
      change (mem a (i :: is)) with ((a =? i) || mem a is).
      destruct (Z.eqb_spec a i) as [->|Nai].
      * assert (Em : mem i is = false) by now apply mem_notin. rewrite Em. cbn [orb]. rewrite ev_zero by reflexivity. rewrite Z.add_0_r.
        assert (EK : forall L' b, (forall j, j <> i -> grouped j L' = grouped j L) -> MJ is (fun w => g (b :: w)) L' = MJ is (fun w => g (b :: w)) L).
        { intros L' b HL'. apply MJ_keys. intros j Hj. apply HL'. intros ->. contradiction. }
        f_equal.
        -- apply fdC_ext. intros c'. cbn [MJ]. rewrite grouped_app, grouped_cons, Z.eqb_refl. cbn [app]. apply Jg_ext. intros b. symmetry. apply EK. intros j Nj.
           rewrite Hs, !grouped_app, !grouped_cons. destruct (Z.eqb_spec i j); [congruence|]. reflexivity.
        -- f_equal. cbn [MJ]. rewrite grouped_app. apply Jg_ext. intros b. symmetry. apply EK. intros j Nj.
           rewrite Hs, !grouped_app, !grouped_cons. destruct (Z.eqb_spec i j); [congruence|]. reflexivity.
      * cbn [orb]. rewrite Z.add_0_l. destruct (mem a is); [|now apply ev_zero]. rewrite ev_lin2, ev_scal.
        assert (EG : forall c', grouped i L = grouped i (L1 ++ (a, c') :: L2)) by (intros c'; rewrite Hs, !grouped_app, !grouped_cons; destruct (Z.eqb_spec a i); [contradiction|reflexivity]).
        assert (EG' : grouped i L = grouped i (L1 ++ L2)) by (rewrite Hs, !grouped_app, !grouped_cons; destruct (Z.eqb_spec a i); [contradiction|reflexivity]).
        f_equal.
        -- fold (Jg (fun b => fdC (fun c' => MJ is (fun w => g (b :: w)) (L1 ++ (a, c') :: L2)) c) (grouped i L)). rewrite Jg_exch_fd. apply fdC_ext. intros c'. cbn [MJ]. now rewrite <- EG.
        -- f_equal. cbn [MJ]. now rewrite <- EG'.
Qed.

(** ** Counit of the Serre diagonal *)
Lemma se_counit_l H c : se (fun f b => e0 f * H b) c = H c.
Proof.
  revert H. induction c as [|a w IH]; intros H; [cbn; rewrite Z.mul_1_l; reflexivity|]. destruct (Z.eq_dec a 2) as [->|N].
  - rewrite se_2. rewrite (se_ext (fun f b => e0 (2 :: f) * H (1 :: b)) (fun _ _ => 0 * 0)) by (intros; cbv beta; rewrite e0_cons; change (2 =? 2) with true; cbv iota; ring).
    rewrite se_scal, Z.mul_0_l. rewrite (se_ext _ (fun f b => e0 f * H (2 :: b))); [rewrite (IH (fun b => H (2 :: b))); ring|]. intros f b _. rewrite e0_cons. change (0 =? 2) with false. cbv iota.
    destruct (e0_cases f) as [[E ->]|[_ ->]]; [rewrite E, sgn_0; ring|ring].
  - rewrite se_n by assumption. rewrite (se_ext _ (fun f b => e0 f * H (a :: b))); [apply (IH (fun b => H (a :: b)))|]. intros f b _. rewrite e0_cons. destruct (Z.eqb_spec a 2); [contradiction|reflexivity].
Qed.
Lemma se_counit_r H c : se (fun f b => e0 b * H f) c = H c.
Proof.
  revert H. induction c as [|a w IH]; intros H; [cbn; rewrite Z.mul_1_l; reflexivity|]. destruct (Z.eq_dec a 2) as [->|N].
  - rewrite se_2. rewrite (se_ext (fun f b => sgn _ * _) (fun _ _ => 0 * 0)) by (intros; cbv beta; rewrite e0_cons; change (2 =? 2) with true; cbv iota; ring).
    rewrite se_scal, Z.mul_0_l. rewrite (se_ext _ (fun f b => e0 b * H (2 :: f))); [rewrite (IH (fun b => H (2 :: b))); ring|]. intros f b _. rewrite e0_cons. reflexivity.
  - rewrite se_n by assumption. rewrite (se_ext _ (fun f b => e0 b * H (a :: f))); [apply (IH (fun b => H (a :: b)))|]. intros f b _. rewrite e0_cons. destruct (Z.eqb_spec a 2); [contradiction|reflexivity].
Qed.
Lemma SC_S t G s : SC (Datatypes.S t) G s = se (fun f b => SC t (fun u => G (f :: u)) b) s. Proof. reflexivity. Qed.
Lemma SC_counit m : forall j (h : list (list Z) -> Z) (s : list Z), 0 <= j <= Z.of_nat m + 1 ->
  SC (Datatypes.S m) (at_pos j (fun u1 b u2 => e0 b * h (u1 ++ u2))) s = SC m h s.
Proof.
  induction m as [|m IH]; intros j h s Hj.
  - rewrite SC_S. destruct (Z.eq_dec j 0) as [->|N].
    + rewrite (se_ext _ (fun f b => e0 f * h [b])) by (intros; cbn [SC]; now rewrite at_pos_0). apply (se_counit_l (fun b => h [b])).
    + assert (j = 0 + 1) as -> by lia. rewrite (se_ext _ (fun f b => e0 b * h [f])) by (intros; cbn [SC]; now rewrite at_pos_S, at_pos_0 by lia). apply (se_counit_r (fun b => h [b])).
  - rewrite SC_S. destruct (Z.eq_dec j 0) as [->|N].
    + rewrite (se_ext _ (fun f b => e0 f * SC (Datatypes.S m) h b)); [apply se_counit_l|]. intros f b _. rewrite <- SC_scal. apply SC_ext. intros u _ _. now rewrite at_pos_0.
    + rewrite (SC_S m h). apply se_ext. intros f b _. replace j with (j - 1 + 1) by lia.
      rewrite (SC_ext _ _ (at_pos (j - 1) (fun u1 b u2 => e0 b * h (f :: u1 ++ u2)))) by (intros; now rewrite at_pos_S by lia). apply (IH (j - 1) (fun u => h (f :: u))). lia.
Qed.
(** ** Boundary *)
Definition TC (r : Z) (k : list Z) (g : list (list Z) -> Z) (u : list (list Z)) : Z := MJ (zrange 1 (r + 1)) g (combine k u).
Definition PsiC (r : Z) (k : list Z) (g : list (list Z) -> Z) (s : list Z) : Z := SC (length k - 1) (TC r k g) s.
Lemma serre_pairs_cube c f b e : is_cube c -> In (f, b, e) (serre_pairs c) -> is_cube f /\ is_cube b.
Proof.
  revert f b e. induction c as [|a w IH]; intros f b e Hc Hin; cbn [serre_pairs] in Hin.
  - destruct Hin as [[= <- <- _]|[]]. split; intros x [].
  - apply in_flat_map in Hin. destruct Hin as ([[f' b'] e'] & H1 & H2). destruct (IH f' b' e') as [Cf Cb]; [intros x Hx; apply Hc; now right|exact H1|].
    assert (CC : forall x l, x = 0 \/ x = 1 \/ x = 2 -> is_cube l -> is_cube (x :: l)) by (intros x l Hx Hl y [<-|Hy]; auto).
    destruct (a =? 2).
    + destruct H2 as [[= <- <- _]|[[= <- <- _]|[]]]; auto.
    + destruct H2 as [[= <- <- _]|[]]. assert (a = 0 \/ a = 1 \/ a = 2) by (apply Hc; now left). auto.
Qed.
Lemma serre_eqc t : forall s u e N, zlen s = N -> In (u, e) (serre t s) -> forall c, In c u -> zlen c = N /\ (is_cube s -> is_cube c).
Proof.
  induction t as [|t IH]; intros s u e N Ls Hu c Hc; cbn [serre] in Hu.
  - destruct Hu as [[= <- _]|[]]. destruct Hc as [<-|[]]. auto.
  - apply in_flat_map in Hu. destruct Hu as ([[f b] e1] & H1 & H2). apply in_map_iff in H2. destruct H2 as ([u' e'] & [= <- _] & H2). pose proof (serre_pairs_dim _ _ _ _ H1) as (_ & Lf & Lb).
    destruct Hc as [<-|Hc].
    + split; [lia|]. intros Cs. apply (serre_pairs_cube _ _ _ _ Cs H1).
    + destruct (IH b u' e' N ltac:(lia) H2 c Hc) as [L C]. split; [exact L|]. intros Cs. apply C. apply (serre_pairs_cube _ _ _ _ Cs H1).
Qed.
Lemma MJ_none is g L a : In a is -> ~ In a (map fst L) -> MJ is g L = 0.
Proof.
  intros Ha Hn. revert g. induction is as [|i is IH]; intros g; [destruct Ha|]. cbn [MJ]. destruct (Z.eq_dec i a) as [->|N].
  - assert (E : grouped a L = []); [|now rewrite E]. clear -Hn. induction L as [|[b c] L IH]; [reflexivity|]. rewrite grouped_cons. cbn in Hn. destruct (Z.eqb_spec b a); [intuition|]. cbn [app]. apply IH. intuition.
  - destruct Ha as [Ha|Ha]; [congruence|]. rewrite (Jg_ext _ (fun _ => 0)) by (intros; now apply IH). now apply ev_zero.
Qed.
Lemma TC_bnd r k g u N : onto r k -> length u = length k -> (forall c, In c u -> eqc N c) ->
  eqm 2 (TC r k (tDC g) u) (tDC (TC r k g) u + sumf (fun '(k1, a, k2) => at_pos (zlen k1) (fun u1 b u2 => e0 b * TC r (k1 ++ k2) g (u1 ++ u2)) u) (splits k)).
Proof.
  intros Ho L Hu. unfold TC at 1. rewrite (MB N) by (try apply NoDup_zrange; intros [a c] Hp; apply Hu; now apply in_combine_r in Hp).
  pose proof (map_fst_combine k u L) as E1. pose proof (map_snd_combine k u L) as E2.
  rewrite <- (sum_pos k u (fun k1 a k2 u1 b u2 => e0 b * TC r (k1 ++ k2) g (u1 ++ u2)) L).
  rewrite tD_splits. rewrite <- E2 at 2. rewrite splits_map, sumf_map, <- sumf_add. unfold drops. apply sumf_eqm. intros [[L1 [a c]] L2] Hs. apply splits_in in Hs. cbn [fst snd].
  assert (Ha : 1 <= a <= r). { apply Ho. rewrite <- E1, Hs, map_app. apply in_or_app. right. now left. }
  rewrite (proj2 (mem_in a _)) by (apply in_zrange; lia). rewrite (sgn_eqm2 (tdeg cube_dim (map snd L1))). apply eqm_eq. rewrite Z.mul_1_l. f_equal.
  - apply fdC_ext. intros c'. unfold TC. f_equal. rewrite <- E1, Hs.
    replace (map fst (L1 ++ (a, c) :: L2)) with (map fst (L1 ++ (a, c') :: L2)) by (rewrite !map_app; reflexivity).
    replace (map snd L1 ++ c' :: map snd L2) with (map snd (L1 ++ (a, c') :: L2)) by (rewrite !map_app; reflexivity). now rewrite combine_split.
  - f_equal. unfold TC. rewrite <- !map_app, combine_split. reflexivity.
Qed.
Lemma actC_chain r cv k g s : onto r k -> k <> [] -> is_cube s ->
  eqm 2 (PsiC r k (tDC g) s) (fdC (PsiC r k g) s + sd cv (fun k' => PsiC r k' g s) k).
Proof.
  intros Ho Nk Cs. unfold PsiC at 1 2. rewrite <- SC_chain. set (m := (length k - 1)%nat).
  transitivity (SC m (fun u => tDC (TC r k g) u + sumf (fun '(k1, a, k2) => at_pos (zlen k1) (fun u1 b u2 => e0 b * TC r (k1 ++ k2) g (u1 ++ u2)) u) (splits k)) s).
  - rewrite !SC_sum. apply ev_eqm. intros u e Hu. apply (TC_bnd r k g u (zlen s) Ho).
    + apply serre_deg in Hu. unfold m, zlen in Hu. destruct k; [congruence|cbn [length] in *; lia].
    + intros c Hc. destruct (serre_eqc _ _ _ _ (zlen s) eq_refl Hu c Hc) as [H1 H2]. split; auto.
  - rewrite SC_add. apply eqm_add; [reflexivity|]. rewrite <- (eqm_sd_mod2 cv (fun k' => PsiC r k' g s) k r Ho). unfold faceval. apply eqm_eq.
    etransitivity; [apply (SC_sumf _ (fun (p : list Z * Z * list Z) u => let '(k1, a, k2) := p in at_pos (zlen k1) (fun u1 b u2 => e0 b * TC r (k1 ++ k2) g (u1 ++ u2)) u))|].
    apply sumf_ext. intros [[k1 a] k2] Hs. apply splits_in in Hs. destruct (mem a (k1 ++ k2)) eqn:Em.
    + rewrite Z.mul_1_l. unfold PsiC. assert (L : (length (k1 ++ k2) >= 1)%nat) by (destruct (k1 ++ k2); [discriminate|cbn; lia]).
      assert (L' : length k = Datatypes.S (length (k1 ++ k2))) by (rewrite Hs, !app_length; cbn; lia).
      unfold m. replace (length k - 1)%nat with (Datatypes.S (length (k1 ++ k2) - 1)) by lia.
      apply (SC_counit _ (zlen k1) (TC r (k1 ++ k2) g)). pose proof (zlen_nonneg k1). rewrite app_length in *. unfold zlen in *. lia.
    + rewrite SC_sum. apply ev_zero. intros u e Hu. apply sumf_0. intros [[u1 b] u2] _. destruct (zlen u1 =? zlen k1); [|reflexivity].
      unfold TC. rewrite (MJ_none _ _ _ a); [ring| |].
      * apply in_zrange. assert (Ha : In a k) by (rewrite Hs; apply in_or_app; right; now left). apply Ho in Ha. lia.
      * intros Hin. apply in_map_iff in Hin. destruct Hin as ([c w] & Ec & Hin). cbn in Ec. subst c. apply in_combine_l in Hin. apply mem_in in Hin. congruence.
Qed.
