(** * Words in cochains: pairing with tensors, formal contraction (proof library for C74) *)
From Coq Require Import Setoid Morphisms.
From Verif Require Import PyBase Dict FreeModule Symmetric Simplicial Utils Surjection BarrattEccles Eqm Spec SpecChain SpecOperad SpecSurj SpecAction SpecCochain FreeModuleFacts FreeModuleLaws ListFacts
  ClassFacts LinearFacts BilFacts SymmetricFacts CycleFacts SymmetricLaws RingFacts Tensor TensorAct KoszulFacts LoopFacts AW SimplicialFacts SimplicialDiag SimplicialLaws BEOrbit BEDiag MayFacts BELaws3 SurjFacts SurjBoundary SurjLaws SurjAct SurjMay
  SteenrodLaws ActFacts ActSign ActCore ActCode ActLaws EquivAct SteenrodAct.

(** ** pairing of words with tensors *)
Section Pair.
Variable val : list Z -> list Z -> Z.
Fixpoint tau (w K : list (list Z)) : Z :=
  match w, K with
  | [], [] => 1
  | l :: w', b :: K' => val l b * tau w' K'
  | _, _ => 0
  end.
Lemma tau_map (om ka : Z -> list Z) l : tau (map om l) (map ka l) = fold_right Z.mul 1 (map (fun i => val (om i) (ka i)) l).
Proof. induction l as [|i l IH]; [reflexivity|]. cbn [map tau fold_right]. now rewrite IH. Qed.
Lemma prod_perm (f : Z -> Z) l l' : Permutation l l' -> fold_right Z.mul 1 (map f l) = fold_right Z.mul 1 (map f l').
Proof. induction 1; cbn [map fold_right]; try congruence; ring. Qed.
Lemma prod_zero (f : Z -> Z) l i : In i l -> f i = 0 -> fold_right Z.mul 1 (map f l) = 0.
Proof. induction l as [|j l IH]; [intros []|]. cbn [map fold_right]. intros [->|Hi] E; [rewrite E; ring|rewrite IH by auto; ring]. Qed.

Variables (fbw : list Z -> dict (list Z)) (dgw : list Z -> Z).
Hypothesis dgw_fb : forall b b' v, In (b', v) (fbw b) -> dgw b' = dgw b - 1.
Hypothesis val_dim : forall l b, eqm 2 (dgw l) (spx_dim b) \/ val l b = 0.
Lemma tau_move n p w K : 0 <= n -> perm n p -> zlen w = n -> zlen K = n ->
  kact dgw (fun w' => kact spx_dim (fun K' => tau w' K') p K) p w = tau w K.
Proof.
  intros Hn Hp Lw LK. pose proof (perm_nodup _ _ Hp) as ND. pose proof (perm_len n p Hn Hp) as Lp.
  rewrite <- (map_lab p w ND), <- (map_lab p K ND) by (unfold zlen in *; lia). set (om := lab p w). set (ka := lab p K).
  rewrite (kact_map dgw n) by auto. rewrite (kact_map spx_dim n) by auto. rewrite !tau_map. rewrite (prod_perm _ _ _ Hp).
  set (F := fold_right Z.mul 1 _). destruct (Z.eq_dec F 0) as [->|NF]; [ring|].
  assert (E : eqm 2 (kinv p (fun j => dgw (om j))) (kinv p (fun j => spx_dim (ka j)))).
  { apply kinv_eqm. intros i Hi. destruct (val_dim (om i) (ka i)) as [E|E]; [exact E|]. exfalso. apply NF. unfold F. apply (prod_zero (fun i => val (om i) (ka i)) _ i); [|exact E].
    apply (Permutation_in i Hp Hi). }
  rewrite (sgn_eqm _ _ E), Z.mul_assoc, sgn_sq. ring.
Qed.
Lemma tau_kact n p w K : 0 <= n -> perm n p -> zlen w = n -> zlen K = n ->
  kact spx_dim (fun K' => tau w K') p K = kact dgw (fun w' => tau w' K) (pinv p) w.
Proof.
  intros Hn Hp Lw LK. pose proof (perm_pinv n p Hn Hp) as Hq.
  transitivity (kact dgw (fun w1 => kact dgw (fun w' => kact spx_dim (fun K' => tau w' K') p K) p w1) (pinv p) w).
  - rewrite (kact_pmul dgw n) by auto. rewrite (pinv_r n) by auto. now rewrite (kact_id dgw n) by auto.
  - unfold kact at 1. unfold kact at 3. f_equal. apply (tau_move n); auto. now apply (placef_len n).
Qed.
Lemma tau_tD w : forall K, length w = length K -> (forall l b, In l w -> fdS (val l) b = fd fbw (fun l' => val l' b) l) ->
  tDS (fun K' => tau w K') K = tD fbw dgw (fun w' => tau w' K) w.
Proof.
  induction w as [|l w IH]; intros [|b K] L Hf; try discriminate; [reflexivity|]. rewrite !tD_cons. cbn [tau].
  rewrite (fd_ext_all fbS _ (fun b' => tau w K * val l b')) by (intros; cbn [tau]; ring). rewrite fd_scal, Hf by now left.
  rewrite (fd_ext_all fbw (fun b' => tau (b' :: w) (b :: K)) (fun l' => tau w K * val l' b)) by (intros; cbn [tau]; ring). rewrite fd_scal.
  change (tD fbS spx_dim (fun k' => val l b * tau w k') K) with (tD fbS spx_dim (fun k' => (val l b) * (fun q => tau w q) k') K). rewrite tD_scal.
  change (tD fbw dgw (fun k' => val l b * tau k' K) w) with (tD fbw dgw (fun k' => (val l b) * (fun q => tau q K) k') w). rewrite tD_scal.
  rewrite IH by (try (cbn in L; lia); intros; apply Hf; now right).
  destruct (val_dim l b) as [E|E]; [now rewrite (sgn_eqm _ _ E)|rewrite E; ring].
Qed.
End Pair.

(** ** the formal complex on two letters u = [0], v = [1] with du = v *)
Section Formal.
Variables (p m : Z).
Hypothesis Hp1 : 2 <= p.
Hypothesis Hp2 : p = 2 \/ Z.even p = false.
Definition isu (b : list Z) : bool := match b with [Z0] => true | _ => false end.
Definition fbw (b : list Z) : dict (list Z) := if isu b then [([1], 1)] else [].
Definition dgw (b : list Z) : Z := if isu b then 1 - m else - m.
Definition okw (w : list (list Z)) : Prop := forall b, In b w -> b = [0] \/ b = [1].
Lemma dgw_fbw b b' v : In (b', v) (fbw b) -> dgw b' = dgw b - 1.
Proof. unfold fbw, dgw. destruct (isu b); [|intros []]. intros [[= <- <-]|[]]. cbn [isu]. ring. Qed.
Definition SS (F : list (list Z) -> Z) (w : list (list Z)) : Z := match w with [] => 0 | b :: w' => if isu b then 0 else F ([0] :: w') end.
Notation D := (tD fbw dgw).
Lemma contr F w : okw w -> w <> [] -> D (SS F) w + SS (D F) w = F w.
Proof.
  destruct w as [|b w]; [congruence|]. intros Ho _. rewrite tD_cons. destruct (Ho b) as [-> | ->]; [now left| |].
  - assert (Z0 : D (fun k' => SS F ([0] :: k')) w = 0) by (unfold tD; apply ev_zero; reflexivity). rewrite Z0.
    unfold fd. change (fbw [0]) with [([1], 1)]. rewrite ev_cons, ev_nil. change (SS F ([1] :: w)) with (F ([0] :: w)). change (SS (D F) ([0] :: w)) with 0. ring.
  - unfold fd. change (fbw [1]) with (@nil (list Z * Z)). rewrite ev_nil. change (SS (D F) ([1] :: w)) with (D F ([0] :: w)). rewrite (tD_cons fbw dgw F).
    unfold fd. change (fbw [0]) with [([1], 1)]. rewrite ev_cons, ev_nil. change (D (fun k' => SS F ([1] :: k')) w) with (D (fun k' => F ([0] :: k')) w).
    change (dgw [1]) with (- m). change (dgw [0]) with (1 - m). replace (1 - m) with (- m + 1) by ring. rewrite sgn_add, sgn_1. ring.
Qed.
Lemma tb_ok w : okw w -> forall w' v, In (w', v) (tb fbw dgw w) -> okw w' /\ zlen w' = zlen w.
Proof.
  induction w as [|b w IH]; intros Ho w' v Hin; [destruct Hin|]. cbn [tb] in Hin. apply in_app_iff in Hin. destruct Hin as [Hin|Hin]; apply in_map_iff in Hin.
  - destruct Hin as ([b' s] & [= <- <-] & Hin). cbn [fst]. split; [|now rewrite !zlen_cons]. unfold fbw in Hin. destruct (isu b); [|destruct Hin]. destruct Hin as [[= <- <-]|[]].
    intros c [<-|Hc]; [now right|]. apply Ho. now right.
  - destruct Hin as ([k s] & [= <- <-] & Hin). cbn [fst] in *. destruct (IH (fun c Hc => Ho c (or_intror Hc)) _ _ Hin) as [H1 H2]. split; [|rewrite !zlen_cons; lia].
    intros c [<-|Hc]; [apply Ho; now left|now apply H1].
Qed.
Definition EQ (F F' : list (list Z) -> Z) : Prop := forall w, okw w -> zlen w = p -> eqm p (F w) (F' w).
Definition AA (d : nat) (F : list (list Z) -> Z) (w : list (list Z)) : Z := RA p d (fun r => kact dgw F (pinv r) w).
Lemma EQ_D F F' : EQ F F' -> EQ (D F) (D F').
Proof. intros E w Ho Lw. unfold tD. apply ev_eqm. intros w' v Hin. destruct (tb_ok w Ho _ _ Hin) as [H1 H2]. apply E; [exact H1|lia]. Qed.
Lemma EQ_S F F' : EQ F F' -> EQ (SS F) (SS F').
Proof.
  intros E [|b w] Ho Lw; [reflexivity|]. cbn [SS]. destruct (isu b); [reflexivity|]. apply E; [|exact Lw]. intros c [<-|Hc]; [now left|]. apply Ho. now right.
Qed.
Lemma placef_ok r w : perm p r -> okw w -> zlen w = p -> okw (placef r w) /\ zlen (placef r w) = p.
Proof.
  intros Hr Ho Lw. split; [|apply (placef_len p); auto; lia]. intros b Hb. apply Ho. apply (Permutation_in b (placef_perm p r w ltac:(lia) Hr Lw) Hb).
Qed.
Lemma perm_pinv_rot j : perm p (pinv (rot p j)).
Proof. apply perm_pinv; [lia|]. apply perm_rot. lia. Qed.
Lemma EQ_A d F F' : EQ F F' -> EQ (AA d F) (AA d F').
Proof.
  intros E w Ho Lw. unfold AA. apply RA_eqm; [lia|exact Hp1|]. intros j Hj. unfold kact. destruct (placef_ok (pinv (rot p j)) w (perm_pinv_rot j) Ho Lw) as [H1 H2]. now rewrite (E _ H1 H2).
Qed.
Lemma A_sub d F F' w : AA d (fun w => F w - F' w) w = AA d F w - AA d F' w.
Proof. unfold AA. rewrite <- RA_sub. unfold RA. destruct (Nat.even d); [apply sumf_ext; intros|f_equal]; unfold kact; ring. Qed.
Lemma D_sub F F' w : D (fun w => F w - F' w) w = D F w - D F' w.
Proof. rewrite (tD_ext_all fbw dgw _ (fun w => F w + (-1) * F' w)) by (intros; ring). rewrite tD_add, tD_scal. ring. Qed.
Lemma D_A d F w : zlen w = p -> D (AA d F) w = AA d (D F) w.
Proof.
  intros Lw. unfold AA. destruct (RA_list p d ltac:(lia)) as (T & T1 & T2). rewrite T2.
  transitivity (ev (fun r => D (fun w' => kact dgw F (pinv r) w') w) T).
  - unfold tD at 1. rewrite (ev_ext _ (fun k => ev (fun r => kact dgw F (pinv r) k) T)) by (intros; apply T2). apply ev_exch.
  - apply ev_ext. intros r v Hr. apply (kact_tD fbw dgw dgw_fbw p); [lia| |exact Lw]. apply perm_pinv; [lia|]. exact (T1 _ _ Hr).
Qed.
Lemma A_A d F w : zlen w = p -> AA (Datatypes.S d) (AA d F) w = 0.
Proof.
  intros Lw. assert (Hn : 0 <= p) by lia. unfold AA. rewrite <- (RA_RA p d (fun r => kact dgw F (pinv r) w)) by lia. apply RA_ext; [lia|]. intros r Hr.
  destruct (RA_list p d ltac:(lia)) as (T & T1 & T2). unfold kact at 1. rewrite T2, <- ev_scal. rewrite T2. apply ev_ext. intros q v Hq. pose proof (T1 _ _ Hq) as Pq.
  rewrite (perm_pinv_pmul p) by auto. rewrite <- (kact_pmul dgw p) by auto using perm_pinv. reflexivity.
Qed.
Lemma resolve (q : nat -> list (list Z) -> Z) :
  EQ (D (q O)) (fun _ => 0) -> (forall d, EQ (D (q (Datatypes.S d))) (AA (Datatypes.S d) (q d))) ->
  forall d, exists r', exists e, EQ (fun w => q d w - D r' w) e /\ EQ (AA (Datatypes.S d) e) (fun _ => 0) /\ (e = (fun _ => 0) \/ exists d' r, e = AA d' r).
Proof.
  intros H0 HS. induction d as [|d (r & e & E1 & E2 & _)].
  - exists (SS (q O)), (fun _ => 0). split; [|split; [|now left]].
    + intros w Ho Lw. assert (Nw : w <> []) by (intros ->; change (zlen []) with 0 in Lw; lia). pose proof (contr (q O) w Ho Nw) as C. pose proof (EQ_S _ _ H0 w Ho Lw) as C2.
      assert (C3 : SS (fun _ => 0) w = 0) by (destruct w as [|b w]; [reflexivity|]; cbn; now destruct (isu b)). rewrite C3 in C2. rewrite <- C. rewrite C2. apply eqm_eq. ring.
    + intros w Ho Lw. unfold AA. apply eqm_eq. destruct (RA_list p 1 ltac:(lia)) as (T & _ & T2). rewrite T2. apply ev_zero. intros. unfold kact. ring.
  - set (f := fun w => q (Datatypes.S d) w - AA (Datatypes.S d) r w).
    assert (Df : EQ (D f) (fun _ => 0)).
    { intros w Ho Lw. unfold f. rewrite D_sub, D_A by exact Lw. rewrite (HS d w Ho Lw). rewrite <- A_sub. rewrite (EQ_A _ _ _ E1 w Ho Lw). apply (E2 w Ho Lw). }
    exists (SS f), (AA (Datatypes.S d) r). split; [|split; [|right; eauto]].
    + intros w Ho Lw. assert (Nw : w <> []) by (intros ->; change (zlen []) with 0 in Lw; lia). pose proof (contr f w Ho Nw) as C. pose proof (EQ_S _ _ Df w Ho Lw) as C2.
      assert (C3 : SS (fun _ => 0) w = 0) by (destruct w as [|b w]; [reflexivity|]; cbn; now destruct (isu b)). rewrite C3, Z.add_comm in *.
      assert (C4 : eqm p (D (SS f) w) (f w)) by (rewrite <- C, C2; apply eqm_eq; ring). rewrite C4. unfold f. apply eqm_eq. ring.
    + intros w Ho Lw. apply eqm_eq. now apply A_A.
Qed.
End Formal.
