(** * Steenrod operations and connecting homomorphisms.  Proof library for C88. *)
From Coq Require Import Setoid Morphisms Znumtheory Sorting.Sorted.
From Verif Require Import PyBase Dict FreeModule Symmetric Simplicial Utils Surjection BarrattEccles Eqm Wilson Spec SpecChain SpecOperad SpecSurj SpecAction SpecSteenrod SpecCochain FreeModuleFacts FreeModuleLaws ListFacts
  ClassFacts LinearFacts BilFacts SymmetricFacts CycleFacts SymmetricLaws RingFacts Tensor TensorAct KoszulFacts LoopFacts AW SimplicialFacts SimplicialDiag SimplicialLaws BEOrbit BEDiag MayFacts BELaws3 SurjFacts SurjBoundary SurjLaws SurjAct SurjMay
  SteenrodFacts SteenrodLaws ActFacts ActSign ActCore ActCode ActLaws EquivAct SteenrodAct StnLaws SteenrodWords SteenrodLin SteenrodClass Bockstein CupI CupILaws BockLaws P0Words P0Simplex P0Laws.

Section Stable.
Variables (p m e dt : Z) (A : list Z -> Prop) (alpha : list Z -> Z) (c bc : simp).
Hypothesis Hp1 : 2 <= p.
Hypothesis Hm : 1 <= m.
Hypothesis Hdt : dt_ok dt p.
Hypothesis HA : simplicial_set A.
Hypothesis Ha : cochain (m - 1) alpha.
Hypothesis HaA : forall s, A s -> eqm p (fdS alpha s) 0.
Hypothesis Wc : wf cls_simplicial c.
Hypothesis Tc : torsion c = p.
Hypothesis Kc : keys_in (fun k => exists s, k = [s] /\ zlen s - 1 = e) c.
Hypothesis Eb : simp_boundary dt c = Ok bc.
Hypothesis Kb : keys_in (fun k => exists s, k = [s] /\ A s) bc.

Lemma kdc : keys_in (kdegS 1 e) c.
Proof. intros K v Hk. destruct (Kc _ _ Hk) as (s & -> & Es). split; [reflexivity|]. rewrite tdeg_cons. change (tdeg spx_dim []) with 0. unfold spx_dim. lia. Qed.
Lemma bd_mod : den cls_simplicial p tt (fun g => ev (fun K => tDS g K) (data c)) bc /\ keys_in (kdegS 1 (e - 1)) bc.
Proof.
  destruct (linop_bnd cls_simplicial sck fbS spx_dim dt (simp_boundary dt) (fun t x => simp_boundary_den dt t x) p _ _ ltac:(lia) Hdt (kpred_kdegS _ _) (tb_kdeg fbS spx_dim dim_fbS 1 e) c Wc Tc (s_attr' c) kdc) as (B & EB & DB & KB).
  rewrite Eb in EB. injection EB as <-. auto.
Qed.
Lemma wf_bc : wf cls_simplicial bc. Proof. exact (den_wf cls_simplicial p tt _ bc ltac:(lia) (proj1 bd_mod)). Qed.
Lemma tors_bc : torsion bc = p. Proof. apply bd_mod. Qed.
Lemma bd_evp H : admP cls_simplicial (kdegS 1 (e - 1)) H -> eqm p (ev (fun K => tDS H K) (data c)) (ev H (data bc)).
Proof.
  intros AH. destruct bd_mod as [DB KB].
  pose proof (rep_tD fbS spx_dim (kdegS 1 e) (kdegS 1 (e - 1)) (tb_kdeg fbS spx_dim dim_fbS 1 e)) as R.
  destruct (local_list _ _ _ (data c) (rep_local _ _ _ R) kdc) as (l & Hl1 & Hl2). symmetry.
  apply (den_ev_on cls_simplicial ok_simplicial p tt _ bc (kdegS 1 (e - 1)) H l (kpred_kdegS _ _) DB KB AH).
  intros h Hh. apply eqm_eq. apply Hl2. intros k' Hk'. apply Hh; auto.
Qed.
Lemma key_nd (x : simp) (B : list Z -> Prop) K v : wf cls_simplicial x -> keys_in (fun k => exists s, k = [s] /\ B s) x -> In (K, v) (data x) -> exists s, K = [s] /\ spx_is_degenerate s = false /\ B s.
Proof.
  intros Wx Kx HK. destruct (Kx _ _ HK) as (s & -> & Es). exists s. split; [reflexivity|]. split; [|exact Es]. destruct Wx as (_ & _ & W). destruct (W _ _ HK) as [_ W2]. cbn in W2. injection W2 as W2. now rewrite orb_false_r in W2.
Qed.
Lemma QS_adm d G : adm cls_simplicial G -> admP cls_simplicial (kdegS 1 (e - 1)) (fun K => QS p (hd [] K) d G).
Proof.
  intros AG. apply admP_keyeq. intros K Hk Hb. unfold QS. destruct (FpS_list MS p d ltac:(lia)) as (T & T1 & T2). rewrite T2. apply ev_zero. intros k v Hin. destruct (T1 _ _ Hin) as [Ck _].
  assert (EK : [hd [] K] = K). { destruct Hk as [L _]. destruct K as [|s [|s' K]]; [discriminate|reflexivity|]. rewrite !zlen_cons in L. pose proof (zlen_nonneg K). lia. }
  rewrite EK. destruct (adj k) eqn:Ak; [now apply (Bd p Hp1 G k (Z.of_nat d))|].
  destruct (adm_Phi p (Z.of_nat d) 1 (e - 1) 1 ltac:(lia) G (adm_admP _ _ _ AG)) as [_ B]. refine (proj2 (B k Ck _) K Hk Hb).
  change (bad cls_surj k) with (surj_bad k). rewrite (surj_bad_onto p) by (try lia; apply Ck). now rewrite Ak.
Qed.
Lemma ev_face d G : adm cls_simplicial G -> eqm p (ev (fun K => fdS (fun f => QS p f d G) (hd [] K)) (data c)) (ev (fun K => QS p (hd [] K) d G) (data bc)).
Proof.
  intros AG. rewrite <- (bd_evp (fun K => QS p (hd [] K) d G)) by (now apply QS_adm). apply eqm_eq. apply ev_ext. intros K v HK. destruct (chain_key e c K v Wc Kc HK) as (s & -> & _). rewrite tDS_one. reflexivity.
Qed.
Lemma tau_adm' w : adm cls_simplicial (fun K => tau (bval alpha) w K).
Proof.
  split; [intros k k' E; apply keqb_eq in E; now rewrite E|]. intros K Hk. injection Hk as Hk. revert K Hk. induction w as [|l w IH]; intros [|b K] Hk; try reflexivity; [discriminate|].
  cbn [existsb] in Hk. cbn [tau]. apply orb_true_iff in Hk. destruct Hk as [Hk|Hk]; [rewrite (bval_deg p m alpha Hm Ha) by assumption; ring|]. rewrite IH by exact Hk. ring.
Qed.
Definition q (d : nat) (w : word) : Z := ev (fun K => QS p (hd [] K) d (fun K' => tau (bval alpha) w K')) (data c).
Definition eb (d : nat) (w : word) : Z := sgn (Z.of_nat d) * ev (fun K => QS p (hd [] K) d (fun K' => tau (bval alpha) w K')) (data bc).
Notation bd := (bval_dim m alpha Ha).
Lemma q_D d w : okw w -> zlen w = p -> tD fbw (dgw m) (q d) w = ev (fun K => QS p (hd [] K) d (tDS (fun K' => tau (bval alpha) w K'))) (data c).
Proof.
  intros Ho Lw. unfold tD at 1. unfold q. rewrite (ev_exch (fun w' K => QS p (hd [] K) d (fun K' => tau (bval alpha) w' K'))). apply ev_ext. intros K v _.
  rewrite <- (QS_ev p Hp1 (hd [] K) d (fun w' K => tau (bval alpha) w' K)). apply (QS_ext0 p Hp1). intros K' LK.
  symmetry. apply (tau_tD (bval alpha) fbw (dgw m) bd); [unfold zlen in *; lia|]. intros l b Hl. apply bval_d, Ho, Hl.
Qed.
Lemma q_A d w : zlen w = p -> ev (fun K => RA p (Datatypes.S d) (fun r => QS p (hd [] K) d (fun K' => kact spx_dim (fun K' => tau (bval alpha) w K') r K'))) (data c) = AA p m (Datatypes.S d) (q d) w.
Proof.
  intros Lw.
  assert (E : forall r, perm p r -> forall K, QS p (hd [] K) d (fun K' => kact spx_dim (fun K' => tau (bval alpha) w K') r K') = sgn (kinv (pinv r) (fun j => dgw m (lab (pinv r) w j))) * QS p (hd [] K) d (fun K' => tau (bval alpha) (placef (pinv r) w) K')).
  { intros r Hr K. rewrite (QS_ext0 p Hp1 (hd [] K) d _ (fun K => sgn (kinv (pinv r) (fun j => dgw m (lab (pinv r) w j))) * tau (bval alpha) (placef (pinv r) w) K)); [now rewrite (QS_scal p Hp1)|].
    intros K' LK. rewrite (tau_kact (bval alpha) (dgw m) bd p) by (auto; lia). reflexivity. }
  unfold AA, RA. destruct (Nat.even (Datatypes.S d)).
  - transitivity (ev (fun K => sumf (fun i => sgn (kinv (pinv (rot p i)) (fun j => dgw m (lab (pinv (rot p i)) w j))) * QS p (hd [] K) d (fun K' => tau (bval alpha) (placef (pinv (rot p i)) w) K')) (zrange 0 p)) (data c)).
    + apply ev_ext. intros K v _. apply sumf_ext. intros i Hi. apply E. apply perm_rot. apply in_zrange in Hi. lia.
    + induction (zrange 0 p) as [|i l IH]; [apply ev_zero; reflexivity|]. rewrite sumf_cons, <- IH.
      rewrite (ev_ext _ (fun K => sgn (kinv (pinv (rot p i)) (fun j => dgw m (lab (pinv (rot p i)) w j))) * QS p (hd [] K) d (fun K' => tau (bval alpha) (placef (pinv (rot p i)) w) K') + sumf (fun i => sgn (kinv (pinv (rot p i)) (fun j => dgw m (lab (pinv (rot p i)) w j))) * QS p (hd [] K) d (fun K' => tau (bval alpha) (placef (pinv (rot p i)) w) K')) l)) by (intros ? ? _; rewrite sumf_cons; reflexivity).
      rewrite ev_add, ev_scal. reflexivity.
  - rewrite (ev_ext _ (fun K => sgn (kinv (pinv (rot p 1)) (fun j => dgw m (lab (pinv (rot p 1)) w j))) * QS p (hd [] K) d (fun K' => tau (bval alpha) (placef (pinv (rot p 1)) w) K')
       + -1 * (sgn (kinv (pinv (rot p 0)) (fun j => dgw m (lab (pinv (rot p 0)) w j))) * QS p (hd [] K) d (fun K' => tau (bval alpha) (placef (pinv (rot p 0)) w) K')))).
    + rewrite ev_add, !ev_scal. unfold q, kact. ring.
    + intros K v _. rewrite !E by (apply perm_rot; lia). ring.
Qed.
Lemma q_0 : EQ p (tD fbw (dgw m) (q O)) (eb O).
Proof.
  intros w Ho Lw. rewrite q_D by assumption. unfold eb. change (sgn (Z.of_nat 0)) with 1. rewrite Z.mul_1_l. rewrite <- ev_face by apply tau_adm'. apply eqm_eq. apply ev_ext. intros K v HK.
  destruct (chain_key e c K v Wc Kc HK) as (s & -> & Ds & _). apply (QS_0 p Hp1); [apply tau_adm'|now apply nondeg_ne].
Qed.
Lemma q_S d : EQ p (tD fbw (dgw m) (q (Datatypes.S d))) (fun w => AA p m (Datatypes.S d) (q d) w + eb (Datatypes.S d) w).
Proof.
  intros w Ho Lw. rewrite q_D by assumption. unfold eb. rewrite <- ev_face by apply tau_adm'. apply eqm_eq. rewrite <- q_A, <- ev_scal, <- ev_add by exact Lw. apply ev_ext. intros K v HK.
  destruct (chain_key e c K v Wc Kc HK) as (s & -> & Ds & _). apply (QS_S p Hp1); [apply tau_adm'|now apply nondeg_ne].
Qed.
Lemma tau_onep w K : okw w -> 0 < cnt w -> (forall b, In b K -> eqm p (fdS alpha b) 0) -> eqm p (tau (bval alpha) w K) 0.
Proof.
  revert K. induction w as [|l w IH]; intros [|b K] Ho C HK; try reflexivity; [change (cnt []) with 0 in C; lia|]. apply okw_cons in Ho. rewrite cnt_cons in C. cbn [tau]. destruct (proj1 Ho) as [-> | ->].
  - rewrite IH; [apply eqm_eq; ring|apply Ho|exact C|intros; apply HK; now right].
  - change (bval alpha [1] b) with (fdS alpha b). rewrite HK by now left. apply eqm_eq. ring.
Qed.
Lemma eb_small d w : okw w -> zlen w = p -> 0 < cnt w -> eqm p (eb d w) 0.
Proof.
  intros Ho Lw C. unfold eb. rewrite (ev_eqm p _ (fun _ => 0)); [rewrite ev_zero by reflexivity; apply eqm_eq; ring|]. intros K v HK. destruct (key_nd bc A K v wf_bc Kb HK) as (s & -> & Ds & As). cbn [hd].
  unfold QS. destruct (FpS_list MS p d ltac:(lia)) as (T & T1 & T2). rewrite T2. rewrite (ev_eqm p _ (fun _ => 0)); [rewrite ev_zero; reflexivity|]. intros k v' Hk. destruct (T1 _ _ Hk) as [Ck _].
  unfold Phi. rewrite (ev_eqm p _ (fun _ => 0)); [rewrite ev_zero; reflexivity|]. intros w' v'' Hw. apply tau_onep; [exact Ho|exact C|]. intros b Hb. apply HaA.
  apply (X_acts A p _ k s w' v'' HA ltac:(lia) (proj1 Ck) ltac:(now apply nondeg_ne) As Hw b Hb).
Qed.
Lemma q_bot : eqm p (q O (repeat [1] (Z.to_nat p))) 0.
Proof.
  assert (Er : repeat [1] (Z.to_nat p) = [1] :: repeat [1] (Z.to_nat p - 1)) by (destruct (Z.to_nat p) as [|n] eqn:En; [lia|]; cbn [repeat]; repeat f_equal; lia).
  assert (Ok1 : forall n, okw (repeat [1] n)) by (intros n x Hx; apply repeat_spec in Hx; now right).
  rewrite <- (contr m (q O)); [|apply Ok1|rewrite Er; discriminate].
  replace (tD fbw (dgw m) (SS (q O)) (repeat [1] (Z.to_nat p))) with 0.
  - rewrite Z.add_0_l, Er. cbn [SS]. change (isu [1]) with false. cbv iota. set (w := [0] :: repeat [1] (Z.to_nat p - 1)).
    assert (Ow : okw w) by (apply okw_cons; split; [now left|apply Ok1]). assert (Lw : zlen w = p) by (unfold w; rewrite zlen_cons; unfold zlen; rewrite repeat_length; lia).
    rewrite (q_0 w Ow Lw). apply eb_small; [exact Ow|exact Lw|]. unfold w. rewrite cnt_cons. change (isu [0]) with true. cbv iota. destruct (Z.to_nat p - 1)%nat as [|n] eqn:En; [lia|]. cbn [repeat]. rewrite cnt_cons. change (isu [1]) with false. cbv iota.
    assert (0 <= cnt (repeat [1] n)); [|lia]. clear. induction n as [|n IH]; [change (cnt (repeat [1] 0)) with 0; lia|]. cbn [repeat]. rewrite cnt_cons. change (isu [1]) with false. cbv iota. lia.
  - symmetry. clear. generalize (SS (q O)). induction (Z.to_nat p) as [|n IH]; intros F; [reflexivity|]. cbn [repeat]. rewrite tD_cons, IH. unfold fd. change (fbw [1]) with (@nil (list Z * Z)). rewrite ev_nil. ring.
Qed.
Lemma bot : eqm p (ev (fun K => QS p (hd [] K) 0 (on_tensor (fdS alpha))) (data c)) 0.
Proof.
  rewrite <- q_bot. unfold q. apply eqm_eq. apply ev_ext; intros K v _; apply (QS_ext0 p Hp1); intros K' LK. symmetry.
  apply tau_on; [intros l Hl b; apply repeat_spec in Hl; now subst l|]. rewrite repeat_length. unfold zlen in LK. lia.
Qed.
Section Odd.
Hypothesis Ho : Z.even p = false.
Variable h : nat.
Hypothesis Hh : p = 2 * Z.of_nat h + 1.
Lemma stable_odd d0 : Nat.even d0 = true ->
  eqm p (ev (fun K => QS p (hd [] K) (d0 + 2 * h) (on_tensor (fdS alpha))) (data c)) (eps m ^ Z.of_nat h * zfact h * ev (fun K => QS p (hd [] K) d0 (on_tensor alpha)) (data bc)).
Proof.
  intros Ed. pose proof (descent p m ltac:(lia) Ho h Hh q eb d0 Ed q_0 q_S eb_small) as E. unfold q, eb in E.
  replace (sgn (Z.of_nat d0)) with 1 in E by (unfold sgn; rewrite even_of_nat, Ed; reflexivity). rewrite Z.mul_1_l in E.
  etransitivity; [|etransitivity; [exact E|]]; apply eqm_eq; [|f_equal]; apply ev_ext; intros K v _; apply (QS_ext0 p Hp1); intros K' LK; [symmetry|].
  - apply tau_on; [intros l Hl b; apply repeat_spec in Hl; now subst l|]. rewrite repeat_length. unfold zlen in LK. lia.
  - apply tau_on; [intros l Hl b; apply repeat_spec in Hl; now subst l|]. rewrite repeat_length. unfold zlen in LK. lia.
Qed.
End Odd.
Section Two.
Hypothesis E2 : p = 2.
Lemma AA_two d F (a b : list Z) : eqm 2 (AA p m d F [a; b]) (F [a; b] + F [b; a]).
Proof.
  rewrite E2. unfold AA, RA. replace (zrange 0 2) with [0; 1] by reflexivity. rewrite !sumf_cons, sumf_nil. 
  replace (pinv (rot 2 0)) with [1; 2] by reflexivity. replace (pinv (rot 2 1)) with [2; 1] by reflexivity. unfold kact. change (placef [1; 2] [a; b]) with [a; b]. change (placef [2; 1] [a; b]) with [b; a].
  destruct (Nat.even d); rewrite !sgn_eqm2; [apply eqm_eq; ring|]. exists (- F [a; b]). ring.
Qed.
Lemma DD_two F (a b : list Z) : eqm 2 (tD fbw (dgw m) F [a; b]) (ev (fun a => F [a; b]) (fbw a) + ev (fun b => F [a; b]) (fbw b)).
Proof. rewrite !tD_cons, tD_nil. rewrite !sgn_eqm2. unfold fd. apply eqm_eq. ring. Qed.
Lemma w2 (a b : list Z) : a = [0] \/ a = [1] -> b = [0] \/ b = [1] -> okw [a; b] /\ zlen [a; b] = p.
Proof. intros H1 H2. split; [apply okw_cons; split; [exact H1|]; apply okw_cons; split; [exact H2|apply okw_nil]|now rewrite E2]. Qed.
Lemma q_11 d : eqm 2 (q (Datatypes.S d) [[1]; [1]]) (eb d [[0]; [0]]).
Proof.
  assert (C : cnt [[0]; [1]] = 1) by reflexivity.
  destruct (w2 [0] [1] ltac:(now left) ltac:(now right)) as [O1 L1]. destruct (w2 [0] [0] ltac:(now left) ltac:(now left)) as [O0 L0].
  pose proof (q_S d _ O1 L1) as S1. cbn beta in S1. rewrite (eb_small _ _ O1 L1 ltac:(lia)) in S1. pose proof E2 as E2'. assert (S0 : eqm p (tD fbw (dgw m) (q d) [[0]; [0]]) (eb d [[0]; [0]])).
  { destruct d as [|d]; [exact (q_0 _ O0 L0)|]. rewrite (q_S d _ O0 L0). rewrite E2 at 1. rewrite AA_two. exists (q d [[0]; [0]]). ring. }
  rewrite E2 in S1 at 1. rewrite E2 in S0 at 1. rewrite DD_two in S0, S1. rewrite AA_two in S1. change (fbw [0]) with [([1], 1)] in *. change (fbw [1]) with (@nil (list Z * Z)) in *. rewrite !ev_cons, !ev_nil in *.
  rewrite <- S0. etransitivity; [|etransitivity; [exact S1|]]; apply eqm_eq; ring.
Qed.
Lemma stable_two d : eqm 2 (ev (fun K => QS p (hd [] K) (Datatypes.S d) (on_tensor (fdS alpha))) (data c)) (ev (fun K => QS p (hd [] K) d (on_tensor alpha)) (data bc)).
Proof.
  pose proof (q_11 d) as E. unfold q, eb in E. rewrite sgn_eqm2, Z.mul_1_l in E.
  etransitivity; [|etransitivity; [exact E|]]; apply eqm_eq; apply ev_ext; intros K v _; apply (QS_ext0 p Hp1); intros K' LK; [symmetry|].
  - apply tau_on; [intros l [<-|[<-|[]]] b; reflexivity|]. unfold zlen in LK. cbn [length]. lia.
  - apply tau_on; [intros l [<-|[<-|[]]] b; reflexivity|]. unfold zlen in LK. cbn [length]. lia.
Qed.
End Two.
End Stable.
