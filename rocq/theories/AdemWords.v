(** * The symmetry behind the Adem relations, on words (C91) *)
From Coq Require Import Setoid Morphisms.
From Verif Require Import PyBase Dict FreeModule Symmetric Simplicial Utils Surjection Eqm Spec SpecChain SpecOperad SpecSurj FreeModuleFacts FreeModuleLaws ListFacts
  ClassFacts LinearFacts BilFacts SymmetricFacts CycleFacts SymmetricLaws RingFacts Tensor TensorAct SurjFacts SurjBoundary SurjLaws SurjAct SurjLaws2 MayFacts SurjMay
  SurjCompose SurjCompose2 SurjCompose3 SurjCompose4 SurjLaws6 CompEquiv SteenrodAct SqHtpy SqCartan AdemHtpy.

Notation W := (FpS MS 2).
Definition rho2 : list Z := [2; 1; 4; 3].
Lemma id2 v : onto 2 v -> map (image [1; 2]) v = v.
Proof. intros H. etransitivity; [|apply map_id]. apply map_ext_in. intros a Ha. destruct (letters2 v H a Ha) as [-> | ->]; reflexivity. Qed.
(** the composite [w o (u, v)] *)
Definition R1 (g : list Z -> Z) (u z : list Z) : Z := Pc 1 2 g z u.
Definition RR (g : list Z -> Z) (w u v : list Z) : Z := Pc 2 2 (R1 g u) w v.
Lemma rep_R p q r w u v : surj_cell 2 p w -> surj_cell 2 q u -> surj_cell 2 r v -> exists T : dict (list Z), (forall k' v', In (k', v') T -> surj_cell 4 (p + q + r) k') /\ forall g, RR g w u v = ev g T.
Proof.
  intros Hw Hu Hv. destruct (rep_Pc 2 2 p r 2 ltac:(lia) ltac:(lia) w v Hw Hv) as (T & T1 & T2).
  assert (R : rep (surj_cell 3 (p + r)) (surj_cell 4 (p + r + q)) (fun g z => R1 g u z)).
  { intros z Hz. destruct (rep_Pc 3 2 (p + r) q 1 ltac:(lia) ltac:(lia) z u Hz Hu) as (T' & T1' & T2'). exists T'. split; [exact T1'|exact T2']. }
  destruct (rep_comp (fun _ : unit => True) _ _ (fun h _ => ev h T) (fun g z => R1 g u z) (fun _ _ => ex_intro _ T (conj T1 (fun g => eq_refl))) R tt I) as (L & L1 & L2).
  exists L. split; [|intros g; unfold RR; rewrite T2; exact (L2 g)]. intros k' v' Hk. replace (p + q + r) with (p + r + q) by ring. eauto.
Qed.
Lemma R_sd p q r g w u v : surj_cell 2 p w -> surj_cell 2 q u -> surj_cell 2 r v ->
  eqm 2 (RR (sd MS g) w u v) (sd MS (fun w' => RR g w' u v) w + sd MS (fun u' => RR g w u' v) u + sd MS (fun v' => RR g w u v') v).
Proof.
  intros Hw Hu Hv. unfold RR at 1.
  rewrite (Pc_eqm_on 2 2 p r 2 _ (fun z => sd MS (R1 g u) z + sd MS (fun u' => R1 g u' z) u) w v); auto; try lia.
  - unfold Pc at 1. rewrite ev_add. fold (Pc 2 2 (sd MS (R1 g u)) w v). rewrite (Pc_chain_cv 2 MS MS 2 2 p 2 (R1 g u) w v (or_intror eq_refl)) by (auto; try lia; apply Hv).
    rewrite sgn_eqm2. apply eqm_eq. rewrite (ev_ext_all _ (fun z => ev (fun u' => R1 g u' z) (sdl MS u))) by (intros; apply sd_ev). rewrite ev_exch, !sd_ev. unfold RR, Pc. rewrite Z.mul_1_l, <- !Z.add_assoc. f_equal. apply Z.add_comm.
  - intros z Hz. unfold R1 at 1. rewrite (Pc_chain_cv 2 MS MS 3 2 (p + r) 1 g z u (or_intror eq_refl)) by (auto; try lia; apply Hu). rewrite sgn_eqm2. apply eqm_eq. unfold R1. ring.
Qed.
Lemma R_adj p q r g w u v : surj_cell 2 p w -> surj_cell 2 q u -> surj_cell 2 r v -> admc 4 (p + q + r) g -> adj w = true \/ adj u = true \/ adj v = true -> RR g w u v = 0.
Proof.
  intros Hw Hu Hv Hg Hb. replace (p + q + r) with (p + r + q) in Hg by ring. destruct Hb as [Hb|[Hb|Hb]].
  - unfold RR. apply (Pc_adj 2 2 p r 2); auto; try lia. intros z Hz Az. apply (Pc_adj 3 2 (p + r) q 1); auto; lia.
  - unfold RR. rewrite (Pc_ext_on 2 2 p r 2 _ (fun _ => 0) w v); auto; try lia; [unfold Pc; now apply ev_zero|].
    intros z Hz. apply (Pc_adj 3 2 (p + r) q 1); auto; lia.
  - unfold RR. apply (Pc_adj 2 2 p r 2); auto; try lia. intros z Hz Az. apply (Pc_adj 3 2 (p + r) q 1); auto; lia.
Qed.
Lemma R_rho p q r g w u v : surj_cell 2 p w -> surj_cell 2 q u -> surj_cell 2 r v -> eqm 2 (RR g (map (image tau) w) u v) (RR (mv rho g) w v u).
Proof.
  intros Hw Hu Hv. unfold RR.
  transitivity (Pc 1 2 (fun z => R1 g u (map (image [2; 3; 1]) z)) w v).
  { apply eqm_eq. symmetry. pose proof (Pc_move 2 2 1 tau [1; 2] (R1 g u) w v ltac:(plit) ltac:(plit) ltac:(lia) ltac:(lia) (proj1 Hw) (proj1 Hv)) as E. rewrite (id2 v (proj1 Hv)) in E. exact E. }
  transitivity (Pc 1 2 (fun z => Pc 3 2 (mv rho g) z u) w v).
  { apply eqm_eq. apply (Pc_ext_on 2 2 p r); auto; try lia. intros z [Hz _]. symmetry. pose proof (Pc_move 3 2 3 [2; 3; 1] [1; 2] g z u ltac:(plit) ltac:(plit) ltac:(lia) ltac:(lia) Hz (proj1 Hu)) as E. rewrite (id2 u (proj1 Hu)) in E. exact E. }
  pose proof (Pc_par 2 2 2 p r q 1 2 (mv rho g) w v u ltac:(lia) ltac:(lia) ltac:(lia) ltac:(lia) Hw Hv Hu) as E. change (2 - 1 + 2) with 3 in E. rewrite E, sgn_eqm2. apply eqm_eq. unfold R1. ring.
Qed.
Lemma R_rho2 p q r g w u v : surj_cell 2 p w -> surj_cell 2 q u -> surj_cell 2 r v -> RR g w (map (image tau) u) (map (image tau) v) = RR (mv rho2 g) w u v.
Proof.
  intros Hw Hu Hv. unfold RR.
  transitivity (Pc 2 2 (fun z => R1 g (map (image tau) u) (map (image [1; 3; 2]) z)) w v).
  { symmetry. pose proof (Pc_move 2 2 2 [1; 2] tau (R1 g (map (image tau) u)) w v ltac:(plit) ltac:(plit) ltac:(lia) ltac:(lia) (proj1 Hw) (proj1 Hv)) as E. rewrite (id2 w (proj1 Hw)) in E. exact E. }
  apply (Pc_ext_on 2 2 p r); auto; try lia. intros z Hz. unfold R1.
  symmetry. exact (Pc_move 3 2 1 [1; 3; 2] tau g z u ltac:(plit) ltac:(plit) ltac:(lia) ltac:(lia) (proj1 Hz) (proj1 Hu)).
Qed.

(** ** triple sums *)
Definition W3 (p a b : nat) (G : list Z -> list Z -> list Z -> Z) : Z := W p (fun w => W a (fun u => W b (fun v => G w u v))).
Definition cel (d : nat) (w : list Z) : Prop := surj_cell 2 (Z.of_nat d) w.
Lemma W3_eqm p a b G H : (forall w u v, cel p w -> cel a u -> cel b v -> eqm 2 (G w u v) (H w u v)) -> eqm 2 (W3 p a b G) (W3 p a b H).
Proof. intros E. unfold W3. apply W_eqm. intros w Hw. apply W_eqm. intros u Hu. apply W_eqm. intros v Hv. now apply E. Qed.
Lemma W3_ext p a b G H : (forall w u v, cel p w -> cel a u -> cel b v -> G w u v = H w u v) -> W3 p a b G = W3 p a b H.
Proof.
  intros E. unfold W3. apply (repF_ext 2 (Z.of_nat p) _ _ _ (W_rep p)). intros w Hw. apply (repF_ext 2 (Z.of_nat a) _ _ _ (W_rep a)). intros u Hu. apply (repF_ext 2 (Z.of_nat b) _ _ _ (W_rep b)). intros v Hv. now apply E.
Qed.
Lemma W3_add p a b G H : W3 p a b (fun w u v => G w u v + H w u v) = W3 p a b G + W3 p a b H.
Proof.
  unfold W3. rewrite <- W_add. apply (repF_ext 2 (Z.of_nat p) _ _ _ (W_rep p)). intros w Hw. rewrite <- W_add. apply (repF_ext 2 (Z.of_nat a) _ _ _ (W_rep a)). intros u Hu. apply W_add.
Qed.
Lemma W3_swap p a b G : W3 p a b G = W3 p b a (fun w v u => G w u v).
Proof. unfold W3. apply (repF_ext 2 (Z.of_nat p) _ _ _ (W_rep p)). intros w Hw. apply W_exch. Qed.
Lemma W3_rot p a b G : W3 p a b G = W3 a p b (fun u w v => G w u v).
Proof. unfold W3. rewrite (W_exch p a). reflexivity. Qed.
Definition pre (a : nat) (f : nat -> Z) : Z := match a with O => 0 | S a' => f a' end.
Lemma W3_bdv p a b G : (forall w u, cel p w -> cel a u -> admc 2 (Z.of_nat b - 1) (fun v => G w u v)) ->
  eqm 2 (W3 p a b (fun w u v => sd MS (fun v' => G w u v') v)) (pre b (fun b' => W3 p a b' (fun w u v => G w u v + G w u (map (image tau) v)))).
Proof.
  intros H. destruct b as [|b]; cbn [pre].
  - unfold W3. rewrite (repF_ext 2 (Z.of_nat p) _ _ (fun _ => 0) (W_rep p)); [now rewrite W_zero|]. intros w Hw. rewrite (repF_ext 2 (Z.of_nat a) _ _ (fun _ => 0) (W_rep a)); [now rewrite W_zero|]. intros u Hu. apply W_0.
  - unfold W3. apply W_eqm. intros w Hw. apply W_eqm. intros u Hu. specialize (H w u Hw Hu). replace (Z.of_nat (S b) - 1) with (Z.of_nat b) in H by lia.
    rewrite (W_bd b (fun v => G w u v) H). rewrite W_add. reflexivity.
Qed.
Lemma W3_bdu p a b G : (forall w v, cel p w -> cel b v -> admc 2 (Z.of_nat a - 1) (fun u => G w u v)) ->
  eqm 2 (W3 p a b (fun w u v => sd MS (fun u' => G w u' v) u)) (pre a (fun a' => W3 p a' b (fun w u v => G w u v + G w (map (image tau) u) v))).
Proof.
  intros H. rewrite W3_swap. rewrite (W3_bdv p b a (fun w v u => G w u v)) by auto. destruct a as [|a]; cbn [pre]; [reflexivity|]. now rewrite (W3_swap p a b).
Qed.
Lemma W3_bdw p a b G : (forall u v, cel a u -> cel b v -> admc 2 (Z.of_nat p - 1) (fun w => G w u v)) ->
  eqm 2 (W3 p a b (fun w u v => sd MS (fun w' => G w' u v) w)) (pre p (fun p' => W3 p' a b (fun w u v => G w u v + G (map (image tau) w) u v))).
Proof.
  intros H. rewrite W3_rot. rewrite (W3_bdu a p b (fun u w v => G w u v)) by auto. destruct p as [|p]; cbn [pre]; [reflexivity|]. now rewrite (W3_rot p a b).
Qed.

(** ** [e_p (x) (e_a (x) tau^e e_b)], the two factors exchanged for odd [p] *)
Definition Rp (p : nat) (g : list Z -> Z) (w u v : list Z) : Z := if Nat.even p then RR g w u v else RR g w v u.
Lemma Rp_SS p g w u v : Rp (S (S p)) g w u v = Rp p g w u v. Proof. reflexivity. Qed.
Lemma Rp_S p g w u v : Rp (S p) g w u v = Rp p g w v u.
Proof. unfold Rp. rewrite Nat.even_succ, <- Nat.negb_even. destruct (Nat.even p); reflexivity. Qed.
Lemma Rp_rep n p a b w u v : cel p w -> cel a u -> cel b v -> exists T : dict (list Z), (forall k' v', In (k', v') T -> surj_cell 4 (Z.of_nat (p + (a + b))) k') /\ forall g, Rp n g w u v = ev g T.
Proof.
  intros Hw Hu Hv. unfold Rp. destruct (Nat.even n).
  - destruct (rep_R _ _ _ w u v Hw Hu Hv) as (T & T1 & T2). exists T. split; [|exact T2]. intros k' v' H. replace (Z.of_nat (p + (a + b))) with (Z.of_nat p + Z.of_nat a + Z.of_nat b) by lia. eauto.
  - destruct (rep_R _ _ _ w v u Hw Hv Hu) as (T & T1 & T2). exists T. split; [|exact T2]. intros k' v' H. replace (Z.of_nat (p + (a + b))) with (Z.of_nat p + Z.of_nat b + Z.of_nat a) by lia. eauto.
Qed.
Lemma Rp_sd n p a b g w u v : cel p w -> cel a u -> cel b v ->
  eqm 2 (Rp n (sd MS g) w u v) (sd MS (fun w' => Rp n g w' u v) w + sd MS (fun u' => Rp n g w u' v) u + sd MS (fun v' => Rp n g w u v') v).
Proof.
  intros Hw Hu Hv. unfold Rp. destruct (Nat.even n); [now apply (R_sd (Z.of_nat p) (Z.of_nat a) (Z.of_nat b))|]. rewrite (R_sd (Z.of_nat p) (Z.of_nat b) (Z.of_nat a)) by assumption. apply eqm_eq. ring.
Qed.
Lemma Rp_adj n p a b g w u v : surj_cell 2 p w -> surj_cell 2 a u -> surj_cell 2 b v -> admc 4 (p + a + b) g -> adj w = true \/ adj u = true \/ adj v = true -> Rp n g w u v = 0.
Proof.
  intros Hw Hu Hv Hg Ha. unfold Rp. destruct (Nat.even n); [now apply (R_adj p a b)|]. apply (R_adj p b a); auto; [|tauto]. now replace (p + b + a) with (p + a + b) by ring.
Qed.
Lemma Rp_rho n p a b g w u v : cel p w -> cel a u -> cel b v -> eqm 2 (Rp n g (map (image tau) w) u v) (Rp (S n) (mv rho g) w u v).
Proof. intros Hw Hu Hv. rewrite Rp_S. unfold Rp. destruct (Nat.even n); [now apply (R_rho (Z.of_nat p) (Z.of_nat a) (Z.of_nat b))|now apply (R_rho (Z.of_nat p) (Z.of_nat b) (Z.of_nat a))]. Qed.
Lemma Rp_rho2 n p a b g w u v : cel p w -> cel a u -> cel b v -> Rp n g w (map (image tau) u) (map (image tau) v) = Rp n (mv rho2 g) w u v.
Proof. intros Hw Hu Hv. unfold Rp. destruct (Nat.even n); [now apply (R_rho2 (Z.of_nat p) (Z.of_nat a) (Z.of_nat b))|now apply (R_rho2 (Z.of_nat p) (Z.of_nat b) (Z.of_nat a))]. Qed.

Definition NN (p a b e : nat) (g : list Z -> Z) : Z := W3 p a b (fun w u v => Rp p g w u (tp e v)).
Lemma cel_tp e d v : cel d v -> cel d (tp e v). Proof. apply cell_tp. Qed.
Lemma NN_rep p a b e : repF 4 (Z.of_nat (p + (a + b))) (NN p a b e).
Proof.
  unfold NN, W3.
  apply (repF_bind 2 (Z.of_nat p) 4 _ (W p) (fun g w => W a (fun u => W b (fun v => Rp p g w u (tp e v)))) (W_rep p)). intros w Hw.
  apply (repF_bind 2 (Z.of_nat a) 4 _ (W a) (fun g u => W b (fun v => Rp p g w u (tp e v))) (W_rep a)). intros u Hu.
  apply (repF_bind 2 (Z.of_nat b) 4 _ (W b) (fun g v => Rp p g w u (tp e v)) (W_rep b)). intros v Hv.
  apply Rp_rep; auto. now apply cel_tp.
Qed.
Definition mv2 (e : nat) (g : list Z -> Z) : list Z -> Z := if Nat.even e then g else mv rho2 g.
(** exchanging the two factors *)
Lemma NN_exch p a b e g : W3 p a b (fun w u v => Rp (S p) g w u (tp e v)) = NN p b a e (mv2 e g).
Proof.
  rewrite W3_swap. unfold NN. apply W3_ext. intros w u v Hw Hu Hv. rewrite Rp_S. unfold tp, mv2. destruct (Nat.even e); [reflexivity|].
  rewrite <- (Rp_rho2 p p b a) by (auto; apply cell_move; auto using perm_tau; lia). f_equal. symmetry. apply tau_tau, Hv.
Qed.
Lemma NN_bd p a b e g : admc 4 (Z.of_nat (p + (a + b)) - 1) g ->
  eqm 2 (NN p a b e (sd MS g))
    (pre p (fun p' => NN p' b a e (mv2 e g) + NN p' a b e (mv rho g)) +
     pre a (fun a' => NN p a' b e g + NN p a' b (S e) (mv rho2 g)) +
     pre b (fun b' => NN p a b' e g + NN p a b' (S e) g)).
Proof.
  intros Hg. unfold NN at 1.
  rewrite (W3_eqm p a b _ (fun w u v => sd MS (fun w' => Rp p g w' u (tp e v)) w + sd MS (fun u' => Rp p g w u' (tp e v)) u + sd MS (fun v' => Rp p g w u (tp e v')) v)).
  2:{ intros w u v Hw Hu Hv. rewrite (Rp_sd p p a b) by auto using cel_tp. rewrite (sd_tp e (fun v' => Rp p g w u v') v) by apply Hv. reflexivity. }
  rewrite !W3_add.
  rewrite (W3_bdw p a b (fun w u v => Rp p g w u (tp e v))).
  2:{ intros u v Hu Hv w Hw Aw. apply (Rp_adj p (Z.of_nat p - 1) (Z.of_nat a) (Z.of_nat b)); auto using cell_tp. now replace (Z.of_nat p - 1 + Z.of_nat a + Z.of_nat b) with (Z.of_nat (p + (a + b)) - 1) by lia. }
  rewrite (W3_bdu p a b (fun w u v => Rp p g w u (tp e v))).
  2:{ intros w v Hw Hv u Hu Au. apply (Rp_adj p (Z.of_nat p) (Z.of_nat a - 1) (Z.of_nat b)); auto using cell_tp. now replace (Z.of_nat p + (Z.of_nat a - 1) + Z.of_nat b) with (Z.of_nat (p + (a + b)) - 1) by lia. }
  rewrite (W3_bdv p a b (fun w u v => Rp p g w u (tp e v))).
  2:{ intros w u Hw Hu v Hv Av. apply (Rp_adj p (Z.of_nat p) (Z.of_nat a) (Z.of_nat b - 1)); auto using cell_tp; [now replace (Z.of_nat p + Z.of_nat a + (Z.of_nat b - 1)) with (Z.of_nat (p + (a + b)) - 1) by lia|].
      right. right. unfold tp. destruct (Nat.even e); [exact Av|now apply adj_map]. }
  apply eqm_add; [apply eqm_add|].
  - destruct p as [|p]; cbn [pre]; [reflexivity|]. rewrite W3_add, NN_exch. apply eqm_add; [reflexivity|]. unfold NN. apply W3_eqm. intros w u v Hw Hu Hv. rewrite (Rp_rho (S p) p a b) by auto using cel_tp. rewrite Rp_SS. reflexivity.
  - destruct a as [|a]; cbn [pre]; [reflexivity|]. rewrite W3_add. apply eqm_add; [reflexivity|]. apply eqm_eq. unfold NN. apply W3_ext. intros w u v Hw Hu Hv.
    rewrite <- (Rp_rho2 p p a b) by auto using cel_tp. f_equal. rewrite tp_S by apply Hv. symmetry. apply tau_tau. exact (proj1 (cel_tp e b v Hv)).
  - destruct b as [|b]; cbn [pre]; [reflexivity|]. rewrite W3_add. apply eqm_add; [reflexivity|]. apply eqm_eq. unfold NN. apply W3_ext. intros w u v Hw Hu Hv. f_equal. rewrite tp_S by apply Hv. apply tp_comm.
Qed.
