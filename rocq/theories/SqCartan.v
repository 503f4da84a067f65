(** * The two sides of the Cartan formula are homotopic, modulo 2 (C83) *)
From Coq Require Import Setoid Morphisms.
From Verif Require Import PyBase Dict FreeModule Symmetric Simplicial Utils Surjection Eqm Spec SpecChain SpecOperad SpecSurj FreeModuleFacts FreeModuleLaws ListFacts
  ClassFacts LinearFacts BilFacts SymmetricFacts CycleFacts SymmetricLaws RingFacts Tensor TensorAct SurjFacts SurjBoundary SurjLaws SurjAct SurjLaws2 MayFacts SurjMay
  SurjCompose SurjCompose2 SurjCompose3 SurjCompose4 SurjLaws6 CompEquiv SteenrodAct SqHtpy.

Notation W := (FpS MS 2).
Definition tau : list Z := [2; 1].
Definition rho : list Z := [3; 4; 1; 2].
Definition sig : list Z := [1; 3; 2; 4].
Definition tp (a : nat) (v : list Z) : list Z := if Nat.even a then v else map (image tau) v.
Lemma W_rep d : repF 2 (Z.of_nat d) (W d).
Proof. destruct (FpS_list MS 2 d ltac:(lia)) as (T & T1 & T2). exists T. split; [|exact T2]. intros k v Hk. apply (T1 _ _ Hk). Qed.
Lemma perm_tau : perm 2 tau. Proof. change tau with (rot 2 1). apply perm_rot; lia. Qed.
Lemma letters2 k : onto 2 k -> forall a, In a k -> a = 1 \/ a = 2. Proof. intros H a Ha. apply H in Ha. lia. Qed.
Lemma letters4 k : onto 4 k -> forall a, In a k -> a = 1 \/ a = 2 \/ a = 3 \/ a = 4. Proof. intros H a Ha. apply H in Ha. lia. Qed.
Lemma tau_tau k : onto 2 k -> map (image tau) (map (image tau) k) = k.
Proof. intros H. rewrite map_map. etransitivity; [|apply map_id]. apply map_ext_in. intros a Ha. destruct (letters2 k H a Ha) as [-> | ->]; reflexivity. Qed.
Lemma rho_rho k : onto 4 k -> map (image rho) (map (image rho) k) = k.
Proof. intros H. rewrite map_map. etransitivity; [|apply map_id]. apply map_ext_in. intros a Ha. destruct (letters4 k H a Ha) as [-> | [-> | [-> | ->]]]; reflexivity. Qed.
Lemma W_bd d f : admc 2 (Z.of_nat d) f -> eqm 2 (W (S d) (sd MS f)) (W d f + W d (mv tau f)).
Proof.
  intros Hf. rewrite FpS_boundary by (auto; lia).
  assert (P : forall j, eqm 2 (W d (fun k => asg MS (rot 2 j) k * f (map (image (rot 2 j)) k))) (W d (mv (rot 2 j) f))).
  { intros j. apply (repF_eqm 2 (Z.of_nat d) _ _ _ (W_rep d)). intros k Hk. rewrite (asg_one MS 2 (rot 2 j) k ltac:(now right)). unfold mv. apply eqm_eq. ring. }
  assert (P0 : W d (mv (rot 2 0) f) = W d f).
  { apply (repF_ext 2 (Z.of_nat d) _ _ _ (W_rep d)). intros k [Hk _]. unfold mv. f_equal. etransitivity; [|apply map_id]. apply map_ext_in. intros a Ha. destruct (letters2 k Hk a Ha) as [-> | ->]; reflexivity. }
  unfold RA. destruct (Nat.even (S d)).
  - change (zrange 0 2) with [0; 1]. rewrite !sumf_cons, sumf_nil, !P, P0. change (rot 2 1) with tau. apply eqm_eq. ring.
  - rewrite !P, P0. change (rot 2 1) with tau. exists (- W d f). ring.
Qed.
Lemma W_0 f : W 0 (sd MS f) = 0.
Proof. rewrite (repF_ext 2 0 (W 0) _ (fun _ => 0) (W_rep 0)) by (intros k Hk; apply (sd_low 2); auto; lia). apply (repF_zero 2 0 _ (W_rep 0)). Qed.
Lemma Pc_adj n1 n2 p q i g k1 k2 : 1 <= i <= n1 -> 1 <= n2 -> surj_cell n1 p k1 -> surj_cell n2 q k2 -> admc (n1 + n2 - 1) (p + q) g -> adj k1 = true \/ adj k2 = true -> Pc i n2 g k1 k2 = 0.
Proof.
  intros Hi Hn H1 H2 Hg Hb. rewrite (Pc_Cc 0 i n2 g k1 k2 n1) by (try lia; apply H1). rewrite Cc_ev. apply ev_zero. intros w v Hin.
  assert (Hc : surj_cell (n1 + n2 - 1) (p + q) w) by (eapply Cl_cell; eauto; lia). apply Hg; [exact Hc|].
  destruct Hb as [Hb|Hb].
  - eapply Cl_adj_u; [|exact Hin]. now apply adj_map.
  - eapply Cl_adj_y; [| |exact Hin]; [|now apply adj_map]. rewrite lift1_mem; try lia; [|eapply SurjCompose4.onto_pos, H1]. eapply mem_onto; [apply H1|lia].
Qed.
Lemma Pc_eqm_on n1 n2 p q i g h k1 k2 : 1 <= i <= n1 -> 1 <= n2 -> surj_cell n1 p k1 -> surj_cell n2 q k2 -> (forall w, surj_cell (n1 + n2 - 1) (p + q) w -> eqm 2 (g w) (h w)) -> eqm 2 (Pc i n2 g k1 k2) (Pc i n2 h k1 k2).
Proof. intros Hi Hn H1 H2 E. destruct (rep_Pc n1 n2 p q i Hi Hn k1 k2 H1 H2) as (T & T1 & T2). rewrite !T2. apply ev_eqm. intros w v Hw. apply E. eauto. Qed.
Lemma Pc_ext_on n1 n2 p q i g h k1 k2 : 1 <= i <= n1 -> 1 <= n2 -> surj_cell n1 p k1 -> surj_cell n2 q k2 -> (forall w, surj_cell (n1 + n2 - 1) (p + q) w -> g w = h w) -> Pc i n2 g k1 k2 = Pc i n2 h k1 k2.
Proof. intros Hi Hn H1 H2 E. destruct (rep_Pc n1 n2 p q i Hi Hn k1 k2 H1 H2) as (T & T1 & T2). rewrite !T2. apply ev_ext. intros w v Hw. apply E. eauto. Qed.
Lemma cell12 : surj_cell 2 0 [1; 2].
Proof. split; [|reflexivity]. change [1; 2] with (idp 2). apply onto_id. Qed.
Lemma sd_12 f : sd MS f [1; 2] = 0. Proof. apply (sd_low 2); [lia|apply cell12]. Qed.

(** ** the left side: the cup product first, the square second *)
Definition A1 (g : list Z -> Z) (z : list Z) : Z := Pc 1 2 g z [1; 2].
Definition A2 (g : list Z -> Z) (w : list Z) : Z := Pc 2 2 (A1 g) w [1; 2].
Definition FA (d : nat) (g : list Z -> Z) : Z := W d (A2 g).
Lemma rep_A1 p : rep (surj_cell 3 p) (surj_cell 4 p) A1.
Proof. intros z Hz. destruct (rep_Pc 3 2 p 0 1 ltac:(lia) ltac:(lia) z [1; 2] Hz cell12) as (T & T1 & T2). rewrite Z.add_0_r in T1. exists T. split; [exact T1|exact T2]. Qed.
Lemma rep_A2' p : rep (surj_cell 2 p) (surj_cell 3 p) (fun g w => Pc 2 2 g w [1; 2]).
Proof. intros z Hz. destruct (rep_Pc 2 2 p 0 2 ltac:(lia) ltac:(lia) z [1; 2] Hz cell12) as (T & T1 & T2). rewrite Z.add_0_r in T1. exists T. split; [exact T1|exact T2]. Qed.
Lemma rep_A2 p : rep (surj_cell 2 p) (surj_cell 4 p) A2.
Proof. exact (rep_comp _ _ _ _ _ (rep_A2' p) (rep_A1 p)). Qed.
Lemma FA_rep d : repF 4 (Z.of_nat d) (FA d).
Proof. apply (repF_bind 2 (Z.of_nat d) 4 _ (W d) A2 (W_rep d) (rep_A2 _)). Qed.
Lemma A1_sd p g z : surj_cell 3 p z -> eqm 2 (A1 (sd MS g) z) (sd MS (A1 g) z).
Proof.
  intros Hz. unfold A1 at 1. rewrite (Pc_chain_cv 2 MS MS 3 2 p 1 g z [1; 2] (or_intror eq_refl)) by (auto; try lia; apply cell12). rewrite sd_12. apply eqm_eq. unfold A1. ring.
Qed.
Lemma A2_sd p g w : surj_cell 2 p w -> eqm 2 (A2 (sd MS g) w) (sd MS (A2 g) w).
Proof.
  intros Hw. unfold A2 at 1. rewrite (Pc_eqm_on 2 2 p 0 2 _ (sd MS (A1 g)) w [1; 2]) by (auto using cell12; try lia; intros; eapply A1_sd; eauto).
  rewrite (Pc_chain_cv 2 MS MS 2 2 p 2 (A1 g) w [1; 2] (or_intror eq_refl)) by (auto; try lia; apply cell12). rewrite sd_12. apply eqm_eq. unfold A2. ring.
Qed.
Lemma A1_adm p g : admc 4 p g -> admc 3 p (A1 g).
Proof. intros Hg z Hz Az. apply (Pc_adj 3 2 p 0 1); auto using cell12; try lia. now rewrite Z.add_0_r. Qed.
Lemma A2_adm p g : admc 4 p g -> admc 2 p (A2 g).
Proof. intros Hg z Hz Az. apply (Pc_adj 2 2 p 0 2); auto using cell12; try lia. rewrite Z.add_0_r. now apply A1_adm. Qed.
Lemma perm_lit n p : 0 <= n -> zlen p = n -> forallb (fun i => existsb (Z.eqb i) p) (zrange 1 (n + 1)) = true -> perm n p.
Proof.
  intros Hn L H. apply perm_of_incl; auto. intros i Hi. rewrite forallb_forall in H. assert (E : existsb (Z.eqb i) p = true) by (apply H, in_zrange; lia).
  apply existsb_exists in E. destruct E as (x & Hx & E). apply Z.eqb_eq in E. now subst.
Qed.
Ltac plit := apply perm_lit; [lia|reflexivity|reflexivity].
Lemma A2_tau p g w : surj_cell 2 p w -> A2 g (map (image tau) w) = A2 (mv rho g) w.
Proof.
  intros Hw. unfold A2.
  transitivity (Pc 1 2 (fun z => A1 g (map (image [2; 3; 1]) z)) w [1; 2]).
  { symmetry. exact (Pc_move 2 2 1 tau [1; 2] (A1 g) w [1; 2] ltac:(plit) ltac:(plit) ltac:(lia) ltac:(lia) (proj1 Hw) (proj1 cell12)). }
  transitivity (Pc 1 2 (fun z => Pc 3 2 (mv rho g) z [1; 2]) w [1; 2]).
  { apply (Pc_ext_on 2 2 p 0); auto using cell12; try lia. intros z [Hz _]. symmetry. exact (Pc_move 3 2 3 [2; 3; 1] [1; 2] g z [1; 2] ltac:(plit) ltac:(plit) ltac:(lia) ltac:(lia) Hz (proj1 cell12)). }
  pose proof (Pc_par 2 2 2 p 0 0 1 2 (mv rho g) w [1; 2] [1; 2] ltac:(lia) ltac:(lia) ltac:(lia) ltac:(lia) Hw cell12 cell12) as E. change (2 - 1 + 2) with 3 in E. rewrite E. change (sgn (0 * 0)) with 1. unfold A1. ring.
Qed.
Lemma FA_bd d g : admc 4 (Z.of_nat d) g -> eqm 2 (FA (S d) (sd MS g)) (FA d g + FA d (mv rho g)).
Proof.
  intros Hg. unfold FA. rewrite (repF_eqm 2 (Z.of_nat (S d)) (W (S d)) (A2 (sd MS g)) (sd MS (A2 g)) (W_rep _)) by (intros; eapply A2_sd; eauto).
  rewrite W_bd by now apply A2_adm. rewrite (repF_ext 2 (Z.of_nat d) (W d) (mv tau (A2 g)) (A2 (mv rho g)) (W_rep _)) by (intros; eapply A2_tau; eauto). reflexivity.
Qed.

(** ** the right side: the squares first, the cup product second *)
Definition Q1 (g : list Z -> Z) (u z : list Z) : Z := Pc 1 2 (mv sig g) z u.
Definition Q (g : list Z -> Z) (u v : list Z) : Z := Pc 2 2 (Q1 g u) [1; 2] v.
Definition FB (d : nat) (g : list Z -> Z) : Z := sumf (fun a => W a (fun u => W (d - a) (fun v => Q g u (tp a v)))) (seq 0 (S d)).
Lemma perm_sig : perm 4 sig. Proof. plit. Qed.
Lemma rep_Q1 p q u : surj_cell 2 p u -> rep (surj_cell 3 q) (surj_cell 4 (p + q)) (fun g z => Q1 g u z).
Proof.
  intros Hu z Hz. destruct (rep_Pc 3 2 q p 1 ltac:(lia) ltac:(lia) z u Hz Hu) as (T & T1 & T2).
  destruct (rep_comp (fun _ : unit => True) _ _ (fun h _ => ev h T) (mv sig) (fun _ _ => ex_intro _ T (conj T1 (fun g => eq_refl))) (rep_mv 4 (q + p) sig ltac:(lia) perm_sig) tt I) as (L & L1 & L2).
  exists L. split; [intros k v Hk; rewrite (Z.add_comm p); eauto|]. intros g. unfold Q1. now rewrite T2, L2.
Qed.
Lemma rep_Q p q u v : surj_cell 2 p u -> surj_cell 2 q v -> exists T : dict (list Z), (forall k' v', In (k', v') T -> surj_cell 4 (p + q) k') /\ forall g, Q g u v = ev g T.
Proof.
  intros Hu Hv. destruct (rep_Pc 2 2 0 q 2 ltac:(lia) ltac:(lia) [1; 2] v cell12 Hv) as (T & T1 & T2).
  destruct (rep_comp (fun _ : unit => True) _ _ (fun h _ => ev h T) (fun g z => Q1 g u z) (fun _ _ => ex_intro _ T (conj T1 (fun g => eq_refl))) (rep_Q1 p (0 + q) u Hu) tt I) as (L & L1 & L2).
  exists L. split; [exact L1|]. intros g. unfold Q. rewrite T2. exact (L2 g).
Qed.
Lemma cell_tp a q v : surj_cell 2 q v -> surj_cell 2 q (tp a v).
Proof. intros Hv. unfold tp. destruct (Nat.even a); [exact Hv|]. apply cell_move; auto using perm_tau; lia. Qed.
Lemma FBt_rep a b : repF 4 (Z.of_nat a + Z.of_nat b) (fun g => W a (fun u => W b (fun v => Q g u (tp a v)))).
Proof.
  apply (repF_bind 2 (Z.of_nat a) 4 _ (W a) (fun g u => W b (fun v => Q g u (tp a v))) (W_rep a)). intros u Hu.
  apply (repF_bind 2 (Z.of_nat b) 4 _ (W b) (fun g v => Q g u (tp a v)) (W_rep b)). intros v Hv. apply rep_Q; auto using cell_tp.
Qed.
Lemma FB_rep d : repF 4 (Z.of_nat d) (FB d).
Proof.
  apply repF_sum. intros a Ha. apply in_seq in Ha. replace (Z.of_nat d) with (Z.of_nat a + Z.of_nat (d - a)) by lia. apply FBt_rep.
Qed.
Lemma Q_sd p q g u v : surj_cell 2 p u -> surj_cell 2 q v -> eqm 2 (Q (sd MS g) u v) (sd MS (fun u' => Q g u' v) u + sd MS (fun v' => Q g u v') v).
Proof.
  intros Hu Hv. unfold Q at 1.
  rewrite (Pc_eqm_on 2 2 0 q 2 _ (fun z => sd MS (Q1 g u) z + sd MS (fun u' => Q1 g u' z) u) [1; 2] v); auto using cell12; try lia.
  - unfold Pc at 1. rewrite ev_add. fold (Pc 2 2 (sd MS (Q1 g u)) [1; 2] v). rewrite (Pc_chain_cv 2 MS MS 2 2 0 2 (Q1 g u) [1; 2] v (or_intror eq_refl)) by (auto using cell12; try lia; apply Hv).
    rewrite sd_12. change (sgn 0) with 1. apply eqm_eq. rewrite (ev_ext_all _ (fun z => ev (fun u' => Q1 g u' z) (sdl MS u))) by (intros; apply sd_ev). rewrite ev_exch, !sd_ev. unfold Q, Pc. rewrite Z.mul_1_l, Z.add_0_l. apply Z.add_comm.
  - intros z Hz. unfold Q1 at 1. rewrite (Pc_eqm_on 3 2 (0 + q) p 1 _ (sd MS (mv sig g)) z u); auto; try lia.
    + rewrite (Pc_chain_cv 2 MS MS 3 2 (0 + q) 1 (mv sig g) z u (or_intror eq_refl)) by (auto; try lia; apply Hu). rewrite sgn_eqm2. apply eqm_eq. unfold Q1. ring.
    + intros w [Hw _]. apply (sd_mv 4); auto using perm_sig. lia.
Qed.
Lemma Q_adj p q g u v : surj_cell 2 p u -> surj_cell 2 q v -> admc 4 (p + q) g -> adj u = true \/ adj v = true -> Q g u v = 0.
Proof.
  intros Hu Hv Hg Hb. destruct Hb as [Hb|Hb].
  - unfold Q. rewrite (Pc_ext_on 2 2 0 q 2 _ (fun _ => 0) [1; 2] v); auto using cell12; try lia; [unfold Pc; now apply ev_zero|].
    intros z Hz. apply (Pc_adj 3 2 (0 + q) p 1); auto; try lia. intros k Hk Ak. unfold mv. apply Hg; [|now apply adj_map]. apply cell_move; auto using perm_sig; [lia|]. now replace (p + q) with (0 + q + p) by lia.
  - unfold Q. apply (Pc_adj 2 2 0 q 2); auto using cell12; try lia. intros z Hz Az. apply (Pc_adj 3 2 (0 + q) p 1); auto; try lia. intros k Hk Ak. unfold mv. apply Hg; [|now apply adj_map]. apply cell_move; auto using perm_sig; [lia|]. now replace (p + q) with (0 + q + p) by lia.
Qed.
Lemma Q_tau p q g u v : surj_cell 2 p u -> surj_cell 2 q v -> Q g (map (image tau) u) (map (image tau) v) = Q (mv rho g) u v.
Proof.
  intros Hu Hv. unfold Q.
  transitivity (Pc 2 2 (fun z => Q1 g (map (image tau) u) (map (image [1; 3; 2]) z)) [1; 2] v).
  { symmetry. exact (Pc_move 2 2 2 [1; 2] tau (Q1 g (map (image tau) u)) [1; 2] v ltac:(plit) ltac:(plit) ltac:(lia) ltac:(lia) (proj1 cell12) (proj1 Hv)). }
  apply (Pc_ext_on 2 2 0 q); auto using cell12; try lia. intros z Hz. unfold Q1.
  transitivity (Pc 1 2 (fun w => mv sig g (map (image [2; 1; 4; 3]) w)) z u).
  { symmetry. exact (Pc_move 3 2 1 [1; 3; 2] tau (mv sig g) z u ltac:(plit) ltac:(plit) ltac:(lia) ltac:(lia) (proj1 Hz) (proj1 Hu)). }
  apply (Pc_ext_on 3 2 (0 + q) p); auto; try lia. intros w [Hw _]. unfold mv. f_equal. rewrite !map_map. apply map_ext_in. intros a Ha. destruct (letters4 w Hw a Ha) as [-> | [-> | [-> | ->]]]; reflexivity.
Qed.
Lemma tp_S a v : onto 2 v -> tp (S a) v = map (image tau) (tp a v).
Proof. intros Hv. unfold tp. rewrite Nat.even_succ, <- Nat.negb_even. destruct (Nat.even a); cbn [negb]; [reflexivity|]. symmetry. now apply tau_tau. Qed.
Lemma tp_comm a v : tp a (map (image tau) v) = map (image tau) (tp a v).
Proof. unfold tp. now destruct (Nat.even a). Qed.
Definition X (g : list Z -> Z) (a b : nat) : Z := W a (fun u => W b (fun v => Q g u (tp a v))).
Definition X' (g : list Z -> Z) (a b : nat) : Z := W a (fun u => W b (fun v => Q g u (tp (S a) v))).
Lemma W_exch a b (G : list Z -> list Z -> Z) : W a (fun u => W b (fun v => G u v)) = W b (fun v => W a (fun u => G u v)).
Proof. exact (repF_exch2 2 (Z.of_nat a) 2 (Z.of_nat b) _ _ G (W_rep a) (W_rep b)). Qed.
Lemma W_eqm a f f' : (forall u, surj_cell 2 (Z.of_nat a) u -> eqm 2 (f u) (f' u)) -> eqm 2 (W a f) (W a f').
Proof. apply repF_eqm, W_rep. Qed.
Lemma W_add a f f' : W a (fun u => f u + f' u) = W a f + W a f'.
Proof. exact (repF_add 2 (Z.of_nat a) _ f f' (W_rep a)). Qed.
Lemma W_zero a : W a (fun _ => 0) = 0.
Proof. exact (repF_zero 2 (Z.of_nat a) _ (W_rep a)). Qed.
Definition TA (g : list Z -> Z) (a b : nat) : Z := match a with O => 0 | S a' => X' g a' b + X (mv rho g) a' b end.
Definition TB (g : list Z -> Z) (a b : nat) : Z := match b with O => 0 | S b' => X g a b' + X' g a b' end.
Lemma X_left g a b : admc 4 (Z.of_nat a + Z.of_nat b - 1) g -> eqm 2 (W a (fun u => W b (fun v => sd MS (fun u' => Q g u' (tp a v)) u))) (TA g a b).
Proof.
  intros Hg. rewrite W_exch. destruct a as [|a]; cbn [TA].
  - rewrite (repF_ext 2 (Z.of_nat b) (W b) _ (fun _ => 0) (W_rep b)) by (intros; apply W_0). now rewrite W_zero.
  - transitivity (W b (fun v => W a (fun u => Q g u (tp (S a) v)) + W a (fun u => Q (mv rho g) u (tp a v)))).
    2:{ rewrite W_add. unfold X', X. rewrite (W_exch a b), (W_exch a b). reflexivity. }
    apply W_eqm. intros v Hv. rewrite W_bd.
    + apply eqm_eq. f_equal. apply (repF_ext 2 (Z.of_nat a) _ _ _ (W_rep a)). intros u Hu. unfold mv at 1. rewrite tp_S by apply Hv. apply (Q_tau (Z.of_nat a) (Z.of_nat b)); auto using cell_tp.
    + intros u Hu Au. apply (Q_adj (Z.of_nat a) (Z.of_nat b)); auto using cell_tp. now replace (Z.of_nat a + Z.of_nat b) with (Z.of_nat (S a) + Z.of_nat b - 1) by lia.
Qed.
Lemma sd_tp a f v : onto 2 v -> eqm 2 (sd MS f (tp a v)) (sd MS (fun v' => f (tp a v')) v).
Proof. intros Hv. unfold tp. destruct (Nat.even a); [reflexivity|]. apply (sd_mv 2); auto using perm_tau. lia. Qed.
Lemma X_right g a b : admc 4 (Z.of_nat a + Z.of_nat b - 1) g -> eqm 2 (W a (fun u => W b (fun v => sd MS (fun v' => Q g u v') (tp a v)))) (TB g a b).
Proof.
  intros Hg. transitivity (W a (fun u => W b (sd MS (fun v' => Q g u (tp a v'))))).
  { apply W_eqm. intros u Hu. apply W_eqm. intros v Hv. apply (sd_tp a (fun v' => Q g u v')), Hv. }
  destruct b as [|b]; cbn [TB].
  - rewrite (repF_ext 2 (Z.of_nat a) (W a) _ (fun _ => 0) (W_rep a)) by (intros; apply W_0). now rewrite W_zero.
  - unfold X, X'. rewrite <- W_add. apply W_eqm. intros u Hu. rewrite W_bd.
    + apply eqm_eq. f_equal. apply (repF_ext 2 (Z.of_nat b) _ _ _ (W_rep b)). intros v Hv. unfold mv. rewrite tp_S by apply Hv. now rewrite tp_comm.
    + intros v Hv Av. apply (Q_adj (Z.of_nat a) (Z.of_nat b)); auto using cell_tp; [now replace (Z.of_nat a + Z.of_nat b) with (Z.of_nat a + Z.of_nat (S b) - 1) by lia|].
      right. unfold tp. destruct (Nat.even a); [exact Av|now apply adj_map].
Qed.
Lemma X_bd g a b : admc 4 (Z.of_nat a + Z.of_nat b - 1) g -> eqm 2 (X (sd MS g) a b) (TA g a b + TB g a b).
Proof.
  intros Hg. rewrite <- (X_left g a b Hg), <- (X_right g a b Hg), <- W_add. apply W_eqm. intros u Hu. rewrite <- W_add. apply W_eqm. intros v Hv.
  apply (Q_sd (Z.of_nat a) (Z.of_nat b)); auto using cell_tp.
Qed.
Lemma FB_bd d g : admc 4 (Z.of_nat d) g -> eqm 2 (FB (S d) (sd MS g)) (FB d g + FB d (mv rho g)).
Proof.
  intros Hg. change (FB (S d) (sd MS g)) with (sumf (fun a => X (sd MS g) a (S d - a)) (seq 0 (S (S d)))).
  rewrite (sumf_eqm 2 _ (fun a => TA g a (S d - a) + TB g a (S d - a))).
  2:{ intros a Ha. apply in_seq in Ha. apply X_bd. now replace (Z.of_nat a + Z.of_nat (S d - a) - 1) with (Z.of_nat d) by lia. }
  rewrite sumf_add.
  assert (EA : sumf (fun a => TA g a (S d - a)) (seq 0 (S (S d))) = sumf (fun a => X' g a (d - a) + X (mv rho g) a (d - a)) (seq 0 (S d))).
  { change (seq 0 (S (S d))) with (0%nat :: seq 1 (S d)). rewrite sumf_cons, <- seq_shift, sumf_map. cbn [TA]. rewrite Z.add_0_l. apply sumf_ext. intros a _. reflexivity. }
  assert (EB : sumf (fun a => TB g a (S d - a)) (seq 0 (S (S d))) = sumf (fun a => X g a (d - a) + X' g a (d - a)) (seq 0 (S d))).
  { rewrite (seq_S (S d)), sumf_app, sumf_cons, sumf_nil. replace (S d - (0 + S d))%nat with 0%nat by lia. cbn [TB]. rewrite !Z.add_0_r. apply sumf_ext. intros a Ha. apply in_seq in Ha. replace (S d - a)%nat with (S (d - a)) by lia. reflexivity. }
  rewrite EA, EB, !sumf_add. unfold FB. fold (X g) (X (mv rho g)).
  change (fun a => W a (fun u => W (d - a) (fun v => Q g u (tp a v)))) with (fun a => X g a (d - a)). change (fun a => W a (fun u => W (d - a) (fun v => Q (mv rho g) u (tp a v)))) with (fun a => X (mv rho g) a (d - a)).
  exists (sumf (fun a => X' g a (d - a)) (seq 0 (S d))). ring.
Qed.

(** ** the conclusion *)
Lemma sides_0 c : eqm 2 (FA 0 (fun _ => c) + FB 0 (fun _ => c)) 0.
Proof.
  assert (E1 : FA 0 (fun _ => c) = c) by (vm_compute; destruct c; reflexivity).
  assert (E2 : FB 0 (fun _ => c) = c) by (vm_compute; destruct c; reflexivity).
  rewrite E1, E2. exists c. ring.
Qed.
(** the two sides agree, modulo 2, on every cocycle which is invariant under the exchange
    of the two halves *)
Theorem cartan_words d g : (forall e, admc 4 e g) -> (forall e k, surj_cell 4 e k -> eqm 2 (sd MS g k) 0) -> (forall k, onto 4 k -> eqm 2 (mv rho g k) (g k)) -> eqm 2 (FA d g) (FB d g).
Proof.
  intros Hg Hs Hr.
  assert (E : eqm 2 (FA d g + FB d g) 0).
  { apply (invariant_cocycle 4 rho (fun d g => FA d g + FB d g)); auto; try lia.
    - plit.
    - exact rho_rho.
    - intros e. apply repF_plus; [apply FA_rep|apply FB_rep].
    - intros e f Hf. rewrite (FA_bd e f Hf), (FB_bd e f Hf). apply eqm_eq. ring.
    - exact sides_0. }
  destruct E as [z E]. exists (z - FB d g). lia.
Qed.
