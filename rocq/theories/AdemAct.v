(** * The Adem relations on simplicial chains, modulo 2 (C91) *)
From Coq Require Import Setoid Morphisms.
From Verif Require Import PyBase Dict FreeModule Symmetric Simplicial Utils Surjection Eqm Spec SpecChain SpecOperad SpecSurj SpecAction SpecCochain SpecCup SpecSimpCup SpecSquares SpecAdem FreeModuleFacts FreeModuleLaws ListFacts
  ClassFacts LinearFacts BilFacts SymmetricFacts CycleFacts SymmetricLaws RingFacts Tensor TensorAct KoszulFacts LoopFacts AW SimplicialFacts SimplicialDiag SimplicialLaws BELaws BEDiag MayFacts SurjFacts SurjBoundary SurjLaws SurjAct SurjLaws2 ActFacts ActSign ActCore ActCode ActLaws
  EquivAct EquivLaws SurjMay SurjCompose SurjCompose2 SurjCompose3 SurjCompose4 SurjLaws6 CompEquiv OperadAct SteenrodAct CupI CupILaws SimpCupLaws SqHtpy SqCartan SqAct SqLaws AdemHtpy AdemWords AdemSum AdemSym AdemBin.

(** ** sums *)
Lemma DD_SS n f : DD (Datatypes.S (Datatypes.S n)) f = f 0%nat (Datatypes.S (Datatypes.S n)) + DD n (fun a b => f (Datatypes.S a) (Datatypes.S b)) + f (Datatypes.S (Datatypes.S n)) 0%nat.
Proof.
  unfold DD. rewrite (seq_S (Datatypes.S (Datatypes.S n))), sumf_app, sumf_cons, sumf_nil. change (seq 0 (Datatypes.S (Datatypes.S n))) with (0%nat :: seq 1 (Datatypes.S n)). rewrite sumf_cons, <- seq_shift, sumf_map.
  rewrite Nat.add_0_l, Nat.sub_diag, Nat.sub_0_r. rewrite (sumf_ext (fun a => f (Datatypes.S a) (Datatypes.S (Datatypes.S n) - Datatypes.S a)%nat) (fun a => f (Datatypes.S a) (Datatypes.S (n - a)))); [ring|].
  intros a Ha. apply in_seq in Ha. f_equal. lia.
Qed.
Lemma DD_diag : forall N n f, (n <= N)%nat -> (forall a b, (a + b = n)%nat -> eqm 2 (f a b) (f b a)) -> eqm 2 (DD n f) (if Nat.even n then f (n / 2)%nat (n / 2)%nat else 0).
Proof.
  induction N as [|N IH]; intros n f L Hf.
  - destruct n; [|lia]. unfold DD. cbn [seq]. rewrite sumf_cons, sumf_nil. apply eqm_eq. cbn. ring.
  - destruct n as [|[|n]].
    + unfold DD. cbn [seq]. rewrite sumf_cons, sumf_nil. apply eqm_eq. cbn. ring.
    + unfold DD. cbn [seq]. rewrite !sumf_cons, sumf_nil. change (1 - 0)%nat with 1%nat. change (1 - 1)%nat with 0%nat. rewrite (Hf 0%nat 1%nat) by lia. exists (f 1%nat 0%nat). cbn [Nat.even]. ring.
    + rewrite DD_SS, (IH n) by (try lia; intros; apply Hf; lia). rewrite (Hf 0%nat (Datatypes.S (Datatypes.S n))) by lia.
      change (Nat.even (Datatypes.S (Datatypes.S n))) with (Nat.even n). replace (Datatypes.S (Datatypes.S n) / 2)%nat with (Datatypes.S (n / 2)) by (replace (Datatypes.S (Datatypes.S n)) with (n + 1 * 2)%nat by lia; rewrite Nat.div_add by lia; lia).
      exists (f (Datatypes.S (Datatypes.S n)) 0%nat). destruct (Nat.even n); ring.
Qed.
Lemma sum_even (K : nat -> Z) : forall N q, (q <= N)%nat -> sumf (fun n => if Nat.even n then K (n / 2)%nat else 0) (seq 0 (Datatypes.S q)) = sumf K (seq 0 (Datatypes.S (q / 2))).
Proof.
  induction N as [|N IH]; intros q L.
  - destruct q; [|lia]. reflexivity.
  - destruct q as [|[|q]]; [reflexivity| |].
    + cbn. ring.
    + replace (Datatypes.S (Datatypes.S q) / 2)%nat with (Datatypes.S (q / 2)) by (replace (Datatypes.S (Datatypes.S q)) with (q + 1 * 2)%nat by lia; rewrite Nat.div_add by lia; lia).
      rewrite (seq_S (Datatypes.S (Datatypes.S q))), (seq_S (Datatypes.S q)), !sumf_app, !sumf_cons, !sumf_nil, (IH q) by lia. rewrite (seq_S (Datatypes.S (q / 2))), sumf_app, sumf_cons, sumf_nil. rewrite !Nat.add_0_l.
      change (Nat.even (Datatypes.S (Datatypes.S q))) with (Nat.even q). rewrite Nat.even_succ, <- Nat.negb_even.
      pose proof (Nat.div_mod_eq q 2) as Q. destruct (Nat.even q) eqn:Ev; cbn [negb].
      * replace (Datatypes.S (Datatypes.S q) / 2)%nat with (Datatypes.S (q / 2)) by (replace (Datatypes.S (Datatypes.S q)) with (q + 1 * 2)%nat by lia; rewrite Nat.div_add by lia; lia). ring.
      * replace (Datatypes.S q / 2)%nat with (Datatypes.S (q / 2)); [ring|]. rewrite <- Nat.negb_odd in Ev. apply Bool.negb_false_iff, Nat.odd_spec in Ev. destruct Ev as [h ->].
        replace (Datatypes.S (2 * h + 1)) with ((h + 1) * 2)%nat by lia. rewrite Nat.div_mul by lia. replace (2 * h + 1)%nat with (1 + h * 2)%nat by lia. rewrite Nat.div_add by lia. change (1 / 2)%nat with 0%nat. lia.
Qed.
Lemma kap_sum l a b : eqm 2 (kap l 0 a b + kap l 1 a b) (choose a l * choose b l).
Proof. unfold kap. cbn [Nat.even]. rewrite choose_SS. exists (choose b l * choose a (Datatypes.S l)). ring. Qed.

(** ** functions of chains *)
Definition EE (c : simp) (w : list Z) (f g : list Z -> Z) : Z := ev (fun K => Phi 2 1 (simp_pair f g) w K) (data c).
Lemma EE_exch c w (F : (list Z -> Z) -> Z) n' d' f (h : list Z -> list Z -> Z) : repF n' d' F -> F (fun v => EE c w f (fun y => h v y)) = EE c w f (fun y => F (fun v => h v y)).
Proof.
  intros R. unfold EE. rewrite (repF_exch n' d' F (fun v K => Phi 2 1 (simp_pair f (fun y => h v y)) w K) (data c) R). apply ev_ext_all. intros K. unfold Phi.
  rewrite (repF_exch n' d' F (fun v L => simp_pair f (fun y => h v y) L) _ R). apply ev_ext_all. intros L.
  destruct L as [|x [|y [|z L]]]; cbn [simp_pair]; try apply (repF_zero n' d' F R). destruct R as (T & _ & T2). now rewrite !T2, <- ev_scal.
Qed.
Lemma EE_exchl c w (F : (list Z -> Z) -> Z) n' d' f (h : list Z -> list Z -> Z) : repF n' d' F -> F (fun v => EE c w (fun y => h v y) f) = EE c w (fun y => F (fun v => h v y)) f.
Proof.
  intros R. unfold EE. rewrite (repF_exch n' d' F (fun v K => Phi 2 1 (simp_pair (fun y => h v y) f) w K) (data c) R). apply ev_ext_all. intros K. unfold Phi.
  rewrite (repF_exch n' d' F (fun v L => simp_pair (fun y => h v y) f L) _ R). apply ev_ext_all. intros L.
  destruct L as [|x [|y [|z L]]]; cbn [simp_pair]; try apply (repF_zero n' d' F R). destruct R as (T & _ & T2). rewrite !T2, Z.mul_comm, <- ev_scal. apply ev_ext_all. intros; ring.
Qed.
Lemma EE_V c p f g : W p (fun w => EE c w f g) = V c p (simp_pair f g).
Proof. unfold EE, V, U. apply (repF_exch 2 (Z.of_nat p) (W p) (fun w K => Phi 2 1 (simp_pair f g) w K) (data c) (W_rep p)). Qed.

Section Adem.
Variables (dt e m : Z) (XX : list Z -> Prop) (c bc : simp) (al : list Z -> Z).
Hypothesis He : 0 <= e.
Hypothesis HX : simplicial_set XX.
Hypothesis Wc : wf cls_simplicial c.
Hypothesis Tc : torsion c = 2.
Hypothesis Hdt : dt_ok dt (torsion c).
Hypothesis Kc : keys_in (fun k => exists s, k = [s] /\ XX s /\ zlen s - 1 = e) c.
Hypothesis Eb : simp_boundary dt c = Ok bc.
Hypothesis Zb : data bc = [].
Hypothesis Hm : 0 <= m.
Hypothesis Hal : cochain m al.
Hypothesis Val : forall s, XX s -> eqm 2 (simp_coboundary al s) 0.
Let g1 := g0 c al al.
Let ph (u : list Z) (x : list Z) : Z := Phi 2 1 (simp_pair al al) u [x].
Let PA : adm cls_simplicial (simp_pair al al) := pair_adm m m al al Hm Hm Hal Hal.
Lemma EE_eqm w f g f' g' : onto 2 w -> (forall s, eqm 2 (f s) (f' s)) -> (forall s, eqm 2 (g s) (g' s)) -> eqm 2 (EE c w f g) (EE c w f' g').
Proof.
  intros Hw F G. unfold EE. apply ev_eqm. intros K v HK. unfold Phi. apply ev_eqm. intros L v' _. destruct L as [|x [|y [|z L]]]; cbn [simp_pair]; try reflexivity. rewrite (F x), (G y). reflexivity.
Qed.
Lemma RR_value w u v : onto 2 w -> onto 2 u -> onto 2 v -> eqm 2 (RR g1 w u v) (EE c w (ph u) (ph v)).
Proof.
  intros Hw Hu Hv. unfold RR, g1, g0. set (G := quad al al al al).
  transitivity (ev (fun K => Pc 2 2 (fun z => Pc 1 2 (fun k => Phi 4 1 G k K) z u) w v) (data c)).
  { apply eqm_eq. unfold R1, Pc at 1. rewrite (ev_ext_all _ (fun z => ev (fun K => Pc 1 2 (fun k => Phi 4 1 G k K) z u) (data c))) by (intros z; unfold Pc; apply (ev_exch (fun k K => Phi 4 1 G k K))).
    apply (ev_exch (fun z K => Pc 1 2 (fun k => Phi 4 1 G k K) z u)). }
  unfold EE. apply ev_eqm. intros K v' HK. destruct (nonempty_c e XX c He Kc _ _ HK) as (s & -> & Ns & _).
  apply (comp_eval G (simp_pair al al) (simp_pair al al)); [intros; reflexivity|now apply self_cell|now apply self_cell|now apply self_cell].
Qed.
Lemma ph_tp a v y : onto 2 v -> eqm 2 (ph (tp a v) y) (ph v y). Proof. apply tp_value. Qed.
Lemma W3_value p a b : W3 p a b (fun w u v => EE c w (ph u) (ph v)) = V c p (simp_pair (sq0 a al) (sq0 b al)).
Proof.
  unfold W3. rewrite <- EE_V. apply (repF_ext 2 (Z.of_nat p) _ _ _ (W_rep p)). intros w _.
  rewrite (repF_ext 2 (Z.of_nat a) (W a) _ (fun u => EE c w (ph u) (sq0 b al)) (W_rep a)).
  - exact (EE_exchl c w (W a) 2 (Z.of_nat a) (sq0 b al) ph (W_rep a)).
  - intros u _. exact (EE_exch c w (W b) 2 (Z.of_nat b) (ph u) ph (W_rep b)).
Qed.
Lemma W3_value' p a b : W3 p a b (fun w u v => EE c w (ph v) (ph u)) = V c p (simp_pair (sq0 b al) (sq0 a al)).
Proof. rewrite W3_swap. apply W3_value. Qed.
(** the squares are cocycles *)
Lemma sq_cochain a : cochain (2 * m - Z.of_nat a) (sq0 a al).
Proof.
  split.
  - intros l1 v l2. apply U_deg; [exact PA|]. apply dup_deg.
  - intros s Ds. unfold sq0, U. rewrite (repF_ext 2 (Z.of_nat a) (W _) _ (fun _ => 0) (W_rep _)); [apply W_zero|]. intros w Hw. unfold Phi. apply ev_zero. intros p v Hp.
    assert (K1 : kdegS 1 (zlen s - 1) [s]) by (split; [reflexivity|rewrite tdeg_cons; change (tdeg spx_dim []) with 0; unfold spx_dim; lia]).
    destruct (acts_deg 2 _ 1 (zlen s - 1) 1 w [s] p v ltac:(lia) Hw K1 Hp) as [Lw Dw]. destruct (len2 p Lw) as (p1 & q & ->). cbn [simp_pair]. rewrite !tdeg_cons in Dw. change (tdeg spx_dim []) with 0 in Dw. unfold spx_dim in Dw.
    destruct (Z.eq_dec (zlen p1 - 1) m) as [E|N]; [|rewrite (proj2 Hal p1 N); ring]. destruct (Z.eq_dec (zlen q - 1) m) as [E'|N]; [|rewrite (proj2 Hal q N); ring]. exfalso. apply Ds. lia.
Qed.
Lemma sq_high a s : m < Z.of_nat a -> sq0 a al s = 0.
Proof. intros L. destruct s as [|x s]; [apply U_deg; [exact PA|reflexivity]|]. apply (sq0_high a m); auto. discriminate. Qed.
Lemma U_X d g s : s <> [] -> XX s -> (forall w, (forall x, In x w -> XX x) -> eqm 2 (g w) 0) -> eqm 2 (U d g [s]) 0.
Proof.
  intros Ns Xs Hg. unfold U. rewrite (repF_eqm 2 (Z.of_nat d) (W d) _ (fun _ => 0) (W_rep d)); [now rewrite W_zero|]. intros k [Ho _].
  unfold Phi. transitivity (ev (fun _ => 0) (simp_acts 2 (zlen k - 2) 1 k [s])); [|rewrite ev_zero by reflexivity; reflexivity]. apply ev_eqm. intros w v0 Hw. apply Hg. exact (X_acts XX 2 _ k s w v0 HX ltac:(lia) Ho Ns Xs Hw).
Qed.
Lemma tD_pair_X w : (forall x, In x w -> XX x) -> eqm 2 (tDS (simp_pair al al) w) 0.
Proof.
  intros Hw. rewrite (pair_tD m al al w Hal). destruct w as [|x [|y [|z w]]]; cbn [simp_pair]; try (apply eqm_eq; ring).
  rewrite (Val x), (Val y) by (apply Hw; cbn; tauto). apply eqm_eq. ring.
Qed.
Lemma sq_vanish a s : XX s -> eqm 2 (simp_coboundary (sq0 a al) s) 0.
Proof.
  intros Xs. destruct (list_eq_dec Z.eq_dec s []) as [->|Ns]; [reflexivity|]. rewrite cob_fdS.
  assert (E : tDS (U a (simp_pair al al)) [s] = fdS (sq0 a al) s) by (rewrite tD_cons, tD_nil, Z.mul_0_r, Z.add_0_r; reflexivity). rewrite <- E. clear E.
  destruct a as [|a].
  - rewrite <- U_formula0 by (auto). apply U_X; auto. apply tD_pair_X.
  - pose proof (U_formula a (simp_pair al al) s PA Ns) as E. rewrite (U_flip a m m) in E by assumption.
    pose proof (U_X (Datatypes.S a) _ s Ns Xs tD_pair_X) as E0. rewrite E in E0. clear E. rewrite !sgn_eqm2 in E0. destruct E0 as [z E0]. exists (z - U a (simp_pair al al) [s]). lia.
Qed.
Lemma VV_sym p a b : eqm 2 (V c p (simp_pair (sq0 a al) (sq0 b al))) (V c p (simp_pair (sq0 b al) (sq0 a al))).
Proof.
  assert (Z0 : forall a b, m < Z.of_nat a \/ m < Z.of_nat b -> V c p (simp_pair (sq0 a al) (sq0 b al)) = 0).
  { intros a' b' Hab. unfold V. apply ev_zero. intros K v _. unfold U. rewrite (repF_ext 2 (Z.of_nat p) (W p) _ (fun _ => 0) (W_rep p)); [apply W_zero|]. intros k _. unfold Phi. apply ev_zero. intros w v' _.
    destruct w as [|x [|y [|z w]]]; try reflexivity. cbn [simp_pair]. destruct Hab as [Hab|Hab]; [rewrite (sq_high a') by exact Hab|rewrite (sq_high b') by exact Hab]; ring. }
  destruct (Z_lt_dec m (Z.of_nat a)) as [La|La]; [rewrite !Z0 by tauto; reflexivity|]. destruct (Z_lt_dec m (Z.of_nat b)) as [Lb|Lb]; [rewrite !Z0 by tauto; reflexivity|].
  pose proof (V_comm dt e XX c bc He HX Wc Hdt Kc Eb Zb p (2 * m - Z.of_nat a) (2 * m - Z.of_nat b) (sq0 a al) (sq0 b al) ltac:(lia) ltac:(lia) (sq_cochain a) (sq_cochain b)) as C.
  unfold vanish in C. rewrite Tc in C. specialize (C (sq_vanish a) (sq_vanish b)). rewrite !sgn_eqm2, !Z.mul_1_l in C. now symmetry.
Qed.
Lemma NN_value p a b x : eqm 2 (NN p a b x g1) (V c p (simp_pair (sq0 a al) (sq0 b al))).
Proof.
  unfold NN, Rp. destruct (Nat.even p).
  - rewrite <- W3_value. apply W3_eqm. intros w u v [Hw _] [Hu _] Hv. rewrite RR_value by (auto; apply (cel_tp x b v Hv)). apply EE_eqm; auto; [reflexivity|]. intros s. apply ph_tp, Hv.
  - rewrite VV_sym. rewrite <- W3_value'. apply W3_eqm. intros w u v [Hw _] [Hu _] Hv. rewrite RR_value by (auto; apply (cel_tp x b v Hv)). apply EE_eqm; auto; [|reflexivity]. intros s. apply ph_tp, Hv.
Qed.
Lemma g1_inv p k : perm 4 p -> (forall x y z t, quad al al al al (placef p [x; y; z; t]) = quad al al al al [x; y; z; t]) -> onto 4 k -> eqm 2 (mv p g1 k) (g1 k).
Proof.
  intros Hp Q Hk. unfold g1. rewrite (g0_move e XX c al al He Kc) by auto. unfold g0. apply ev_eqm. intros K v HK. destruct (nonempty_c e XX c He Kc _ _ HK) as (s & -> & Ns & _). apply Phi_len; [lia|exact Hk|].
  intros w Hw. destruct (len4 w Hw) as (x & y & z & t & ->). rewrite Q. reflexivity.
Qed.
Definition DV (q i : nat) : Z := V c (q - 2 * i) (simp_pair (sq0 i al) (sq0 i al)).
Lemma FF_value j k : eqm 2 (FF j k g1) (TT (j + k) (DV (j + k)) k).
Proof.
  transitivity (sumf (fun l => if Nat.even (k + l) then choose ((k + l) / 2) l * V c (j - l) (simp_pair (sq0 ((k + l) / 2) al) (sq0 ((k + l) / 2) al)) else 0) (seq 0 (Datatypes.S j))).
  - unfold FF. apply sumf_eqm. intros l _.
    rewrite (DD_eqm (k + l) _ (fun a b => choose a l * choose b l * V c (j - l) (simp_pair (sq0 a al) (sq0 b al)))).
    2:{ intros a b _. unfold Te. rewrite !NN_value, <- Z.mul_add_distr_r, kap_sum. reflexivity. }
    rewrite (DD_diag (k + l)) by (try lia; intros a b _; rewrite (VV_sym (j - l) a b); apply eqm_eq; ring).
    destruct (Nat.even (k + l)); [|reflexivity]. set (C := choose ((k + l) / 2) l). assert (C2 : eqm 2 (C * C) C) by (destruct (Z.Even_or_Odd C) as [[h ->]|[h ->]]; [exists (2 * h * h - h)|exists (2 * h * h + h)]; ring). rewrite C2. reflexivity.
  - apply eqm_eq. set (q := (j + k)%nat). set (G := fun i => (if (k <=? 2 * i)%nat then choose i (2 * i - k) else 0) * DV q i).
    transitivity (sumf G (seq 0 (Datatypes.S (q / 2)))).
    + rewrite <- (sum_even G q q) by lia. replace (Datatypes.S q) with (k + Datatypes.S j)%nat by (unfold q; lia). rewrite seq_app, sumf_app. rewrite (sumf_0 _ (seq 0 k)), Z.add_0_l.
      2:{ intros n Hn. apply in_seq in Hn. destruct (Nat.even n); [|reflexivity]. unfold G. pose proof (Nat.mul_div_le n 2 ltac:(lia)). destruct (Nat.leb_spec k (2 * (n / 2))); [lia|ring]. }
      rewrite Nat.add_0_l. replace (seq k (Datatypes.S j)) with (map (Nat.add k) (seq 0 (Datatypes.S j))).
      2:{ clear. induction (Datatypes.S j) as [|n IH]; [reflexivity|]. rewrite !seq_S, map_app, IH. reflexivity. }
      rewrite sumf_map. apply sumf_ext. intros l Hl. apply in_seq in Hl. destruct (Nat.even (k + l)) eqn:Ev; [|reflexivity]. unfold G.
      assert (E2 : (2 * ((k + l) / 2) = k + l)%nat). { apply Nat.even_spec in Ev. destruct Ev as [h Eh]. rewrite Eh, Nat.mul_comm, Nat.mul_comm, (Nat.mul_comm 2 h), Nat.div_mul by lia. lia. }
      destruct (Nat.leb_spec k (2 * ((k + l) / 2))); [|lia]. unfold DV. rewrite E2. f_equal; [f_equal; lia|f_equal; unfold q; lia].
    + unfold TT. apply sumf_ext. intros i Hi. unfold G, chk. f_equal. destruct (Nat.leb_spec k (2 * i)) as [L|L], (Nat.leb_spec i k) as [L'|L']; try reflexivity.
      * apply ch_sym. lia.
      * apply choose_lt. lia.
      * symmetry. apply choose_lt. lia.
Qed.
Theorem adem_chains q i0 : (2 * i0 <= q)%nat -> eqm 2 (DV q i0) (sumf (fun i => coe q i0 i * DV q i) (seq 0 (Datatypes.S (q / 2)))).
Proof.
  intros L. apply adem_algebra; [|exact L]. intros k Hk.
  pose proof (FF_value (q - k) k) as E1. pose proof (FF_value k (q - k)) as E2. replace (q - k + k)%nat with q in E1 by lia. replace (k + (q - k))%nat with q in E2 by lia.
  rewrite <- E1, <- E2. apply adem_words.
  - exact (g0_adm m m c al al Hm Hm Hal Hal).
  - exact (g0_cocycle dt e m m XX c bc al al He HX Wc Tc Hdt Kc Eb Zb Hm Hm Hal Hal Val Val).
  - intros w Hw. apply g1_inv; [plit| |exact Hw]. intros. change (placef rho [x; y; z; t]) with [z; t; x; y]. unfold quad. ring.
  - intros w Hw. apply g1_inv; [plit| |exact Hw]. intros. change (placef rho2 [x; y; z; t]) with [y; x; t; z]. unfold quad. ring.
  - intros w Hw. apply g1_inv; [plit| |exact Hw]. intros. change (placef sig [x; y; z; t]) with [x; z; y; t]. unfold quad. ring.
Qed.
End Adem.
