(** * The Cartan formula for the Steenrod squares computed by the code (C83) *)
From Coq Require Import Setoid Morphisms.
From Verif Require Import PyBase Dict FreeModule Symmetric Simplicial Utils Surjection Eqm Spec SpecChain SpecOperad SpecSurj SpecAction SpecCochain SpecCup SpecSimpCup SpecSquares FreeModuleFacts FreeModuleLaws ListFacts
  ClassFacts LinearFacts BilFacts SymmetricFacts CycleFacts SymmetricLaws RingFacts Tensor TensorAct KoszulFacts LoopFacts AW SimplicialFacts SimplicialDiag SimplicialLaws BELaws BEDiag MayFacts SurjFacts SurjBoundary SurjLaws SurjAct SurjLaws2 ActFacts ActSign ActCore ActCode ActLaws
  EquivAct EquivLaws SurjMay SurjCompose SurjCompose2 SurjCompose3 SurjCompose4 SurjLaws6 CompEquiv OperadAct SteenrodAct CupI CupILaws SimpCupLaws SqHtpy SqCartan SqAct.

Lemma wf_nonempty (y : simp) K v x : wf cls_simplicial y -> In (K, v) (data y) -> In x K -> x <> [].
Proof.
  intros (_ & _ & W) HK Hx ->. destruct (W _ _ HK) as [_ B]. cbn [bad cls_simplicial] in B. injection B as B. assert (E : existsb spx_is_degenerate K = true) by (apply existsb_exists; exists []; auto). congruence.
Qed.
Lemma val_eqm (y : simp) f g f' g' : wf cls_simplicial y -> (forall s, s <> [] -> eqm 2 (f s) (f' s)) -> (forall s, s <> [] -> eqm 2 (g s) (g' s)) -> eqm 2 (simp_value (simp_pair f g) y) (simp_value (simp_pair f' g') y).
Proof.
  intros Wy F G. change (simp_value ?h ?x) with (ev h (data x)). apply ev_eqm. intros K v HK. destruct K as [|a [|b [|c K]]]; try reflexivity. cbn [simp_pair].
  rewrite (F a), (G b) by (eapply wf_nonempty; eauto; cbn; tauto). reflexivity.
Qed.
Lemma pair_adm' f g : (forall s, spx_is_degenerate s = true -> f s = 0) -> (forall s, spx_is_degenerate s = true -> g s = 0) -> adm cls_simplicial (simp_pair f g).
Proof.
  intros F G. split; [intros w w' E; now apply keqb_eq in E; subst|]. intros w Hw. injection Hw as Hw. destruct w as [|x [|y [|z w]]]; try reflexivity. cbn [existsb] in Hw. cbn [simp_pair].
  rewrite orb_false_r in Hw. apply orb_true_iff in Hw. destruct Hw as [Hw|Hw]; [rewrite F by auto; ring|rewrite G by auto; ring].
Qed.
Lemma U_deg d g s : adm cls_simplicial g -> spx_is_degenerate s = true -> U d g [s] = 0.
Proof. intros Hg Hs. apply (U_adm d g Hg). cbn [bad cls_simplicial existsb]. now rewrite Hs. Qed.
Lemma one_den dt s (x : simp) : s <> [] -> simp_new dt [([s], 1)] (Some 2) = Ok x -> den cls_simplicial 2 tt (fun g => g [s]) x /\ keys_in (kdegS 1 (zlen s - 1)) x.
Proof.
  intros Ns E. assert (D : den cls_simplicial 2 tt (fun g => g [s]) x).
  { destruct (new_den cls_simplicial ok_simplicial dt 2 (Some 2) tt [([s], 1)] eq_refl ltac:(lia)) as (x' & E' & D).
    - split; [intros k' []|exact I].
    - intros k [<-|[]]. exists (spx_is_degenerate s). cbn [bad cls_simplicial existsb fst]. now rewrite orb_false_r.
    - change (new dt cls_simplicial [([s], 1)] (Some 2) tt = Ok x) in E. rewrite E' in E. injection E as <-. eapply den_ext; [|exact D]. intros g _. apply eqm_eq. rewrite ev_cons, ev_nil. ring. }
  split; [exact D|]. apply (den_keys cls_simplicial ok_simplicial 2 tt _ x _ ltac:(lia) (kpred_kdegS 1 (zlen s - 1)) D). intros g _ H0. apply eqm_eq. rewrite H0; [reflexivity|]. split; [reflexivity|]. rewrite tdeg_cons. change (tdeg spx_dim []) with 0. unfold spx_dim. lia.
Qed.
Lemma op2' dt dc s q S : dt_ok dt 2 -> 0 <= s - q -> surj_steenrod_operation dt dc 2 s q false (Some MS) = Ok S -> den cls_surj 2 MS (FpS MS 2 (Z.to_nat (s - q))) S.
Proof.
  intros Hdt Hd E. unfold surj_steenrod_operation in E. change (2 =? 2) with true in E. cbn [andb] in E. destruct (Z.ltb_spec (s - q) 0); [lia|].
  destruct (mayS_ok dt dc MS 2 (Z.to_nat (s - q)) (Some 2) (Some MS) 2 eq_refl eq_refl (or_intror eq_refl) ltac:(lia) ltac:(lia) ltac:(lia) Hdt) as (y & Ey & Dy). rewrite Z2Nat.id in Ey by lia. rewrite Ey in E. cbn [bind] in E.
  destruct (scale_den cls_surj ok_surj dt 2 ltac:(lia) Hdt MS _ 1 y Dy) as (S' & ES & DS). rewrite E in ES. injection ES as <-. eapply den_ext; [|exact DS]. intros g Hg. apply eqm_eq. cbn beta. ring.
Qed.
Lemma op2_ok dt dc s q : dt_ok dt 2 -> exists S, surj_steenrod_operation dt dc 2 s q false (Some MS) = Ok S.
Proof.
  intros Hdt. unfold surj_steenrod_operation. change (2 =? 2) with true. cbn [andb]. destruct (Z.ltb_spec (s - q) 0).
  - eexists. unfold surj_new, new, pref. cbn. reflexivity.
  - destruct (mayS_ok dt dc MS 2 (Z.to_nat (s - q)) (Some 2) (Some MS) 2 eq_refl eq_refl (or_intror eq_refl) ltac:(lia) ltac:(lia) ltac:(lia) Hdt) as (y & Ey & Dy). rewrite Z2Nat.id in Ey by lia. rewrite Ey. cbn [bind].
    destruct (scale_den cls_surj ok_surj dt 2 ltac:(lia) Hdt MS _ 1 y Dy) as (S' & ES & _). eauto.
Qed.
Lemma op2_low dt dc s q S : s - q < 0 -> surj_steenrod_operation dt dc 2 s q false (Some MS) = Ok S -> data S = [].
Proof.
  intros Hd E. unfold surj_steenrod_operation in E. change (2 =? 2) with true in E. cbn [andb] in E. destruct (Z.ltb_spec (s - q) 0); [|lia]. unfold surj_new, new, pref in E. cbn in E. injection E as <-. reflexivity.
Qed.

Lemma value_zero g (y : simp) : is_zero y -> simp_value g y = 0.
Proof. unfold is_zero, simp_value. now intros ->. Qed.
Definition Sqv (k m : Z) (a : list Z -> Z) (s : list Z) : Z := if m - k <? 0 then 0 else sq0 (Z.to_nat (m - k)) a s.
Lemma new_one dt s : s <> [] -> exists x, simp_new dt [([s], 1)] (Some 2) = Ok x.
Proof.
  intros Ns. destruct (new_den cls_simplicial ok_simplicial dt 2 (Some 2) tt [([s], 1)] eq_refl ltac:(lia)) as (x' & E' & D); [split; [intros k' []|exact I]| |exists x'; exact E'].
  intros k [<-|[]]. exists (spx_is_degenerate s). cbn [bad cls_simplicial existsb fst]. now rewrite orb_false_r.
Qed.
Lemma square_val dt dc k m a s : 0 <= m -> cochain m a -> dt_ok dt 2 -> s <> [] -> (exists v, square_at dt dc k m a s v) /\ forall v, square_at dt dc k m a s v -> eqm 2 v (Sqv k m a s).
Proof.
  intros Hm Ha Hdt Ns.
  assert (Q : forall S x, surj_steenrod_operation dt dc 2 (- k) (- m) false (Some MS) = Ok S -> simp_new dt [([s], 1)] (Some 2) = Ok x -> exists y, surj_call_simplicial dt S x 1 = Ok y /\ eqm 2 (simp_value (simp_pair a a) y) (Sqv k m a s)).
  { intros S x ES Ex. destruct (one_den dt s x Ns Ex) as [Dx Kx]. unfold Sqv. destruct (Z.ltb_spec (m - k) 0) as [L|L].
    - apply op2_low in ES; [|lia]. destruct (C50_zero_l dt 1 S x (or_introl ES)) as (y & Ey & Zy & _). exists y. split; [exact Ey|]. rewrite value_zero by exact Zy. reflexivity.
    - apply op2' in ES; [|exact Hdt|lia]. replace (- k - - m) with (m - k) in ES by ring.
      destruct (call_may dt 2 (Z.to_nat (m - k)) (zlen s - 1) S x ltac:(lia) Hdt ES (den_wf cls_simplicial 2 tt _ x ltac:(lia) Dx) (proj1 Dx) Kx) as (y & Ey & Dy). exists y. split; [exact Ey|].
      pose proof (pair_adm m m a a Hm Hm Ha Ha) as A. change (simp_value ?g ?x) with (ev g (data x)). rewrite (den_ev cls_simplicial 2 tt _ y _ Dy A), (den_ev cls_simplicial 2 tt _ x _ Dx (U_adm _ _ A)). reflexivity. }
  split.
  - destruct (op2_ok dt dc (- k) (- m) Hdt) as [S ES]. destruct (new_one dt s Ns) as [x Ex]. destruct (Q S x ES Ex) as (y & Ey & V). exists (Sqv k m a s), S, x, y. auto.
  - intros v (S & x & y & ES & Ex & Ey & V). destruct (Q S x ES Ex) as (y' & Ey' & V'). rewrite Ey in Ey'. injection Ey' as <-. change (eqm 2 (simp_value (simp_pair a a) y) v) in V. now rewrite <- V, V'.
Qed.
Lemma cup_val dt m n a b s : 0 <= m -> 0 <= n -> cochain m a -> cochain n b -> dt_ok dt 2 -> s <> [] -> (exists v, cup_at dt a b s v) /\ forall v, cup_at dt a b s v -> eqm 2 v (cup0 a b s).
Proof.
  intros Hm Hn Ha Hb Hdt Ns.
  assert (Q : forall x, simp_new dt [([s], 1)] (Some 2) = Ok x -> exists y, extended1 dt cls_simplicial (fun y => simp_iterated_diagonal dt y 1 1) x = Ok y /\ eqm 2 (simp_value (simp_pair a b) y) (cup0 a b s)).
  { intros x Ex. destruct (one_den dt s x Ns Ex) as [Dx Kx]. pose proof (den_wf cls_simplicial 2 tt _ x ltac:(lia) Dx) as Wx. pose proof (proj1 Dx) as Tx. pose proof (pair_adm m n a b Hm Hn Ha Hb) as A.
    destruct (linop_diag dt (torsion x) 1 (zlen s - 1) 1 1 ltac:(lia) ltac:(now rewrite Tx) ltac:(lia) ltac:(lia) x Wx eq_refl (s_attr' x) Kx) as (y & Ey & Dy & _). exists y. split; [exact Ey|].
    pose proof (diag_V dt (zlen s - 1) x y (simp_pair a b) Wx ltac:(now rewrite Tx) Kx Ey A) as E. rewrite Tx in E. rewrite E. unfold V. rewrite (den_ev cls_simplicial 2 tt _ x _ Dx (U_adm _ _ A)). reflexivity. }
  split.
  - destruct (new_one dt s Ns) as [x Ex]. destruct (Q x Ex) as (y & Ey & V). exists (cup0 a b s), x, y. auto.
  - intros v (x & y & Ex & Ey & V). destruct (Q x Ex) as (y' & Ey' & V'). rewrite Ey in Ey'. injection Ey' as <-. change (eqm 2 (simp_value (simp_pair a b) y) v) in V. now rewrite <- V, V'.
Qed.
Lemma Sqv_deg k m a s : 0 <= m -> cochain m a -> spx_is_degenerate s = true -> Sqv k m a s = 0.
Proof. intros Hm Ha Hs. unfold Sqv. destruct (m - k <? 0); [reflexivity|]. apply U_deg; [now apply (pair_adm m m)|exact Hs]. Qed.
(** squares beyond the range vanish *)
Lemma W_alt d g : (forall k, surj_cell 2 (Z.of_nat d) k -> adj k = true -> g k = 0) -> W d g = W d (ind (kaS 2 d)) * g (altw 1 (d + 2)).
Proof.
  intros Hg. rewrite (FpS_ext MS 2 d g (fun k => g (altw 1 (d + 2)) * ind (kaS 2 d) k)); [|lia|].
  - rewrite FpS_scal by lia. ring.
  - intros k Hk. rewrite ind_eq. destruct (list_eq_dec Z.eq_dec k (kaS 2 d)) as [->|N]; [rewrite kaS_alt; ring|]. rewrite Z.mul_0_r. pose proof Hk as [[Ho Hl] Hh]. apply Hg; [apply Hk|].
    destruct (adj k) eqn:Ad; [reflexivity|]. exfalso. apply N. rewrite kaS_alt, (altw_unique k); [|intros b Hb; apply Ho in Hb; lia|exact Ad]. rewrite Hh. f_equal. unfold zlen in Hl. lia.
Qed.
Lemma sq0_high d m a s : 0 <= m -> cochain m a -> m < Z.of_nat d -> s <> [] -> sq0 d a s = 0.
Proof.
  intros Hm Ha Hd Ns. unfold sq0, U. pose proof (pair_adm m m a a Hm Hm Ha Ha) as A. destruct (Z_lt_dec (zlen s - 1) (Z.of_nat d)) as [L|L].
  - rewrite W_alt by (intros k Hk Ak; eapply Phi_adj; eauto). destruct s as [|x l]; [congruence|]. rewrite zlen_cons in L. unfold zlen in L. rewrite Phi_alt by (auto; lia). destruct (Nat.eqb_spec (length l) d); [lia|ring].
  - rewrite (repF_ext 2 (Z.of_nat d) (W d) _ (fun _ => 0) (W_rep d)); [apply W_zero|]. intros k Hk. unfold Phi. apply ev_zero. intros w v Hw.
    assert (K1 : kdegS 1 (zlen s - 1) [s]) by (split; [reflexivity|rewrite tdeg_cons; change (tdeg spx_dim []) with 0; unfold spx_dim; lia]).
    destruct (acts_deg 2 (Z.of_nat d) 1 (zlen s - 1) 1 k [s] w v ltac:(lia) Hk K1 Hw) as [Lw Dw]. destruct (len2 w Lw) as (p & q & ->). cbn [simp_pair]. rewrite !tdeg_cons in Dw. change (tdeg spx_dim []) with 0 in Dw. unfold spx_dim in Dw.
    destruct (Z.eq_dec (zlen p - 1) m) as [E|N]; [|rewrite (proj2 Ha p N); ring]. destruct (Z.eq_dec (zlen q - 1) m) as [E'|N]; [|rewrite (proj2 Ha q N); ring]. lia.
Qed.
Lemma Sqv_high k m a s : 0 <= m -> cochain m a -> k < 0 \/ m < k -> Sqv k m a s = 0.
Proof.
  intros Hm Ha [Hk|Hk]; unfold Sqv; destruct (Z.ltb_spec (m - k) 0) as [L|L]; try reflexivity; [|lia].
  destruct s as [|x s]; [apply U_deg; [now apply (pair_adm m m)|reflexivity]|]. apply (sq0_high _ m); auto; [lia|discriminate].
Qed.
Lemma reindex d k m n (T : Z -> Z) : Z.of_nat d = m + n - k -> (forall i, ~ (0 <= i <= k /\ i <= m /\ k - n <= i) -> T i = 0) ->
  sumf (fun a => T (m - Z.of_nat a)) (seq 0 (Datatypes.S d)) = sumf T (zrange 0 (k + 1)).
Proof.
  intros Hd HT. set (P := fun i => (0 <=? i) && (i <=? k) && (i <=? m) && (k - n <=? i)).
  assert (HP : forall i, P i = true <-> (0 <= i <= k /\ i <= m /\ k - n <= i)) by (intros i; unfold P; rewrite !andb_true_iff, !Z.leb_le; lia).
  assert (F : forall l, sumf T l = sumf T (filter P l)).
  { intros l. rewrite sumf_filter. apply sumf_ext. intros i _. destruct (P i) eqn:E; [reflexivity|]. apply HT. rewrite <- HP, E. discriminate. }
  rewrite <- (sumf_map T (fun a : nat => m - Z.of_nat a)). rewrite (F (map _ _)), (F (zrange _ _)). apply sumf_perm. apply NoDup_Permutation.
  - apply NoDup_filter. apply FinFun.Injective_map_NoDup; [intros a b; lia|apply seq_NoDup].
  - apply NoDup_filter, NoDup_zrange.
  - intros i. rewrite !filter_In, in_map_iff, in_zrange, HP. split.
    + intros [(a & <- & Ha) Hp]. lia.
    + intros [_ Hp]. split; [|exact Hp]. exists (Z.to_nat (m - i)). rewrite in_seq. lia.
Qed.
(** #C83_squares_exist# Sq^k(a) and a u b are defined for all cochains of the given degrees
    and determined modulo 2 by the values that the code computes. *)
Lemma C83_squares_exist_l (dt k m n : Z) (dc : conv) (a b : list Z -> Z) : 0 <= m -> 0 <= n -> dt_ok dt 2 -> cochain m a -> cochain n b ->
  (exists f, is_square dt dc k m a f /\ cochain (m + k) f) /\ (forall f f', is_square dt dc k m a f -> is_square dt dc k m a f' -> forall s, s <> [] -> congruent 2 (f s) (f' s)) /\
  (exists f, is_cup dt a b f /\ cochain (m + n) f) /\ (forall f f', is_cup dt a b f -> is_cup dt a b f' -> forall s, s <> [] -> congruent 2 (f s) (f' s)).
Proof.
  intros Hm Hn Hdt Ha Hb. repeat apply conj.
  - exists (Sqv k m a). split; [|split].
    + intros s Ns. destruct (square_val dt dc k m a s Hm Ha Hdt Ns) as [(v & (S & x & y & E1 & E2 & E3 & E4)) U]. exists S, x, y. repeat apply conj; auto.
      change (eqm 2 (simp_value (simp_pair a a) y) (Sqv k m a s)). change (eqm 2 (simp_value (simp_pair a a) y) v) in E4. rewrite E4. apply U. exists S, x, y. auto.
    + intros l1 v l2. apply Sqv_deg; auto. apply dup_deg.
    + intros s Ds. unfold Sqv. destruct (Z.ltb_spec (m - k) 0) as [L|L]; [reflexivity|]. unfold sq0, U. rewrite (repF_ext 2 (Z.of_nat (Z.to_nat (m - k))) (W _) _ (fun _ => 0) (W_rep _)); [apply W_zero|]. intros w Hw. unfold Phi. apply ev_zero. intros p v Hp.
      assert (K1 : kdegS 1 (zlen s - 1) [s]) by (split; [reflexivity|rewrite tdeg_cons; change (tdeg spx_dim []) with 0; unfold spx_dim; lia]).
      destruct (acts_deg 2 _ 1 (zlen s - 1) 1 w [s] p v ltac:(lia) Hw K1 Hp) as [Lw Dw]. destruct (len2 p Lw) as (p1 & q & ->). cbn [simp_pair]. rewrite !tdeg_cons in Dw. change (tdeg spx_dim []) with 0 in Dw. unfold spx_dim in Dw.
      destruct (Z.eq_dec (zlen p1 - 1) m) as [E|N]; [|rewrite (proj2 Ha p1 N); ring]. destruct (Z.eq_dec (zlen q - 1) m) as [E'|N]; [|rewrite (proj2 Ha q N); ring]. exfalso. apply Ds. lia.
  - intros f f' Hf Hf' s Ns. destruct (square_val dt dc k m a s Hm Ha Hdt Ns) as [_ U]. change (eqm 2 (f s) (f' s)). rewrite (U _ (Hf s Ns)), (U _ (Hf' s Ns)). reflexivity.
  - exists (cup0 a b). split; [|split].
    + intros s Ns. destruct (cup_val dt m n a b s Hm Hn Ha Hb Hdt Ns) as [(v & (x & y & E2 & E3 & E4)) U]. exists x, y. repeat apply conj; auto.
      change (eqm 2 (simp_value (simp_pair a b) y) (cup0 a b s)). change (eqm 2 (simp_value (simp_pair a b) y) v) in E4. rewrite E4. apply U. exists x, y. auto.
    + intros l1 v l2. apply U_deg; [now apply (pair_adm m n)|]. apply dup_deg.
    + intros s Ds. unfold cup0, U. rewrite (repF_ext 2 (Z.of_nat 0) (W 0) _ (fun _ => 0) (W_rep _)); [apply W_zero|]. intros w Hw. unfold Phi. apply ev_zero. intros p v Hp.
      assert (K1 : kdegS 1 (zlen s - 1) [s]) by (split; [reflexivity|rewrite tdeg_cons; change (tdeg spx_dim []) with 0; unfold spx_dim; lia]).
      destruct (acts_deg 2 _ 1 (zlen s - 1) 1 w [s] p v ltac:(lia) Hw K1 Hp) as [Lw Dw]. destruct (len2 p Lw) as (p1 & q & ->). cbn [simp_pair]. rewrite !tdeg_cons in Dw. change (tdeg spx_dim []) with 0 in Dw. unfold spx_dim in Dw.
      destruct (Z.eq_dec (zlen p1 - 1) m) as [E|N]; [|rewrite (proj2 Ha p1 N); ring]. destruct (Z.eq_dec (zlen q - 1) n) as [E'|N]; [|rewrite (proj2 Hb q N); ring]. exfalso. apply Ds. lia.
  - intros f f' Hf Hf' s Ns. destruct (cup_val dt m n a b s Hm Hn Ha Hb Hdt Ns) as [_ U]. change (eqm 2 (f s) (f' s)). rewrite (U _ (Hf s Ns)), (U _ (Hf' s Ns)). reflexivity.
Qed.
(** #C83_cartan# The Cartan formula: Sq^k(a u b) = sum over 0 <= i <= k of Sq^i(a) u Sq^(k-i)(b)
    in the cohomology of every simplicial set X with coefficients modulo 2.  Here a, b are
    cocycles modulo 2 of degrees m, n on X, the cochain ab is their cup product, A i = Sq^i(a)
    and B j = Sq^j(b), all computed by the code, and the two sides are compared on an
    arbitrary cycle c of X. *)
Lemma C83_cartan_l (dt e m n k : Z) (dc : conv) (X : list Z -> Prop) (c bc : simp) (a b ab : list Z -> Z) (A B : Z -> list Z -> Z) :
  0 <= e -> 0 <= m -> 0 <= n -> dt_ok dt 2 -> simplicial_set X -> wf cls_simplicial c -> torsion c = 2 ->
  keys_in (fun key => exists s, key = [s] /\ X s /\ zlen s - 1 = e) c -> simp_boundary dt c = Ok bc -> data bc = [] ->
  cochain m a -> cochain n b -> (forall s, X s -> congruent 2 (simp_coboundary a s) 0) -> (forall s, X s -> congruent 2 (simp_coboundary b s) 0) ->
  is_cup dt a b ab -> (forall i, 0 <= i <= k -> is_square dt dc i m a (A i)) -> (forall j, 0 <= j <= k -> is_square dt dc j n b (B j)) ->
  exists S y z, surj_steenrod_operation dt dc 2 (- k) (- (m + n)) false (Some MS) = Ok S /\ surj_call_simplicial dt S c 1 = Ok y /\
    extended1 dt cls_simplicial (fun w => simp_iterated_diagonal dt w 1 1) c = Ok z /\
    congruent 2 (simp_value (simp_pair ab ab) y) (zsum (map (fun i => simp_value (simp_pair (A i) (B (k - i))) z) (zrange 0 (k + 1)))).
Proof.
  intros He Hm Hn Hdt HX Wc Tc Kc Eb Zb Ha Hb Va Vb Hab HA HB. assert (Hdc : dt_ok dt (torsion c)) by now rewrite Tc. pose proof (Kd_c e X c Kc) as Kd.
  destruct (linop_diag dt (torsion c) 1 e 1 1 ltac:(lia) Hdc ltac:(lia) ltac:(lia) c Wc eq_refl (s_attr' c) Kd) as (z & Ez & Dz & _). assert (Wz : wf cls_simplicial z) by (apply (den_wf cls_simplicial (torsion c) tt _ z ltac:(lia) Dz)).
  destruct (op2_ok dt dc (- k) (- (m + n)) Hdt) as [S ES].
  assert (R : eqm 2 (zsum (map (fun i => simp_value (simp_pair (A i) (B (k - i))) z) (zrange 0 (k + 1)))) (sumf (fun i => V c 0 (simp_pair (Sqv i m a) (Sqv (k - i) n b))) (zrange 0 (k + 1)))).
  { change (zsum (map ?f ?l)) with (sumf f l). apply sumf_eqm. intros i Hi. apply in_zrange in Hi.
    rewrite (val_eqm z (A i) (B (k - i)) (Sqv i m a) (Sqv (k - i) n b) Wz).
    - pose proof (diag_V dt e c z (simp_pair (Sqv i m a) (Sqv (k - i) n b)) Wc Hdc Kd Ez) as E. rewrite Tc in E. apply E. apply pair_adm'; intros; now apply Sqv_deg.
    - intros s Ns. apply (square_val dt dc i m a s Hm Ha Hdt Ns). apply HA; auto. lia.
    - intros s Ns. apply (square_val dt dc (k - i) n b s Hn Hb Hdt Ns). apply HB; auto. lia. }
  assert (T0 : forall i, ~ (0 <= i <= k /\ i <= m /\ k - n <= i) -> V c 0 (simp_pair (Sqv i m a) (Sqv (k - i) n b)) = 0).
  { intros i Hi. assert (Q : forall w, simp_pair (Sqv i m a) (Sqv (k - i) n b) w = 0).
    { intros [|x [|y [|q w]]]; try reflexivity. cbn [simp_pair]. destruct (Z_lt_dec i 0); [rewrite Sqv_high by (auto; lia); ring|]. destruct (Z_lt_dec m i); [rewrite Sqv_high by (auto; lia); ring|]. rewrite (Sqv_high (k - i)) by (auto; lia). ring. }
    unfold V. apply ev_zero. intros K v _. unfold U. cbn [FpS]. unfold Phi. apply ev_zero. intros w v' _. apply Q. }
  destruct (Z_lt_dec (m + n - k) 0) as [L|L].
  - apply op2_low in ES as ZS; [|lia]. destruct (C50_zero_l dt 1 S c (or_introl ZS)) as (y & Ey & Zy & _). exists S, y, z. split; [exact ES|]. split; [exact Ey|]. split; [exact Ez|].
    change (congruent 2) with (eqm 2). rewrite R, value_zero by exact Zy. apply eqm_eq. symmetry. unfold sumf. assert (Q : forall l, zsum (map (fun i => V c 0 (simp_pair (Sqv i m a) (Sqv (k - i) n b))) l) = 0); [|apply Q].
    induction l as [|i l IH]; [reflexivity|]. change (zsum (map ?f (i :: l))) with (f i + zsum (map f l)). rewrite IH, T0; [reflexivity|]. lia.
  - apply op2' in ES as DS; [|exact Hdt|lia]. replace (- k - - (m + n)) with (m + n - k) in DS by ring. set (d := Z.to_nat (m + n - k)) in *.
    destruct (call_may dt 2 d e S c ltac:(lia) Hdt DS Wc Tc Kd) as (y & Ey & Dy). exists S, y, z. split; [exact ES|]. split; [exact Ey|]. split; [exact Ez|].
    change (congruent 2) with (eqm 2). rewrite R. clear R.
    pose proof (pair_adm m n a b Hm Hn Ha Hb) as Aab. assert (Cu : adm cls_simplicial (simp_pair (cup0 a b) (cup0 a b))) by (apply pair_adm'; intros; now apply U_deg).
    rewrite (val_eqm y ab ab (cup0 a b) (cup0 a b)); [|exact (den_wf cls_simplicial 2 tt _ y ltac:(lia) Dy)| |]; try (intros s Ns; apply (cup_val dt m n a b s Hm Hn Ha Hb Hdt Ns); now apply Hab).
    change (simp_value ?g y) with (ev g (data y)). rewrite (den_ev cls_simplicial 2 tt _ y _ Dy Cu). change (ev (U d ?g) (data c)) with (V c d g).
    rewrite (cartan_chains dt e m n X c bc a b He HX Wc Tc Hdc Kc Eb Zb Hm Hn Ha Hb Va Vb d). apply eqm_eq.
    rewrite <- (reindex d k m n (fun i => V c 0 (simp_pair (Sqv i m a) (Sqv (k - i) n b))) ltac:(lia) T0). apply sumf_ext. intros q Hq. apply in_seq in Hq. f_equal.
    unfold Sqv. replace (m - (m - Z.of_nat q)) with (Z.of_nat q) by lia. replace (n - (k - (m - Z.of_nat q))) with (Z.of_nat (d - q)) by lia. rewrite !Nat2Z.id.
    destruct (Z.ltb_spec (Z.of_nat q) 0); [lia|]. destruct (Z.ltb_spec (Z.of_nat (d - q)) 0); [lia|]. reflexivity.
Qed.
(** #C83_example# The hypotheses hold on the real projective plane with six vertices, a of
    degree 1 not a coboundary, b the unit of degree 0, k = 1; the value is 1. *)
Example C83_example_l :
  let T := [[0; 1; 2]; [0; 2; 3]; [0; 3; 4]; [0; 4; 5]; [0; 1; 5]; [1; 2; 4]; [2; 3; 5]; [1; 3; 4]; [2; 4; 5]; [1; 3; 5]] in
  let X := fun s : list Z => s <> [] /\ existsb (fun t => forallb (fun v => existsb (Z.eqb v) t) s) T = true in
  let a := fun s => match s with [x; y] => if existsb (fun p => (fst p =? x) && (snd p =? y) || (fst p =? y) && (snd p =? x)) [(1, 3); (1, 4); (2, 4); (2, 5); (3, 5)] then 1 else 0 | _ => 0 end in
  let b := fun s : list Z => match s with [_] => 1 | _ => 0 end in
  exists c bc ab A B S y z, simp_new 2 (map (fun t => ([t], 1)) T) None = Ok c /\ dt_ok 2 2 /\ simplicial_set X /\ wf cls_simplicial c /\ torsion c = 2 /\
    keys_in (fun key => exists s, key = [s] /\ X s /\ zlen s - 1 = 2) c /\ simp_boundary 2 c = Ok bc /\ data bc = [] /\ cochain 1 a /\ cochain 0 b /\
    (forall s, X s -> congruent 2 (simp_coboundary a s) 0) /\ (forall s, X s -> congruent 2 (simp_coboundary b s) 0) /\
    is_cup 2 a b ab /\ (forall i, is_square 2 BF i 1 a (A i)) /\ (forall j, is_square 2 BF j 0 b (B j)) /\
    surj_steenrod_operation 2 BF 2 (-1) (-1) false (Some MS) = Ok S /\ surj_call_simplicial 2 S c 1 = Ok y /\
    extended1 2 cls_simplicial (fun w => simp_iterated_diagonal 2 w 1 1) c = Ok z /\
    simp_value (simp_pair ab ab) y = 1 /\ map (fun i => simp_value (simp_pair (A i) (B (1 - i))) z) [0; 1] = [0; 1].
Proof.
  intros T X a b.
  assert (Dt : dt_ok 2 2) by (split; [lia|right; split; [lia|now exists 1]]).
  assert (Ca : cochain 1 a).
  { split; [|intros [|x [|y [|w s]]] L; try reflexivity; exfalso; apply L; reflexivity].
    intros [|x [|y l1]] v l2; [|reflexivity|destruct l1; reflexivity]. destruct l2; [|reflexivity]. cbn [app]. unfold a.
    assert (E : existsb (fun p => (fst p =? v) && (snd p =? v) || (fst p =? v) && (snd p =? v)) [(1, 3); (1, 4); (2, 4); (2, 5); (3, 5)] = false); [|now rewrite E].
    apply Bool.not_true_is_false. intros E. apply existsb_exists in E. destruct E as (p & Hp & E). rewrite orb_diag in E. apply andb_true_iff in E. destruct E as [E1 E2]. apply Z.eqb_eq in E1, E2. cbn in Hp. destruct Hp as [<- | [<- | [<- | [<- | [<- | []]]]]]; cbn in *; lia. }
  assert (Cb : cochain 0 b).
  { split; [intros [|x [|y l1]] v l2; reflexivity|]. intros [|x [|y s]] L; [reflexivity | | reflexivity]. exfalso. apply L. reflexivity. }
  assert (HX : simplicial_set X).
  { split; intros l1 v l2 (N & E); [intros N'|]; (split; [try exact N'; destruct l1; discriminate|]); apply existsb_exists in E; destruct E as (t & Ht & E); apply existsb_exists; exists t; (split; [exact Ht|]); rewrite forallb_app in *; cbn [forallb] in *; apply andb_true_iff in E; destruct E as [E1 E]; apply andb_true_iff in E; destruct E as [E2 E3]; rewrite E1, E3, ?E2; reflexivity. }
  assert (Even : forall v, Z.even v = true -> congruent 2 v 0) by (intros v E; apply Zeven_bool_iff, Zeven_ex in E; destruct E as [q ->]; exists q; ring).
  assert (Va : forall s, X s -> congruent 2 (simp_coboundary a s) 0).
  { intros s (N & E). destruct (Z.eq_dec (zlen s) 3) as [L|L].
    - assert (Q : forallb (fun t => forallb (fun x => forallb (fun y => forallb (fun z => Z.even (simp_coboundary a [x; y; z])) t) t) t) T = true) by (vm_compute; reflexivity).
      apply existsb_exists in E. destruct E as (t & Ht & E). rewrite forallb_forall in Q. specialize (Q t Ht). destruct s as [|x [|y [|z [|w s]]]]; try discriminate L; [|exfalso; rewrite !zlen_cons in L; pose proof (zlen_nonneg s); lia].
      assert (I : forall v, In v [x; y; z] -> In v t). { intros v Hv. rewrite forallb_forall in E. specialize (E v Hv). apply existsb_exists in E. destruct E as (u & Hu & Eu). apply Z.eqb_eq in Eu. now subst. }
      apply Even. rewrite forallb_forall in Q. specialize (Q x (I x ltac:(cbn; tauto))). rewrite forallb_forall in Q. specialize (Q y (I y ltac:(cbn; tauto))). rewrite forallb_forall in Q. exact (Q z (I z ltac:(cbn; tauto))).
    - exists 0. rewrite (proj2 (proj1 (C80_coboundary_l 1 a ltac:(lia) Ca)) s) by lia. reflexivity. }
  assert (Vb : forall s, X s -> congruent 2 (simp_coboundary b s) 0).
  { intros s _. exists 0. destruct s as [|x [|y [|w s]]]; [reflexivity|reflexivity|reflexivity|].
    rewrite (proj2 (proj1 (C80_coboundary_l 0 b ltac:(lia) Cb)) (x :: y :: w :: s)); [reflexivity|]. unfold zlen. cbn [length]. lia. }
  set (sq := fun (m : Z) (f : list Z -> Z) (k : Z) (s : list Z) => match surj_steenrod_operation 2 BF 2 (- k) (- m) false (Some MS), simp_new 2 [([s], 1)] (Some 2) with
    | Ok S, Ok x => match surj_call_simplicial 2 S x 1 with Ok y => simp_value (simp_pair f f) y | Err _ => 0 end | _, _ => 0 end).
  assert (HS : forall m f k, 0 <= m -> cochain m f -> is_square 2 BF k m f (sq m f k)).
  { intros m f k Hm Hf s Ns. destruct (square_val 2 BF k m f s Hm Hf Dt Ns) as [(v & S & x & y & E1 & E2 & E3 & _) _]. exists S, x, y. repeat apply conj; auto. unfold sq. rewrite E1, E2, E3. exists 0. ring. }
  exists (mkElt (map (fun t => ([t], 1)) T) 2 tt), (mkElt [] 2 tt).
  exists (fun s => match simp_new 2 [([s], 1)] (Some 2) with Ok x => match extended1 2 cls_simplicial (fun y => simp_iterated_diagonal 2 y 1 1) x with Ok y => simp_value (simp_pair a b) y | Err _ => 0 end | Err _ => 0 end).
  exists (sq 1 a), (sq 0 b). do 3 eexists.
  split; [vm_compute; reflexivity|]. split; [exact Dt|]. split; [exact HX|]. split; [apply wfb_wf; reflexivity|]. split; [reflexivity|]. split.
  { intros k v Hk. cbn [data] in Hk. apply in_map_iff in Hk. destruct Hk as (t & [= <- <-] & Ht). exists t. split; [reflexivity|].
    assert (Q : forallb (fun t => existsb (fun t' => forallb (fun v => existsb (Z.eqb v) t') t) T && (zlen t - 1 =? 2)) T = true) by (vm_compute; reflexivity). rewrite forallb_forall in Q. specialize (Q t Ht). apply andb_true_iff in Q. destruct Q as [Q1 Q2]. apply Z.eqb_eq in Q2. split; [split; [|exact Q1]|exact Q2]. intros ->. discriminate Q2. }
  split; [vm_compute; reflexivity|]. split; [reflexivity|]. split; [exact Ca|]. split; [exact Cb|]. split; [exact Va|]. split; [exact Vb|]. split.
  { intros s Ns. destruct (cup_val 2 1 0 a b s ltac:(lia) ltac:(lia) Ca Cb Dt Ns) as [(v & x & y & E1 & E2 & _) _]. exists x, y. repeat apply conj; auto. rewrite E1, E2. exists 0. ring. }
  split; [intros i; apply HS; auto; lia|]. split; [intros i; apply HS; auto; lia|].
  split; [vm_compute; reflexivity|]. split; [vm_compute; reflexivity|]. split; [vm_compute; reflexivity|]. split; vm_compute; reflexivity.
Qed.
