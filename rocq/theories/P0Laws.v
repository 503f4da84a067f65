(** * P^0 is the identity (C87) *)
From Coq Require Import Setoid Morphisms Znumtheory Sorting.Sorted Factorial.
From Verif Require Import PyBase Dict FreeModule Symmetric Simplicial Utils Surjection BarrattEccles Eqm Wilson Spec SpecChain SpecOperad SpecSurj SpecAction SpecSteenrod SpecCochain FreeModuleFacts FreeModuleLaws ListFacts
  ClassFacts LinearFacts BilFacts SymmetricFacts CycleFacts SymmetricLaws RingFacts Tensor TensorAct KoszulFacts LoopFacts AW SimplicialFacts SimplicialDiag SimplicialLaws BEOrbit BEDiag MayFacts BELaws3 SurjFacts SurjBoundary SurjLaws SurjAct SurjMay
  SteenrodFacts SteenrodLaws ActFacts ActSign ActCore ActCode ActLaws EquivAct SteenrodAct StnLaws SteenrodWords SteenrodLin SteenrodClass Bockstein CupI CupILaws BockLaws P0Words P0Simplex.

Lemma fermat_step p a : prime p -> eqm p ((a + 1) ^ p) (a ^ p + 1).
Proof.
  intros Hp. pose proof (prime_ge_2 p Hp) as Hp1. set (al := fun l : list Z => if isu l then a else 1).
  assert (E : forall n, sumf (on_tensor al) (words n) = (a + 1) ^ Z.of_nat n).
  { induction n as [|n IH]; [reflexivity|]. cbn [words]. rewrite sumf_app, !sumf_map. rewrite (sumf_ext _ (fun w => a * on_tensor al w)) by reflexivity. rewrite (sumf_ext (fun w => on_tensor al ([1] :: w)) (fun w => 1 * on_tensor al w)) by reflexivity.
    rewrite !sumf_scal, IH, Nat2Z.inj_succ, Z.pow_succ_r by lia. ring. }
  pose proof (words_sum p (on_tensor al) Hp) as W. rewrite E, Z2Nat.id, !on_repeat, Z2Nat.id in W by lia. change (al [0]) with a in W. change (al [1]) with 1 in W. rewrite Z.pow_1_l in W by lia. apply W.
  intros w _ Lw. rewrite (sumf_ext _ (fun _ => on_tensor al w * 1)).
  - rewrite sumf_scal, sumf_1, zlen_zrange, Z.max_r by lia. exists (on_tensor al w). ring.
  - intros j _. rewrite Z.mul_1_r. apply on_perm. apply (placef_perm p); [lia|apply perm_rot; lia|exact Lw].
Qed.
Lemma fermat p a : prime p -> eqm p (a ^ p) a.
Proof.
  intros Hp. pose proof (prime_ge_2 p Hp) as Hp1. assert (N : forall n, eqm p (Z.of_nat n ^ p) (Z.of_nat n)).
  { induction n as [|n IH]; [change (Z.of_nat 0) with 0; rewrite Z.pow_0_l by lia; reflexivity|]. rewrite Nat2Z.inj_succ. unfold Z.succ. rewrite (fermat_step p _ Hp), IH. reflexivity. }
  assert (R : eqm p (a mod p) a) by (apply Eqm.eqm_mod; lia). assert (P : forall n, eqm p ((a mod p) ^ Z.of_nat n) (a ^ Z.of_nat n)).
  { induction n as [|n IH]; [reflexivity|]. rewrite Nat2Z.inj_succ, !Z.pow_succ_r by lia. now rewrite IH, R. }
  specialize (P (Z.to_nat p)). rewrite Z2Nat.id in P by lia. rewrite <- P. specialize (N (Z.to_nat (a mod p))). rewrite Z2Nat.id in N by (apply Z.mod_pos_bound; lia). now rewrite N.
Qed.
(** the action of an element with the given denotation on a chain *)
Lemma op_call dt p e c0 d (S : surj) (c : simp) : 2 <= p -> dt_ok dt p -> den cls_surj p MS (fun g => c0 * FpS MS p d g) S ->
  wf cls_simplicial c -> torsion c = p -> keys_in (fun k => exists s, k = [s] /\ zlen s - 1 = e) c ->
  returns (surj_call_simplicial dt S c 1) (den cls_simplicial p tt (fun g => c0 * ev (fun K => QS p (hd [] K) d g) (data c))).
Proof.
  intros Hp1 Hdt DS Wc Tc Kc. assert (Ht : 0 <= p) by lia.
  assert (Kc' : keys_in (kdegS 1 e) c).
  { intros k v Hk. destruct (Kc _ _ Hk) as (s & -> & Es). split; [reflexivity|]. rewrite tdeg_cons. change (tdeg spx_dim []) with 0. unfold spx_dim. lia. }
  assert (KS : keys_in (surj_cell p (Z.of_nat d)) S).
  { apply (den_keys cls_surj ok_surj p MS _ S _ Ht (kpred_cell p (Z.of_nat d)) DS). intros g _ H0. apply eqm_eq.
    destruct (FpS_list MS p d ltac:(lia)) as (L & L1 & L2). rewrite L2, ev_zero; [ring|]. intros k v Hin. apply H0. exact (proj1 (L1 _ _ Hin)). }
  destruct (bil_act dt p p (Z.of_nat d) 1 e 1 Ht Hdt ltac:(lia) ltac:(lia) S c (den_wf _ _ _ _ _ Ht DS) (proj1 DS) (proj1 (proj2 DS)) KS Wc Tc (s_attr' c) Kc') as (z & Ez & Dz).
  exists z. split; [exact Ez|]. eapply den_ext; [|exact Dz]. intros G AG. cbn beta.
  set (F := fun k => ev (fun K => Phi p 1 G k K) (data c)).
  assert (AF : admP cls_surj (surj_cell p (Z.of_nat d)) F).
  { apply admP_keyeq. intros k Hk Hb. change (bad cls_surj k) with (surj_bad k) in Hb. rewrite (surj_bad_onto p) in Hb by (try lia; apply Hk). injection Hb as Hb. unfold F. apply ev_zero. intros K v _. now apply (Bd p Hp1 G k (Z.of_nat d)). }
  destruct (FpS_list MS p d ltac:(lia)) as (L & L1 & L2). transitivity (c0 * FpS MS p d F).
  - apply (den_ev_on cls_surj ok_surj p MS _ S (surj_cell p (Z.of_nat d)) F (dkeys L) (kpred_cell p (Z.of_nat d)) DS KS AF).
    intros h Hh. apply eqm_eq. rewrite !L2. f_equal. apply ev_ext. intros k v' Hin. apply Hh; [exact (proj1 (L1 _ _ Hin))|]. now apply (in_map fst) in Hin.
  - apply eqm_eq. f_equal. rewrite L2. unfold F. rewrite (ev_exch (fun k K => Phi p 1 G k K)). apply ev_ext. intros K v HK. destruct (Kc _ _ HK) as (s & -> & _). cbn [hd]. unfold QS. now rewrite L2.
Qed.
Lemma chain_key e (c : simp) K v : wf cls_simplicial c -> keys_in (fun k => exists s, k = [s] /\ zlen s - 1 = e) c -> In (K, v) (data c) -> exists s, K = [s] /\ spx_is_degenerate s = false /\ spx_dim s = e.
Proof.
  intros Wc Kc HK. destruct (Kc _ _ HK) as (s & -> & Es). exists s. split; [reflexivity|]. split; [|exact Es]. destruct Wc as (_ & _ & W). destruct (W _ _ HK) as [_ W2]. cbn in W2. injection W2 as W2. now rewrite orb_false_r in W2.
Qed.
Lemma rep_one s n : concat (repeat [s] n) = repeat (s : list Z) n.
Proof. induction n as [|n IH]; [reflexivity|]. cbn [repeat concat app]. now rewrite IH. Qed.
Lemma top_call dt p e c0 d a (S : surj) (c : simp) : prime p -> p <> 2 -> dt_ok dt p -> den cls_surj p MS (fun g => c0 * FpS MS p d g) S -> 0 <= e -> e * (p - 1) <= Z.of_nat d ->
  wf cls_simplicial c -> torsion c = p -> keys_in (fun k => exists s, k = [s] /\ zlen s - 1 = e) c ->
  eqm p a (c0 * (zfact (Z.to_nat ((p - 1) / 2)) ^ e * sgn ((p - 1) / 2 * (e / 2)))) ->
  gives cls_simplicial (surj_call_simplicial dt S c 1) p tt (if Z.of_nat d =? e * (p - 1) then extend (fun k => [(concat (repeat k (Z.to_nat p)), a)]) c else []).
Proof.
  intros Hp N2 Hdt DS He Hd Wc Tc Kc Ea. pose proof (prime_ge_2 p Hp) as Hp1. destruct (prime_odd p Hp N2) as (h & Ehp & Hh1 & Eh). rewrite Eh in Ea.
  assert (Hod : Z.even p = false) by (rewrite Ehp, Z.even_add, Z.even_mul; reflexivity).
  eapply (den_gives cls_simplicial ok_simplicial); [lia|exact (op_call dt p e c0 d S c Hp1 Hdt DS Wc Tc Kc)|]. intros g Hg. cbn beta. destruct (Z.eqb_spec (Z.of_nat d) (e * (p - 1))) as [E|E].
  - rewrite ev_extend, <- ev_scal. apply ev_eqm. intros K v HK. destruct (chain_key e c K v Wc Kc HK) as (s & -> & Ds & Es). rewrite ev_cons, ev_nil, Z.add_0_r, rep_one. cbn [hd].
    replace d with (top p s) by (unfold top; rewrite Es; lia). rewrite (QS_top p Hp1 s g Ds Hg). rewrite (aa_val p Hp1 (Z.to_nat h) s) by (auto; lia). rewrite Es, Z2Nat.id, Ea by lia. apply eqm_eq. ring.
  - apply eqm_eq. rewrite ev_nil. replace (ev _ (data c)) with 0; [ring|]. symmetry. apply ev_zero. intros K v HK. destruct (chain_key e c K v Wc Kc HK) as (s & -> & Ds & Es). cbn [hd]. apply (QS_over p Hp1); [exact Ds|exact Hg|]. rewrite Es. lia.
Qed.
Lemma p0_coeff p m : prime p -> p <> 2 -> 0 <= m -> exact_coefficient p 0 (- m) ->
  exists c0, steenrod_coeff p 0 (- m) = Ok c0 /\ eqm p (sgn (m * ((p - 1) / 2))) (c0 * (zfact (Z.to_nat ((p - 1) / 2)) ^ m * sgn ((p - 1) / 2 * (m / 2)))).
Proof.
  intros Hp N2 Hm HE. destruct (coeff_ok p 0 (- m) Hp N2 HE) as (c0 & E0 & Hc & _). exists c0. split; [exact E0|]. unfold steenrod_sign_nu in Hc. cbv zeta in Hc. rewrite <- zfact_fact in Hc.
  destruct (prime_odd p Hp N2) as (h & Ehp & Hh1 & Eh). rewrite Eh in *. set (M := zfact (Z.to_nat h)) in *. rewrite Z.opp_involutive, (Z.max_r 0 m), (Z.max_l 0 (- m)), Z.pow_0_r, Z.mul_1_r, Z.add_0_l in Hc by lia.
  change (eqm p (c0 * M ^ m) (sgn (- m * (- m - 1) / 2 * h))) in Hc. rewrite Z.mul_assoc, Hc, <- sgn_add. apply eqm_eq. apply sgn_par. destruct (Z.Even_or_Odd m) as [[k ->]|[k ->]].
  - replace (- (2 * k) * (- (2 * k) - 1)) with (k * (2 * k + 1) * 2) by ring. rewrite (Z.mul_comm 2 k), !Z.div_mul by lia. exists (- (h * k * k)). ring.
  - replace (- (2 * k + 1) * (- (2 * k + 1) - 1)) with ((2 * k + 1) * (k + 1) * 2) by ring. rewrite Z.div_mul by lia. replace (2 * k + 1) with (1 + k * 2) by ring. rewrite Z.div_add by lia. change (1 / 2) with 0. exists (- (h * k * (k + 1))). ring.
Qed.
(** #C87_identity# For an odd prime [p] and m >= 0,
    steenrod_operation(p, 0, -m) sends every chain of [m]-simplices modulo [p]
    to the sum of the tensor powers [s (x) ... (x) s] of its simplices, with the
    same coefficients up to the sign (-1)^(m (p - 1) / 2). *)
Lemma C87_identity_l (dt p m : Z) (dc : conv) (S : surj) (c : simp) :
  prime p -> p <> 2 -> 0 <= m -> dt_ok dt p -> exact_coefficient p 0 (- m) ->
  surj_steenrod_operation dt dc p 0 (- m) false (Some MS) = Ok S ->
  wf cls_simplicial c -> torsion c = p -> keys_in (fun k => exists s, k = [s] /\ zlen s - 1 = m) c ->
  gives cls_simplicial (surj_call_simplicial dt S c 1) p tt (extend (fun k => [(concat (repeat k (Z.to_nat p)), sgn (m * ((p - 1) / 2)))]) c).
Proof.
  intros Hp N2 Hm Hdt HE ES Wc Tc Kc. pose proof (prime_ge_2 p Hp) as Hp1. destruct (op_form dt dc p 0 (- m) false S Hp Hdt ES) as (c0 & E0 & F). rewrite (proj2 (Z.eqb_neq p 2) N2) in *. cbv zeta in F.
  replace ((2 * 0 - - m) * (p - 1) - 0) with (m * (p - 1)) in F by ring. destruct F as [[L _]|[L DS]]; [nia|]. destruct (p0_coeff p m Hp N2 Hm HE) as (c1 & E1 & Q). rewrite E0 in E1. injection E1 as <-.
  pose proof (top_call dt p m c0 (Z.to_nat (m * (p - 1))) _ S c Hp N2 Hdt DS Hm ltac:(lia) Wc Tc Kc Q) as G. rewrite Z2Nat.id, Z.eqb_refl in G by lia. exact G.
Qed.
(** #C87_value# So P^0 is the identity up to this sign: the value of the tensor
    power of an [m]-cochain on the result is (-1)^(m (p - 1) / 2) times the
    value of the cochain itself. *)
Lemma C87_value_l (dt p m : Z) (dc : conv) (S : surj) (c : simp) (alpha : list Z -> Z) :
  prime p -> p <> 2 -> 0 <= m -> dt_ok dt p -> exact_coefficient p 0 (- m) -> cochain m alpha ->
  surj_steenrod_operation dt dc p 0 (- m) false (Some MS) = Ok S ->
  wf cls_simplicial c -> torsion c = p -> keys_in (fun k => exists s, k = [s] /\ zlen s - 1 = m) c ->
  exists z, surj_call_simplicial dt S c 1 = Ok z /\ evaluate alpha z mod p = (sgn (m * ((p - 1) / 2)) * evaluate alpha c) mod p.
Proof.
  intros Hp N2 Hm Hdt HE Ha ES Wc Tc Kc. pose proof (prime_ge_2 p Hp) as Hp1. destruct (op_form dt dc p 0 (- m) false S Hp Hdt ES) as (c0 & E0 & F). rewrite (proj2 (Z.eqb_neq p 2) N2) in *. cbv zeta in F.
  replace ((2 * 0 - - m) * (p - 1) - 0) with (m * (p - 1)) in F by ring. destruct F as [[L _]|[L DS]]; [nia|]. destruct (p0_coeff p m Hp N2 Hm HE) as (c1 & E1 & Q). rewrite E0 in E1. injection E1 as <-.
  destruct (op_call dt p m c0 _ S c Hp1 Hdt DS Wc Tc Kc) as (z & Ez & Dz). exists z. split; [exact Ez|]. apply mod_eqm; [lia|].
  assert (AG : adm cls_simplicial (on_tensor alpha)) by (apply (adm_on p m (fun _ => False) alpha Hm); split; [exact Ha|intros ? []]).
  change (evaluate alpha z) with (ev (on_tensor alpha) (data z)). change (evaluate alpha c) with (ev (on_tensor alpha) (data c)).
  etransitivity; [exact (den_ev cls_simplicial p tt _ z _ Dz AG)|]. cbn beta. rewrite <- !ev_scal. apply ev_eqm. intros K v HK. destruct (chain_key m c K v Wc Kc HK) as (s & -> & Ds & Es). cbn [hd].
  destruct (prime_odd p Hp N2) as (h & Ehp & Hh1 & Eh). rewrite Eh in *. assert (Hod : Z.even p = false) by (rewrite Ehp, Z.even_add, Z.even_mul; reflexivity).
  replace (Z.to_nat (m * (p - 1))) with (top p s) by (unfold top; now rewrite Es). rewrite (QS_top p Hp1 s _ Ds AG), (aa_val p Hp1 (Z.to_nat h) s) by (auto; lia). rewrite Es, Z2Nat.id, Z.mul_assoc, <- Q by lia.
  rewrite on_repeat, Z2Nat.id, (fermat p _ Hp) by lia. unfold on_tensor. cbn [map fold_right]. now rewrite Z.mul_1_r.
Qed.
(** #C87_structure# may_steenrod_structure(p, d) itself, on a chain of
    e-simplices modulo the odd prime [p]: it is zero for d > e (p - 1), and for
    d = e (p - 1) it is the tensor power with coefficient
    (-1)^((p - 1) / 2 * (e // 2)) * ((p - 1) / 2)! ^ e. *)
Lemma C87_structure_l (dt p d e : Z) (dc : conv) (S : surj) (c : simp) :
  prime p -> p <> 2 -> dt_ok dt p -> 0 <= e -> e * (p - 1) <= d ->
  surj_may_steenrod dt dc p d (Some p) (Some MS) = Ok S ->
  wf cls_simplicial c -> torsion c = p -> keys_in (fun k => exists s, k = [s] /\ zlen s - 1 = e) c ->
  gives cls_simplicial (surj_call_simplicial dt S c 1) p tt
    (if d =? e * (p - 1) then extend (fun k => [(concat (repeat k (Z.to_nat p)), sgn ((p - 1) / 2 * (e / 2)) * Z.of_nat (fact (Z.to_nat ((p - 1) / 2))) ^ e)]) c else []).
Proof.
  intros Hp N2 Hdt He Hd ES Wc Tc Kc. pose proof (prime_ge_2 p Hp) as Hp1. pose proof (may_c dt dc p d S Hp Hdt ltac:(nia) ES) as DS.
  pose proof (top_call dt p e 1 (Z.to_nat d) (sgn ((p - 1) / 2 * (e / 2)) * Z.of_nat (fact (Z.to_nat ((p - 1) / 2))) ^ e) S c Hp N2 Hdt DS He ltac:(nia) Wc Tc Kc) as G. rewrite Z2Nat.id in G by nia. apply G.
  rewrite zfact_fact. apply eqm_eq. ring.
Qed.
(** #C87_vanish# Operations that lower the degree are zero: for an odd prime
    and chains of e-simplices, steenrod_operation(p, s, q, b) is zero when
    (2 s - q) (p - 1) - b > e (p - 1); in particular, with q = -e, for s > 0. *)
Lemma C87_vanish_l (dt p s q e : Z) (b : bool) (dc : conv) (S : surj) (c : simp) :
  prime p -> p <> 2 -> dt_ok dt p -> 0 <= e -> e * (p - 1) < (2 * s - q) * (p - 1) - (if b then 1 else 0) ->
  surj_steenrod_operation dt dc p s q b (Some MS) = Ok S ->
  wf cls_simplicial c -> torsion c = p -> keys_in (fun k => exists s, k = [s] /\ zlen s - 1 = e) c ->
  gives cls_simplicial (surj_call_simplicial dt S c 1) p tt [].
Proof.
  intros Hp N2 Hdt He Hd ES Wc Tc Kc. pose proof (prime_ge_2 p Hp) as Hp1. destruct (op_form dt dc p s q b S Hp Hdt ES) as (c0 & E0 & F). rewrite (proj2 (Z.eqb_neq p 2) N2) in *. cbv zeta in F.
  set (D := (2 * s - q) * (p - 1) - (if b then 1 else 0)) in *. destruct F as [[L _]|[L DS]]; [nia|].
  pose proof (top_call dt p e c0 (Z.to_nat D) _ S c Hp N2 Hdt DS He ltac:(lia) Wc Tc Kc (eqm_eq p _ _ eq_refl)) as G. rewrite Z2Nat.id in G by lia. destruct (Z.eqb_spec D (e * (p - 1))); [lia|exact G].
Qed.
(** #C87_example# P^0 for p = 3 in degrees 1 and 2. *)
Example C87_example_l :
  (exists S, surj_steenrod_operation 0 BF 3 0 (-1) false (Some MS) = Ok S /\
     surj_call_simplicial 0 S (mkElt [([[0; 1]], 1); ([[0; 2]], 2)] 3 tt) 1 = Ok (mkElt [([[0; 1]; [0; 1]; [0; 1]], 2); ([[0; 2]; [0; 2]; [0; 2]], 1)] 3 tt)) /\
  (exists S, surj_steenrod_operation 0 BF 3 0 (-2) false (Some MS) = Ok S /\
     surj_call_simplicial 0 S (mkElt [([[0; 1; 2]], 2)] 3 tt) 1 = Ok (mkElt [([[0; 1; 2]; [0; 1; 2]; [0; 1; 2]], 2)] 3 tt)) /\
  prime 3 /\ dt_ok 0 3 /\ exact_coefficient 3 0 (-1) /\ wf cls_simplicial (mkElt [([[0; 1]], 1); ([[0; 2]], 2)] 3 tt).
Proof.
  split; [|split]; try (eexists; split; [vm_compute; reflexivity|vm_compute; reflexivity]). split; [exact prime_3|]. split; [split; [lia|now left]|]. split; [right; right; vm_compute; discriminate|]. apply wfb_wf; reflexivity.
Qed.
