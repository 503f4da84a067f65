(** * Steenrod operations commute with connecting homomorphisms (C88) *)
From Coq Require Import Setoid Morphisms Znumtheory Sorting.Sorted Factorial.
From Verif Require Import PyBase Dict FreeModule Symmetric Simplicial Utils Surjection BarrattEccles Eqm Wilson Spec SpecChain SpecOperad SpecSurj SpecAction SpecSteenrod SpecCochain SpecSimpCup FreeModuleFacts FreeModuleLaws ListFacts
  ClassFacts LinearFacts BilFacts SymmetricFacts CycleFacts SymmetricLaws RingFacts Tensor TensorAct KoszulFacts LoopFacts AW SimplicialFacts SimplicialDiag SimplicialLaws BEOrbit BEDiag MayFacts BELaws3 SurjFacts SurjBoundary SurjLaws SurjAct SurjMay
  SteenrodFacts SteenrodLaws ActFacts ActSign ActCore ActCode ActLaws EquivAct SteenrodAct StnLaws SteenrodWords SteenrodLin SteenrodClass Bockstein CupI CupILaws BockLaws SimpCupLaws P0Words P0Simplex P0Laws Stable.

(** value of [alpha (x) ... (x) alpha] on may_steenrod_structure(p, D) of a chain *)
Definition VS (p D : Z) (alpha : list Z -> Z) (x : simp) : Z := if D <? 0 then 0 else ev (fun K => QS p (hd [] K) (Z.to_nat D) (on_tensor alpha)) (data x).
Lemma coch_adm m alpha : 0 <= m -> cochain m alpha -> adm cls_simplicial (on_tensor alpha).
Proof. intros Hm Ha. apply (SteenrodAct.adm_on 2 m (fun _ => False) alpha Hm). split; [exact Ha|intros ? []]. Qed.
Lemma den_val dt p e m c0 d alpha (S : surj) (x : simp) : 2 <= p -> dt_ok dt p -> 0 <= m -> cochain m alpha -> den cls_surj p MS (fun g => c0 * FpS MS p d g) S ->
  wf cls_simplicial x -> torsion x = p -> keys_in (fun k => exists s, k = [s] /\ zlen s - 1 = e) x ->
  exists z, surj_call_simplicial dt S x 1 = Ok z /\ eqm p (evaluate alpha z) (c0 * VS p (Z.of_nat d) alpha x).
Proof.
  intros Hp1 Hdt Hm Ha DS Wx Tx Kx. destruct (op_call dt p e c0 d S x Hp1 Hdt DS Wx Tx Kx) as (z & Ez & Dz). exists z. split; [exact Ez|].
  change (evaluate alpha z) with (ev (on_tensor alpha) (data z)). etransitivity; [exact (den_ev cls_simplicial p tt _ z _ Dz (coch_adm m alpha Hm Ha))|]. cbn beta. unfold VS. destruct (Z.ltb_spec (Z.of_nat d) 0); [lia|]. rewrite Nat2Z.id. reflexivity.
Qed.
Lemma op_val dt dc p e m s q alpha (S : surj) (x : simp) : prime p -> dt_ok dt p -> 0 <= m -> cochain m alpha -> surj_steenrod_operation dt dc p s q false (Some MS) = Ok S ->
  wf cls_simplicial x -> torsion x = p -> keys_in (fun k => exists s, k = [s] /\ zlen s - 1 = e) x ->
  exists c0 z, (if p =? 2 then Ok 1 else steenrod_coeff p s q) = Ok c0 /\ surj_call_simplicial dt S x 1 = Ok z /\
    eqm p (evaluate alpha z) (c0 * VS p (if p =? 2 then s - q else (2 * s - q) * (p - 1)) alpha x).
Proof.
  intros Hp Hdt Hm Ha ES Wx Tx Kx. destruct (op_form dt dc p s q false S Hp Hdt ES) as (c0 & E0 & F). cbv zeta in F. rewrite Z.sub_0_r in F. exists c0. set (D := if p =? 2 then s - q else _) in *. destruct F as [[L ->]|[L DS]].
  - rewrite call_zero. eexists. split; [exact E0|]. split; [reflexivity|]. unfold VS. destruct (Z.ltb_spec D 0); [|lia]. apply eqm_eq. change (0 = c0 * 0). ring.
  - destruct (den_val dt p e m c0 (Z.to_nat D) alpha S x (prime_ge_2 p Hp) Hdt Hm Ha DS Wx Tx Kx) as (z & Ez & Q). exists z. rewrite Z2Nat.id in Q by exact L. auto.
Qed.
Lemma eval_cob alpha z : evaluate (simp_coboundary alpha) z = evaluate (fdS alpha) z.
Proof. unfold evaluate. f_equal. apply map_ext. intros [K v]. cbn [fst snd]. f_equal. unfold on_tensor. f_equal. apply map_ext. intros a. apply cob_fdS. Qed.
Lemma cob_mod p (A : list Z -> Prop) alpha : p <> 0 -> (forall s, A s -> simp_coboundary alpha s mod p = 0) -> forall s, A s -> eqm p (fdS alpha s) 0.
Proof. intros Hp H s As. rewrite <- cob_fdS. exists (simp_coboundary alpha s / p).  pose proof (Z.div_mod (simp_coboundary alpha s) p Hp) as E. rewrite (H s As) in E. lia. Qed.
Section S.
Variables (p m e dt : Z) (A : list Z -> Prop) (alpha : list Z -> Z) (c bc : simp).
Hypothesis Hp : prime p.
Hypothesis Hm : 0 <= m.
Hypothesis Hdt : dt_ok dt p.
Hypothesis HA : simplicial_set A.
Hypothesis Ha : cochain m alpha.
Hypothesis HaA : forall s, A s -> simp_coboundary alpha s mod p = 0.
Hypothesis Wc : wf cls_simplicial c.
Hypothesis Tc : torsion c = p.
Hypothesis Kc : keys_in (fun k => exists s, k = [s] /\ zlen s - 1 = e) c.
Hypothesis Eb : simp_boundary dt c = Ok bc.
Hypothesis Kb : keys_in (fun k => exists s, k = [s] /\ A s) bc.
Lemma Hp1' : 2 <= p. Proof. exact (prime_ge_2 p Hp). Qed.
Lemma Ha' : cochain (m + 1 - 1) alpha. Proof. now replace (m + 1 - 1) with m by ring. Qed.
Lemma Ha'' : cochain (m + 1) (fdS alpha). Proof. apply cochain_cob; [lia|exact Ha']. Qed.
Lemma HaA' : forall s, A s -> eqm p (fdS alpha s) 0. Proof. apply cob_mod; [pose proof Hp1'; lia|exact HaA]. Qed.
Lemma Wb : wf cls_simplicial bc. Proof. exact (wf_bc p e dt c bc Hp1' Hdt Wc Tc Kc Eb). Qed.
Lemma Tb : torsion bc = p. Proof. exact (tors_bc p e dt c bc Hp1' Hdt Wc Tc Kc Eb). Qed.
Lemma Kb' : keys_in (fun k => exists s, k = [s] /\ zlen s - 1 = e - 1) bc.
Proof.
  destruct (bd_mod p e dt c bc Hp1' Hdt Wc Tc Kc Eb) as [_ KB]. intros K v HK. destruct (Kb _ _ HK) as (s & -> & _). exists s. split; [reflexivity|]. destruct (KB _ _ HK) as [_ Q]. rewrite tdeg_cons in Q. change (tdeg spx_dim []) with 0 in Q. unfold spx_dim in Q. lia.
Qed.
Lemma VS_odd D : p <> 2 -> Z.even D = true -> (D < 0 -> D + (p - 1) <= 0) -> eqm p (VS p (D + (p - 1)) (fdS alpha) c) (eps (m + 1) ^ ((p - 1) / 2) * zfact (Z.to_nat ((p - 1) / 2)) * VS p D alpha bc).
Proof.
  intros N2 ED E0. destruct (prime_odd p Hp N2) as (h & Ehp & Hh1 & Eh). rewrite Eh. pose proof Hp1'. assert (Hod : Z.even p = false) by (rewrite Ehp, Z.even_add, Z.even_mul; reflexivity). unfold VS. destruct (Z.ltb_spec D 0) as [L|L].
  - rewrite Z.mul_0_r. destruct (Z.ltb_spec (D + (p - 1)) 0) as [L'|L']; [reflexivity|]. replace (D + (p - 1)) with 0 by lia.
    exact (bot p (m + 1) e dt A alpha c bc Hp1' ltac:(lia) Hdt HA Ha' HaA' Wc Tc Kc Eb Kb).
  - destruct (Z.ltb_spec (D + (p - 1)) 0) as [L'|L']; [lia|].
    assert (Ed : Nat.even (Z.to_nat D) = true) by (rewrite <- even_of_nat, Z2Nat.id by exact L; exact ED).
    pose proof (stable_odd p (m + 1) e dt A alpha c bc Hp1' ltac:(lia) Hdt HA Ha' HaA' Wc Tc Kc Eb Kb Hod (Z.to_nat h) ltac:(lia) (Z.to_nat D) Ed) as E. rewrite Z2Nat.id in E by lia.
    replace (Z.to_nat (D + (p - 1))) with (Z.to_nat D + 2 * Z.to_nat h)%nat by lia. exact E.
Qed.
Lemma VS_two D : p = 2 -> eqm 2 (VS p (D + 1) (fdS alpha) c) (VS p D alpha bc).
Proof.
  intros E2. unfold VS. destruct (Z.ltb_spec D 0) as [L|L].
  - destruct (Z.ltb_spec (D + 1) 0) as [L'|L']; [reflexivity|]. replace (D + 1) with 0 by lia.
    pose proof (bot p (m + 1) e dt A alpha c bc Hp1' ltac:(lia) Hdt HA Ha' HaA' Wc Tc Kc Eb Kb) as B. rewrite E2 in B at 1. exact B.
  - destruct (Z.ltb_spec (D + 1) 0) as [L'|L']; [lia|]. replace (Z.to_nat (D + 1)) with (Datatypes.S (Z.to_nat D)) by lia.
    exact (stable_two p (m + 1) e dt A alpha c bc Hp1' ltac:(lia) Hdt HA Ha' HaA' Wc Tc Kc Eb Kb E2 (Z.to_nat D)).
Qed.
End S.
Lemma eps_pow m h : 0 <= h -> eps (m + 1) ^ h = sgn (m * h).
Proof.
  intros Hh. unfold eps. rewrite Z.even_add. change (Z.even 1) with false. destruct (Z.even m) eqn:Em; cbn [Bool.eqb].
    - rewrite Z.pow_1_l by lia. unfold sgn. now rewrite Z.even_mul, Em.
    - unfold sgn. rewrite Z.even_mul, Em. cbn [orb]. destruct (Z.even h) eqn:Ev; [|]. 
      + apply Zeven_bool_iff in Ev. destruct (Zeven_ex h Ev) as [k ->]. rewrite Z.pow_mul_r by lia. change ((-1) ^ 2) with 1. apply Z.pow_1_l. lia.
      + destruct (Z.Even_or_Odd h) as [[k Ek]|[k ->]]; [rewrite Ek, Z.even_mul in Ev; discriminate|]. rewrite Z.pow_add_r, Z.pow_mul_r by lia. change ((-1) ^ 2) with 1. rewrite Z.pow_1_l by lia. reflexivity.
Qed.
Lemma stable_coeff p s m c0 c1 : prime p -> p <> 2 -> 0 <= m -> exact_coefficient p s (- m) -> exact_coefficient p s (- m - 1) ->
  steenrod_coeff p s (- m) = Ok c0 -> steenrod_coeff p s (- m - 1) = Ok c1 ->
  eqm p (c1 * (eps (m + 1) ^ ((p - 1) / 2) * zfact (Z.to_nat ((p - 1) / 2)))) (sgn ((p - 1) / 2) * c0).
Proof.
  intros Hp N2 Hm H0 H1 E0 E1. destruct (coeff_ok p s _ Hp N2 H0) as (c0' & E0' & N0 & _). rewrite E0 in E0'. injection E0' as <-. destruct (coeff_ok p s _ Hp N2 H1) as (c1' & E1' & N1 & _). rewrite E1 in E1'. injection E1' as <-.
  unfold steenrod_sign_nu in *. cbv zeta in *. rewrite <- zfact_fact in *. destruct (prime_odd p Hp N2) as (h & Ehp & Hh1 & Eh). rewrite Eh in *. pose proof (fact_unit p Hp (Z.to_nat h) ltac:(lia)) as U. set (M := zfact (Z.to_nat h)) in *.
  rewrite (Z.max_r 0 (- - m)), (Z.max_l 0 (- m)), Z.opp_involutive, Z.pow_0_r, Z.mul_1_r in N0 by lia. rewrite (Z.max_r 0 (- (- m - 1))), (Z.max_l 0 (- m - 1)), Z.pow_0_r, Z.mul_1_r in N1 by lia. replace (- (- m - 1)) with (m + 1) in N1 by ring.
  change (eqm p (c0 * M ^ m) (sgn (s + - m * (- m - 1) / 2 * h))) in N0. change (eqm p (c1 * M ^ (m + 1)) (sgn (s + (- m - 1) * (- m - 1 - 1) / 2 * h))) in N1. rewrite Z.pow_add_r, Z.pow_1_r in N1 by lia.
  rewrite eps_pow by lia. unfold eqm. assert (D : (p | M ^ m * (c1 * (sgn (m * h) * M) - sgn h * c0))).
  { replace (M ^ m * (c1 * (sgn (m * h) * M) - sgn h * c0)) with (sgn (m * h) * (c1 * (M ^ m * M)) - sgn h * (c0 * M ^ m)) by ring. change (eqm p (sgn (m * h) * (c1 * (M ^ m * M))) (sgn h * (c0 * M ^ m))). rewrite N0, N1, <- !sgn_add. apply eqm_eq, sgn_par.
    replace ((- m - 1) * (- m - 1 - 1)) with (- m * (- m - 1) + (m + 1) * 2) by ring. rewrite Z.div_add by lia. set (T := - m * (- m - 1) / 2). exists (m * h). ring. }
  apply prime_mult in D; [|exact Hp]. destruct D as [D|D]; [|exact D]. exfalso. apply U. revert D. clear -Hp Hm. pattern m. apply natlike_ind; [|intros x Hx IH|exact Hm].
  - rewrite Z.pow_0_r. intros D. pose proof (prime_ge_2 p Hp). apply Zdivide_le in D; lia.
  - rewrite Z.pow_succ_r by exact Hx. intros D. apply prime_mult in D; [|exact Hp]. tauto.
Qed.
(** #C88_odd# Steenrod operations commute with connecting homomorphisms, for an
    odd prime [p]: let alpha be an m-cochain whose coboundary vanishes mod [p] on
    the simplicial set [A], and [c] a chain mod [p] whose boundary lies in [A]
    (a relative cycle).  With P = steenrod_operation(p, s, -m) and
    P' = steenrod_operation(p, s, -m - 1), the value of P' on the coboundary of
    alpha at [c] is (-1)^((p - 1) / 2) times the value of P on alpha at the
    boundary of [c]. *)
Lemma C88_odd_l (dt p m s e : Z) (dc : conv) (A : list Z -> Prop) (P P' : surj) (c bc : simp) (alpha : list Z -> Z) :
  prime p -> p <> 2 -> 0 <= m -> dt_ok dt p -> exact_coefficient p s (- m) -> exact_coefficient p s (- m - 1) ->
  simplicial_set A -> cochain m alpha -> (forall s, A s -> simp_coboundary alpha s mod p = 0) ->
  surj_steenrod_operation dt dc p s (- m) false (Some MS) = Ok P -> surj_steenrod_operation dt dc p s (- m - 1) false (Some MS) = Ok P' ->
  wf cls_simplicial c -> torsion c = p -> keys_in (fun k => exists s, k = [s] /\ zlen s - 1 = e) c ->
  simp_boundary dt c = Ok bc -> keys_in (fun k => exists s, k = [s] /\ A s) bc ->
  exists z z', surj_call_simplicial dt P' c 1 = Ok z /\ surj_call_simplicial dt P bc 1 = Ok z' /\
    evaluate (simp_coboundary alpha) z mod p = (sgn ((p - 1) / 2) * evaluate alpha z') mod p.
Proof.
  intros Hp N2 Hm Hdt X0 X1 HA Ha HaA EP EP' Wc Tc Kc Eb Kb.
  destruct (op_val dt dc p e (m + 1) s (- m - 1) (fdS alpha) P' c Hp Hdt ltac:(lia) (Ha'' m alpha Hm Ha) EP' Wc Tc Kc) as (c1 & z & E1 & Ez & Q1).
  destruct (op_val dt dc p (e - 1) m s (- m) alpha P bc Hp Hdt Hm Ha EP (Wb p e dt c bc Hp Hdt Wc Tc Kc Eb) (Tb p e dt c bc Hp Hdt Wc Tc Kc Eb) (Kb' p e dt A c bc Hp Hdt Wc Tc Kc Eb Kb)) as (c0 & z' & E0 & Ez' & Q0).
  exists z, z'. split; [exact Ez|]. split; [exact Ez'|]. rewrite (proj2 (Z.eqb_neq p 2) N2) in *. apply mod_eqm; [pose proof (prime_ge_2 p Hp); lia|]. rewrite eval_cob, Q1, Q0.
  replace ((2 * s - (- m - 1)) * (p - 1)) with ((2 * s - - m) * (p - 1) + (p - 1)) by ring. rewrite (VS_odd p m e dt A alpha c bc Hp Hm Hdt HA Ha HaA Wc Tc Kc Eb Kb _ N2).
  2:{ destruct (prime_odd p Hp N2) as (h & Ehp & _ & _). replace ((2 * s - - m) * (p - 1)) with (2 * ((2 * s - - m) * h)) by (rewrite Ehp; ring). now rewrite Z.even_mul. }
  2:{ intros L. set (u := 2 * s - - m) in *. pose proof (prime_ge_2 p Hp). assert (u < 0) by nia. nia. }
  rewrite Z.mul_assoc, (stable_coeff p s m c0 c1 Hp N2 Hm X0 X1 E0 E1). apply eqm_eq. ring.
Qed.
(** #C88_two# The same for p = 2: Sq on the coboundary of alpha at [c] is Sq on
    alpha at the boundary of [c]. *)
Lemma C88_two_l (dt m s e : Z) (dc : conv) (A : list Z -> Prop) (P P' : surj) (c bc : simp) (alpha : list Z -> Z) :
  0 <= m -> dt_ok dt 2 -> simplicial_set A -> cochain m alpha -> (forall s, A s -> simp_coboundary alpha s mod 2 = 0) ->
  surj_steenrod_operation dt dc 2 s (- m) false (Some MS) = Ok P -> surj_steenrod_operation dt dc 2 s (- m - 1) false (Some MS) = Ok P' ->
  wf cls_simplicial c -> torsion c = 2 -> keys_in (fun k => exists s, k = [s] /\ zlen s - 1 = e) c ->
  simp_boundary dt c = Ok bc -> keys_in (fun k => exists s, k = [s] /\ A s) bc ->
  exists z z', surj_call_simplicial dt P' c 1 = Ok z /\ surj_call_simplicial dt P bc 1 = Ok z' /\
    evaluate (simp_coboundary alpha) z mod 2 = evaluate alpha z' mod 2.
Proof.
  intros Hm Hdt HA Ha HaA EP EP' Wc Tc Kc Eb Kb. pose proof prime_2 as Hp.
  destruct (op_val dt dc 2 e (m + 1) s (- m - 1) (fdS alpha) P' c Hp Hdt ltac:(lia) (Ha'' m alpha Hm Ha) EP' Wc Tc Kc) as (c1 & z & E1 & Ez & Q1).
  destruct (op_val dt dc 2 (e - 1) m s (- m) alpha P bc Hp Hdt Hm Ha EP (Wb 2 e dt c bc Hp Hdt Wc Tc Kc Eb) (Tb 2 e dt c bc Hp Hdt Wc Tc Kc Eb) (Kb' 2 e dt A c bc Hp Hdt Wc Tc Kc Eb Kb)) as (c0 & z' & E0 & Ez' & Q0).
  exists z, z'. split; [exact Ez|]. split; [exact Ez'|]. cbn [Z.eqb Pos.eqb] in *. injection E1 as <-. injection E0 as <-. apply mod_eqm; [lia|]. rewrite eval_cob, Q1, Q0, !Z.mul_1_l.
  replace (s - (- m - 1)) with (s - - m + 1) by ring. exact (VS_two 2 m e dt A alpha c bc Hp Hm Hdt HA Ha HaA Wc Tc Kc Eb Kb _ eq_refl).
Qed.
(** #C88_structure# For may_steenrod_structure(p, d) itself, with [p] an odd
    prime and d even: the value of S_(d + p - 1) on the coboundary of alpha at
    [c] is (-1)^(m (p - 1) / 2) * ((p - 1) / 2)! times the value of S_d on alpha
    at the boundary of [c]. *)
Lemma C88_structure_l (dt p m k e : Z) (dc : conv) (A : list Z -> Prop) (S S' : surj) (c bc : simp) (alpha : list Z -> Z) :
  prime p -> p <> 2 -> 0 <= m -> dt_ok dt p -> 0 <= k ->
  simplicial_set A -> cochain m alpha -> (forall s, A s -> simp_coboundary alpha s mod p = 0) ->
  surj_may_steenrod dt dc p (2 * k) (Some p) (Some MS) = Ok S -> surj_may_steenrod dt dc p (2 * k + (p - 1)) (Some p) (Some MS) = Ok S' ->
  wf cls_simplicial c -> torsion c = p -> keys_in (fun k => exists s, k = [s] /\ zlen s - 1 = e) c ->
  simp_boundary dt c = Ok bc -> keys_in (fun k => exists s, k = [s] /\ A s) bc ->
  exists z z', surj_call_simplicial dt S' c 1 = Ok z /\ surj_call_simplicial dt S bc 1 = Ok z' /\
    evaluate (simp_coboundary alpha) z mod p = (sgn (m * ((p - 1) / 2)) * Z.of_nat (fact (Z.to_nat ((p - 1) / 2))) * evaluate alpha z') mod p.
Proof.
  intros Hp N2 Hm Hdt Hk HA Ha HaA ES ES' Wc Tc Kc Eb Kb. pose proof (prime_ge_2 p Hp) as Hp1.
  pose proof (may_c dt dc p (2 * k) S Hp Hdt ltac:(lia) ES) as DS. pose proof (may_c dt dc p (2 * k + (p - 1)) S' Hp Hdt ltac:(lia) ES') as DS'.
  destruct (den_val dt p e (m + 1) 1 _ (fdS alpha) S' c Hp1 Hdt ltac:(lia) (Ha'' m alpha Hm Ha) DS' Wc Tc Kc) as (z & Ez & Q1).
  destruct (den_val dt p (e - 1) m 1 _ alpha S bc Hp1 Hdt Hm Ha DS (Wb p e dt c bc Hp Hdt Wc Tc Kc Eb) (Tb p e dt c bc Hp Hdt Wc Tc Kc Eb) (Kb' p e dt A c bc Hp Hdt Wc Tc Kc Eb Kb)) as (z' & Ez' & Q0).
  exists z, z'. split; [exact Ez|]. split; [exact Ez'|]. apply mod_eqm; [lia|]. rewrite eval_cob, Q1, Q0, !Z.mul_1_l. rewrite !Z2Nat.id by lia.
  rewrite (VS_odd p m e dt A alpha c bc Hp Hm Hdt HA Ha HaA Wc Tc Kc Eb Kb _ N2); [|now rewrite Z.even_mul|lia].
  rewrite eps_pow, zfact_fact by (apply Z.div_pos; lia). apply eqm_eq. ring.
Qed.

(** #C88_example# A triangle, its boundary and the cochain of one edge meet the
    hypotheses for p = 3; the values are 1 and -1. *)
Example C88_example_l : exists (P P' : surj) (c bc z z' : simp),
  let A := fun t : list Z => (forall v, In v t -> v = 0 \/ v = 1 \/ v = 2) /\ (~ In 0 t \/ ~ In 1 t \/ ~ In 2 t) in
  let alpha := fun t => match t with [0; 1] => 1 | [1; 0] => -1 | _ => 0 end in
  prime 3 /\ exact_coefficient 3 0 (- 1) /\ exact_coefficient 3 0 (- 1 - 1) /\
  simplicial_set A /\ cochain 1 alpha /\ (forall s, A s -> simp_coboundary alpha s mod 3 = 0) /\
  wf cls_simplicial c /\ torsion c = 3 /\ keys_in (fun k => exists s, k = [s] /\ zlen s - 1 = 2) c /\
  simp_boundary 0 c = Ok bc /\ keys_in (fun k => exists s, k = [s] /\ A s) bc /\
  surj_steenrod_operation 0 BF 3 0 (- 1) false (Some MS) = Ok P /\ surj_steenrod_operation 0 BF 3 0 (- 1 - 1) false (Some MS) = Ok P' /\
  surj_call_simplicial 0 P' c 1 = Ok z /\ surj_call_simplicial 0 P bc 1 = Ok z' /\
  evaluate (simp_coboundary alpha) z mod 3 = 1 /\ evaluate alpha z' mod 3 = 2.
Proof.
  do 2 eexists. exists (mkElt [([[0; 1; 2]], 1)] 3 tt). do 3 eexists. cbv zeta.
  set (alpha := fun t => match t with [0; 1] => 1 | [1; 0] => -1 | _ => 0 end).
  assert (Ca : cochain 1 alpha).
  { split.
    - intros l1 v l2. unfold alpha. destruct l1 as [|x [|y l1]].
      + destruct l2; [|destruct v as [|[]|]; reflexivity]. destruct v as [|[]|]; reflexivity.
      + destruct x as [|[]|]; reflexivity || (destruct v as [|[]|]; reflexivity).
      + destruct x as [|[]|]; try reflexivity; destruct y as [|[]|]; try reflexivity; destruct l1; reflexivity.
    - intros s Hs. unfold alpha. destruct s as [|x [|y [|z s]]]; try (destruct x as [|[]|]; reflexivity); [reflexivity|exfalso; apply Hs; reflexivity|]. destruct x as [|[]|]; try reflexivity; destruct y as [|[]|]; reflexivity. }
  split; [exact prime_3|]. split; [right; right; vm_compute; discriminate|]. split; [left; reflexivity|].
  split. { split.
    - intros l1 v l2 [H1 H2] _. split; [intros x Hx; apply H1; rewrite in_app_iff in *; cbn [In]; tauto|]. revert H2. rewrite !in_app_iff. cbn [In]. tauto.
    - intros l1 v l2 [H1 H2]. split; [intros x Hx; apply H1; rewrite in_app_iff in *; cbn [In] in *; tauto|]. revert H2. rewrite !in_app_iff. cbn [In]. tauto. }
  split; [exact Ca|].
  split. { intros s [H1 H2]. destruct (Z.eq_dec (zlen s - 1) 2) as [E|N].
    - destruct s as [|x [|y [|z [|w s]]]]; try discriminate; [|rewrite !zlen_cons in E; pose proof (zlen_nonneg s); lia]. cbn [In] in *.
      destruct (H1 x ltac:(tauto)) as [-> | [-> | ->]]; destruct (H1 y ltac:(tauto)) as [-> | [-> | ->]]; destruct (H1 z ltac:(tauto)) as [-> | [-> | ->]]; try reflexivity; exfalso; tauto.
    - rewrite (proj2 (proj1 (C80_coboundary_l 1 alpha ltac:(lia) Ca)) s N). reflexivity. }
  split; [apply wfb_wf; reflexivity|]. split; [reflexivity|].
  split. { intros k v [E|[]]. injection E as <- _. exists [0; 1; 2]. split; reflexivity. }
  split; [vm_compute; reflexivity|].
  split. { intros k v Hk. cbn in Hk. repeat destruct Hk as [Hk|Hk]; try contradiction; injection Hk as <- _; (eexists; split; [reflexivity|]; split; [intros x Hx; cbn in Hx; lia|cbn [In]; lia]). }
  do 5 (split; [vm_compute; reflexivity|]). vm_compute. reflexivity.
Qed.
