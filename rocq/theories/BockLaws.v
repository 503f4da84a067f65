(** * Bocksteins and top powers of Steenrod operations (C86) *)
From Coq Require Import Setoid Morphisms Znumtheory Sorting.Sorted.
From Verif Require Import PyBase Dict FreeModule Symmetric Simplicial Utils Surjection BarrattEccles Eqm Spec SpecChain SpecOperad SpecSurj SpecAction SpecCochain SpecBock FreeModuleFacts FreeModuleLaws ListFacts
  ClassFacts LinearFacts BilFacts SymmetricFacts CycleFacts SymmetricLaws RingFacts Tensor TensorAct KoszulFacts LoopFacts AW SimplicialFacts SimplicialDiag SimplicialLaws BEOrbit BEDiag MayFacts BELaws3 SurjFacts SurjBoundary SurjLaws SurjAct SurjMay
  SteenrodFacts SteenrodLaws ActFacts ActSign ActCore ActCode ActLaws EquivAct SteenrodAct StnLaws SteenrodWords SteenrodLin SteenrodClass CupI CupILaws Bockstein.

Lemma op_form dt dc p s q b S : prime p -> dt_ok dt p -> surj_steenrod_operation dt dc p s q b (Some MS) = Ok S ->
  exists c0, (if p =? 2 then Ok 1 else steenrod_coeff p s q) = Ok c0 /\
    let D := if p =? 2 then s - q else (2 * s - q) * (p - 1) - (if b then 1 else 0) in
    (D < 0 /\ S = mkElt [] p dc) \/ (0 <= D /\ den cls_surj p MS (fun g => c0 * FpS MS p (Z.to_nat D) g) S).
Proof.
  intros Hp Hdt. destruct (prime_two_odd p Hp) as [Hp1 _]. unfold surj_steenrod_operation.
  assert (N : surj_new dt dc [] (Some p) None = Ok (mkElt [] p dc)) by (unfold surj_new, new, pref; cbn; unfold reduce; destruct (p =? 0); reflexivity).
  assert (Ep : p = match Some p with Some t => if t =? 0 then dt else t | None => dt end) by (cbv beta iota; destruct (Z.eqb_spec p 0); [lia|reflexivity]).
  assert (Q : forall D c0, 0 <= D -> (let! e := surj_may_steenrod dt dc p D (Some p) (Some MS) in scale dt cls_surj c0 e) = Ok S ->
     den cls_surj p MS (fun g => c0 * FpS MS p (Z.to_nat D) g) S).
  { intros D c0 HD E. destruct (mayS_ok dt dc MS p (Z.to_nat D) (Some p) (Some MS) p Ep eq_refl (or_intror eq_refl) Hp1 ltac:(lia) ltac:(lia) Hdt) as (y & Ey & Dy). rewrite Z2Nat.id in Ey by lia.
    rewrite Ey in E. cbn [bind] in E.
    destruct (scale_den cls_surj ok_surj dt p ltac:(lia) Hdt MS _ c0 y Dy) as (S' & ES & DS). rewrite E in ES. injection ES as <-. exact DS. }
  destruct (Z.eqb_spec p 2) as [E2|N2].
  - destruct b; cbn [andb]; [discriminate|]. intros E. exists 1. split; [reflexivity|]. cbv zeta. destruct (Z.ltb_spec (s - q) 0) as [L|L].
    + left. split; [lia|]. rewrite <- E2, N in E. now injection E.
    + right. split; [lia|]. now apply Q.
  - cbn [andb]. destruct (steenrod_coeff p s q) as [c0|]; cbn [bind]; [|discriminate]. intros E. exists c0. split; [reflexivity|]. cbv zeta. destruct (Z.ltb_spec ((2 * s - q) * (p - 1) - (if b then 1 else 0)) 0) as [L|L].
    + left. split; [lia|]. rewrite N in E. now injection E.
    + right. split; [lia|]. now apply Q.
Qed.
Lemma dt0 p : dt_ok 0 p. Proof. split; [lia|now left]. Qed.

(** the values of an operation on the two chains of a Bockstein pair *)
Section Pair.
Variables (p e m : Z) (X : list Z -> Prop) (alpha : list Z -> Z) (C C' c c' : simp).
Hypothesis Hp : prime p.
Hypothesis Hm : 0 <= m.
Hypothesis HX : simplicial_set X.
Hypothesis Ha : cocycle p m X alpha.
Hypothesis IC : integral_chain X e C.
Hypothesis IC' : integral_chain X (e - 1) C'.
Hypothesis HB : same (simp_boundary 0 C) (scale 0 cls_simplicial p C').
Hypothesis Ec : set_torsion cls_simplicial C p = Ok c.
Hypothesis Ec' : set_torsion cls_simplicial C' p = Ok c'.
Definition VV (x : simp) (D : Z) : Z := if D <? 0 then 0 else QQ p x (Z.to_nat D) (on_tensor alpha).
Lemma op_eval e0 (x xr : simp) dc s q b S : integral_chain X e0 x -> set_torsion cls_simplicial x p = Ok xr -> surj_steenrod_operation 0 dc p s q b (Some MS) = Ok S ->
  exists c0 z, (if p =? 2 then Ok 1 else steenrod_coeff p s q) = Ok c0 /\ surj_call_simplicial 0 S xr 1 = Ok z /\
    eqm p (evaluate alpha z) (c0 * VV x (if p =? 2 then s - q else (2 * s - q) * (p - 1) - (if b then 1 else 0))).
Proof.
  intros (Wx & Tx & Kx) Ex ES. destruct (op_form 0 dc p s q b S Hp (dt0 p) ES) as (c0 & E0 & F). cbv zeta in F. exists c0. set (D := if p =? 2 then s - q else _) in *. unfold VV. destruct F as [[L ->]|[L DS]].
  - rewrite call_zero. eexists. split; [exact E0|]. split; [reflexivity|]. destruct (Z.ltb_spec D 0); [|lia]. apply eqm_eq. change (0 = c0 * 0). ring.
  - destruct (Z.ltb_spec D 0); [lia|]. pose proof (prime_ge_2 p Hp) as Hp1.
    pose proof (red_den p x xr Hp Wx Ex) as Dx. pose proof (red_keys p e0 X x xr Hp Wx Kx Ex) as Kr.
    destruct (QQ_eval 0 p e0 X xr ltac:(lia) (dt0 p) (den_wf cls_simplicial p _ _ _ ltac:(lia) Dx) (proj1 Dx) Kr m alpha c0 (Z.to_nat D) S Hm (proj1 Ha) DS) as (z & Ez & Q).
    exists z. split; [exact E0|]. split; [exact Ez|]. rewrite Q. rewrite (QQ_red p e0 X x xr Hp Wx Kx Ex (Z.to_nat D) _ (adm_on p m X alpha Hm Ha)). reflexivity.
Qed.
Lemma pair_A D : (if p =? 2 then Z.even D = Z.even m else Z.even D = true) -> eqm p (VV C (D - 1) + VV C' D) 0.
Proof.
  destruct IC as (W1 & T1 & K1), IC' as (W2 & T2 & K2). intros HD. unfold VV. destruct (Z.ltb_spec D 0) as [L|L]; [destruct (Z.ltb_spec (D - 1) 0); [reflexivity|lia]|].
  destruct (Z.ltb_spec (D - 1) 0) as [L'|L'].
  - replace D with 0 by lia. change (Z.to_nat 0) with O. rewrite Z.add_0_l. exact (bock_0 p e m X alpha C C' Hp Hm HX Ha W1 T1 K1 W2 T2 K2 HB).
  - replace (Z.to_nat D) with (Datatypes.S (Z.to_nat (D - 1))) by lia. apply (bock_A p e m X alpha C C' Hp Hm HX Ha W1 T1 K1 W2 T2 K2 HB). rewrite Z2Nat.id by lia.
    replace D with (Z.succ (D - 1)) in HD by ring. rewrite Z.even_succ, <- Z.negb_even in HD. destruct (p =? 2); [rewrite <- HD; now rewrite negb_involutive|]. now destruct (Z.even (D - 1)).
Qed.
Lemma pair_B D : (if p =? 2 then Z.even D = negb (Z.even m) else Z.even D = false) -> eqm p (VV C' D) 0.
Proof.
  destruct IC as (W1 & T1 & K1), IC' as (W2 & T2 & K2). intros HD. unfold VV. destruct (Z.ltb_spec D 0) as [L|L]; [reflexivity|].
  destruct (Z.eq_dec D 0) as [->|ND].
  - exact (bock_0 p e m X alpha C C' Hp Hm HX Ha W1 T1 K1 W2 T2 K2 HB).
  - replace (Z.to_nat D) with (Datatypes.S (Z.to_nat (D - 1))) by lia. apply (bock_B p e m X alpha C C' Hp Hm HX Ha W1 T1 K1 W2 T2 K2 HB). rewrite Z2Nat.id by lia.
    replace D with (Z.succ (D - 1)) in HD by ring. rewrite Z.even_succ, <- Z.negb_even in HD. destruct (p =? 2); destruct (Z.even (D - 1)), (Z.even m); cbn in *; congruence.
Qed.
End Pair.

(** #C86_bockstein# For an odd prime [p], steenrod_operation(p, s, q, True) is
    minus the Bockstein of steenrod_operation(p, s, q): if the cycle [c] is the
    reduction of C with boundary(C) == p * C', then the value of the tensor
    power of every cocycle on (beta P)(c) is minus its value on P(c'), where
    [c'] is the reduction of C'. *)
Lemma C86_bockstein_l (p m s q e : Z) (dc : conv) (X : list Z -> Prop) (alpha : list Z -> Z) (P bP : surj) (c c' : simp) :
  prime p -> p <> 2 -> 0 <= m -> simplicial_set X -> cocycle p m X alpha -> bockstein_pair p e X c c' ->
  surj_steenrod_operation 0 dc p s q false (Some MS) = Ok P -> surj_steenrod_operation 0 dc p s q true (Some MS) = Ok bP ->
  exists z z', surj_call_simplicial 0 bP c 1 = Ok z /\ surj_call_simplicial 0 P c' 1 = Ok z' /\ (evaluate alpha z + evaluate alpha z') mod p = 0.
Proof.
  intros Hp N2 Hm HX Ha (C & C' & IC & IC' & HB & Ec & Ec') EP EbP.
  destruct (op_eval p m X alpha Hp Hm Ha e C c dc s q true bP IC Ec EbP) as (c0 & z & E0 & Ez & V1).
  destruct (op_eval p m X alpha Hp Hm Ha (e - 1) C' c' dc s q false P IC' Ec' EP) as (c1 & z' & E1 & Ez' & V2).
  exists z, z'. split; [exact Ez|]. split; [exact Ez'|]. rewrite E0 in E1. injection E1 as <-. pose proof (prime_ge_2 p Hp).
  rewrite <- (Z.mod_0_l p) by lia. apply mod_eqm; [lia|]. rewrite V1, V2. rewrite (proj2 (Z.eqb_neq p 2) N2). rewrite Z.sub_0_r, <- Z.mul_add_distr_l.
  rewrite (pair_A p e m X alpha C C' Hp Hm HX Ha IC IC' HB); [apply eqm_eq; ring|]. rewrite (proj2 (Z.eqb_neq p 2) N2).
  destruct (prime_odd p Hp N2) as (k & Ek & _). rewrite Ek. replace (2 * k + 1 - 1) with (2 * k) by ring. rewrite !Z.even_mul. cbn [Z.even orb]. apply orb_true_r.
Qed.
(** #C86_bockstein_twice# The Bockstein of steenrod_operation(p, s, q, True)
    is zero. *)
Lemma C86_bockstein_twice_l (p m s q e : Z) (dc : conv) (X : list Z -> Prop) (alpha : list Z -> Z) (bP : surj) (c c' : simp) :
  prime p -> p <> 2 -> 0 <= m -> simplicial_set X -> cocycle p m X alpha -> bockstein_pair p e X c c' ->
  surj_steenrod_operation 0 dc p s q true (Some MS) = Ok bP ->
  exists z, surj_call_simplicial 0 bP c' 1 = Ok z /\ evaluate alpha z mod p = 0.
Proof.
  intros Hp N2 Hm HX Ha (C & C' & IC & IC' & HB & Ec & Ec') EP.
  destruct (op_eval p m X alpha Hp Hm Ha (e - 1) C' c' dc s q true bP IC' Ec' EP) as (c1 & z' & E1 & Ez' & V2).
  exists z'. split; [exact Ez'|]. pose proof (prime_ge_2 p Hp).
  rewrite <- (Z.mod_0_l p) by lia. apply mod_eqm; [lia|]. rewrite V2. rewrite (proj2 (Z.eqb_neq p 2) N2).
  rewrite (pair_B p e m X alpha C C' Hp Hm HX Ha IC IC' HB); [apply eqm_eq; ring|]. rewrite (proj2 (Z.eqb_neq p 2) N2).
  destruct (prime_odd p Hp N2) as (k & Ek & _). rewrite Ek. replace (2 * k + 1 - 1) with (2 * k) by ring. rewrite Z.even_sub, !Z.even_mul. change (Z.even 2) with true. rewrite orb_true_l, orb_true_r. reflexivity.
Qed.
(** #C86_square# For [p = 2] and cochains of degree [m], the operation with
    subscript s - 1 (that is, Sq^(1-s)) is the Bockstein of the one with
    subscript [s] for even [s], and the Bockstein of the latter is zero for odd
    [s]: Sq^1 Sq^(2k) = Sq^(2k+1) and Sq^1 Sq^(2k+1) = 0. *)
Lemma C86_square_l (m s e : Z) (dc : conv) (X : list Z -> Prop) (alpha : list Z -> Z) (P P1 : surj) (c c' : simp) :
  0 <= m -> simplicial_set X -> cocycle 2 m X alpha -> bockstein_pair 2 e X c c' ->
  surj_steenrod_operation 0 dc 2 s (- m) false (Some MS) = Ok P -> surj_steenrod_operation 0 dc 2 (s - 1) (- m) false (Some MS) = Ok P1 ->
  exists z z', surj_call_simplicial 0 P1 c 1 = Ok z /\ surj_call_simplicial 0 P c' 1 = Ok z' /\
    evaluate alpha z' mod 2 = if Z.even s then evaluate alpha z mod 2 else 0.
Proof.
  intros Hm HX Ha (C & C' & IC & IC' & HB & Ec & Ec') EP EP1. pose proof prime_2 as Hp.
  destruct (op_eval 2 m X alpha Hp Hm Ha e C c dc (s - 1) (- m) false P1 IC Ec EP1) as (c0 & z & E0 & Ez & V1).
  destruct (op_eval 2 m X alpha Hp Hm Ha (e - 1) C' c' dc s (- m) false P IC' Ec' EP) as (c1 & z' & E1 & Ez' & V2).
  exists z, z'. split; [exact Ez|]. split; [exact Ez'|]. injection E0 as <-. injection E1 as <-. change (2 =? 2) with true in V1, V2. cbv iota in V1, V2. rewrite Z.mul_1_l in V1, V2.
  destruct (Z.even s) eqn:Es.
  - apply mod_eqm; [lia|]. rewrite V1, V2. pose proof (pair_A 2 e m X alpha C C' Hp Hm HX Ha IC IC' HB (s - - m)) as [w Ew].
    + change (2 =? 2) with true. cbv iota. rewrite Z.even_sub, Z.even_opp, Es. now destruct (Z.even m).
    + replace (s - 1 - - m) with (s - - m - 1) by ring. exists (w - VV 2 alpha C (s - - m - 1)). rewrite Z.sub_0_r in Ew. lia.
  - rewrite <- (Z.mod_0_l 2) by lia. apply mod_eqm; [lia|]. rewrite V2. apply (pair_B 2 e m X alpha C C' Hp Hm HX Ha IC IC' HB).
    change (2 =? 2) with true. cbv iota. rewrite Z.even_sub, Z.even_opp, Es. now destruct (Z.even m).
Qed.
(** #C86_structure# The same for may_steenrod_structure(p, d) itself, for
    every prime [p] and every degree. *)
Lemma C86_structure_l (p m d e : Z) (dc : conv) (X : list Z -> Prop) (alpha : list Z -> Z) (S S1 : surj) (c c' : simp) :
  prime p -> 0 <= m -> 1 <= d -> simplicial_set X -> cocycle p m X alpha -> bockstein_pair p e X c c' ->
  surj_may_steenrod 0 dc p d (Some p) (Some MS) = Ok S -> surj_may_steenrod 0 dc p (d - 1) (Some p) (Some MS) = Ok S1 ->
  exists z z', surj_call_simplicial 0 S1 c 1 = Ok z /\ surj_call_simplicial 0 S c' 1 = Ok z' /\
    evaluate alpha z' mod p = if Z.even (if p =? 2 then d - m else d) then (- evaluate alpha z) mod p else 0.
Proof.
  intros Hp Hm Hd HX Ha (C & C' & IC & IC' & HB & Ec & Ec') ES ES1. pose proof (prime_ge_2 p Hp) as Hp1.
  pose proof (may_c 0 dc p d S Hp (dt0 p) ltac:(lia) ES) as DS. pose proof (may_c 0 dc p (d - 1) S1 Hp (dt0 p) ltac:(lia) ES1) as DS1.
  pose proof IC as (W1 & T1 & K1). pose proof IC' as (W2 & T2 & K2).
  pose proof (red_den p C c Hp W1 Ec) as D1. pose proof (red_keys p e X C c Hp W1 K1 Ec) as R1.
  pose proof (red_den p C' c' Hp W2 Ec') as D2. pose proof (red_keys p (e - 1) X C' c' Hp W2 K2 Ec') as R2.
  destruct (QQ_eval 0 p e X c ltac:(lia) (dt0 p) (den_wf cls_simplicial p _ _ _ ltac:(lia) D1) (proj1 D1) R1 m alpha 1 (Z.to_nat (d - 1)) S1 Hm (proj1 Ha) DS1) as (z & Ez & Q).
  destruct (QQ_eval 0 p (e - 1) X c' ltac:(lia) (dt0 p) (den_wf cls_simplicial p _ _ _ ltac:(lia) D2) (proj1 D2) R2 m alpha 1 (Z.to_nat d) S Hm (proj1 Ha) DS) as (z' & Ez' & Q').
  exists z, z'. split; [exact Ez|]. split; [exact Ez'|].
  rewrite (QQ_red p e X C c Hp W1 K1 Ec _ _ (adm_on p m X alpha Hm Ha)) in Q. rewrite (QQ_red p (e - 1) X C' c' Hp W2 K2 Ec' _ _ (adm_on p m X alpha Hm Ha)) in Q'.
  assert (V1 : eqm p (evaluate alpha z) (VV p alpha C (d - 1))) by (unfold VV; destruct (Z.ltb_spec (d - 1) 0); [lia|]; rewrite Q; apply eqm_eq; ring).
  assert (V2 : eqm p (evaluate alpha z') (VV p alpha C' d)) by (unfold VV; destruct (Z.ltb_spec d 0); [lia|]; rewrite Q'; apply eqm_eq; ring).
  destruct (Z.even (if p =? 2 then d - m else d)) eqn:Ed.
  - apply mod_eqm; [lia|]. rewrite V1, V2. pose proof (pair_A p e m X alpha C C' Hp Hm HX Ha IC IC' HB d) as [w Ew].
    + destruct (p =? 2); [|exact Ed]. rewrite Z.even_sub in Ed. now destruct (Z.even d), (Z.even m).
    + exists w. rewrite Z.sub_0_r in Ew. lia.
  - rewrite <- (Z.mod_0_l p) by lia. apply mod_eqm; [lia|]. rewrite V2. apply (pair_B p e m X alpha C C' Hp Hm HX Ha IC IC' HB).
    destruct (p =? 2); [|exact Ed]. rewrite Z.even_sub in Ed. now destruct (Z.even d), (Z.even m).
Qed.
(** #C86_top# The top operation is the p-th power: steenrod_operation(p, s, q)
    with q = 2 s ([p] odd) or q = s ([p] = 2) acts on every chain as
    iterated_diagonal(p - 1), so that its value on a cocycle is the p-fold cup
    product. *)
Lemma C86_top_l (dt p s q e : Z) (dc : conv) (S : surj) (c : simp) :
  prime p -> dt_ok dt p -> q = (if p =? 2 then s else 2 * s) ->
  surj_steenrod_operation dt dc p s q false (Some MS) = Ok S ->
  wf cls_simplicial c -> torsion c = p -> data c <> [] -> keys_in (fun k => exists s, k = [s] /\ zlen s - 1 = e) c ->
  same (surj_call_simplicial dt S c 1) (simp_iterated_diagonal dt c (p - 1) 1).
Proof.
  intros Hp Hdt Eq ES Wc Tc Nc Kc. pose proof (prime_ge_2 p Hp) as Hp1.
  destruct (op_form dt dc p s q false S Hp Hdt ES) as (c0 & E0 & F). cbv zeta in F.
  assert (D0 : (if p =? 2 then s - q else (2 * s - q) * (p - 1) - 0) = 0) by (destruct (p =? 2); rewrite Eq; ring). rewrite D0 in F. destruct F as [[L _]|[_ DS]]; [lia|].
  assert (C1 : eqm p c0 1).
  { destruct (p =? 2); [injection E0 as <-; reflexivity|]. unfold steenrod_coeff in E0. rewrite Eq in E0. rewrite Z.mul_comm, Z.div_mul, Z.mod_mul in E0 by lia. change (0 =? 0) with true in E0. cbv iota zeta in E0.
    injection E0 as <-. replace (s + s) with (2 * s) by ring. rewrite sgn_mul_even by reflexivity. reflexivity. }
  assert (DS1 : den cls_surj p MS (fun g => 1 * g (zrange 1 (p + 1))) S).
  { eapply den_ext; [|exact DS]. intros g _. cbn beta. rewrite C1. apply eqm_eq. reflexivity. }
  assert (Kc' : keys_in (kdegS 1 e) c).
  { intros K v Hk. destruct (Kc _ _ Hk) as (s' & -> & Es). split; [reflexivity|]. rewrite tdeg_cons. change (tdeg spx_dim []) with 0. unfold spx_dim. lia. }
  eapply (same_den cls_simplicial ok_simplicial p tt); [lia| | |].
  - apply (word_call dt p p 0 1 e 1 1 (zrange 1 (p + 1)) S c); auto using id_cell; try lia. apply id_cell. lia.
  - apply (diag_den dt p 1 e (p - 1) 1 c); auto; lia.
  - intros g _. cbn beta. apply eqm_eq. rewrite Z.mul_1_l. apply ev_ext. intros K v _. apply Phi_id. lia.
Qed.
(** #C86_example# The projective plane, triangulated with six vertices and
    ten triangles.  The chain of all triangles, with signs, has boundary
    2 ((0,1) + (1,3) - (0,3)): its reduction modulo 2 is the fundamental cycle
    [c], and [c'] is a loop.  For a cocycle of degree 1, Sq^1 on [c] and Sq^0
    on [c'] are both 1. *)
Example C86_example_l :
  let facets := [[0;1;4];[0;1;5];[0;2;3];[0;2;5];[0;3;4];[1;2;3];[1;2;4];[1;3;5];[2;4;5];[3;4;5]] in
  let X := fun s : list Z => exists f, In f facets /\ (forall v, In v s -> In v f) /\ StronglySorted Z.le s in
  let edges := [[1;2];[1;3];[2;4];[3;5];[4;5]] in
  let alpha := fun s : list Z => if existsb (keqb s) edges then 1 else 0 in
  let c : simp := mkElt (map (fun f => ([f], 1)) facets) 2 tt in
  let c' : simp := mkElt [([[0;1]], 1); ([[0;3]], 1); ([[1;3]], 1)] 2 tt in
  simplicial_set X /\ cocycle 2 1 X alpha /\ bockstein_pair 2 2 X c c' /\
  exists P P1 z z', surj_steenrod_operation 0 BF 2 0 (-1) false (Some MS) = Ok P /\ surj_steenrod_operation 0 BF 2 (-1) (-1) false (Some MS) = Ok P1 /\
    surj_call_simplicial 0 P1 c 1 = Ok z /\ surj_call_simplicial 0 P c' 1 = Ok z' /\ evaluate alpha z mod 2 = 1 /\ evaluate alpha z' mod 2 = 1.
Proof.
  intros facets X edges alpha c c'.
  assert (SD : forall l1 l2 v, StronglySorted Z.le (l1 ++ v :: l2) -> StronglySorted Z.le (l1 ++ l2) /\ StronglySorted Z.le (l1 ++ v :: v :: l2)).
  { induction l1 as [|a l1 IH]; intros l2 v H; cbn [app] in *.
    - inversion H as [|? ? S1 F1]; subst. split; [exact S1|]. constructor; [exact H|]. constructor; [lia|exact F1].
    - inversion H as [|? ? S1 F1]; subst. destruct (IH _ _ S1) as [I1 I2]. rewrite Forall_forall in F1. split; constructor; auto; apply Forall_forall; intros x Hx; apply F1; rewrite !in_app_iff in *; cbn [In] in *; tauto. }
  split; [split|split; [split; [split|]|split]].
  - intros l1 v l2 (f & Hf & Hv & Hs) _. exists f. split; [exact Hf|]. split; [|apply (SD _ _ _ Hs)]. intros x Hx. apply Hv. rewrite !in_app_iff in *. cbn [In]. tauto.
  - intros l1 v l2 (f & Hf & Hv & Hs). exists f. split; [exact Hf|]. split; [|apply (SD _ _ _ Hs)]. intros x Hx. apply Hv. rewrite !in_app_iff in *. cbn [In] in *. tauto.
  - intros l1 v l2. unfold alpha. destruct (existsb _ edges) eqn:E; [|reflexivity]. exfalso. apply existsb_exists in E. destruct E as (x & Hx & Ex). apply keqb_eq in Ex. cbn in Hx.
    destruct l1 as [|a [|b [|d l1]]]; cbn [app] in Ex; subst x; decompose [or] Hx; try contradiction; try discriminate; match goal with H : _ = _ |- _ => injection H end; intros; subst; try discriminate; lia.
  - intros s L. unfold alpha. destruct (existsb _ edges) eqn:E; [|reflexivity]. exfalso. apply existsb_exists in E. destruct E as (x & Hx & Ex). apply keqb_eq in Ex. subst x. apply L. cbn in Hx. decompose [or] Hx; try contradiction; subst; reflexivity.
  - intros s (f & Hf & Hv & Hs) L. destruct s as [|a [|b [|d [|? s]]]]; try discriminate.
    2:{ exfalso. rewrite !zlen_cons in L. pose proof (zlen_nonneg s). lia. }
    assert (A := Hv a ltac:(cbn; tauto)). assert (B := Hv b ltac:(cbn; tauto)). assert (D := Hv d ltac:(cbn; tauto)).
    inversion Hs as [|? ? Hs1 F1]; subst. inversion Hs1 as [|? ? _ F2]; subst. inversion F1 as [|? ? L1 _]; subst. inversion F2 as [|? ? L2 _]; subst. clear - Hf A B D L1 L2.
    cbn in Hf. decompose [or] Hf; try contradiction; subst f; cbn in A, B, D; (destruct A as [<-|[<-|[<-|[]]]]; destruct B as [<-|[<-|[<-|[]]]]; try lia; destruct D as [<-|[<-|[<-|[]]]]; try lia; reflexivity).
  - exists (mkElt [([[0;1;4]],1);([[0;1;5]],1);([[0;2;3]],1);([[0;2;5]],-1);([[0;3;4]],-1);([[1;2;3]],-1);([[1;2;4]],1);([[1;3;5]],1);([[2;4;5]],-1);([[3;4;5]],1)] 0 tt : simp), (mkElt [([[0;1]],1);([[0;3]],-1);([[1;3]],1)] 0 tt : simp).
    assert (KX : forall s, existsb (fun f => forallb (fun v => mem v f) s) facets = true -> StronglySorted Z.le s -> X s).
    { intros s H1 H2. apply existsb_exists in H1. destruct H1 as (f & Hf & H1). exists f. split; [exact Hf|]. split; [|exact H2]. intros v Hv. rewrite forallb_forall in H1. apply mem_in. now apply H1. }
    assert (KK : forall n (x : simp), (forall k v, In (k, v) (data x) -> exists s, k = [s] /\ zlen s - 1 = n /\ existsb (fun f => forallb (fun v => mem v f) s) facets = true /\ StronglySorted Z.le s) -> keys_in (fun k => exists s, k = [s] /\ X s /\ zlen s - 1 = n) x).
    { intros n x H k v Hk. destruct (H k v Hk) as (s & -> & L & H1 & H2). exists s. split; [reflexivity|]. split; [now apply KX|exact L]. }
    split; [split; [apply wfb_wf; reflexivity|split; [reflexivity|]]|split; [split; [apply wfb_wf; reflexivity|split; [reflexivity|]]|split; [|split; reflexivity]]].
    + apply KK. intros k v Hk. cbn in Hk. decompose [or] Hk; try contradiction; match goal with H : _ = (k, v) |- _ => injection H as <- <- end; (eexists; split; [reflexivity|split; [reflexivity|split; [reflexivity|repeat constructor; lia]]]).
    + apply KK. intros k v Hk. cbn in Hk. decompose [or] Hk; try contradiction; match goal with H : _ = (k, v) |- _ => injection H as <- <- end; (eexists; split; [reflexivity|split; [reflexivity|split; [reflexivity|repeat constructor; lia]]]).
    + do 2 eexists. split; [vm_compute; reflexivity|]. split; [vm_compute; reflexivity|]. split; [vm_compute; reflexivity|]. split; reflexivity.
  - do 4 eexists. split; [vm_compute; reflexivity|]. split; [vm_compute; reflexivity|]. split; [vm_compute; reflexivity|]. split; [vm_compute; reflexivity|]. split; vm_compute; reflexivity.
Qed.
