(** * Steenrod squares of cubical cochains commute with connecting homomorphisms (C88) *)
From Coq Require Import Setoid Morphisms.
From Verif Require Import PyBase Dict FreeModule Symmetric Simplicial Cubical Utils Surjection Eqm Spec SpecChain SpecOperad SpecSurj SpecAction SpecCube SpecCubAction SpecCup SpecCubCup FreeModuleFacts FreeModuleLaws ListFacts
  ClassFacts LinearFacts BilFacts SymmetricFacts CycleFacts SymmetricLaws RingFacts Tensor TensorAct KoszulFacts LoopFacts AW SimplicialFacts SimplicialDiag SimplicialLaws BELaws BEDiag MayFacts SurjFacts SurjBoundary SurjLaws SurjAct SurjLaws2 ActFacts ActSign ActCore
  CubicalFacts CubicalDiag CubicalJoin CubicalSerre CubicalLaws CubActFacts CubActCore CubActCode CubActLaws CartanSerre SurjMay SteenrodAct StnLaws SteenrodClass CupI CupILaws EquivAct EquivLaws CubCup CubCup2 CubCupLaws.

Lemma call_zeroC dt dc p (c : cubc) : surj_call_cubical dt (mkElt [] p dc) c 1 = Ok (mkElt [] (torsion c) (attr c)).
Proof. unfold surj_call_cubical. cbn [data dempty orb]. apply zero_data. Qed.
Section Stable.
Variables (dt e : Z) (X A : list Z -> Prop) (c bc : cubc) (a : list Z -> Z).
Hypothesis Hdt : dt_ok dt 2.
Hypothesis HA : cubical_set A.
Hypothesis Ha : cub_cocycle A a.
Hypothesis Wc : wf cls_cubical c.
Hypothesis Tc : torsion c = 2.
Hypothesis Kc : keys_in (cub_cell X e) c.
Hypothesis Eb : cub_boundary dt c = Ok bc.
Hypothesis Kb : keys_in (cub_cell A (e - 1)) bc.
Notation da := (cub_coboundary a).
Lemma bdC g : eqm 2 (ev (tDC g) (data c)) (ev g (data bc)).
Proof. destruct (bnd_c dt e X c Hdt Wc Tc Kc) as (bc' & Eb' & Db & _). rewrite Eb in Eb'. injection Eb' as <-. symmetry. exact (den_ev cls_cubical 2 tt _ bc g Db (adm_all _)). Qed.
Lemma wf_bcC : wf cls_cubical bc /\ torsion bc = 2.
Proof. destruct (bnd_c dt e X c Hdt Wc Tc Kc) as (bc' & Eb' & Db & _). rewrite Eb in Eb'. injection Eb' as <-. split; [exact (den_wf cls_cubical 2 tt _ bc ltac:(lia) Db)|apply Db]. Qed.
Lemma KT : keys_in (cub_cell (fun _ => True) e) c.
Proof. intros k v Hk. destruct (Kc _ _ Hk) as (u & -> & _ & Cu & Du). exists u. auto. Qed.
Lemma dda d f : eqm 2 (PS c d f (cub_coboundary da)) 0.
Proof. apply (PS_0r e (fun _ => True) c); [intros ? ? ? ? _; exact I|exact KT|apply cocycle_cob]. Qed.
Lemma b_0 d f : eqm 2 (PS bc d f da) 0.
Proof. apply (PS_0r (e - 1) A bc); assumption. Qed.
Lemma low d : eqm 2 (PS c d da a + PS c d a da) (PS bc d a a).
Proof.
  unfold PS at 3. rewrite <- bdC. destruct d as [|d]; [rewrite (sum_formula0 e X c Kc); reflexivity|]. rewrite (sum_formula e X c Kc). unfold PS. exists (- ev (PP d a a) (data c)). ring.
Qed.
Lemma stableC d : eqm 2 (PS c (Datatypes.S d) da da) (PS bc d a a).
Proof.
  pose proof (bdC (PP (Datatypes.S d) a da)) as E. rewrite (sum_formula e X c Kc) in E. fold (PS c (Datatypes.S d) da da) (PS c (Datatypes.S d) a (cub_coboundary da)) (PS c d a da) (PS c d da a) (PS bc (Datatypes.S d) a da) in E.
  rewrite b_0, dda, Z.add_0_r in E. rewrite <- low. rewrite <- (Z.add_0_l (PS c d da a + _)), <- E. exists (- (PS c d a da + PS c d da a)). ring.
Qed.
Lemma stableC0 : eqm 2 (PS c 0 da da) 0.
Proof.
  pose proof (bdC (PP 0 a da)) as E. rewrite (sum_formula0 e X c Kc) in E. fold (PS c 0 da da) (PS c 0 a (cub_coboundary da)) (PS bc 0 a da) in E. rewrite b_0, dda, Z.add_0_r in E. exact E.
Qed.
End Stable.
Lemma op2_neg dt dc s q S : s - q < 0 -> surj_steenrod_operation dt dc 2 s q false (Some MS) = Ok S -> S = mkElt [] 2 dc.
Proof.
  intros L. unfold surj_steenrod_operation. cbn [Z.eqb Pos.eqb andb]. destruct (Z.ltb_spec (s - q) 0); [|lia]. unfold surj_new, new, pref. cbn. congruence.
Qed.
(** #C88_cubical# The same mod 2 for cubical cochains: let [a] be a cochain whose
    coboundary vanishes mod 2 on the cubical complex [A], and [c] a chain of
    cubes mod 2 whose boundary lies in [A].  The value of
    steenrod_operation(2, s, q - 1) on the coboundary of [a] at [c] is the value
    of steenrod_operation(2, s, q) on [a] at the boundary of [c]. *)
Lemma C88_cubical_l (dt s q e : Z) (dc : conv) (X A : list Z -> Prop) (P P' : surj) (c bc : cubc) (a : list Z -> Z) :
  dt_ok dt 2 -> cubical_set A -> cub_cocycle A a -> wf cls_cubical c -> torsion c = 2 -> keys_in (cub_cell X e) c ->
  cub_boundary dt c = Ok bc -> keys_in (cub_cell A (e - 1)) bc ->
  surj_steenrod_operation dt dc 2 s q false (Some MS) = Ok P -> surj_steenrod_operation dt dc 2 s (q - 1) false (Some MS) = Ok P' ->
  exists z z', surj_call_cubical dt P' c 1 = Ok z /\ surj_call_cubical dt P bc 1 = Ok z' /\
    cub_value (on_pair (cub_coboundary a) (cub_coboundary a)) z mod 2 = cub_value (on_pair a a) z' mod 2.
Proof.
  intros Hdt HA Ha Wc Tc Kc Eb Kb EP EP'. destruct (wf_bcC dt e X c bc Hdt Wc Tc Kc Eb) as [Wb Tb].
  destruct (Z.ltb_spec (s - q) 0) as [L|L].
  - rewrite (op2_neg _ _ _ _ _ L EP), call_zeroC. destruct (Z.ltb_spec (s - (q - 1)) 0) as [L'|L'].
    + rewrite (op2_neg _ _ _ _ _ L' EP'), call_zeroC. do 2 eexists. split; [reflexivity|]. split; reflexivity.
    + apply op2_alt in EP'; auto. replace (Z.to_nat (s - (q - 1))) with 0%nat in EP' by lia. destruct (value_c dt e X c Hdt Wc Tc Kc _ _ _ EP') as (z & Ez & V). exists z. eexists. split; [exact Ez|]. split; [reflexivity|].
      apply mod2_eqm. rewrite V. exact (stableC0 dt e X A c bc a Hdt HA Ha Wc Tc Kc Eb Kb).
  - apply op2_alt in EP'; auto; [|lia]. apply op2_alt in EP; auto. replace (Z.to_nat (s - (q - 1))) with (Datatypes.S (Z.to_nat (s - q))) in EP' by lia.
    destruct (value_c dt e X c Hdt Wc Tc Kc _ _ _ EP') as (z & Ez & V). destruct (value_c dt (e - 1) A bc Hdt Wb Tb Kb _ _ _ EP) as (z' & Ez' & V').
    exists z, z'. split; [exact Ez|]. split; [exact Ez'|]. apply mod2_eqm. rewrite V, V'. exact (stableC dt e X A c bc a Hdt HA Ha Wc Tc Kc Eb Kb _).
Qed.
(** #C88_cubical_example# A square, its boundary and the cochain of one edge meet
    the hypotheses; both values are 1. *)
Example C88_cubical_example_l : exists (P P' : surj) (c bc z z' : cubc),
  let A := fun x => In x [[0; 0]; [0; 1]; [1; 0]; [1; 1]; [2; 0]; [2; 1]; [0; 2]; [1; 2]] in
  let a := fun x => match x with [2; 0] => 1 | _ => 0 end in
  cubical_set A /\ cub_cocycle A a /\ wf cls_cubical c /\ torsion c = 2 /\ keys_in (cub_cell (fun _ => True) 2) c /\
  cub_boundary 0 c = Ok bc /\ keys_in (cub_cell A (2 - 1)) bc /\
  surj_steenrod_operation 0 BF 2 0 (-1) false (Some MS) = Ok P /\ surj_steenrod_operation 0 BF 2 0 (-1 - 1) false (Some MS) = Ok P' /\
  surj_call_cubical 0 P' c 1 = Ok z /\ surj_call_cubical 0 P bc 1 = Ok z' /\
  cub_value (on_pair (cub_coboundary a) (cub_coboundary a)) z mod 2 = 1 /\ cub_value (on_pair a a) z' mod 2 = 1.
Proof.
  do 2 eexists. exists (mkElt [([[2; 2]], 1)] 2 tt). do 3 eexists. cbv zeta.
  split. { intros l1 e l2 He HX. cbn in HX. repeat destruct HX as [HX|HX]; try contradiction; destruct l1 as [|x [|y l1]]; try (destruct l1; discriminate); injection HX as HX; subst; destruct He as [-> | ->]; cbn; tauto. }
  split. { intros x Hx. cbn in Hx. repeat destruct Hx as [<-|Hx]; try contradiction; reflexivity. }
  split; [apply wfb_wf; reflexivity|]. split; [reflexivity|].
  split. { intros k v [E|[]]. injection E as <- _. exists [2; 2]. split; [reflexivity|]. split; [exact I|]. split; [intros z Hz; cbn in Hz; lia|reflexivity]. }
  split; [vm_compute; reflexivity|].
  split. { intros k v Hk. cbn in Hk. repeat destruct Hk as [Hk|Hk]; try contradiction; injection Hk as <- _; (eexists; split; [reflexivity|]; split; [cbn; tauto|]; split; [intros z Hz; cbn in Hz; lia|reflexivity]). }
  do 5 (split; [vm_compute; reflexivity|]). vm_compute. reflexivity.
Qed.
