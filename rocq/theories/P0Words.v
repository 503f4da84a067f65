(** * Words of cochains: the descent from a simplex to its last face.  Proof library for C87. *)
From Coq Require Import Setoid Morphisms Znumtheory Sorting.Sorted.
From Verif Require Import PyBase Dict FreeModule Symmetric Simplicial Utils Surjection BarrattEccles Eqm Spec SpecChain SpecOperad SpecSurj SpecAction SpecCochain FreeModuleFacts FreeModuleLaws ListFacts
  ClassFacts LinearFacts BilFacts SymmetricFacts CycleFacts SymmetricLaws RingFacts Tensor TensorAct KoszulFacts LoopFacts AW SimplicialFacts SimplicialDiag SimplicialLaws BEOrbit BEDiag MayFacts BELaws3 SurjFacts SurjBoundary SurjLaws SurjAct SurjMay
  SteenrodFacts SteenrodLaws ActFacts ActSign ActCore ActCode ActLaws EquivAct SteenrodAct StnLaws SteenrodWords SteenrodLin SteenrodClass Bockstein.

Definition word := list (list Z).
(** all maximal runs of letters [1] have even length *)
Fixpoint EV (b : bool) (w : word) : Z :=
  match w with
  | [] => if b then 0 else 1
  | l :: w' => if isu l then (if b then 0 else EV false w') else EV (negb b) w'
  end.
Lemma EV_cases b w : EV b w = 0 \/ EV b w = 1 /\ Z.even (cnt w) = negb b.
Proof.
  revert b. induction w as [|l w IH]; intros b; cbn [EV].
  - destruct b; [now left|now right].
  - unfold cnt. rewrite sumf_cons. change (sumf _ w) with (cnt w). destruct (isu l).
    + destruct b; [now left|]. rewrite Z.add_0_l. apply IH.
    + destruct (IH (negb b)) as [E|[E P]]; [now left|right; split; [exact E|]]. rewrite Z.even_add, P. now destruct b.
Qed.
Lemma EV_app b A B : EV b (A ++ [0] :: B) = EV b A * EV false B.
Proof.
  revert b. induction A as [|l A IH]; intros b; cbn [app EV].
  - change (isu [0]) with true. cbv iota. destruct b; ring.
  - destruct (isu l); [destruct b; [ring|]|]; apply IH.
Qed.
Lemma EV_app1 b A : EV b (A ++ [[0]]) = EV b A.
Proof. rewrite (EV_app b A []). cbn [EV]. ring. Qed.
(** sum over the adjacent pairs 11 *)
Definition hh (g : word -> word -> Z) (A R : word) : Z :=
  match R with a :: b :: B => if isu a || isu b then 0 else g A B | _ => 0 end.
Fixpoint PS (g : word -> word -> Z) (v : word) : Z :=
  match v with [] => 0 | a :: v' => hh g [] v + PS (fun A B => g (a :: A) B) v' end.
Lemma PS_ext g g' v : (forall A a b B, v = A ++ a :: b :: B -> isu a = false -> isu b = false -> g A B = g' A B) -> PS g v = PS g' v.
Proof.
  revert g g'. induction v as [|a v IH]; intros g g' E; [reflexivity|]. cbn [PS]. f_equal.
  - unfold hh. destruct v as [|b B]; [reflexivity|]. destruct (isu a) eqn:Ea; [reflexivity|]. destruct (isu b) eqn:Eb; [reflexivity|]. cbn [orb]. now apply (E [] a b B).
  - apply IH. intros A x y B -> Hx Hy. apply (E (a :: A) x y B); auto.
Qed.
Lemma PS_eqm p g g' v : (forall A a b B, v = A ++ a :: b :: B -> isu a = false -> isu b = false -> eqm p (g A B) (g' A B)) -> eqm p (PS g v) (PS g' v).
Proof.
  revert g g'. induction v as [|a v IH]; intros g g' E; [reflexivity|]. cbn [PS]. apply Eqm.eqm_add.
  - unfold hh. destruct v as [|b B]; [reflexivity|]. destruct (isu a) eqn:Ea; [reflexivity|]. destruct (isu b) eqn:Eb; [reflexivity|]. cbn [orb]. now apply (E [] a b B).
  - apply IH. intros A x y B -> Hx Hy. apply (E (a :: A) x y B); auto.
Qed.
Lemma PS_scal c g v : PS (fun A B => c * g A B) v = c * PS g v.
Proof.
  revert g. induction v as [|a v IH]; intros g; [cbn; ring|]. cbn [PS]. rewrite (IH (fun A B => g (a :: A) B)), Z.mul_add_distr_l. f_equal.
  unfold hh. destruct v as [|b B]; [ring|]. destruct (isu a || isu b); ring.
Qed.
Lemma PS_sum g v : sumf (fun i => hh g (firstn (Z.to_nat i) v) (skipn (Z.to_nat i) v)) (zrange 0 (zlen v)) = PS g v.
Proof.
  revert g. induction v as [|a v IH]; intros g; [reflexivity|]. rewrite zlen_cons. replace (1 + zlen v) with (zlen v + 1) by ring. pose proof (zlen_nonneg v). rewrite sumf_zrange_S by lia. cbn [PS]. f_equal.
  rewrite <- IH. apply sumf_ext. intros i Hi. apply in_zrange in Hi. replace (Z.to_nat (i + 1)) with (Datatypes.S (Z.to_nat i)) by lia. cbn [firstn skipn]. unfold hh.
  destruct (skipn (Z.to_nat i) v) as [|x [|y B]]; reflexivity.
Qed.
Lemma PS_EV b v : 2 * PS (fun A B => EV b A * EV false B) v = (cnt v - (if b then 1 else 0)) * EV b v.
Proof.
  revert b. induction v as [|a v IH]; intros b; [destruct b; reflexivity|]. cbn [PS EV]. unfold cnt. rewrite sumf_cons. change (sumf _ v) with (cnt v). destruct (isu a) eqn:Ea.
  - assert (H0 : forall g, hh g [] (a :: v) = 0) by (intros g; unfold hh; destruct v; [reflexivity|now rewrite Ea]). rewrite H0, Z.add_0_l, Z.add_0_l.
    destruct b.
    + rewrite (PS_ext _ (fun A B => 0 * (EV true A * EV false B))) by (intros; ring). rewrite PS_scal. ring.
    + rewrite IH. ring.
  - rewrite (IH (negb b)) || rewrite Z.mul_add_distr_l, (IH (negb b)). destruct b; cbn [negb].
    + assert (H0 : hh (fun A B => EV true A * EV false B) [] (a :: v) = 0) by (unfold hh; destruct v; [reflexivity|destruct (isu a || isu _); reflexivity]). rewrite H0. ring.
    + destruct v as [|x v]; [reflexivity|]. unfold hh. rewrite Ea. cbn [orb EV]. destruct (isu x); cbn [negb]; ring.
Qed.
(** ** rotations as exchanges of blocks *)
Lemma kact_left dg F p (A B : word) : zlen (A ++ B) = p -> 1 <= p -> B <> [] -> kact dg F (rot p (- zlen A)) (A ++ B) = sgn (tdeg dg A * tdeg dg B) * F (B ++ A).
Proof.
  intros L Hp NB. pose proof (zlen_nonneg A) as LA. rewrite zlen_app in L. assert (LB : 1 <= zlen B) by (destruct B; [congruence|]; rewrite zlen_cons; pose proof (zlen_nonneg B); lia).
  destruct (Z.eq_dec (zlen A) 0) as [Z0|NZ].
  { assert (A = []) by (destruct A; [reflexivity|]; rewrite zlen_cons in Z0; pose proof (zlen_nonneg A); lia). subst A. change (zlen (@nil (list Z))) with 0 in *. change (- (0)) with 0. rewrite rot_0. cbn [app]. rewrite kact_id by lia. rewrite app_nil_r. change (tdeg dg []) with 0. rewrite Z.mul_0_l, sgn_0. ring. }
  replace (rot p (- zlen A)) with (rot p (zlen B)) by (rewrite <- (rot_period p (- zlen A)) by lia; f_equal; lia).
  assert (Pr : perm p (rot p (zlen B))) by (apply perm_rot; lia). pose proof (perm_nodup _ _ Pr) as ND.
  assert (ML : map (lab (rot p (zlen B)) (A ++ B)) (rot p (zlen B)) = A ++ B) by (apply map_lab; [exact ND|]; pose proof (perm_len p _ ltac:(lia) Pr); unfold zlen in *; rewrite app_length; lia).
  set (lb := lab (rot p (zlen B)) (A ++ B)) in *. rewrite rot_blocks in ML by lia. rewrite map_app in ML.
  assert (EA : map lb (zrange (zlen B + 1) (p + 1)) = A /\ map lb (zrange 1 (zlen B + 1)) = B).
  { assert (LL : length (map lb (zrange (zlen B + 1) (p + 1))) = length A) by (rewrite map_length, zrange_length; unfold zlen in *; lia).
    revert ML LL. generalize (map lb (zrange (zlen B + 1) (p + 1))) (map lb (zrange 1 (zlen B + 1))). intros U V. clear. revert A. induction U as [|u U IH]; intros [|a A] E LL; try discriminate; [now split|]. cbn [app] in E. injection E as -> E. destruct (IH A E) as [-> ->]; [cbn in LL; lia|now split]. }
  destruct EA as [EA EB]. unfold kact. f_equal.
  - rewrite kinv_rot by lia. fold lb. f_equal. f_equal.
    + transitivity (tdeg dg (map lb (zrange (zlen B + 1) (p + 1)))); [unfold tdeg; now rewrite map_map|now rewrite EA].
    + transitivity (tdeg dg (map lb (zrange 1 (zlen B + 1)))); [unfold tdeg; now rewrite map_map|now rewrite EB].
  - f_equal. unfold placef. fold lb. rewrite (perm_len p _ ltac:(lia) Pr). rewrite (zrange_app 1 (zlen B + 1) (p + 1)) by lia. rewrite map_app. now rewrite EA, EB.
Qed.
Lemma tdeg_word m w : okw w -> tdeg (dgw m) w = (1 - m) * zlen w - cnt w.
Proof.
  induction w as [|l w IH]; intros Ho; [change (tdeg (dgw m) []) with 0; change (zlen (@nil (list Z))) with 0; change (cnt []) with 0; ring|].
  rewrite tdeg_cons, zlen_cons, IH by (intros x Hx; apply Ho; now right). unfold cnt at 2. rewrite sumf_cons. change (sumf _ w) with (cnt w). unfold dgw. destruct (isu l); ring.
Qed.
Lemma okw_cons l w : okw (l :: w) <-> (l = [0] \/ l = [1]) /\ okw w.
Proof. split; [intros H; split; [apply H; now left|intros x Hx; apply H; now right]|]. intros [H1 H2] x [<-|Hx]; auto. Qed.
Lemma okw_app v w : okw (v ++ w) <-> okw v /\ okw w.
Proof. split; [intros H; split; intros x Hx; apply H, in_app_iff; auto|]. intros [H1 H2] x Hx. apply in_app_iff in Hx. destruct Hx; auto. Qed.
Lemma okw_nil : okw []. Proof. intros x []. Qed.
Lemma cnt_app v w : cnt (v ++ w) = cnt v + cnt w. Proof. unfold cnt. apply sumf_app. Qed.
Lemma cnt_cons l w : cnt (l :: w) = (if isu l then 0 else 1) + cnt w. Proof. unfold cnt. apply sumf_cons. Qed.
Section Step.
Variables (p m : Z).
Hypothesis Hp : 3 <= p.
Hypothesis Ho : Z.even p = false.
Notation dg := (dgw m).
Lemma AA_odd d' f z : Nat.even d' = false -> zlen z = p - 1 -> AA p m d' (SS f) ([0] :: z) = sgn ((1 - m) * tdeg dg z) * SS f (z ++ [[0]]).
Proof.
  intros Ed Lz. unfold AA, RA. rewrite Ed. rewrite !(pinv_rot p) by lia. change (- (0)) with 0. rewrite rot_0, kact_id by (try rewrite zlen_cons; lia). change (SS f ([0] :: z)) with 0. rewrite Z.sub_0_r.
  change (Z.opp 1) with (- zlen [[0]]). change ([0] :: z) with ([[0]] ++ z). rewrite kact_left; [|cbn [app]; rewrite zlen_cons; lia|lia|intros ->; change (zlen (@nil (list Z))) with 0 in Lz; lia].
  rewrite tdeg_cons. change (tdeg dg []) with 0. change (dgw m [0]) with (1 - m). now rewrite Z.add_0_r.
Qed.
Definition gg (f : word -> Z) (A B : word) : Z :=
  sgn (tdeg dg ([0] :: A) * tdeg dg ([1] :: [1] :: B)) * (sgn ((1 - m) * tdeg dg ([1] :: B ++ [0] :: A)) * f ([0] :: B ++ [0] :: A ++ [[0]])).
Lemma AA_even d d' f v : Nat.even d = true -> Nat.even d' = false -> okw v -> zlen v = p - 1 ->
  AA p m d (SS (AA p m d' (SS f))) ([0] :: v) = PS (gg f) v.
Proof.
  intros Ed Ed' Hv Lv. unfold AA at 1. unfold RA. rewrite Ed. rewrite <- PS_sum, Lv. replace (zrange 0 p) with (zrange 0 (p - 1 + 1)) by (f_equal; ring). rewrite sumf_zrange_S by lia.
  rewrite !(pinv_rot p) by lia. change (- (0)) with 0. rewrite rot_0, kact_id by (try rewrite zlen_cons; lia). change (SS (AA p m d' (SS f)) ([0] :: v)) with 0. rewrite Z.add_0_l.
  apply sumf_ext. intros i Hi. apply in_zrange in Hi. rewrite (pinv_rot p) by lia. rewrite <- (firstn_skipn (Z.to_nat i) v) at 1.
  assert (LA : zlen (firstn (Z.to_nat i) v) = i) by (unfold zlen in *; rewrite firstn_length; lia).
  assert (LB : zlen (skipn (Z.to_nat i) v) = p - 1 - i) by (unfold zlen in *; rewrite skipn_length; lia).
  assert (OO : okw (firstn (Z.to_nat i) v) /\ okw (skipn (Z.to_nat i) v)) by (apply okw_app; now rewrite firstn_skipn). destruct OO as [OA OB].
  set (A := firstn _ v) in *. set (B := skipn _ v) in *. clearbody A B. replace (- (i + 1)) with (- zlen ([0] :: A)) by (rewrite zlen_cons; lia).
  change ([0] :: A ++ B) with (([0] :: A) ++ B). rewrite kact_left; [|rewrite zlen_app, zlen_cons; lia|lia|intros ->; change (zlen (@nil (list Z))) with 0 in LB; lia].
  destruct B as [|a B]; [change (zlen (@nil (list Z))) with 0 in LB; lia|]. rewrite zlen_cons in LB. apply okw_cons in OB. destruct OB as [Oa OB]. destruct Oa as [-> | ->].
  - cbn [app SS hh]. change (isu [0]) with true. cbv iota. destruct B; cbn [orb]; ring.
  - cbn [app SS]. change (isu [1]) with false. cbv iota. rewrite AA_odd; [|exact Ed'|rewrite zlen_app, zlen_cons; lia].
    destruct B as [|b B]; [cbn [app SS hh]; change (isu [0]) with true; cbv iota; ring|]. apply okw_cons in OB. destruct OB as [Ob OB]. destruct Ob as [-> | ->].
    + cbn [app SS hh]. change (isu [0]) with true. rewrite orb_true_r. cbv iota. ring.
    + cbn [app SS hh]. change (isu [1]) with false. cbn [orb]. cbv iota. unfold gg. now rewrite <- app_assoc.
Qed.
Definition eps : Z := if Z.even m then -1 else 1.
Lemma M_step d d' f j c : Nat.even d = true -> Nat.even d' = false -> 
  (forall v, okw v -> zlen v = p - 1 -> cnt v = 2 * j -> eqm p (f ([0] :: v)) (c * EV false v)) ->
  forall v, okw v -> zlen v = p - 1 -> cnt v = 2 * (j + 1) ->
  eqm p (AA p m d (SS (AA p m d' (SS f))) ([0] :: v)) (eps * c * (j + 1) * EV false v).
Proof.
  intros Ed Ed' Hf v Hv Lv Cv. rewrite AA_even by assumption. rewrite (PS_eqm p _ (fun A B => eps * c * (EV false A * EV false B))).
  - rewrite PS_scal. pose proof (PS_EV false v) as E. apply eqm_eq. rewrite Cv in E. replace (PS (fun A B => EV false A * EV false B) v) with ((j + 1) * EV false v) by lia. ring.
  - intros A a b B -> Ha Hb. apply okw_app in Hv. destruct Hv as [OA OB]. apply okw_cons in OB. destruct OB as [Oa OB]. apply okw_cons in OB. destruct OB as [Ob OB].
    destruct Oa as [-> | ->]; [discriminate|]. destruct Ob as [-> | ->]; [discriminate|]. rewrite zlen_app, !zlen_cons in Lv. rewrite cnt_app, !cnt_cons in Cv. change (isu [1]) with false in Cv. cbv iota in Cv.
    unfold gg. rewrite (Hf (B ++ [0] :: A ++ [[0]])).
    + rewrite EV_app, EV_app1. destruct (EV_cases false A) as [E|[EA PA]]; [rewrite E; apply eqm_eq; ring|]. destruct (EV_cases false B) as [E|[EB PB]]; [rewrite E; apply eqm_eq; ring|]. apply eqm_eq. rewrite EA, EB.
      rewrite Z.mul_assoc, <- sgn_add.
      assert (Sg : sgn (tdeg dg ([0] :: A) * tdeg dg ([1] :: [1] :: B) + (1 - m) * tdeg dg ([1] :: B ++ [0] :: A)) = eps).
      { rewrite !tdeg_word by (rewrite ?okw_cons, ?okw_app, ?okw_cons; tauto). rewrite !zlen_cons, zlen_app, zlen_cons, !cnt_cons, cnt_app, cnt_cons. change (isu [1]) with false. change (isu [0]) with true. cbv iota.
        cbn [negb] in PA, PB. assert (PP : Z.even (zlen B) = Z.even (zlen A)).
        { replace p with (zlen A + zlen B + 3) in Ho by lia. rewrite !Z.even_add in Ho. change (Z.even 3) with false in Ho. destruct (Z.even (zlen A)), (Z.even (zlen B)); cbn in Ho; congruence. }
        unfold sgn, eps. rewrite !Z.even_add, !Z.even_mul, !Z.even_sub, !Z.even_mul, !Z.even_add, !Z.even_sub, PA, PB, PP. change (Z.even 1) with true || change (Z.even 1) with false. change (Z.even 0) with true. destruct (Z.even (zlen A)), (Z.even m); reflexivity. }
      rewrite Sg. ring.
    + rewrite okw_app, okw_cons, okw_app, okw_cons. pose proof okw_nil. tauto.
    + rewrite zlen_app, zlen_cons, zlen_app, zlen_cons. change (zlen (@nil (list Z))) with 0. lia.
    + rewrite cnt_app, cnt_cons, cnt_app, cnt_cons. change (isu [0]) with true. change (cnt []) with 0. cbv iota. lia.
Qed.

Notation DD := (tD fbw dg).
Notation EQp := (EQ p).
Notation AAp := (AA p m).
Fixpoint NL (k d : nat) (F : word -> Z) : word -> Z := match k with O => F | Datatypes.S k => SS (AAp d (NL k (d - 1) F)) end.
Lemma NL_out k : forall d F, NL (Datatypes.S k) d F = NL k d (SS (AAp (d - k) F)).
Proof.
  induction k as [|k IH]; intros d F; [cbn [NL]; now rewrite Nat.sub_0_r|]. change (NL (Datatypes.S (Datatypes.S k)) d F) with (SS (AAp d (NL (Datatypes.S k) (d - 1) F))). rewrite IH. cbn [NL]. replace (d - 1 - k)%nat with (d - Datatypes.S k)%nat by lia. reflexivity.
Qed.
Lemma EQ_NL k : forall d F F', EQp F F' -> EQp (NL k d F) (NL k d F').
Proof. induction k as [|k IH]; intros d F F' E; [exact E|]. cbn [NL]. apply EQ_S, EQ_A; [lia|]. now apply IH. Qed.
Lemma A_add d F F' w : AAp d (fun w => F w + F' w) w = AAp d F w + AAp d F' w.
Proof. unfold AA, RA. destruct (Nat.even d); [rewrite <- sumf_add; apply sumf_ext; intros|]; unfold kact; ring. Qed.
Lemma SS_add F F' w : SS (fun w => F w + F' w) w = SS F w + SS F' w.
Proof. destruct w as [|b w]; [reflexivity|]. cbn [SS]. destruct (isu b); ring. Qed.
Lemma EQ_trans F F' F'' : EQp F F' -> EQp F' F'' -> EQp F F''.
Proof. intros E E' w H1 H2. rewrite (E w H1 H2). now apply E'. Qed.
Lemma NL_add k : forall d F F', EQp (NL k d (fun w => F w + F' w)) (fun w => NL k d F w + NL k d F' w).
Proof.
  induction k as [|k IH]; intros d F F'; [intros w _ _; reflexivity|]. cbn [NL]. eapply EQ_trans; [apply EQ_S, (EQ_A p m ltac:(lia)), IH|].
  eapply EQ_trans; [apply (EQ_S p _ (fun w => AAp d (NL k (d - 1) F) w + AAp d (NL k (d - 1) F') w)); intros w _ _; apply eqm_eq, A_add|]. intros w _ _. apply eqm_eq, SS_add.
Qed.
Notation rep a := (repeat [a] (Z.to_nat p)).
Lemma len_rep (a : Z) : zlen (rep a) = p. Proof. unfold zlen. rewrite repeat_length. lia. Qed.
Lemma tdeg_rep (l : list Z) n : tdeg dg (repeat l n) = Z.of_nat n * dgw m l.
Proof. induction n as [|n IH]; [reflexivity|]. cbn [repeat]. rewrite tdeg_cons, IH. rewrite Nat2Z.inj_succ. ring. Qed.
Lemma kact_rep F a j : 0 <= j < p -> kact dg F (rot p (- j)) (rep a) = F (rep a).
Proof.
  intros Hj. replace (rep a) with (repeat [a] (Z.to_nat j) ++ repeat [a] (Z.to_nat (p - j))) by (rewrite <- repeat_app; f_equal; lia).
  replace (- j) with (- zlen (repeat [a] (Z.to_nat j))) by (unfold zlen; rewrite repeat_length; lia).
  rewrite kact_left; [|rewrite zlen_app; unfold zlen; rewrite !repeat_length; lia|lia|intros E; apply (f_equal (@length _)) in E; rewrite repeat_length in E; cbn in E; lia].
  rewrite <- !repeat_app. rewrite !tdeg_rep, !Z2Nat.id by lia. replace (Z.to_nat (p - j) + Z.to_nat j)%nat with (Z.to_nat j + Z.to_nat (p - j))%nat by lia.
  replace (sgn _) with 1; [ring|]. symmetry. unfold sgn. rewrite !Z.even_mul, Z.even_sub, Ho. destruct (Z.even j), (Z.even (dgw m [a])); reflexivity.
Qed.
Lemma AA_rep d F a : eqm p (AAp d F (rep a)) 0.
Proof.
  unfold AA, RA. destruct (Nat.even d).
  - rewrite (sumf_ext _ (fun _ => F (rep a) * 1)); [rewrite sumf_scal, sumf_1, zlen_zrange, Z.max_r by lia; exists (F (rep a)); ring|]. intros j Hj. apply in_zrange in Hj. rewrite (pinv_rot p) by lia. rewrite kact_rep by lia. ring.
  - rewrite !(pinv_rot p) by lia. rewrite !kact_rep by lia. apply eqm_eq. ring.
Qed.
Lemma EQ_0_NL k d F : EQp F (fun _ => 0) -> EQp (NL k d F) (fun _ => 0).
Proof.
  revert d. induction k as [|k IH]; intros d E; [exact E|]. cbn [NL]. eapply EQ_trans; [apply EQ_S, (EQ_A p m ltac:(lia)), IH, E|]. intros w _ _. apply eqm_eq. destruct w as [|b w]; [reflexivity|]. cbn [SS]. destruct (isu b); [reflexivity|].
  unfold AA, RA. destruct (Nat.even d); [apply sumf_0; intros; unfold kact; ring|unfold kact; ring].
Qed.
Lemma D_rep1 F : DD F (rep 1) = 0.
Proof.
  generalize (Z.to_nat p). intros n. revert F. induction n as [|n IH]; intros F; [reflexivity|]. cbn [repeat]. rewrite tD_cons, IH. unfold fd. change (fbw [1]) with (@nil (list Z * Z)). rewrite ev_nil. ring.
Qed.
Lemma ok_rep a : a = 0 \/ a = 1 -> okw (rep a).
Proof. intros Ha x Hx. apply repeat_spec in Hx. subst x. destruct Ha as [-> | ->]; auto. Qed.
Lemma NL_D k : forall d F, (k <= d)%nat -> eqm p (NL k d (DD F) (rep 1)) 0.
Proof.
  induction k as [|k IH]; intros d F Hk; [cbn [NL]; rewrite D_rep1; reflexivity|]. rewrite NL_out.
  assert (E : EQp (SS (AAp (d - k) (DD F))) (fun w => AAp (d - k) F w + DD (fun w' => -1 * SS (AAp (d - k) F) w') w)).
  { eapply EQ_trans; [apply (EQ_S p _ (DD (AAp (d - k) F))); intros w _ Lw; apply eqm_eq; symmetry; apply (D_A p m ltac:(lia)); exact Lw|]. intros w Hw Lw. apply eqm_eq.
    rewrite tD_scal. rewrite <- (contr m (AAp (d - k) F) w Hw) by (intros ->; change (zlen (@nil (list Z))) with 0 in Lw; lia). ring. }
  assert (O1 : okw (rep 1)) by (apply ok_rep; now right). pose proof (len_rep 1) as L1.
  rewrite (EQ_NL k d _ _ E _ O1 L1). rewrite (NL_add k d _ _ _ O1 L1). rewrite IH by lia. rewrite Z.add_0_r. destruct k as [|k]; [apply AA_rep|]. rewrite NL_out.
  apply (EQ_0_NL k d); [|exact O1|exact L1]. eapply EQ_trans; [apply (EQ_S p _ (fun _ => 0))|].
  - intros w Hw Lw. apply eqm_eq. replace (d - k)%nat with (Datatypes.S (d - Datatypes.S k)) by lia. now apply (A_A p m ltac:(lia)).
  - intros w _ _. destruct w as [|b w]; [reflexivity|]. cbn [SS]. now destruct (isu b).
Qed.
Lemma NL_small c F : (forall w, okw w -> zlen w = p -> c < cnt w -> eqm p (F w) 0) -> forall k d w, okw w -> zlen w = p -> c + Z.of_nat k < cnt w -> eqm p (NL k d F w) 0.
Proof.
  intros HF. induction k as [|k IH]; intros d w Hw Lw Cw; [apply HF; auto; lia|]. cbn [NL]. destruct w as [|b w]; [reflexivity|]. cbn [SS]. destruct (isu b) eqn:Eb; [reflexivity|].
  rewrite zlen_cons in Lw. rewrite cnt_cons, Eb in Cw. apply okw_cons in Hw. unfold AA. rewrite (RA_eqm p ltac:(lia) ltac:(lia) d _ (fun _ => 0)); [apply RA_const; lia|]. intros j Hj. unfold kact.
  assert (Hw0 : okw ([0] :: w)) by (apply okw_cons; tauto). assert (Lw0 : zlen ([0] :: w) = p) by (rewrite zlen_cons; lia). pose proof (perm_pinv_rot p ltac:(lia) j) as Pj.
  destruct (placef_ok p ltac:(lia) _ _ Pj Hw0 Lw0) as [H1 H2]. rewrite IH; [apply eqm_eq; ring|exact H1|exact H2|]. unfold cnt. rewrite (sumf_perm _ _ _ (placef_perm p _ _ ltac:(lia) Pj Lw0)). change (sumf _ ([0] :: w)) with (cnt ([0] :: w)). rewrite cnt_cons. change (isu [0]) with true. cbv iota. lia.
Qed.
Fixpoint Mit (j d : nat) (F : word -> Z) : word -> Z := match j with O => F | Datatypes.S j => AAp d (SS (AAp (d - 1) (SS (Mit j (d - 2) F)))) end.
Lemma NL_Mit j : forall d F, NL (2 * j) d (SS F) = SS (Mit j d F).
Proof.
  induction j as [|j IH]; intros d F; [reflexivity|]. replace (2 * Datatypes.S j)%nat with (Datatypes.S (Datatypes.S (2 * j))) by lia. cbn [NL Mit]. replace (d - 1 - 1)%nat with (d - 2)%nat by lia. now rewrite IH.
Qed.
Lemma Mit_val F j : forall d v, Nat.even d = true -> (2 * j <= d)%nat -> okw v -> zlen v = p - 1 -> cnt v = 2 * Z.of_nat j ->
  eqm p (Mit j d F ([0] :: v)) (eps ^ Z.of_nat j * zfact j * F (rep 0) * EV false v).
Proof.
  induction j as [|j IH]; intros d v Ed Ld Hv Lv Cv.
  - cbn [Mit]. assert (E : v = repeat [0] (length v)) by (apply cnt_0; [exact Hv|exact Cv]). assert (E2 : [0] :: v = rep 0) by (rewrite E; change ([0] :: repeat [0] (length v)) with (repeat [0] (Datatypes.S (length v))); f_equal; unfold zlen in Lv; lia).
    rewrite E2. replace (EV false v) with 1; [apply eqm_eq; change (zfact 0) with 1; change (eps ^ Z.of_nat 0) with 1; ring|]. rewrite E. generalize (length v). clear. induction n as [|n IH]; [reflexivity|exact IH].
  - cbn [Mit]. rewrite (M_step d (d - 1) (Mit j (d - 2) F) (Z.of_nat j) (eps ^ Z.of_nat j * zfact j * F (rep 0)) Ed).
    + apply eqm_eq. rewrite Nat2Z.inj_succ, Z.pow_succ_r by lia. change (zfact (Datatypes.S j)) with (Z.of_nat (Datatypes.S j) * zfact j). rewrite Nat2Z.inj_succ. unfold Z.succ. ring.
    + replace d with (Datatypes.S (d - 1)) in Ed by lia. rewrite Nat.even_succ, <- Nat.negb_even in Ed. now destruct (Nat.even (d - 1)).
    + intros u Hu Lu Cu. apply IH; auto; [|lia]. replace d with (Datatypes.S (Datatypes.S (d - 2))) in Ed by lia. now rewrite Nat.even_succ_succ in Ed.
    + exact Hv.
    + exact Lv.
    + lia.
Qed.
Lemma EV_ones n : EV false (repeat [1] (2 * n)) = 1.
Proof. induction n as [|n IH]; [reflexivity|]. replace (2 * Datatypes.S n)%nat with (Datatypes.S (Datatypes.S (2 * n))) by lia. exact IH. Qed.
Variable h : nat.
Hypothesis Hh : p = 2 * Z.of_nat h + 1.
Lemma NL_kappa d F : Nat.even d = true -> (2 * h <= d)%nat -> eqm p (NL (2 * h) d (SS F) (rep 1)) (eps ^ Z.of_nat h * zfact h * F (rep 0)).
Proof.
  intros Ed Ld. rewrite NL_Mit. assert (E : rep 1 = [1] :: repeat [1] (2 * h)) by (change ([1] :: repeat [1] (2 * h)) with (repeat [1] (Datatypes.S (2 * h))); f_equal; lia). rewrite E. cbn [SS]. change (isu [1]) with false. cbv iota.
  rewrite Mit_val; auto.
  - rewrite EV_ones. apply eqm_eq. ring.
  - intros x Hx. apply repeat_spec in Hx. now right.
  - unfold zlen. rewrite repeat_length. lia.
  - rewrite cnt_rep. change (isu [1]) with false. cbv iota. lia.
Qed.
Lemma descent (q e : nat -> word -> Z) (d0 : nat) : Nat.even d0 = true ->
  EQp (DD (q O)) (e O) -> (forall d, EQp (DD (q (Datatypes.S d))) (fun w => AAp (Datatypes.S d) (q d) w + e (Datatypes.S d) w)) ->
  (forall d w, okw w -> zlen w = p -> 0 < cnt w -> eqm p (e d w) 0) ->
  eqm p (q (d0 + 2 * h)%nat (rep 1)) (eps ^ Z.of_nat h * zfact h * e d0 (rep 0)).
Proof.
  intros Ed H0 HS He. set (d := (d0 + 2 * h)%nat). assert (O1 : okw (rep 1)) by (apply ok_rep; now right). pose proof (len_rep 1) as L1.
  assert (C1 : cnt (rep 1) = p) by (rewrite cnt_rep; change (isu [1]) with false; cbv iota; lia).
  assert (St : forall k, (k <= d)%nat -> eqm p (NL k d (q (d - k)%nat) (rep 1)) (NL k d (SS (DD (q (d - k)%nat))) (rep 1))).
  { intros k Hk. assert (E : EQp (q (d - k)%nat) (fun w => DD (SS (q (d - k)%nat)) w + SS (DD (q (d - k)%nat)) w)).
    { intros w Hw Lw. apply eqm_eq. symmetry. apply contr; [exact Hw|]. intros ->. change (zlen (@nil (list Z))) with 0 in Lw. lia. }
    rewrite (EQ_NL k d _ _ E _ O1 L1). rewrite (NL_add k d _ _ _ O1 L1). rewrite NL_D by exact Hk. apply eqm_eq. ring. }
  assert (De : forall k, (k <= 2 * h)%nat -> eqm p (q d (rep 1)) (NL k d (q (d - k)%nat) (rep 1))).
  { induction k as [|k IH]; intros Hk; [cbn [NL]; rewrite Nat.sub_0_r; reflexivity|]. rewrite IH by lia. rewrite St by lia. rewrite NL_out. replace (d - k)%nat with (Datatypes.S (d - Datatypes.S k)) by lia. set (d1 := (d - Datatypes.S k)%nat).
    assert (E : EQp (SS (DD (q (Datatypes.S d1)))) (fun w => SS (AAp (Datatypes.S d1) (q d1)) w + SS (e (Datatypes.S d1)) w)) by (eapply EQ_trans; [apply EQ_S, HS|]; intros w _ _; apply eqm_eq, SS_add).
    rewrite (EQ_NL k d _ _ E _ O1 L1). rewrite (NL_add k d _ _ _ O1 L1). rewrite (NL_small 1 (SS (e (Datatypes.S d1)))) at 1; [apply eqm_eq; ring| |exact O1|exact L1|lia].
    intros w Hw Lw Cw. destruct w as [|b w]; [reflexivity|]. cbn [SS]. destruct (isu b) eqn:Eb; [reflexivity|]. rewrite cnt_cons, Eb in Cw. apply okw_cons in Hw. rewrite zlen_cons in Lw. apply He; [apply okw_cons; tauto|rewrite zlen_cons; lia|rewrite cnt_cons; change (isu [0]) with true; cbv iota; lia]. }
  rewrite (De (2 * h)%nat) by lia. rewrite St by lia. replace (d - 2 * h)%nat with d0 by (unfold d; lia). 
  rewrite NL_kappa; [|unfold d; rewrite Nat.even_add, Ed, Nat.even_mul; reflexivity|unfold d; lia].
  assert (O0 : okw (rep 0)) by (apply ok_rep; now left). pose proof (len_rep 0) as L0.
  destruct d0 as [|d1]; [rewrite (H0 _ O0 L0); reflexivity|]. rewrite (HS d1 _ O0 L0). rewrite AA_rep, Z.add_0_l. reflexivity.
Qed.
End Step.
