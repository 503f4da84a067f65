(** * Steenrod operations on cohomology classes (C74) *)
From Coq Require Import Setoid Morphisms Znumtheory.
From Verif Require Import PyBase Dict FreeModule Symmetric Simplicial Utils Surjection BarrattEccles Eqm Spec SpecChain SpecOperad SpecSurj SpecAction SpecCochain FreeModuleFacts FreeModuleLaws ListFacts
  ClassFacts LinearFacts BilFacts SymmetricFacts CycleFacts SymmetricLaws RingFacts Tensor TensorAct KoszulFacts LoopFacts AW SimplicialFacts SimplicialDiag SimplicialLaws BEOrbit BEDiag MayFacts BELaws3 SurjFacts SurjBoundary SurjLaws SurjAct SurjMay
  SteenrodFacts SteenrodLaws ActFacts ActSign ActCore ActCode ActLaws EquivAct SteenrodAct StnLaws SteenrodWords SteenrodLin.

Lemma mod_eqm p a b : p <> 0 -> (a mod p = b mod p <-> eqm p a b).
Proof.
  intros Hp. split.
  - intros E. transitivity (a mod p); [symmetry; now apply Eqm.eqm_mod|]. rewrite E. now apply Eqm.eqm_mod.
  - intros [z Ez]. replace a with (b + z * p) by lia. now apply Z.mod_add.
Qed.
Lemma prime_two_odd p : prime p -> 2 <= p /\ (p = 2 \/ (3 <= p /\ Z.even p = false)).
Proof.
  intros Hp. pose proof (prime_ge_2 p Hp). split; [lia|]. destruct (Z.eq_dec p 2) as [->|N]; [now left|]. right. destruct (prime_odd p Hp N) as (m & -> & Hm & _). split; [lia|].
  rewrite Z.even_add, Z.even_mul. reflexivity.
Qed.
Lemma coface_eq beta s : zsum (map (fun f => snd f * beta (fst f)) (faces s)) = fdS beta s.
Proof. unfold fd, ev, faces, fbS. rewrite cuts_splits. reflexivity. Qed.
Lemma cochain_add m a b : cochain m a -> cochain m b -> cochain m (fun s => a s + b s).
Proof. intros [A1 A2] [B1 B2]. split; intros; cbn beta; rewrite ?A1, ?B1, ?A2, ?B2 by assumption; reflexivity. Qed.
Lemma cochain_scal m n a : cochain m a -> cochain m (fun s => n * a s).
Proof. intros [A1 A2]. split; intros; cbn beta; rewrite ?A1, ?A2 by assumption; ring. Qed.
Lemma cocycle_scal p m X n a : p <> 0 -> cocycle p m X a -> cocycle p m X (fun s => n * a s).
Proof.
  intros Hp Ha. split; [apply cochain_scal, Ha|]. intros s Xs Ls. pose proof (coface_eq (fun s0 => n * a s0) s) as CE. cbn beta in CE. rewrite CE. change (fdS (fun s0 => n * a s0) s) with (fdS (fun s0 => n * (fun x => a x) s0) s). rewrite fd_scal.
  rewrite <- (Z.mod_0_l p) by exact Hp. apply mod_eqm; [exact Hp|]. rewrite (alpha_cocycle p m X a Ha Hp s Xs). apply eqm_eq. ring.
Qed.
Lemma cochain_cob m b : 1 <= m -> cochain (m - 1) b -> cochain m (fdS b).
Proof.
  intros Hm Hb. split.
  - intros l1 v l2. apply fdS_bad.
    + intros x Hx. apply (alpha_deg 2 (m - 1) (fun _ => False) b); [lia|split; [exact Hb|intros ? []]|exact Hx].
    + rewrite deg_dupb. destruct l1 as [|a l1]; cbn [app]; [cbn; now rewrite Z.eqb_refl|]. revert a. induction l1 as [|a' l1 IH]; intros a; cbn [app].
      * cbn. rewrite Z.eqb_refl. cbn. apply orb_true_r.
      * cbn in IH |- *. rewrite (IH a'). apply orb_true_r.
  - intros s N. apply ev_zero. intros u v Hu. apply (proj2 Hb). apply dim_fbS in Hu. unfold spx_dim in *. lia.
Qed.
Lemma cocycle_cob p m X b : p <> 0 -> 1 <= m -> cochain (m - 1) b -> cocycle p m X (fdS b).
Proof. intros Hp Hm Hb. split; [now apply cochain_cob|]. intros s _ _. rewrite coface_eq, fdS_fdS. now apply Z.mod_0_l. Qed.

Section Main.
Variables (dt p e m : Z) (X : list Z -> Prop) (c bc : simp) (c0 : Z) (d : nat) (S : surj).
Hypothesis Hp : prime p.
Hypothesis Hdt : dt_ok dt p.
Hypothesis HX : simplicial_set X.
Hypothesis Wc : wf cls_simplicial c.
Hypothesis Tc : torsion c = p.
Hypothesis Kc : keys_in (fun k => exists s, k = [s] /\ X s /\ zlen s - 1 = e) c.
Hypothesis Eb : simp_boundary dt c = Ok bc.
Hypothesis Zb : data bc = [].
Hypothesis DS : den cls_surj p MS (fun g => c0 * FpS MS p d g) S.
Lemma main_add alpha beta : 0 <= m -> cocycle p m X alpha -> cocycle p m X beta ->
  exists z, surj_call_simplicial dt S c 1 = Ok z /\ evaluate (fun s => alpha s + beta s) z mod p = (evaluate alpha z + evaluate beta z) mod p.
Proof.
  intros Hm Ha Hb. destruct (prime_two_odd p Hp) as [Hp1 Hp2]. assert (Hp2' : p = 2 \/ Z.even p = false) by tauto.
  destruct (QQ_eval dt p e X c Hp1 Hdt Wc Tc Kc m alpha c0 d S Hm (proj1 Ha) DS) as (z & Ez & E1).
  destruct (QQ_eval dt p e X c Hp1 Hdt Wc Tc Kc m beta c0 d S Hm (proj1 Hb) DS) as (z2 & Ez2 & E2). rewrite Ez in Ez2. injection Ez2 as <-.
  destruct (QQ_eval dt p e X c Hp1 Hdt Wc Tc Kc m _ c0 d S Hm (cochain_add m _ _ (proj1 Ha) (proj1 Hb)) DS) as (z2 & Ez2 & E3). rewrite Ez in Ez2. injection Ez2 as <-.
  exists z. split; [exact Ez|]. apply mod_eqm; [lia|]. rewrite E3, E1, E2.
  rewrite (QQ_add dt p e X c bc Hp1 Hp2' Hdt HX Wc Tc Kc Eb Zb m alpha beta Hp Hm Ha Hb d). apply eqm_eq. ring.
Qed.
Lemma main_class alpha alpha' beta : 1 <= m -> cocycle p m X alpha -> cochain m alpha' -> cochain (m - 1) beta ->
  (forall s, X s -> alpha' s mod p = (alpha s + zsum (map (fun f => snd f * beta (fst f)) (faces s))) mod p) ->
  exists z, surj_call_simplicial dt S c 1 = Ok z /\ evaluate alpha' z mod p = evaluate alpha z mod p.
Proof.
  intros Hm Ha Ha' Hb E. destruct (prime_two_odd p Hp) as [Hp1 Hp2]. assert (Hp2' : p = 2 \/ Z.even p = false) by tauto.
  destruct (QQ_eval dt p e X c Hp1 Hdt Wc Tc Kc m alpha c0 d S ltac:(lia) (proj1 Ha) DS) as (z & Ez & E1).
  destruct (QQ_eval dt p e X c Hp1 Hdt Wc Tc Kc m alpha' c0 d S ltac:(lia) Ha' DS) as (z2 & Ez2 & E2). rewrite Ez in Ez2. injection Ez2 as <-.
  exists z. split; [exact Ez|]. apply mod_eqm; [lia|]. rewrite E1, E2.
  assert (Q : eqm p (QQ p c d (on_tensor alpha')) (QQ p c d (on_tensor (fun s => alpha s + fdS beta s)))).
  { apply (QQ_eqm p e X c Hp1 HX Wc Kc). intros K _ HK. revert HK. induction K as [|b K IH]; intros HK; [reflexivity|].
    change (on_tensor alpha' (b :: K)) with (alpha' b * on_tensor alpha' K). change (on_tensor (fun s => alpha s + fdS beta s) (b :: K)) with ((alpha b + fdS beta b) * on_tensor (fun s => alpha s + fdS beta s) K).
    rewrite IH by (intros; apply HK; now right). assert (E' : eqm p (alpha' b) (alpha b + fdS beta b)); [|now rewrite E'].
    apply mod_eqm; [lia|]. rewrite (E b) by (apply HK; now left). now rewrite coface_eq. }
  rewrite Q, (QQ_add dt p e X c bc Hp1 Hp2' Hdt HX Wc Tc Kc Eb Zb m alpha (fdS beta) Hp ltac:(lia) Ha (cocycle_cob p m X beta ltac:(lia) Hm Hb) d).
  rewrite (QQ_coboundary dt p e X c bc Hp1 Hp2' Hdt Wc Tc Kc Eb Zb m beta Hm Hb d). apply eqm_eq. ring.
Qed.
Lemma main_scal alpha n : 0 <= m -> cocycle p m X alpha ->
  exists z, surj_call_simplicial dt S c 1 = Ok z /\ evaluate (fun s => n * alpha s) z mod p = (n * evaluate alpha z) mod p.
Proof.
  intros Hm Ha. destruct (prime_two_odd p Hp) as [Hp1 Hp2]. assert (Hp2' : p = 2 \/ Z.even p = false) by tauto.
  destruct (QQ_eval dt p e X c Hp1 Hdt Wc Tc Kc m alpha c0 d S Hm (proj1 Ha) DS) as (z & Ez & E1).
  destruct (QQ_eval dt p e X c Hp1 Hdt Wc Tc Kc m _ c0 d S Hm (cochain_scal m n _ (proj1 Ha)) DS) as (z2 & Ez2 & E2). rewrite Ez in Ez2. injection Ez2 as <-.
  exists z. split; [exact Ez|]. apply mod_eqm; [lia|]. rewrite E1, E2.
  assert (N : forall j : nat, eqm p (QQ p c d (on_tensor (fun s => Z.of_nat j * alpha s))) (Z.of_nat j * QQ p c d (on_tensor alpha))).
  { induction j as [|j IH].
    - rewrite (QQ_ext p e X c Hp1 Wc Kc d _ (fun _ => 0 * 0)); [rewrite (QQ_scal p e X c Hp1 Wc Kc); apply eqm_eq; ring|]. intros [|b K] LK; [change (zlen []) with 0 in LK; lia|]. change (0 * alpha b * on_tensor (fun s => 0 * alpha s) K = 0 * 0). ring.
    - rewrite (QQ_ext p e X c Hp1 Wc Kc d _ (on_tensor (fun s => Z.of_nat j * alpha s + alpha s))).
      + rewrite (QQ_add dt p e X c bc Hp1 Hp2' Hdt HX Wc Tc Kc Eb Zb m (fun s => Z.of_nat j * alpha s) alpha Hp Hm (cocycle_scal p m X _ _ ltac:(lia) Ha) Ha d). rewrite IH. apply eqm_eq. rewrite Nat2Z.inj_succ. ring.
      + intros K _. unfold on_tensor. f_equal. apply map_ext. intros s. rewrite Nat2Z.inj_succ. ring. }
  assert (R : eqm p n (Z.of_nat (Z.to_nat (n mod p)))) by (rewrite Z2Nat.id by (apply Z.mod_pos_bound; lia); symmetry; apply Eqm.eqm_mod; lia).
  set (j := Z.to_nat (n mod p)) in *.
  assert (Q : eqm p (QQ p c d (on_tensor (fun s => n * alpha s))) (QQ p c d (on_tensor (fun s => Z.of_nat j * alpha s)))).
  { apply (QQ_eqm p e X c Hp1 HX Wc Kc). intros K _ _. induction K as [|b K IH]; [reflexivity|].
    change (eqm p (n * alpha b * on_tensor (fun s => n * alpha s) K) (Z.of_nat j * alpha b * on_tensor (fun s => Z.of_nat j * alpha s) K)). rewrite IH. now rewrite R at 1. }
  rewrite Q, N. rewrite <- R. apply eqm_eq. ring.
Qed.
End Main.

Lemma may_c dt dc p d (S : surj) : prime p -> dt_ok dt p -> 0 <= d -> surj_may_steenrod dt dc p d (Some p) (Some MS) = Ok S -> den cls_surj p MS (fun g => 1 * FpS MS p (Z.to_nat d) g) S.
Proof.
  intros Hp Hdt Hd ES. destruct (prime_two_odd p Hp) as [Hp1 _].
  assert (Ep : p = match Some p with Some t => if t =? 0 then dt else t | None => dt end) by (cbv beta iota; destruct (Z.eqb_spec p 0); [lia|reflexivity]).
  destruct (mayS_ok dt dc MS p (Z.to_nat d) (Some p) (Some MS) p Ep eq_refl (or_intror eq_refl) Hp1 ltac:(lia) ltac:(lia) Hdt) as (y & Ey & Dy). rewrite Z2Nat.id in Ey by lia. rewrite ES in Ey. injection Ey as <-.
  eapply den_ext; [|exact Dy]; intros; apply eqm_eq; ring.
Qed.
Lemma call_zero dt dc p c : surj_call_simplicial dt (mkElt [] p dc) c 1 = Ok (mkElt [] (torsion c) (attr c)).
Proof. unfold surj_call_simplicial. cbn [data dempty orb]. apply zero_data. Qed.

(** #C74_additive# Let [S] be steenrod_operation(p, s, q, b) with [p] prime,
    and let [c] be a cycle modulo [p] in a simplicial set [X].  The map that
    sends a cocycle [alpha] to the value of its p-th tensor power on S(c) is
    additive (although taking the tensor power is not): the operation is a
    homomorphism on cohomology. *)
Lemma C74_additive_l (dt p m s q e : Z) (b : bool) (dc : conv) (X : list Z -> Prop) (alpha beta : list Z -> Z) (S : surj) (c bc : simp) :
  prime p -> dt_ok dt p -> 0 <= m -> simplicial_set X -> cocycle p m X alpha -> cocycle p m X beta ->
  surj_steenrod_operation dt dc p s q b (Some MS) = Ok S ->
  wf cls_simplicial c -> torsion c = p -> keys_in (fun k => exists s, k = [s] /\ X s /\ zlen s - 1 = e) c ->
  simp_boundary dt c = Ok bc -> data bc = [] ->
  exists z, surj_call_simplicial dt S c 1 = Ok z /\ evaluate (fun s => alpha s + beta s) z mod p = (evaluate alpha z + evaluate beta z) mod p.
Proof.
  intros Hp Hdt Hm HX Ha Hb ES Wc Tc Kc Eb Zb. destruct (prime_two_odd p Hp) as [Hp1 Hp2].
  destruct (op_den dt dc p s q b S Hp2 Hdt ES) as [->|(c0 & d & y & _ & _ & DS)].
  - rewrite call_zero. eexists. split; [reflexivity|]. reflexivity.
  - exact (main_add dt p e m X c bc c0 d S Hp Hdt HX Wc Tc Kc Eb Zb DS alpha beta Hm Ha Hb).
Qed.
(** #C74_scalar# It is also compatible with scalars: the value for n*alpha is
    n times the value for alpha, modulo [p] (not n^p times, which is the same
    by Fermat). *)
Lemma C74_scalar_l (dt p m s q e n : Z) (b : bool) (dc : conv) (X : list Z -> Prop) (alpha : list Z -> Z) (S : surj) (c bc : simp) :
  prime p -> dt_ok dt p -> 0 <= m -> simplicial_set X -> cocycle p m X alpha ->
  surj_steenrod_operation dt dc p s q b (Some MS) = Ok S ->
  wf cls_simplicial c -> torsion c = p -> keys_in (fun k => exists s, k = [s] /\ X s /\ zlen s - 1 = e) c ->
  simp_boundary dt c = Ok bc -> data bc = [] ->
  exists z, surj_call_simplicial dt S c 1 = Ok z /\ evaluate (fun s => n * alpha s) z mod p = (n * evaluate alpha z) mod p.
Proof.
  intros Hp Hdt Hm HX Ha ES Wc Tc Kc Eb Zb. destruct (prime_two_odd p Hp) as [Hp1 Hp2].
  destruct (op_den dt dc p s q b S Hp2 Hdt ES) as [->|(c0 & d & y & _ & _ & DS)].
  - rewrite call_zero. eexists. split; [reflexivity|]. change (evaluate alpha (mkElt [] (torsion c) (attr c))) with 0. rewrite Z.mul_0_r. reflexivity.
  - exact (main_scal dt p e m X c bc c0 d S Hp Hdt HX Wc Tc Kc Eb Zb DS alpha n Hm Ha).
Qed.
(** #C74_class# And it depends only on the cohomology class: if alpha' is
    alpha plus the coboundary of [beta], modulo [p] on the simplices of [X],
    then alpha' and alpha give the same value modulo [p]. *)
Lemma C74_class_l (dt p m s q e : Z) (b : bool) (dc : conv) (X : list Z -> Prop) (alpha alpha' beta : list Z -> Z) (S : surj) (c bc : simp) :
  prime p -> dt_ok dt p -> 1 <= m -> simplicial_set X -> cocycle p m X alpha -> cochain m alpha' -> cochain (m - 1) beta ->
  (forall s, X s -> alpha' s mod p = (alpha s + zsum (map (fun f => snd f * beta (fst f)) (faces s))) mod p) ->
  surj_steenrod_operation dt dc p s q b (Some MS) = Ok S ->
  wf cls_simplicial c -> torsion c = p -> keys_in (fun k => exists s, k = [s] /\ X s /\ zlen s - 1 = e) c ->
  simp_boundary dt c = Ok bc -> data bc = [] ->
  exists z, surj_call_simplicial dt S c 1 = Ok z /\ evaluate alpha' z mod p = evaluate alpha z mod p.
Proof.
  intros Hp Hdt Hm HX Ha Ha' Hb E ES Wc Tc Kc Eb Zb. destruct (prime_two_odd p Hp) as [Hp1 Hp2].
  destruct (op_den dt dc p s q b S Hp2 Hdt ES) as [->|(c0 & d & y & _ & _ & DS)].
  - rewrite call_zero. eexists. split; [reflexivity|]. reflexivity.
  - exact (main_class dt p e m X c bc c0 d S Hp Hdt HX Wc Tc Kc Eb Zb DS alpha alpha' beta Hm Ha Ha' Hb E).
Qed.
(** #C74_structure# The same three statements for
    may_steenrod_structure(p, d) itself, for every degree [d]. *)
Lemma C74_structure_l (dt p m d e n : Z) (dc : conv) (X : list Z -> Prop) (alpha alpha' beta gamma : list Z -> Z) (S : surj) (c bc : simp) :
  prime p -> dt_ok dt p -> 1 <= m -> 0 <= d -> simplicial_set X -> cocycle p m X alpha -> cocycle p m X gamma -> cochain m alpha' -> cochain (m - 1) beta ->
  (forall s, X s -> alpha' s mod p = (alpha s + zsum (map (fun f => snd f * beta (fst f)) (faces s))) mod p) ->
  surj_may_steenrod dt dc p d (Some p) (Some MS) = Ok S ->
  wf cls_simplicial c -> torsion c = p -> keys_in (fun k => exists s, k = [s] /\ X s /\ zlen s - 1 = e) c ->
  simp_boundary dt c = Ok bc -> data bc = [] ->
  exists z, surj_call_simplicial dt S c 1 = Ok z /\
    evaluate (fun s => alpha s + gamma s) z mod p = (evaluate alpha z + evaluate gamma z) mod p /\
    evaluate (fun s => n * alpha s) z mod p = (n * evaluate alpha z) mod p /\
    evaluate alpha' z mod p = evaluate alpha z mod p.
Proof.
  intros Hp Hdt Hm Hd HX Ha Hg Ha' Hb E ES Wc Tc Kc Eb Zb. pose proof (may_c dt dc p d S Hp Hdt Hd ES) as DS.
  destruct (main_add dt p e m X c bc 1 (Z.to_nat d) S Hp Hdt HX Wc Tc Kc Eb Zb DS alpha gamma ltac:(lia) Ha Hg) as (z & Ez & E1).
  destruct (main_scal dt p e m X c bc 1 (Z.to_nat d) S Hp Hdt HX Wc Tc Kc Eb Zb DS alpha n ltac:(lia) Ha) as (z2 & Ez2 & E2). rewrite Ez in Ez2. injection Ez2 as <-.
  destruct (main_class dt p e m X c bc 1 (Z.to_nat d) S Hp Hdt HX Wc Tc Kc Eb Zb DS alpha alpha' beta Hm Ha Ha' Hb E) as (z2 & Ez2 & E3). rewrite Ez in Ez2. injection Ez2 as <-.
  exists z. auto.
Qed.
(** #C74_example# On the circle with vertices 0, 1, 2: the cocycle dual to the
    edge 01 (with sign for reversed edges), the fundamental cycle and
    Sq^0 = steenrod_operation(2, 0, -1).  The value is 1. *)
Example C74_example_l :
  let X := fun s : list Z => (forall v, In v s -> v = 0 \/ v = 1 \/ v = 2) /\ ~ (In 0 s /\ In 1 s /\ In 2 s) in
  let alpha := fun s => match s with [0; 1] => 1 | [1; 0] => -1 | _ => 0 end in
  let c : simp := mkElt [([[0; 1]], 1); ([[1; 2]], 1); ([[0; 2]], 1)] 2 tt in
  simplicial_set X /\ cocycle 2 1 X alpha /\ wf cls_simplicial c /\ keys_in (fun k => exists s, k = [s] /\ X s /\ zlen s - 1 = 1) c /\
  (exists bc, simp_boundary 0 c = Ok bc /\ data bc = []) /\
  (exists S z, surj_steenrod_operation 0 BF 2 0 (-1) false (Some MS) = Ok S /\ surj_call_simplicial 0 S c 1 = Ok z /\ evaluate alpha z mod 2 = 1).
Proof.
  intros X alpha c. split; [split|split; [split; [split|]|split; [|split; [|split]]]].
  - intros l1 v l2 [H1 H2] _. split; [intros x Hx; apply H1; apply in_app_iff in Hx; apply in_app_iff; destruct Hx; [left|right; right]; assumption|].
    intros (A & B & C). apply H2. rewrite !in_app_iff in *. cbn [In]. tauto.
  - intros l1 v l2 [H1 H2]. split; [intros x Hx; apply H1; rewrite !in_app_iff in *; cbn [In] in *; tauto|]. intros (A & B & C). apply H2. rewrite !in_app_iff in *. cbn [In] in *. tauto.
  - intros [|a [|b l1]] v l2; cbn [app].
    + destruct l2; [|cbn; destruct v as [|[ | | ]|]; reflexivity]. cbn. destruct v as [|[ | | ]|]; reflexivity.
    + cbn. destruct a as [|[ | | ]|]; destruct v as [|[ | | ]|]; reflexivity.
    + destruct l1 as [|a' l1]; cbn; destruct a as [|[ | | ]|]; destruct b as [|[ | | ]|]; reflexivity.
  - intros [|a [|b [|a' s]]] N; try reflexivity.
    + destruct a as [|[ | | ]|]; reflexivity.
    + exfalso. apply N. reflexivity.
    + cbn. destruct a as [|[ | | ]|]; destruct b as [|[ | | ]|]; reflexivity.
  - intros s [H1 H2] Ls. destruct s as [|a [|b [|a' [|? s]]]]; try discriminate.
    2:{ exfalso. rewrite !zlen_cons in Ls. pose proof (zlen_nonneg s). lia. }
    destruct (H1 a ltac:(cbn; tauto)) as [-> |[-> | ->]]; destruct (H1 b ltac:(cbn; tauto)) as [-> |[-> | ->]]; destruct (H1 a' ltac:(cbn; tauto)) as [-> |[-> | ->]]; try reflexivity; exfalso; apply H2; cbn; tauto.
  - apply wfb_wf. reflexivity.
  - intros k v Hk. cbn in Hk. destruct Hk as [[= <- <-]|[[= <- <-]|[[= <- <-]|[]]]]; eexists; (split; [reflexivity|]); (split; [|reflexivity]); (split; [intros x Hx; cbn in Hx; lia|cbn; intros (? & ? & ?); lia]).
  - eexists. split; [vm_compute; reflexivity|reflexivity].
  - do 2 eexists. split; [vm_compute; reflexivity|]. split; [vm_compute; reflexivity|]. vm_compute. reflexivity.
Qed.
