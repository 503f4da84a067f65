(** * Proofs: the calls of a program, one by one *)
From Verif Require Import PyBase Dict FreeModule Symmetric Simplicial Cubical Utils Surjection BarrattEccles GroupMul Heap HeapLaws HeapApi HeapSim HeapMethods World SpecObjects.

Definition wvalid (w : world) : Prop := forall k, valid (w k).

Lemma upd_same w k h : upd w k h k = h.
Proof. destruct k; reflexivity. Qed.
Lemma upd_other w k h k' : k' <> k -> upd w k h k' = w k'.
Proof. destruct k, k'; intros N; try reflexivity; now destruct N. Qed.
Lemma klass_dec (a b : klass) : {a = b} + {a <> b}.
Proof. decide equality. Qed.
Lemma upd_id w k k' : upd w k (w k) k' = w k'.
Proof. destruct (klass_dec k' k) as [->|N]; [apply upd_same|now apply upd_other]. Qed.

Section FreeOps.
Context {K A : Type} `{PyKey K}.
Variable dt : Z.
Variable dA : A.
Variable c : pycls K.
Variables (h : @heap K A) (s t ds d_t : nat) (x y : elt K A).
Hypothesis V : valid h.
Hypothesis Hs : isobj h s ds x.
Hypothesis Ht : isobj h t d_t y.

Lemma makes_get_obj D f r : makes h D (f (mkObj (data x) ds)) r -> makes h D (mbind (get_obj s) f) r.
Proof. intros Q. unfold makes, mbind in *. rewrite (get_obj_eq _ _ _ (proj1 Hs)). exact Q. Qed.

Lemma makes_get_attrs j dj (z : elt K A) D f r : isobj h j dj z -> makes h D (f (torsion z, attr z)) r -> makes h D (mbind (get_attrs j) f) r.
Proof. intros [O1 O2] Q. unfold makes, mbind in *. rewrite (get_attrs_eq _ _ _ _ O1 O2). exact Q. Qed.

Lemma pref_set h0 d ia L (g : dict K) dy jy (yy : elt K A) (G : dict K -> dict K -> dict K) : In (jy, dy, yy) L ->
  steps h0 d ia L (mbind (get_obj ia) (fun ans => mbind (get_obj jy) (fun p =>
     mbind (set_items ia (G (items ans) (items p))) (fun _ => mbind (h_preferred_rep c ia) (fun _ => ret ia)))))
    (fun e => let! d := pref c (torsion e) (G (data e) (data yy)) in Ok (mkElt d (torsion e) (attr e))).
Proof.
  intros I h1 e G1.
  pose proof (good_in _ _ _ _ _ _ _ _ _ G1 I) as [Oy _].
  pose proof (steps_write h0 d ia L (fun dd => G dd (data yy)) h1 e G1) as W.
  unfold mbind at 1. pose proof (proj1 (proj2 (proj2 G1))) as [Oi _]. unfold mbind at 1 in W.
  rewrite (get_obj_eq _ _ _ Oi) in *. cbn [items] in *. unfold mbind at 1. rewrite (get_obj_eq _ _ _ Oy). cbn [items].
  unfold mbind at 1. unfold mbind at 1 in W. destruct (set_items ia _ h1) as [h2 r2]. destruct r2 as [u|er]; cbv beta iota in *; [|destruct W; discriminate].
  unfold ret at 1 in W. destruct W as [_ W].
  pose proof (steps_pref c h0 d ia L h2 _ W) as P. cbn [data torsion attr] in P. exact P.
Qed.

Lemma binop_makes (G : dict K -> dict K -> dict K) :
  makes h (fun d => d = ds) (mbind (get_attrs s) (fun a => mbind (get_attrs t) (fun b =>
    if negb (fst a =? fst b) then raise TypeError else
    mbind (get_obj s) (fun o => mbind (h_create dt dA c s (items o)) (fun i =>
    mbind (get_obj i) (fun ans => mbind (get_obj t) (fun p =>
    mbind (set_items i (G (items ans) (items p))) (fun _ =>
    mbind (h_preferred_rep c i) (fun _ => ret i)))))))))
  (if negb (torsion x =? torsion y) then Err TypeError else
  let! answer := create dt c x (data x) in
  let! d := pref c (torsion x) (G (data answer) (data y)) in
  Ok (mkElt d (torsion x) (attr x))).
Proof.
  eapply makes_get_attrs; [exact Hs|]. eapply makes_get_attrs; [exact Ht|]. cbn [fst].
  destruct (negb _); [apply makes_raise; exact V|]. apply makes_get_obj. cbn [items].
  unfold makes, mbind at 1. pose proof (create_obj dt dA c h s ds x (data x) V Hs) as Q.
  destruct (h_create dt dA c s (data x) h) as [h1 r1]. destruct Q as [E Q].
  destruct (create dt c x (data x)) as [z|er] eqn:Ez; cbn [bind]; [|subst r1; auto]. destruct Q as [-> Q].
  assert (Tz : torsion z = torsion x /\ attr z = attr x).
  { unfold create in Ez. destruct (pref _ _ _); cbn in Ez; [|discriminate]. destruct (pref _ _ _); cbn in Ez; [|discriminate].
    now injection Ez as <-. }
  destruct Tz as [Tz Az].
  assert (G0 : good h ds (length (objs h)) [(t, d_t, y)] h1 z).
  { split; [exact E|]. split; [lia|]. split; [exact Q|]. constructor; [|constructor]. cbn [fst snd].
    pose proof (isobj_lt _ _ _ _ Ht). split; [lia|]. exact (ext_isobj none _ _ _ _ _ E (fun q => q) Ht). }
  pose proof (makes_steps h (fun d => d = ds) ds _ _ h1 z _ _ G0 eq_refl
    (pref_set h ds _ [(t, d_t, y)] [] d_t t y G (or_introl eq_refl))) as P.
  cbv beta in P. rewrite Tz, Az in P. exact P.
Qed.
Lemma makes_scale n : makes h (fun d => d = ds) (h_scale dt dA c n s) (scale dt c n x).
Proof. unfold h_scale. apply makes_get_obj. cbn [items]. now apply makes_create. Qed.
Lemma makes_div n : makes h (fun d => d = ds) (h_truediv dt dA c s n) (truediv dt c x n).
Proof.
  unfold h_truediv, truediv. eapply makes_get_attrs; [exact Hs|]. cbn [fst].
  destruct (torsion x =? 0); [apply makes_raise; exact V|]. destruct (py_pow_inv n (torsion x)); cbn [bind]; [|apply makes_raise; exact V].
  apply makes_get_obj. cbn [items]. now apply makes_create.
Qed.
End FreeOps.

Section W.
Variable dt : Z.
Variable dc : conv.

(** the call makes a new object of class [k], whose attributes are those of
    the owner, or new *)
Definition builds (w : world) (c : call) : Prop :=
  exists k m r D, wcall dt dc c w = on k m w /\ expected dt w c = gives k r /\ makes (w k) D m r /\
    match owner w c with
    | Some q => exists i ds (e : eltT k), q = (k, i) /\ isobj (w k) i ds e /\ forall d, D d -> d = ds
    | None => forall d, D d -> fresh (w k) d
    end.
(** an operand does not exist: nothing happens *)
Definition dead (w : world) (c : call) : Prop :=
  (exists q, In q (operands c) /\ sees w q = None) /\ forall k, fst (wcall dt dc c w) k = w k.
(** the call returns its operand *)
Definition itself (w : world) (c : call) : Prop :=
  exists k i (e : eltT k), returns_itself w c = Some (k, i) /\ wcall dt dc c w = on k (fun h => (h, Ok i)) w /\
    view (w k) i = Some e /\ expected dt w c = Ok (val k e) /\ data e = [].
Definition is_free (c : call) : bool := match c with CFree _ _ => true | _ => false end.

Ltac look k i := let e := fresh "e" in let E := fresh "E" in
  match goal with w : world |- _ => destruct (view (w k) i) as [e|] eqn:E end;
  [let d := fresh "d" in let I := fresh "I" in destruct (view_isobj _ _ _ E) as (d & I)|].
Ltac isdead k i := right; split;
  [exists (k, i); split; [first [left; reflexivity|right; left; reflexivity]|unfold sees; cbn [fst snd]; match goal with E : view _ _ = None |- _ => now rewrite E end]
  |let k' := fresh "k" in intros k'; cbn [wcall]; unfold reading;
   repeat match goal with E : view ?a ?b = Some _ |- context [view ?a ?b] => rewrite E | E : view ?a ?b = None |- context [view ?a ?b] => rewrite E end; try reflexivity;
   unfold on].
Ltac deadrun := repeat match goal with E : view _ _ = _ |- _ => first [rewrite E | fail] end; cbn [fst]; apply upd_id.

Lemma see_dead {K A X} (h : @heap K A) i (k : elt K A -> M X) : view h i = None -> mbind (h_see i) k h = (h, Err UnboundLocalError).
Proof. intros E. unfold mbind, h_see. now rewrite E. Qed.
Lemma see_live {K A X} (h : @heap K A) i e (k : elt K A -> M X) : view h i = Some e -> mbind (h_see i) k h = k e h.
Proof. intros E. unfold mbind, h_see. now rewrite E. Qed.
Lemma dead_on (w : world) k (m : @M (keyT k) (attT k) nat) er : m (w k) = (w k, Err er) -> forall k', fst (on k m w) k' = w k'.
Proof. intros E k'. unfold on. rewrite E. apply upd_id. Qed.

Lemma opd_some w k i e : view (w k) i = Some e -> opd w k i = Ok e.
Proof. unfold opd. now intros ->. Qed.

Ltac done1 I := eexists; split; [reflexivity|]; split; [reflexivity|]; split; [|].

Lemma call_cases w c : wvalid w -> is_free c = false -> builds w c \/ itself w c \/ dead w c.
Proof.
  intros V NF. destruct c; [discriminate NF|..].
  - (* RingMul *) look KRing i.
    2:{ right. isdead KRing i. eapply dead_on. now apply see_dead. }
    look KRing j.
    2:{ right. isdead KRing j. eapply dead_on. unfold h_ring_mul. rewrite (see_live _ _ _ _ E). now apply see_dead. }
    left. exists KRing, (h_ring_mul dt i j), (ring_mul dt e e0), (fun z => z = d).
    split; [reflexivity|]. split; [cbn [expected]; now rewrite (opd_some _ _ _ _ E), (opd_some _ _ _ _ E0)|].
    split; [exact (ring_mul_makes dt _ _ _ _ _ _ _ (V KRing) I I0)|]. cbn [owner]. exists i, d, e. auto.
  - (* RingPow *) look KRing i.
    2:{ right. isdead KRing i. eapply dead_on. now apply see_dead. }
    left. exists KRing, (h_ring_pow dt i n), (ring_pow dt e n), (fun z => if n =? 0 then fresh (w KRing) z else z = d).
    split; [reflexivity|]. split; [cbn [expected]; now rewrite (opd_some _ _ _ _ E)|].
    split; [exact (ring_pow_makes dt _ _ _ _ (V KRing) I n)|]. cbn [owner]. destruct (n =? 0); [auto|]. exists i, d, e. auto.
  - (* RingCompose *) look KRing i.
    2:{ right. isdead KRing i. eapply dead_on. now apply see_dead. }
    look KRing j.
    2:{ right. isdead KRing j. eapply dead_on. unfold h_ring_compose. rewrite (see_live _ _ _ _ E). now apply see_dead. }
    left. exists KRing, (h_ring_compose dt i j position), (ring_compose dt e e0 position), (fun z => z = d).
    split; [reflexivity|]. split; [cbn [expected]; now rewrite (opd_some _ _ _ _ E), (opd_some _ _ _ _ E0)|].
    split; [exact (ring_compose_makes dt _ _ _ _ _ _ _ (V KRing) I I0 position)|]. cbn [owner]. exists i, d, e. auto.
  - (* SimpBoundary *) look KSimp i.
    2:{ right. isdead KSimp i. eapply dead_on. now apply see_dead. }
    left. exists KSimp, (h_simp_boundary dt i), (simp_boundary dt e), (fun z => z = d).
    split; [reflexivity|]. split; [cbn [expected]; now rewrite (opd_some _ _ _ _ E)|].
    split; [exact (simp_boundary_makes dt _ _ _ _ (V KSimp) I)|]. cbn [owner]. exists i, d, e. auto.
  - (* SimpAct *) look KRing r.
    2:{ right. isdead KRing r. }
    look KSimp i.
    2:{ right. isdead KSimp i. eapply dead_on. now apply see_dead. }
    left. exists KSimp, (h_simp_act dt e i), (simp_act dt e e0), (fun z => z = d0).
    split; [cbn [wcall]; unfold reading; now rewrite E|]. split; [cbn [expected]; now rewrite (opd_some _ _ _ _ E), (opd_some _ _ _ _ E0)|].
    split; [exact (simp_act_makes dt _ _ _ _ (V KSimp) I0 _)|]. cbn [owner]. exists i, d0, e0. auto.
  - (* SimpDiagonal *) look KSimp i.
    2:{ right. isdead KSimp i. eapply dead_on. now apply see_dead. }
    left. exists KSimp, (h_simp_iterated_diagonal dt i times coord), (simp_iterated_diagonal dt e times coord), (fun z => z = d).
    split; [reflexivity|]. split; [cbn [expected]; now rewrite (opd_some _ _ _ _ E)|].
    split; [exact (simp_diag_makes dt _ _ _ _ (V KSimp) I _ _)|]. cbn [owner]. exists i, d, e. auto.
  - (* SimpReduced *) look KSimp i.
    2:{ right. isdead KSimp i. eapply dead_on. now apply see_dead. }
    left. exists KSimp, (h_simp_one_reduced dt i), (simp_one_reduced dt e), (fun z => z = d).
    split; [reflexivity|]. split; [cbn [expected]; now rewrite (opd_some _ _ _ _ E)|].
    split; [exact (simp_reduced_makes dt _ _ _ _ (V KSimp) I)|]. cbn [owner]. exists i, d, e. auto.
  - (* CubBoundary *) look KCub i.
    2:{ right. isdead KCub i. eapply dead_on. now apply see_dead. }
    left. exists KCub, (h_cub_boundary dt i), (cub_boundary dt e), (fun z => z = d).
    split; [reflexivity|]. split; [cbn [expected]; now rewrite (opd_some _ _ _ _ E)|].
    split; [exact (cub_boundary_makes dt _ _ _ _ (V KCub) I)|]. cbn [owner]. exists i, d, e. auto.
  - (* CubAct *) look KRing r.
    2:{ right. isdead KRing r. }
    look KCub i.
    2:{ right. isdead KCub i. eapply dead_on. now apply see_dead. }
    left. exists KCub, (h_cub_act dt e i), (cub_act dt e e0), (fun z => z = d0).
    split; [cbn [wcall]; unfold reading; now rewrite E|]. split; [cbn [expected]; now rewrite (opd_some _ _ _ _ E), (opd_some _ _ _ _ E0)|].
    split; [exact (cub_act_makes dt _ _ _ _ (V KCub) I0 _)|]. cbn [owner]. exists i, d0, e0. auto.
  - (* CubDiagonal *) look KCub i.
    2:{ right. isdead KCub i. eapply dead_on. now apply see_dead. }
    left. exists KCub, (h_cub_iterated_diagonal dt i times coord), (cub_iterated_diagonal dt e times coord), (fun z => z = d).
    split; [reflexivity|]. split; [cbn [expected]; now rewrite (opd_some _ _ _ _ E)|].
    split; [exact (cub_diag_makes dt _ _ _ _ (V KCub) I _ _)|]. cbn [owner]. exists i, d, e. auto.
  - (* CubJoin *) look KCub i.
    2:{ right. isdead KCub i. eapply dead_on. now apply see_dead. }
    destruct (dempty (data e)) eqn:De.
    + right. left. exists KCub, i, e. destruct (cub_join_zero dt _ _ _ _ I De) as [W1 W2].
      split; [cbn [returns_itself]; unfold is_zero; now rewrite E, De|].
      split; [cbn [wcall]; unfold on; now rewrite W1|]. split; [exact E|].
      split; [cbn [expected]; rewrite (opd_some _ _ _ _ E); cbn [bind]; now rewrite W2|].
      destruct (data e); [reflexivity|discriminate De].
    + left. exists KCub, (h_cub_join dt i), (cub_join dt e), (fun z => z = d).
      split; [reflexivity|]. split; [cbn [expected]; now rewrite (opd_some _ _ _ _ E)|].
      split; [exact (cub_join_makes dt _ _ _ _ (V KCub) I De)|]. cbn [owner]. exists i, d, e. auto.
  - (* CubSerre *) look KCub i.
    2:{ right. isdead KCub i. }
    left. exists KSimp, (h_cub_cartan_serre dt e), (cub_cartan_serre dt e), (fresh (w KSimp)).
    split; [cbn [wcall]; unfold reading; now rewrite E|]. split; [cbn [expected]; now rewrite (opd_some _ _ _ _ E)|].
    split; [exact (cub_serre_makes dt _ _ (V KSimp))|]. cbn [owner]. auto.
  - (* SurjBoundary *) look KSurj i.
    2:{ right. isdead KSurj i. eapply dead_on. now apply see_dead. }
    left. exists KSurj, (h_surj_boundary dt dc i), (surj_boundary dt e), (fun z => z = d).
    split; [reflexivity|]. split; [cbn [expected]; now rewrite (opd_some _ _ _ _ E)|].
    split; [exact (surj_boundary_makes dt dc _ _ _ _ (V KSurj) I)|]. cbn [owner]. exists i, d, e. auto.
  - (* SurjAct *) look KRing r.
    2:{ right. isdead KRing r. }
    look KSurj i.
    2:{ right. isdead KSurj i. eapply dead_on. now apply see_dead. }
    left. exists KSurj, (h_surj_act dt dc e i), (surj_act dt e e0), (fun z => z = d0).
    split; [cbn [wcall]; unfold reading; now rewrite E|]. split; [cbn [expected]; now rewrite (opd_some _ _ _ _ E), (opd_some _ _ _ _ E0)|].
    split; [exact (surj_act_makes dt dc _ _ _ _ (V KSurj) I0 _)|]. cbn [owner]. exists i, d0, e0. auto.
  - (* SurjOrbit *) look KSurj i.
    2:{ right. isdead KSurj i. eapply dead_on. now apply see_dead. }
    left. exists KSurj, (h_surj_orbit dt dc i rep), (surj_orbit dt e rep), (fun z => z = d).
    split; [reflexivity|]. split; [cbn [expected]; now rewrite (opd_some _ _ _ _ E)|].
    split; [exact (surj_orbit_makes dt dc _ _ _ _ _ (V KSurj) I)|]. cbn [owner]. exists i, d, e. auto.
  - (* SurjCallSimp *) look KSurj s.
    2:{ right. isdead KSurj s. }
    look KSimp i.
    2:{ right. isdead KSimp i. eapply dead_on. now apply see_dead. }
    left. exists KSimp, (h_call_simplicial dt e i coord), (surj_call_simplicial dt e e0 coord), (fun z => z = d0).
    split; [cbn [wcall]; unfold reading; now rewrite E|]. split; [cbn [expected]; now rewrite (opd_some _ _ _ _ E), (opd_some _ _ _ _ E0)|].
    split; [exact (simp_call_makes dt _ _ _ _ _ _ (V KSimp) I0)|]. cbn [owner]. exists i, d0, e0. auto.
  - (* SurjCallCub *) look KSurj s.
    2:{ right. isdead KSurj s. }
    look KCub i.
    2:{ right. isdead KCub i. eapply dead_on. now apply see_dead. }
    left. exists KCub, (h_call_cubical dt e i coord), (surj_call_cubical dt e e0 coord), (fun z => z = d0).
    split; [cbn [wcall]; unfold reading; now rewrite E|]. split; [cbn [expected]; now rewrite (opd_some _ _ _ _ E), (opd_some _ _ _ _ E0)|].
    split; [exact (cub_call_makes dt _ _ _ _ _ _ (V KCub) I0)|]. cbn [owner]. exists i, d0, e0. auto.
  - (* SurjCompose *) look KSurj i.
    2:{ right. isdead KSurj i. eapply dead_on. now apply see_dead. }
    look KSurj j.
    2:{ right. isdead KSurj j. eapply dead_on. unfold h_surj_compose. rewrite (see_live _ _ _ _ E). now apply see_dead. }
    left. exists KSurj, (h_surj_compose dt dc i j position), (surj_compose dt e e0 position), (fun z => z = d).
    split; [reflexivity|]. split; [cbn [expected]; now rewrite (opd_some _ _ _ _ E), (opd_some _ _ _ _ E0)|].
    split; [exact (surj_compose_makes dt dc _ _ _ _ _ _ _ (V KSurj) I I0 position)|]. cbn [owner]. exists i, d, e. auto.
  - (* SurjSuspension *) look KSurj i.
    2:{ right. isdead KSurj i. eapply dead_on. now apply see_dead. }
    destruct (dempty (data e)) eqn:De.
    + right. left. exists KSurj, i, e. destruct (surj_suspension_zero dt dc _ _ _ _ I De) as [W1 W2].
      split; [cbn [returns_itself]; unfold is_zero; now rewrite E, De|].
      split; [cbn [wcall]; unfold on; now rewrite W1|]. split; [exact E|].
      split; [cbn [expected]; rewrite (opd_some _ _ _ _ E); cbn [bind]; now rewrite W2|].
      destruct (data e); [reflexivity|discriminate De].
    + left. exists KSurj, (h_surj_suspension dt dc i), (surj_suspension dt e), (fun z => z = d).
      split; [reflexivity|]. split; [cbn [expected]; now rewrite (opd_some _ _ _ _ E)|].
      split; [exact (surj_suspension_makes dt dc _ _ _ _ (V KSurj) I De)|]. cbn [owner]. exists i, d, e. auto.
  - (* BeBoundary *) look KBE i.
    2:{ right. isdead KBE i. eapply dead_on. now apply see_dead. }
    left. exists KBE, (h_be_boundary dt i), (be_boundary dt e), (fun z => z = d).
    split; [reflexivity|]. split; [cbn [expected]; now rewrite (opd_some _ _ _ _ E)|].
    split; [exact (be_boundary_makes dt _ _ _ _ (V KBE) I)|]. cbn [owner]. exists i, d, e. auto.
  - (* BeAct *) look KRing r.
    2:{ right. isdead KRing r. }
    look KBE i.
    2:{ right. isdead KBE i. eapply dead_on. now apply see_dead. }
    left. exists KBE, (h_be_act dt e i), (be_act dt e e0), (fun z => z = d0).
    split; [cbn [wcall]; unfold reading; now rewrite E|]. split; [cbn [expected]; now rewrite (opd_some _ _ _ _ E), (opd_some _ _ _ _ E0)|].
    split; [exact (be_act_makes dt _ _ _ _ (V KBE) I0 _)|]. cbn [owner]. exists i, d0, e0. auto.
  - (* BeOrbit *) look KBE i.
    2:{ right. isdead KBE i. eapply dead_on. now apply see_dead. }
    destruct (dempty (data e)) eqn:De.
    + right. left. exists KBE, i, e. destruct (be_orbit_zero dt _ _ _ _ I rep De) as [W1 W2].
      split; [cbn [returns_itself]; unfold is_zero; now rewrite E, De|].
      split; [cbn [wcall]; unfold on; now rewrite W1|]. split; [exact E|].
      split; [cbn [expected]; rewrite (opd_some _ _ _ _ E); cbn [bind]; now rewrite W2|].
      destruct (data e); [reflexivity|discriminate De].
    + left. exists KBE, (h_be_orbit dt i rep), (be_orbit dt e rep), (fresh (w KBE)).
      split; [reflexivity|]. split; [cbn [expected]; now rewrite (opd_some _ _ _ _ E)|].
      split; [exact (be_orbit_makes dt _ _ _ _ _ (V KBE) I De)|]. cbn [owner]. unfold is_zero. rewrite E, De. auto.
  - (* BeCompose *) look KBE i.
    2:{ right. isdead KBE i. eapply dead_on. now apply see_dead. }
    look KBE j.
    2:{ right. isdead KBE j. eapply dead_on. unfold h_be_compose. rewrite (see_live _ _ _ _ E). now apply see_dead. }
    left. exists KBE, (h_be_compose dt i j position), (be_compose dt e e0 position), (fun z => z = d).
    split; [reflexivity|]. split; [cbn [expected]; now rewrite (opd_some _ _ _ _ E), (opd_some _ _ _ _ E0)|].
    split; [exact (be_compose_makes dt _ _ _ _ _ _ _ (V KBE) I I0 position)|]. cbn [owner]. exists i, d, e. auto.
  - (* BeTable *) look KBE i.
    2:{ right. isdead KBE i. }
    left. exists KSurj, (h_be_table_reduction dt dc e), (be_table_reduction dt e), (fresh (w KSurj)).
    split; [cbn [wcall]; unfold reading; now rewrite E|]. split; [cbn [expected]; now rewrite (opd_some _ _ _ _ E)|].
    split; [exact (be_table_makes dt dc _ _ (V KSurj))|]. cbn [owner]. auto.
  - (* BeDiagonal *) look KBE i.
    2:{ right. isdead KBE i. }
    left. exists KTens, (h_be_diagonal dt e r), (be_diagonal dt e r), (fresh (w KTens)).
    split; [cbn [wcall]; unfold reading; now rewrite E|]. split; [cbn [expected]; now rewrite (opd_some _ _ _ _ E)|].
    split; [exact (be_diagonal_makes dt _ _ _ (V KTens))|]. cbn [owner]. auto.
  - (* GroupSimp *) look KSimp i.
    2:{ right. isdead KSimp i. eapply dead_on. now apply see_dead. }
    left. exists KSimp, (h_group_mul dt (h_simp_act dt) g i), (group_mul_simp dt g e), (fun z => z = d).
    split; [reflexivity|]. split; [cbn [expected]; now rewrite (opd_some _ _ _ _ E)|].
    split; [exact (simp_group_makes dt _ _ _ _ (V KSimp) I g)|]. cbn [owner]. exists i, d, e. auto.
  - (* GroupCub *) look KCub i.
    2:{ right. isdead KCub i. eapply dead_on. now apply see_dead. }
    left. exists KCub, (h_group_mul dt (h_cub_act dt) g i), (group_mul_cub dt g e), (fun z => z = d).
    split; [reflexivity|]. split; [cbn [expected]; now rewrite (opd_some _ _ _ _ E)|].
    split; [exact (cub_group_makes dt _ _ _ _ (V KCub) I g)|]. cbn [owner]. exists i, d, e. auto.
  - (* GroupSurj *) look KSurj i.
    2:{ right. isdead KSurj i. eapply dead_on. now apply see_dead. }
    left. exists KSurj, (h_group_mul dt (h_surj_act dt dc) g i), (group_mul_surj dt g e), (fun z => z = d).
    split; [reflexivity|]. split; [cbn [expected]; now rewrite (opd_some _ _ _ _ E)|].
    split; [exact (surj_group_makes dt dc _ _ _ _ (V KSurj) I g)|]. cbn [owner]. exists i, d, e. auto.
  - (* GroupBe *) look KBE i.
    2:{ right. isdead KBE i. eapply dead_on. now apply see_dead. }
    left. exists KBE, (h_group_mul dt (h_be_act dt) g i), (group_mul_be dt g e), (fun z => z = d).
    split; [reflexivity|]. split; [cbn [expected]; now rewrite (opd_some _ _ _ _ E)|].
    split; [exact (be_group_makes dt _ _ _ _ (V KBE) I g)|]. cbn [owner]. exists i, d, e. auto.
Qed.
End W.
