(** * Proofs: each method on objects against its value-level model *)
From Verif Require Import PyBase Dict FreeModule Symmetric Simplicial Cubical Utils Surjection BarrattEccles GroupMul Heap HeapLaws HeapApi HeapSim.

Ltac pairs := repeat match goal with p : (_ * _)%type |- _ => destruct p end; cbv beta iota zeta.
Ltac inL := solve [repeat first [left; reflexivity | right]].
Ltac sim1 :=
  lazymatch goal with
  | |- steps _ _ _ _ (ret _) _ => apply steps_ret
  | |- steps _ _ _ _ (raise _) _ => apply steps_raise
  | |- steps _ _ _ _ (h_add_term _ _ _ ?s ?a _ _) _ =>
      first [ apply steps_term_self | eapply steps_term; inL ]
  | |- steps _ _ _ _ (h_iadd _ _ _) _ => eapply steps_iadd; inL
  | |- steps _ _ _ _ (mbind (h_see _) _) _ => eapply steps_see; [inL|cbv beta]
  | |- steps _ _ _ _ (hfor_ _ _ _) _ => apply steps_for; let y := fresh "y" in intros y _; pairs
  | |- steps _ _ _ _ (hbind ?p _) _ => destruct p; cbn [hbind bind]; pairs
  | |- steps _ _ _ _ (if ?b then _ else _) _ => destruct b; cbv beta iota zeta
  | |- steps _ _ _ _ (match ?o with _ => _ end) _ => destruct o; pairs
  | |- steps2 _ _ _ _ (ret _) _ => apply steps2_ret
  | |- steps2 _ _ _ _ (raise _) _ => apply steps2_raise
  | |- steps2 _ _ _ _ (hfor_ _ _ _) _ => apply steps2_for; let y := fresh "y" in let x := fresh "x" in intros y x; pairs
  | |- steps2 _ _ _ _ (hbind ?p _) _ => destruct p; cbn [hbind bind]; pairs
  | |- steps2 _ _ _ _ (if ?b then _ else _) _ => destruct b; cbv beta iota zeta
  end.
Ltac mk1 :=
  lazymatch goal with
  | |- makes _ _ (raise _) _ => apply makes_raise; assumption
  | |- makes _ _ (mbind (h_see _) _) _ => eapply makes_see; [eassumption|cbv beta]
  | |- makes _ _ (hbind ?p _) _ => destruct p; cbn [hbind bind]; pairs
  | |- makes _ _ (if ?b then _ else _) _ => destruct b; cbv beta iota zeta
  | |- makes _ _ (match ?o with _ => _ end) _ => destruct o; pairs
  | |- makes _ _ (h_zero _ _ _ _) _ => apply makes_zero_only; eassumption
  | |- makes _ _ (h_new _ _ _ _ _) _ => apply makes_new; assumption
  end.
Ltac start l := eapply makes_zero with (L := l); [assumption|eassumption|repeat first [apply Forall_nil | apply Forall_cons; [cbn [fst snd]; assumption|]]|intros ia; cbv beta].
Ltac startn l := apply makes_new_then with (L := l); [assumption|repeat first [apply Forall_nil | apply Forall_cons; [cbn [fst snd]; assumption|]]|intros d ia F; cbv beta].

Section Methods.
Variable dt : Z.

Section R.
Variables (h : @heap skey unit) (s t ds d_t : nat) (x y : ring).
Hypothesis V : valid h.
Hypothesis Hs : isobj h s ds x.
Hypothesis Ht : isobj h t d_t y.

Lemma ring_pow_makes n : makes h (fun d => if n =? 0 then fresh h d else d = ds) (h_ring_pow dt s n) (ring_pow dt x n).
Proof.
  unfold h_ring_pow, ring_pow. mk1. destruct (n =? 0).
  - repeat mk1.
  - start [(s, ds, x)]. repeat sim1.
Qed.
Lemma ring_compose_makes p : makes h (fun d => d = ds) (h_ring_compose dt s t p) (ring_compose dt x y p).
Proof. unfold h_ring_compose, ring_compose. repeat mk1. start [(s, ds, x)]. repeat sim1. Qed.

Lemma for_data {X} (l : list X) (e : ring) (b : dict skey -> X -> res (dict skey)) :
  for_ l e (fun e x => let! d := b (data e) x in Ok (mkElt d (torsion e) (attr e))) =
  (let! d := for_ l (data e) b in Ok (mkElt d (torsion e) (attr e))).
Proof.
  revert e. induction l as [|a l IH]; intros e; cbn [for_ bind]; [destruct e; reflexivity|].
  destruct (b (data e) a) as [d|er]; cbn [bind]; [|reflexivity]. now rewrite IH.
Qed.
Lemma ring_mul_makes : makes h (fun d => d = ds) (h_ring_mul dt s t) (ring_mul dt x y).
Proof.
  unfold h_ring_mul, ring_mul. repeat mk1.
  set (b := fun (d : dict skey) '((k1, v1, (k2, v2)) : skey * Z * (skey * Z)) =>
    let! k := mapM (fun i : Z => py_get (kval k1) (i - 1)) (kval k2) in Ok (dset d (Tup k) (dget d (Tup k) + v1 * v2))).
  assert (E : (let! answer := zero dt cls_ring x in let! d := for_ (list_prod (data x) (data y)) (data answer) b in
     let! d' := pref cls_ring (torsion x) d in Ok (mkElt d' (torsion x) tt)) =
    (let! answer := zero dt cls_ring x in
     let! e := for_ (list_prod (data x) (data y)) answer (fun e x => let! d := b (data e) x in Ok (mkElt d (torsion e) (attr e))) in
     let! d' := pref cls_ring (torsion e) (data e) in Ok (mkElt d' (torsion e) (attr e)))).
  { destruct (zero dt cls_ring x) as [z|er] eqn:Ez; cbn [bind]; [|reflexivity]. rewrite for_data.
    assert (torsion z = torsion x).
    { unfold zero, create in Ez. destruct (pref _ _ _); cbn in Ez; [|discriminate]. destruct (pref _ _ _); cbn in Ez; [|discriminate].
      now injection Ez as <-. }
    destruct (for_ _ (data z) b); cbn [bind torsion data attr]; [|reflexivity]. rewrite H.
    destruct (pref _ _ _); cbn [bind]; [|reflexivity]. now destruct (attr z). }
  rewrite E. start [(s, ds, x); (t, d_t, y)].
  apply steps_bind with (k := fun answer => mbind (h_preferred_rep cls_ring answer) (fun _ => ret answer)) (g := fun e => let! d' := pref cls_ring (torsion e) (data e) in Ok (mkElt d' (torsion e) (attr e))).
  - apply steps_for. intros p _. unfold b. pairs. destruct (mapM _ _) as [k|er]; cbn [hbind bind]; [|apply steps_raise].
    apply (steps_write h ds ia _ (fun dd => dset dd (Tup k) (dget dd (Tup k) + _))).
  - apply steps_pref.
Qed.
End R.

Section S.
Variables (h : @heap skey2 unit) (s ds : nat) (x : simp).
Hypothesis V : valid h.
Hypothesis Hs : isobj h s ds x.
Lemma simp_boundary_makes : makes h (fun d => d = ds) (h_simp_boundary dt s) (simp_boundary dt x).
Proof. unfold h_simp_boundary, simp_boundary. repeat mk1. start [(s, ds, x)]. repeat sim1. Qed.
Lemma simp_act_makes r : makes h (fun d => d = ds) (h_simp_act dt r s) (simp_act dt r x).
Proof. unfold h_simp_act, simp_act. repeat mk1. start [(s, ds, x)]. repeat sim1. Qed.
Lemma simp_diag_makes n p : makes h (fun d => d = ds) (h_simp_iterated_diagonal dt s n p) (simp_iterated_diagonal dt x n p).
Proof. unfold h_simp_iterated_diagonal, simp_iterated_diagonal. repeat mk1. start [(s, ds, x)]. repeat sim1. Qed.
Lemma simp_reduced_makes : makes h (fun d => d = ds) (h_simp_one_reduced dt s) (simp_one_reduced dt x).
Proof. unfold h_simp_one_reduced, simp_one_reduced. repeat mk1. start [(s, ds, x)]. repeat sim1. Qed.
Lemma simp_group_makes g : makes h (fun d => d = ds) (h_group_mul dt (h_simp_act dt) g s) (group_mul_simp dt g x).
Proof. unfold h_group_mul, group_mul_simp. repeat mk1. apply simp_act_makes. Qed.
End S.

Section C.
Variables (h : @heap ckey2 unit) (s ds : nat) (x : cubc).
Hypothesis V : valid h.
Hypothesis Hs : isobj h s ds x.
Lemma cub_boundary_makes : makes h (fun d => d = ds) (h_cub_boundary dt s) (cub_boundary dt x).
Proof. unfold h_cub_boundary, cub_boundary. repeat mk1. start [(s, ds, x)]. repeat sim1. Qed.
Lemma cub_act_makes r : makes h (fun d => d = ds) (h_cub_act dt r s) (cub_act dt r x).
Proof. unfold h_cub_act, cub_act. repeat mk1. start [(s, ds, x)]. repeat sim1. Qed.
Lemma cub_diag_makes n p : makes h (fun d => d = ds) (h_cub_iterated_diagonal dt s n p) (cub_iterated_diagonal dt x n p).
Proof. unfold h_cub_iterated_diagonal, cub_iterated_diagonal. repeat mk1. start [(s, ds, x)]. repeat sim1. Qed.
Lemma cub_group_makes g : makes h (fun d => d = ds) (h_group_mul dt (h_cub_act dt) g s) (group_mul_cub dt g x).
Proof. unfold h_group_mul, group_mul_cub. repeat mk1. apply cub_act_makes. Qed.
(** the zero element is returned itself *)
Lemma cub_join_zero : dempty (data x) = true -> h_cub_join dt s h = (h, Ok s) /\ cub_join dt x = Ok x.
Proof.
  intros E. unfold h_cub_join, cub_join, mbind, h_see. rewrite (isobj_view _ _ _ _ Hs), E. auto.
Qed.
Lemma cub_join_makes : dempty (data x) = false -> makes h (fun d => d = ds) (h_cub_join dt s) (cub_join dt x).
Proof. intros E. unfold h_cub_join, cub_join. mk1. rewrite E. mk1; [|apply makes_raise; assumption]. start [(s, ds, x)]. repeat sim1. Qed.
End C.
Lemma cub_serre_makes (h : @heap skey2 unit) (x : cubc) : valid h -> makes h (fresh h) (h_cub_cartan_serre dt x) (cub_cartan_serre dt x).
Proof. intros V. unfold h_cub_cartan_serre, cub_cartan_serre. startn (@nil (nat * nat * simp)). repeat sim1. Qed.

Variable dc : conv.
Section J.
Variables (h : @heap (list Z) conv) (s t ds d_t : nat) (x y : surj).
Hypothesis V : valid h.
Hypothesis Hs : isobj h s ds x.
Hypothesis Ht : isobj h t d_t y.
Lemma surj_boundary_makes : makes h (fun d => d = ds) (h_surj_boundary dt dc s) (surj_boundary dt x).
Proof.
  unfold h_surj_boundary, surj_boundary. mk1. start [(s, ds, x)].
  repeat sim1.
  apply (steps_bind2 h ds ia _ (hfor_ _ (ia, 1) _) (fun e => for_ _ (e, 1) _) (fun r => ret (fst r)) (fun r => Ok (fst r))).
  - apply steps2_for. intros y0 x0. cbv beta iota.
    apply (steps2_bind2 h ds ia _ (hfor_ _ (ia, y0) _) (fun e => for_ _ (e, y0) _) (fun r => ret (fst r, - snd r)) (fun r => let (a, s) := (r : surj * Z) in Ok (a, - s))).
    + apply steps2_for. intros y1 x1. cbv beta iota zeta. sim1; [|sim1].
      apply (steps2_bind h ds ia _ (if mem _ _ then h_add_term _ _ _ ia ia _ _ else ret ia) (fun e => if mem _ _ then add_term _ _ e e _ _ else Ok e) (fun a => ret (a, - y1)) (fun e => Ok (e, - y1))).
      * repeat sim1.
      * apply steps2_ret.
    + intros y1. apply steps2_ret.
  - intros y1. apply steps_ret.
Qed.
Lemma surj_act_makes r : makes h (fun d => d = ds) (h_surj_act dt dc r s) (surj_act dt r x).
Proof. unfold h_surj_act, surj_act. repeat mk1. start [(s, ds, x)]. repeat sim1. Qed.
Lemma surj_group_makes g : makes h (fun d => d = ds) (h_group_mul dt (h_surj_act dt dc) g s) (group_mul_surj dt g x).
Proof. unfold h_group_mul, group_mul_surj. repeat mk1. apply surj_act_makes. Qed.
Lemma surj_compose_makes p : makes h (fun d => d = ds) (h_surj_compose dt dc s t p) (surj_compose dt x y p).
Proof. unfold h_surj_compose, surj_compose. repeat mk1. start [(s, ds, x)]. repeat sim1. Qed.
Lemma surj_suspension_zero : dempty (data x) = true -> h_surj_suspension dt dc s h = (h, Ok s) /\ surj_suspension dt x = Ok x.
Proof.
  intros E. unfold h_surj_suspension, surj_suspension, mbind, h_see. rewrite (isobj_view _ _ _ _ Hs), E. auto.
Qed.
Lemma surj_suspension_makes : dempty (data x) = false -> makes h (fun d => d = ds) (h_surj_suspension dt dc s) (surj_suspension dt x).
Proof. intros E. unfold h_surj_suspension, surj_suspension. mk1. rewrite E. repeat mk1. start [(s, ds, x)]. repeat sim1. Qed.
End J.
Lemma surj_orbit_makes (h : @heap (list Z) conv) s ds (x : surj) rep : valid h -> isobj h s ds x ->
  makes h (fun d => d = ds) (h_surj_orbit dt dc s rep) (surj_orbit dt x rep).
Proof.
  intros V Hs. unfold h_surj_orbit, surj_orbit. mk1. start [(s, ds, x)]. do 3 sim1; [|sim1].
  eapply steps_aux.
  - intros h1 V1 _ F1. apply (makes_create dt dc cls_surj h1 s ds x _ V1). inversion F1; subst. assumption.
  - intros j dj z0. eapply steps_aux.
    + intros h1 V1 _ F1. eapply surj_group_makes; [exact V1|]. inversion F1; subst. eassumption.
    + intros j' dj' z'. sim1.
Qed.

Section B.
Variables (h : @heap bkey unit) (s t ds d_t : nat) (x y : bee).
Hypothesis V : valid h.
Hypothesis Hs : isobj h s ds x.
Hypothesis Ht : isobj h t d_t y.
Lemma be_boundary_makes : makes h (fun d => d = ds) (h_be_boundary dt s) (be_boundary dt x).
Proof.
  unfold h_be_boundary, be_boundary. mk1. start [(s, ds, x)].
  eapply steps_bind with (k := fun answer => mbind (h_preferred_rep cls_be answer) (fun _ => ret answer)).
  - repeat sim1.
  - apply steps_pref.
Qed.
Lemma be_act_makes r : makes h (fun d => d = ds) (h_be_act dt r s) (be_act dt r x).
Proof. unfold h_be_act, be_act. repeat mk1. start [(s, ds, x)]. repeat sim1. Qed.
Lemma be_group_makes g : makes h (fun d => d = ds) (h_group_mul dt (h_be_act dt) g s) (group_mul_be dt g x).
Proof. unfold h_group_mul, group_mul_be. repeat mk1. apply be_act_makes. Qed.
Lemma be_compose_makes p : makes h (fun d => d = ds) (h_be_compose dt s t p) (be_compose dt x y p).
Proof. unfold h_be_compose, be_compose. repeat mk1. start [(s, ds, x)]. repeat sim1. Qed.
Lemma be_orbit_zero rep : dempty (data x) = true -> h_be_orbit dt s rep h = (h, Ok s) /\ be_orbit dt x rep = Ok x.
Proof.
  intros E. unfold h_be_orbit, be_orbit, mbind, h_see. rewrite (isobj_view _ _ _ _ Hs), E. auto.
Qed.
End B.
Lemma be_orbit_makes (h : @heap bkey unit) s ds (x : bee) rep : valid h -> isobj h s ds x ->
  dempty (data x) = false -> makes h (fresh h) (h_be_orbit dt s rep) (be_orbit dt x rep).
Proof.
  intros V Hs E. unfold h_be_orbit, be_orbit. mk1. rewrite E. unfold be_new at 1. change (dict_of []) with (@nil (bkey * Z)).
  startn [(s, ds, x)].
  apply steps_for. intros [k v] _. do 4 (sim1; [|repeat sim1]).
  unfold be_new. eapply steps_aux.
  - intros h1 V1 _ _. apply makes_new. exact V1.
  - intros j dj z. eapply steps_aux.
    + intros h1 V1 _ F1. eapply be_act_makes; [exact V1|]. inversion F1; subst. eassumption.
    + intros j' dj' z'. sim1.
Qed.
Lemma be_table_makes (h : @heap (list Z) conv) (x : bee) : valid h -> makes h (fresh h) (h_be_table_reduction dt dc x) (be_table_reduction dt x).
Proof.
  intros V. unfold h_be_table_reduction, be_table_reduction. startn (@nil (nat * nat * surj)).
  eapply steps_bind with (k := fun answer => mbind (h_preferred_rep cls_surj answer) (fun _ => ret answer)).
  - repeat sim1.
  - apply steps_pref.
Qed.
Lemma be_diagonal_makes (h : @heap (list bkey) unit) (x : bee) r : valid h -> makes h (fresh h) (h_be_diagonal dt x r) (be_diagonal dt x r).
Proof.
  intros V. unfold h_be_diagonal, be_diagonal. startn (@nil (nat * nat * elt (list bkey) unit)).
  apply steps_for. intros [k v] _. sim1; [|sim1]. apply steps_create_iadd_self.
Qed.

(** ** The action of surjections *)
Lemma simp_call_makes (h : @heap skey2 unit) (x : surj) s ds (y : simp) coord : valid h -> isobj h s ds y ->
  makes h (fun d => d = ds) (h_call_simplicial dt x s coord) (surj_call_simplicial dt x y coord).
Proof.
  intros V Hs. unfold h_call_simplicial, surj_call_simplicial. repeat mk1.
  unfold h_call_simplicial_body, surj_call_simplicial_body. start [(s, ds, y)]. cbv zeta.
  eapply steps_aux.
  - intros h1 V1 _ F1. apply simp_diag_makes; [exact V1|]. inversion F1; subst. eassumption.
  - intros jj djj zz. repeat sim1.
Qed.

(** the loop over the groups of equal values *)
Lemma joins_ok (is k1 : list Z) (k2 : list (list Z)) s ds (y : cubc) : forall h, valid h -> isobj h s ds y ->
  let (h', r) := h_cub_joins dt s is k1 k2 h in
  ext none h h' /\
  match cub_joins dt y is k1 k2 with
  | Ok None => r = Ok None
  | Ok (Some gz) => exists gj, r = Ok (Some gj) /\
      Forall2 (fun a b => fst a = fst b /\ exists d, isobj h' (snd a) d (snd b)) gj gz
  | Err e => r = Err e
  end.
Proof.
  induction is as [|i is IH]; intros h V Hs; cbn [h_cub_joins cub_joins].
  { unfold ret. split; [now apply ext_refl|]. exists []. auto. }
  cbv zeta. set (group := map fst _). destruct (mapM _ group) as [key|er]; cbn [hbind bind].
  2:{ unfold raise. split; [now apply ext_refl|reflexivity]. }
  unfold mbind at 1.
  pose proof (create_obj dt tt cls_cubical h s ds y [(key, 1)] V Hs) as Q.
  destruct (h_create _ _ _ _ _ h) as [h1 r1]. destruct Q as [E1 Q].
  destruct (create dt cls_cubical y [(key, 1)]) as [e|er]; cbn [bind]; [|subst r1; auto]. destruct Q as [-> Q].
  pose proof (ext_valid _ _ _ E1) as V1. unfold mbind at 1.
  destruct (dempty (data e)) eqn:De.
  - destruct (cub_join_zero h1 _ _ e Q De) as [W1 W2]. rewrite W1, W2. cbn [bind]. rewrite De.
    unfold mbind at 1, h_see. rewrite (isobj_view _ _ _ _ Q), De. unfold ret. auto.
  - pose proof (cub_join_makes h1 _ _ e V1 Q De) as W. unfold makes in W. destruct (h_cub_join dt _ h1) as [h2 r2].
    destruct W as [E2 W]. pose proof (ext_trans _ _ _ _ E1 E2) as E02.
    destruct (cub_join dt e) as [z|er]; cbn [bind]; [|subst r2; auto]. destruct W as (j & d & -> & _ & _ & Oj).
    unfold mbind at 1, h_see at 1. rewrite (isobj_view _ _ _ _ Oj).
    destruct (dempty (data z)). { unfold ret. auto. }
    unfold mbind. pose proof (ext_valid _ _ _ E2) as V2.
    pose proof (IH h2 V2 (ext_isobj none _ _ _ _ _ E02 (fun q => q) Hs)) as R.
    destruct (h_cub_joins dt s is k1 k2 h2) as [h3 r3]. destruct R as [E3 R].
    pose proof (ext_trans _ _ _ _ E02 E3) as E03.
    destruct (cub_joins dt y is k1 k2) as [[gz|]|er]; cbn [bind].
    + destruct R as (gj & -> & R). unfold ret. split; [exact E03|]. exists ((group, j) :: gj). split; [reflexivity|].
      constructor; [|exact R]. cbn [fst snd]. split; [reflexivity|]. exists d. exact (ext_isobj none _ _ _ _ _ E3 (fun q => q) Oj).
    + subst r3. unfold ret. auto.
    + subst r3. auto.
Qed.
Lemma see_all_ok (gj : list (list Z * nat)) (gz : list (list Z * cubc)) (h : @heap ckey2 unit) :
  Forall2 (fun a b => fst a = fst b /\ exists d, isobj h (snd a) d (snd b)) gj gz -> h_see_all gj h = (h, Ok gz).
Proof.
  induction 1 as [|[g j] [g' z] gj gz [E (d & O)] F IH]; [reflexivity|]. cbn [h_see_all]. cbn [fst snd] in *. subst g'.
  unfold mbind at 1, h_see. rewrite (isobj_view _ _ _ _ O). unfold mbind. now rewrite IH.
Qed.
Lemma gj_fst {h : @heap ckey2 unit} (gj : list (list Z * nat)) (gz : list (list Z * cubc)) :
  Forall2 (fun a b => fst a = fst b /\ exists d, isobj h (snd a) d (snd b)) gj gz -> map fst gj = map fst gz.
Proof. induction 1 as [|a b gj gz [E _] F IH]; cbn; [reflexivity|]. now rewrite E, IH. Qed.

Lemma cub_call_makes (h : @heap ckey2 unit) (x : surj) s ds (y : cubc) coord : valid h -> isobj h s ds y ->
  makes h (fun d => d = ds) (h_call_cubical dt x s coord) (surj_call_cubical dt x y coord).
Proof.
  intros V Hs. unfold h_call_cubical, surj_call_cubical. repeat mk1.
  unfold h_call_cubical_body, surj_call_cubical_body. start [(s, ds, y)]. cbv zeta.
  eapply steps_aux.
  - intros h1 V1 _ F1. apply cub_diag_makes; [exact V1|]. inversion F1; subst. eassumption.
  - intros j dj pj. sim1. apply steps_for. intros [[k1 v1] [k2 v2]] _. cbv beta iota zeta.
    set (kk := slice k2 _ _). destruct (py_max k1) as [m|er]; cbn [hbind bind]; [|sim1].
    set (L := (j, dj, pj) :: (s, ds, y) :: nil).
    intros h1 e G. pose proof (joins_ok (zrange 1 (m + 1)) k1 kk s ds y h1 (good_valid _ _ _ _ _ _ G)
      (good_in _ _ _ _ _ _ _ _ _ G ltac:(right; left; reflexivity))) as Q.
    unfold mbind at 1. destruct (h_cub_joins dt s _ k1 kk h1) as [h2 r2]. destruct Q as [E2 Q].
    pose proof (good_ext _ _ _ _ _ _ _ G E2) as G2.
    destruct (cub_joins dt y _ k1 kk) as [[gz|]|er]; cbn [bind].
    2:{ subst r2. unfold ret. auto. }
    2:{ subst r2. split; [reflexivity|]. apply G2. }
    destruct Q as (gj & -> & F). rewrite (gj_fst _ _ F).
    match goal with |- let (_, _) := hbind ?p _ _ in _ => destruct p as [sg|er]; cbn [hbind bind] end.
    2:{ unfold raise. split; [reflexivity|]. apply G2. }
    unfold mbind at 1. rewrite (see_all_ok _ _ _ F).
    destruct gz as [|g0 gz]. { unfold raise. split; [reflexivity|]. apply G2. }
    match goal with |- let (_, _) := ?m h2 in match ?v with _ => _ end =>
      match eval pattern e in v with ?f _ => assert (S1 : steps h ds ia L m f) end end.
    { repeat sim1. }
    exact (S1 h2 e G2).
Qed.
End Methods.
