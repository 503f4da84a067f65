(** * C92: objects of all classes *)
From Verif Require Import PyBase Dict FreeModule Symmetric Simplicial Cubical Utils Surjection BarrattEccles GroupMul Heap HeapLaws HeapApi HeapSim HeapMethods World SpecObjects WorldSim WorldLaws.

Lemma ref_eqb_spec p q : reflect (p = q) (ref_eqb p q).
Proof.
  destruct p as [k i], q as [k' i']. unfold ref_eqb. cbn [fst snd].
  destruct (klass_dec k k') as [->|N].
  - replace (klass_eqb k' k') with true by (destruct k'; reflexivity). cbn. destruct (Nat.eqb_spec i i') as [->|N]; constructor; congruence.
  - replace (klass_eqb k k') with false by (destruct k, k'; try reflexivity; now destruct N). constructor. congruence.
Qed.

Section Inv.
Variable dt : Z.
Variable dc : conv.

Definition inv (s : hist) : Prop :=
  wvalid (now s) /\
  (forall p a, fam s p = Some a -> (a < families s)%nat /\ exists d, dof (now s) p = Some d) /\
  (forall p q a b d d', fam s p = Some a -> fam s q = Some b -> dof (now s) p = Some d -> dof (now s) q = Some d' ->
     (a = b <-> fst p = fst q /\ d = d')).

Lemma dof_lt w p d : wvalid w -> dof w p = Some d -> (snd p < length (objs (w (fst p))))%nat /\ (d < length (atts (w (fst p))))%nat.
Proof.
  intros V. unfold dof. destruct (nth_error (objs (w (fst p))) (snd p)) as [o|] eqn:E; [|discriminate]. intros [= <-].
  split; [apply nth_error_Some; congruence|]. apply (V _ o). eapply nth_error_In; eauto.
Qed.
(** the facts about a new answer *)
Lemma builds_new w c w' q : wvalid w -> builds dt dc w c -> wcall dt dc c w = (w', Ok q) ->
  (length (objs (w (fst q))) <= snd q)%nat /\ exists d, dof w' q = Some d /\
  match owner w c with
  | Some o => fst o = fst q /\ dof w o = Some d
  | None => (length (atts (w (fst q))) <= d)%nat
  end.
Proof.
  intros V (k & m & r & D & E1 & E2 & Mk & Ow) E. rewrite E1 in E. unfold on, makes in *. destruct (m (w k)) as [h' r'].
  injection E as <- E. destruct Mk as [_ Mk]. destruct r as [e|er]; [|subst r'; discriminate].
  destruct Mk as (j & d & -> & Dd & Lj & O). injection E as <-. cbn [fst snd]. split; [exact Lj|].
  exists d. split; [unfold dof; cbn [fst snd]; rewrite upd_same; now rewrite (proj1 O)|].
  destruct (owner w c) as [o|].
  - destruct Ow as (i & ds & e' & -> & O' & Q). rewrite (Q d Dd). split; [reflexivity|]. unfold dof. cbn [fst snd]. now rewrite (proj1 O').
  - apply Ow, Dd.
Qed.

Lemma inv_same s w' c r : inv s -> wcall dt dc c (now s) = (w', r) -> inv (mkHist w' (fam s) (families s)).
Proof.
  intros (V & B & R) E. assert (Ew : w' = fst (wcall dt dc c (now s))) by now rewrite E.
  split; cbn [now fam families]; [rewrite Ew; now apply wvalid_step|]. split.
  - intros p a Fp. destruct (B p a Fp) as (L & d & Hd). split; [exact L|]. exists d. rewrite Ew. now apply dof_step.
  - intros p q a b d d' Fp Fq Dp Dq. destruct (B p a Fp) as (_ & d1 & D1). destruct (B q b Fq) as (_ & d2 & D2).
    pose proof (dof_step dt dc _ c _ _ V D1) as D1'. pose proof (dof_step dt dc _ c _ _ V D2) as D2'. rewrite <- Ew in D1', D2'.
    rewrite D1' in Dp. rewrite D2' in Dq. injection Dp as <-. injection Dq as <-. eapply R; eauto.
Qed.
Lemma inv_step s c : inv s -> inv (hist_step dt dc s c).
Proof.
  intros I. unfold hist_step. destruct (wcall dt dc c (now s)) as [w' r] eqn:E.
  destruct r as [q|er]; [|eapply inv_same; eauto].
  destruct (returns_itself (now s) c) eqn:Ri; [eapply inv_same; eauto|].
  pose proof I as (V & B & R).
  pose proof (ok_builds dt dc _ _ _ _ V E Ri) as Bu.
  destruct (builds_new _ _ _ _ V Bu E) as (Lq & d & Dq & Ow).
  pose proof (inv_same s w' c (Ok q) I E) as (V' & B' & R'). cbn [now fam families] in *.
  assert (Nq : fam s q = None).
  { destruct (fam s q) as [a|] eqn:Fq; [|reflexivity]. destruct (B q a Fq) as (_ & d0 & D0).
    destruct (dof_lt _ _ _ V D0). lia. }
  assert (Ew : w' = fst (wcall dt dc c (now s))) by now rewrite E.
  destruct (owner (now s) c) as [o|].
  - destruct Ow as [Ko Do]. split; [exact V'|]. cbn [now fam families]. unfold assign.
    assert (Do' : dof w' o = Some d) by (rewrite Ew; now apply dof_step). split.
    + intros p a. destruct (ref_eqb_spec p q) as [->|N]; [|apply B'].
      intros Fo. destruct (B o a Fo) as (L & _). eauto.
    + intros p1 p2 a b d1 d2.
      destruct (ref_eqb_spec p1 q) as [->|N1]; destruct (ref_eqb_spec p2 q) as [->|N2]; intros F1 F2 D1 D2.
      * assert (a = b) by congruence. assert (d1 = d2) by congruence. tauto.
      * assert (d1 = d) by congruence. subst d1. rewrite <- Ko. eapply R'; eauto.
      * assert (d2 = d) by congruence. subst d2. rewrite <- Ko. eapply R'; eauto.
      * eapply R'; eauto.
  - split; [exact V'|]. cbn [now fam families]. unfold assign.
    assert (Nw : forall p b d2, fam s p = Some b -> dof w' p = Some d2 -> ~ (fst q = fst p /\ d = d2)).
    { intros p b d2 Fp D2 [K1 ->]. destruct (B p b Fp) as (_ & d3 & D3). pose proof (dof_step dt dc _ c _ _ V D3) as D3'.
      rewrite <- Ew in D3'. destruct (dof_lt _ _ _ V D3). rewrite K1 in Ow. rewrite D3' in D2. injection D2 as ->. lia. }
    split.
    + intros p a. destruct (ref_eqb_spec p q) as [->|N].
      * intros [= <-]. split; [lia|eauto].
      * intros Fp. destruct (B' p a Fp). split; [lia|assumption].
    + intros p1 p2 a b d1 d2.
      destruct (ref_eqb_spec p1 q) as [->|N1]; destruct (ref_eqb_spec p2 q) as [->|N2]; intros F1 F2 D1 D2.
      * assert (a = b) by congruence. assert (d1 = d2) by congruence. tauto.
      * assert (d1 = d) by congruence. subst d1. injection F1 as <-. destruct (B p2 b F2) as (L & _).
        pose proof (Nw p2 b d2 F2 D2). split; [lia|tauto].
      * assert (d2 = d) by congruence. subst d2. injection F2 as <-. destruct (B p1 a F1) as (L & _).
        pose proof (Nw p1 a d1 F1 D1). split; [lia|]. intros [K1 ->]. destruct H. auto.
      * eapply R'; eauto.
Qed.
Lemma inv_run cs : inv (hist_run dt dc cs).
Proof.
  unfold hist_run. set (s := mkHist _ _ _). assert (I : inv s).
  { split; [apply wvalid_empty|]. split; cbn; intros; discriminate. }
  clearbody s. revert s I. induction cs as [|c cs IH]; intros s I; [exact I|]. cbn [fold_left]. apply IH. now apply inv_step.
Qed.
Lemma now_run cs : now (hist_run dt dc cs) = wrun dt dc cs empty_world.
Proof.
  unfold hist_run, wrun. set (s := mkHist _ _ _). change empty_world with (now s). clearbody s. revert s.
  induction cs as [|c cs IH]; intros s; [reflexivity|]. cbn [fold_left]. rewrite IH. f_equal.
  unfold hist_step. destruct (wcall dt dc c (now s)) as [w' [q|er]]; [|reflexivity].
  destruct (returns_itself (now s) c); [reflexivity|]. now destruct (owner (now s) c).
Qed.

(** [set_torsion] *)
Lemma set_torsion_sees w p q t v dp dq : wvalid w -> p <> q -> dof w p = Some dp -> dof w q = Some dq -> sees w p = Some v ->
  sees (fst (wcall dt dc (CFree (fst q) (OSetTorsion (snd q) t)) w)) p =
    Some (if klass_eqb (fst p) (fst q) && Nat.eqb dp dq then with_torsion v t else v).
Proof.
  intros V N Dp Dq Sv. destruct p as [k i], q as [k' i']. cbn [fst snd World.wcall]. unfold on.
  destruct (klass_dec k k') as [->|Nk].
  - replace (klass_eqb k' k') with true by (destruct k'; reflexivity). cbn [andb].
    pose proof (proj2 (set_torsion_post dt (dattT dc k') (clsT k') i' t (w k') (V k'))) as Q.
    destruct (hstep dt (dattT dc k') (clsT k') (OSetTorsion i' t) (w k')) as [h' r]. cbn [fst] in *.
    unfold sees in *. cbn [fst snd] in *. rewrite upd_same. destruct (view (w k') i) as [e|] eqn:Ev; [|discriminate].
    injection Sv as <-. unfold dof in *. cbn [fst snd] in *.
    destruct (nth_error (objs (w k')) i) as [o|] eqn:Eo; [|discriminate]. destruct (nth_error (objs (w k')) i') as [o'|] eqn:Eo'; [|discriminate].
    injection Dp as <-. injection Dq as <-. pose proof (Q i o e Eo Ev ltac:(congruence)) as Qi. cbv beta in Qi. 
    destruct (Nat.eqb (dref o) (dref o')); rewrite Qi; reflexivity.
  - replace (klass_eqb k k') with false by (destruct k, k'; try reflexivity; now destruct Nk). cbn [andb].
    destruct (hstep _ _ _ _ _) as [h' r]. cbn [fst]. unfold sees in *. cbn [fst snd] in *. now rewrite upd_other.
Qed.
End Inv.

(** #C92_answers# In every state reached by a history of calls, a call whose
    operands exist returns an object with exactly the value that the
    value-level model (the one all other theorems are about) gives for the
    values of the operands, or raises the same exception. *)
Lemma C92_answers_l (dt : Z) (dc : conv) (before : list call) (c : call) :
  let w := wrun dt dc before empty_world in
  (forall q, In q (operands c) -> alive w q) ->
  let (w', r) := wcall dt dc c w in
  match expected dt w c with
  | Ok v => exists q, r = Ok q /\ sees w' q = Some v
  | Err e => r = Err e
  end.
Proof. intros w Al. apply call_computes; [apply wvalid_run, wvalid_empty|exact Al]. Qed.

(** #C92_objects_stable# Whatever a program calls, and whether or not the
    calls raise, an object keeps its value and attributes as long as it is
    not the left side of [+=] or [-=] and [set_torsion] is not called. *)
Lemma C92_objects_stable_l (dt : Z) (dc : conv) (before after : list call) (q : ref) (v : value) :
  let w := wrun dt dc before empty_world in
  sees w q = Some v ->
  (forall c, In c after -> ~ in_place c q /\ ~ sets_torsion c) ->
  sees (wrun dt dc after w) q = Some v.
Proof.
  intros w. assert (V : wvalid w) by apply wvalid_run, wvalid_empty. clearbody w. revert w V. unfold wrun.
  induction after as [|c after IH]; intros w V E F; [exact E|]. cbn [fold_left]. apply IH.
  - now apply wvalid_step.
  - destruct (F c (or_introl eq_refl)). now apply frame1.
  - intros c' Hc. apply F. now right.
Qed.

(** #C92_new_objects# The answer of a call is an object that did not exist
    before, except for [+=], [-=] and [set_torsion], and for [x.join()],
    [x.suspension()] and (Barratt-Eccles) [x.orbit()] with [x] zero, which
    return the operand itself. *)
Lemma C92_new_objects_l (dt : Z) (dc : conv) (before : list call) (c : call) (w' : world) (q : ref) :
  let w := wrun dt dc before empty_world in
  wcall dt dc c w = (w', Ok q) ->
  match returns_itself w c with Some x => q = x | None => sees w q = None end.
Proof.
  intros w E. assert (V : wvalid w) by apply wvalid_run, wvalid_empty. destruct (returns_itself w c) as [x|] eqn:R.
  - destruct (is_free c) eqn:F.
    + destruct c; try discriminate. cbn [returns_itself] in R. cbn [wcall] in E. unfold on in E.
      assert (Q : forall h' j, hstep dt (dattT dc k) (clsT k) o (w k) = (h', Ok j) -> Some (k, j) = Some x).
      { intros h' j. rewrite <- R. destruct o; try discriminate R; cbn [hstep].
        - unfold h_iadd, mbind, ret, raise. intros W.
          repeat match type of W with (let (_, _) := ?m in _) = _ => destruct m as [? [|]]; try discriminate
            | (if ?b then _ else _) _ = _ => destruct b; try discriminate end. congruence.
        - unfold h_isub, mbind, ret, raise. intros W.
          repeat match type of W with (let (_, _) := ?m in _) = _ => destruct m as [? [|]]; try discriminate
            | (if ?b then _ else _) _ = _ => destruct b; try discriminate end. congruence.
        - unfold h_set_torsion, mbind, ret. intros W.
          repeat match type of W with (let (_, _) := ?m in _) = _ => destruct m as [? [|]]; try discriminate end. congruence. }
      destruct (hstep _ _ _ _ _) as [h' [j|er]]; [|discriminate]. injection E as _ <-. specialize (Q _ _ eq_refl). congruence.
    + destruct c; try discriminate F; try discriminate R; cbn [returns_itself] in R; unfold is_zero in R;
        (match type of R with (if match view ?h0 ?i0 with _ => _ end then _ else _) = _ => destruct (view h0 i0) as [e|] eqn:Ev; [|discriminate R] end);
        destruct (dempty (data e)) eqn:De; try discriminate R; injection R as <-;
        destruct (view_isobj _ _ _ Ev) as (ds & O); cbn [wcall] in E; unfold on in E.
      * destruct (cub_join_zero dt _ _ _ _ O De) as [W _]. 
        assert (W' : h_cub_join dt i (w KCub) = (w KCub, Ok i)) by exact W. 
        change (heapT KCub) with (@heap (keyT KCub) (attT KCub)) in E. rewrite W in E. congruence.
      * destruct (surj_suspension_zero dt dc _ _ _ _ O De) as [W _]. rewrite W in E. congruence.
      * destruct (be_orbit_zero dt _ _ _ _ O rep De) as [W _]. rewrite W in E. congruence.
  - pose proof (ok_builds dt dc _ _ _ _ V E R) as Bu. destruct (builds_new dt dc _ _ _ _ V Bu E) as (L & _).
    unfold sees, view. replace (nth_error (objs (w (fst q))) (snd q)) with (@None (@obj (keyT (fst q)))); [reflexivity|].
    symmetry. now apply nth_error_None.
Qed.

(** #C92_set_torsion_exact# [q.set_torsion(t)] changes the torsion of [p]
    exactly when [p] and [q] are of the same family: that is, when the
    attributes of both were passed on, answer by answer, from one
    constructor call. *)
Lemma C92_set_torsion_exact_l (dt : Z) (dc : conv) (before : list call) (p q : ref) (a b : nat) (v : value) (t : Z) :
  let s := hist_run dt dc before in
  let w := wrun dt dc before empty_world in
  fam s p = Some a -> fam s q = Some b -> p <> q -> sees w p = Some v ->
  sees (fst (wcall dt dc (CFree (fst q) (OSetTorsion (snd q) t)) w)) p =
    Some (if Nat.eqb a b then with_torsion v t else v).
Proof.
  intros s w Fp Fq N Sv. destruct (inv_run dt dc before) as (V & B & R). rewrite now_run in V, B, R. fold w in V, B, R. fold s in B, R.
  destruct (B _ _ Fp) as (_ & dp & Dp). destruct (B _ _ Fq) as (_ & dq & Dq).
  rewrite (set_torsion_sees dt dc w p q t v dp dq V N Dp Dq Sv).
  pose proof (R _ _ _ _ _ _ Fp Fq Dp Dq) as [R1 R2].
  destruct (Nat.eqb_spec a b) as [E|E].
  - destruct (R1 E) as [-> ->]. replace (klass_eqb (fst q) (fst q)) with true by (destruct (fst q); reflexivity).
    now rewrite Nat.eqb_refl.
  - destruct (klass_eqb (fst p) (fst q) && Nat.eqb dp dq)%bool eqn:X; [|reflexivity]. exfalso. apply E, R2.
    apply Bool.andb_true_iff in X. destruct X as [X1 X2]. apply Nat.eqb_eq in X2. split; [|exact X2].
    destruct (fst p), (fst q); try discriminate X1; reflexivity.
Qed.

(** #C92_families# Every object a program holds has a family: the answer of a
    call whose operands have one has one. *)
Lemma C92_families_l (dt : Z) (dc : conv) (before : list call) (c : call) (w' : world) (q : ref) :
  let s := hist_run dt dc before in
  let w := wrun dt dc before empty_world in
  (forall o, In o (operands c) -> fam s o <> None) ->
  wcall dt dc c w = (w', Ok q) ->
  fam (hist_run dt dc (before ++ [c])) q <> None.
Proof.
  intros s w Fo E. pose proof (C92_new_objects_l dt dc before c w' q E) as New. fold w in New.
  unfold hist_run. rewrite fold_left_app. fold (hist_run dt dc before). fold s. cbn [fold_left].
  unfold hist_step. assert (Es : now s = w) by apply now_run. rewrite Es, E.
  destruct (returns_itself w c) as [x|] eqn:R.
  - subst q. cbn [fam]. apply Fo. destruct c; try discriminate R; cbn [returns_itself operands] in *;
      try (match type of R with (if ?b then _ else _) = _ => destruct b; [|discriminate R] end; injection R as <-; left; reflexivity).
    destruct o; try discriminate R; injection R as <-; left; reflexivity.
  - destruct (owner w c) as [o|] eqn:Ow; cbn [fam]; unfold assign.
    + replace (ref_eqb q q) with true by (destruct (ref_eqb_spec q q); congruence).
      apply Fo. destruct c; cbn [owner operands] in *;
        try (match type of Ow with (if ?b then _ else _) = _ => destruct b end); try discriminate Ow;
        try (injection Ow as <-; cbn; tauto).
      destruct o0; try discriminate Ow; injection Ow as <-; cbn; tauto.
    + replace (ref_eqb q q) with true by (destruct (ref_eqb_spec q q); congruence). discriminate.
Qed.

(** #C92_own_attributes# A call whose answer shares no attributes gives an
    answer whose [set_torsion] changes nothing that existed before. *)
Lemma C92_own_attributes_l (dt : Z) (dc : conv) (before : list call) (c : call) (w' : world) (p q : ref) (v : value) (t : Z) :
  let w := wrun dt dc before empty_world in
  returns_itself w c = None -> owner w c = None ->
  wcall dt dc c w = (w', Ok q) -> sees w p = Some v ->
  sees (fst (wcall dt dc (CFree (fst q) (OSetTorsion (snd q) t)) w')) p = Some v.
Proof.
  intros w R Ow E Sv. assert (V : wvalid w) by apply wvalid_run, wvalid_empty.
  pose proof (ok_builds dt dc _ _ _ _ V E R) as Bu. destruct (builds_new dt dc _ _ _ _ V Bu E) as (L & d & Dq & Od).
  rewrite Ow in Od.
  assert (Ew : w' = fst (wcall dt dc c w)) by now rewrite E.
  assert (V' : wvalid w') by (rewrite Ew; now apply wvalid_step).
  assert (D : exists dp, dof w p = Some dp).
  { unfold sees in Sv. destruct p as [k i]. cbn [fst snd] in *. destruct (view (w k) i) as [e|] eqn:Ev; [|discriminate].
    destruct (view_dof w k i e Ev) as (dp & Q & _). eauto. }
  destruct D as (dp & Dp). destruct (dof_lt _ _ _ V Dp) as [L1 L2].
  assert (Dp' : dof w' p = Some dp) by (rewrite Ew; now apply dof_step).
  assert (N : p <> q) by (intros ->; lia).
  assert (Sv' : sees w' p = Some v).
  { rewrite Ew. apply frame1; [exact V|..|exact Sv].
    - intros T. destruct c; try destruct T. destruct o; try destruct T. discriminate R.
    - intros T. destruct c; try destruct T. destruct o; try destruct T; discriminate R. }
  rewrite (set_torsion_sees dt dc w' p q t v dp d V' N Dp' Dq Sv').
  destruct (klass_eqb (fst p) (fst q) && Nat.eqb dp d)%bool eqn:X; [|reflexivity]. exfalso.
  apply Bool.andb_true_iff in X. destruct X as [X1 X2]. apply Nat.eqb_eq in X2. subst dp.
  assert (K1 : fst p = fst q) by (destruct (fst p), (fst q); try discriminate X1; reflexivity). rewrite K1 in L2. lia.
Qed.
(** #C92_shared_attributes# The answer [q] of any other call shares its
    attributes with the operand [o]: [q.set_torsion(t)] changes the torsion
    of [o]. *)
Lemma C92_shared_attributes_l (dt : Z) (dc : conv) (before : list call) (c : call) (w' : world) (o q : ref) (v : value) (t : Z) :
  let w := wrun dt dc before empty_world in
  returns_itself w c = None -> owner w c = Some o ->
  wcall dt dc c w = (w', Ok q) -> sees w o = Some v ->
  sees (fst (wcall dt dc (CFree (fst q) (OSetTorsion (snd q) t)) w')) o = Some (with_torsion v t).
Proof.
  intros w R Ow E Sv. assert (V : wvalid w) by apply wvalid_run, wvalid_empty.
  pose proof (ok_builds dt dc _ _ _ _ V E R) as Bu. destruct (builds_new dt dc _ _ _ _ V Bu E) as (L & d & Dq & Od).
  rewrite Ow in Od. destruct Od as [K1 Do].
  assert (Ew : w' = fst (wcall dt dc c w)) by now rewrite E.
  assert (V' : wvalid w') by (rewrite Ew; now apply wvalid_step).
  destruct (dof_lt _ _ _ V Do) as [L1 L2].
  assert (Do' : dof w' o = Some d) by (rewrite Ew; now apply dof_step).
  assert (N : o <> q) by (intros ->; lia).
  assert (Sv' : sees w' o = Some v).
  { rewrite Ew. apply frame1; [exact V|..|exact Sv].
    - intros T. destruct c; try destruct T. destruct o0; try destruct T. discriminate R.
    - intros T. destruct c; try destruct T. destruct o0; try destruct T; discriminate R. }
  rewrite (set_torsion_sees dt dc w' o q t v d d V' N Do' Dq Sv').
  rewrite K1, Nat.eqb_refl. now replace (klass_eqb (fst q) (fst q)) with true by (destruct (fst q); reflexivity).
Qed.

(** A concrete history: a Barratt-Eccles element, its boundary, its table
    reduction, a surjection, a simplex and the value of the surjection on it;
    the calls succeed and answer with non-zero elements.  The table reduction
    has the convention Berger-Fresse, so calling it on the simplex raises. *)
Definition demo : list call :=
  [CFree KBE (ONew [([[1;2];[2;1]] : bkey, 1)] None tt); BeBoundary 0; BeTable 0;
   CFree KSimp (ONew [([[0;1;2]] : skey2, 1)] None tt); SurjCallSimp 0 0 1;
   CFree KSurj (ONew [([1;2;1], 1)] None MS); SurjCallSimp 2 0 1].
Definition cup1_012 : simp := mkElt [([[0;1;2];[0;1]], -1); ([[0;2];[0;1;2]], 1); ([[0;1;2];[1;2]], -1)] 0 tt.
(** #demo_answers# *)
Example demo_answers_l :
  let w := wrun 0 MS demo empty_world in
  sees w (KBE, 1%nat) = Some (val KBE (mkElt [([[2;1]] : bkey, 1); ([[1;2]] : bkey, -1)] 0 tt)) /\
  sees w (KSurj, 0%nat) = Some (val KSurj (mkElt [([1;2;1], 1)] 0 BF)) /\
  sees w (KSimp, 1%nat) = Some (val KSimp cup1_012) /\
  snd (wcall 0 MS (SurjCallSimp 0 0 1) w) = Err NotImplementedError.
Proof. vm_compute. repeat split; reflexivity. Qed.
(** #demo_families# the boundary is in the family of the element, its table
    reduction is not. *)
Example demo_families_l :
  let s := hist_run 0 MS demo in
  fam s (KBE, 0%nat) = Some 0%nat /\ fam s (KBE, 1%nat) = Some 0%nat /\ fam s (KSurj, 0%nat) = Some 1%nat /\
  fam s (KSimp, 0%nat) = fam s (KSimp, 1%nat) /\ fam s (KSimp, 0%nat) <> None.
Proof. vm_compute. repeat split; try reflexivity. discriminate. Qed.
(** #demo_shared# [b = x.boundary(); b.set_torsion(3)] changes the torsion of [x]. *)
Example demo_shared_l :
  sees (wrun 0 MS (demo ++ [CFree KBE (OSetTorsion 1 3)]) empty_world) (KBE, 0%nat) =
    Some (val KBE (mkElt [([[1;2];[2;1]] : bkey, 1)] 3 tt)).
Proof. vm_compute. reflexivity. Qed.
(** #demo_alias# [x] zero: [y = x.orbit(); y += z] changes [x]. *)
Example demo_alias_l :
  let w := wrun 0 MS [CFree KBE (ONew [] None tt); BeOrbit 0 Trivial;
                      CFree KBE (ONew [([[1;2]] : bkey, 1)] None tt); CFree KBE (OIadd 0 1)] empty_world in
  snd (wcall 0 MS (BeOrbit 0 Trivial) (wrun 0 MS [CFree KBE (ONew [] None tt)] empty_world)) = Ok (KBE, 0%nat) /\
  sees w (KBE, 0%nat) = Some (val KBE (mkElt [([[1;2]] : bkey, 1)] 0 tt)).
Proof. vm_compute. split; reflexivity. Qed.
