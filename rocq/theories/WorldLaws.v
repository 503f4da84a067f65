(** * C92: what every call does to objects *)
From Verif Require Import PyBase Dict FreeModule Symmetric Simplicial Cubical Utils Surjection BarrattEccles GroupMul Heap HeapLaws HeapApi HeapSim HeapMethods World SpecObjects WorldSim.

Section W.
Variable dt : Z.
Variable dc : conv.
Notation wcall := (wcall dt dc).
Notation wrun := (wrun dt dc).

Lemma sees_upd_same w k h i : sees (upd w k h) (k, i) = match view h i with Some e => Some (val k e) | None => None end.
Proof. unfold sees. cbn [fst snd]. now rewrite upd_same. Qed.
Lemma sees_view w k i e : view (w k) i = Some e -> sees w (k, i) = Some (val k e).
Proof. unfold sees. cbn [fst snd]. now intros ->. Qed.
Lemma alive_view w k i : alive w (k, i) -> exists e, view (w k) i = Some e.
Proof. unfold alive, sees. cbn [fst snd]. destruct (view (w k) i); [eauto|]. intros N. now destruct N. Qed.

Lemma call_ext w c : wvalid w -> ~ sets_torsion c -> forall k, ext (fun i => in_place c (k, i)) (w k) (fst (wcall c w) k).
Proof.
  intros V NS k. destruct (is_free c) eqn:F.
  - destruct c; try discriminate. cbn [World.wcall]. unfold on.
    assert (T : is_set_torsion o = false) by (destruct o; cbn in *; tauto).
    pose proof (hstep_ext dt (dattT dc k0) (clsT k0) o (w k0) (V k0) T) as E.
    destruct (hstep dt (dattT dc k0) (clsT k0) o (w k0)) as [h' r]. cbn [fst] in *.
    destruct (klass_dec k k0) as [->|N]; [|rewrite upd_other by exact N; apply ext_refl, V].
    rewrite upd_same. eapply ext_weaken; [|exact E]. intros i _. destruct o; cbn; try tauto; now intros ->.
  - destruct (call_cases dt dc w c V F) as [B|[I|D]].
    + destruct B as (k0 & m & r & D & -> & _ & Mk & _). unfold on, makes in *. destruct (m (w k0)) as [h' r'].
      destruct Mk as [E _]. cbn [fst]. destruct (klass_dec k k0) as [->|N]; [|rewrite upd_other by exact N; apply ext_refl, V].
      rewrite upd_same. eapply ext_weaken; [|exact E]. intros i _ [].
    + destruct I as (k0 & i & e & _ & -> & _). unfold on. cbn [fst]. rewrite upd_id. apply ext_refl, V.
    + rewrite (proj2 D). apply ext_refl, V.
Qed.
Lemma wvalid_step w c : wvalid w -> wvalid (fst (wcall c w)).
Proof.
  intros V k. destruct c; try (eapply ext_valid; apply call_ext; [exact V|intros []]).
  cbn [World.wcall]. unfold on. pose proof (valid_step dt (dattT dc k0) (clsT k0) o (w k0) (V k0)) as E.
  destruct (hstep dt (dattT dc k0) (clsT k0) o (w k0)) as [h' r]. cbn [fst] in *.
  destruct (klass_dec k k0) as [->|N]; [now rewrite upd_same|]. rewrite upd_other by exact N. apply V.
Qed.
Lemma wvalid_run cs : forall w, wvalid w -> wvalid (wrun cs w).
Proof. unfold World.wrun. induction cs as [|c cs IH]; intros w V; [exact V|]. apply IH. now apply wvalid_step. Qed.
Lemma wvalid_empty : wvalid empty_world.
Proof. intros k o []. Qed.

Lemma frame1 w c q v : wvalid w -> ~ sets_torsion c -> ~ in_place c q -> sees w q = Some v -> sees (fst (wcall c w)) q = Some v.
Proof.
  intros V NS NI E. destruct q as [k i]. unfold sees in *. cbn [fst snd] in *.
  destruct (view (w k) i) as [e|] eqn:Ev; [|discriminate]. injection E as <-.
  destruct (ext_view _ _ _ _ _ (call_ext w c V NS k) Ev) as (d & -> & Q). rewrite (Q NI). now destruct e.
Qed.

(** free-module operations *)
Lemma free_computes w k o : wvalid w -> (forall q, In q (operands (CFree k o)) -> alive w q) ->
  let (w', r) := wcall (CFree k o) w in
  match expected dt w (CFree k o) with
  | Ok v => exists q, r = Ok q /\ sees w' q = Some v
  | Err e => r = Err e
  end.
Proof.
  intros V Al. cbn [World.wcall expected]. unfold on, gives.
  assert (fin : forall (oo : @op (keyT k) (attT k)) (rr : res (eltT k)),
    match rr with Ok z => exists h' j, hstep dt (dattT dc k) (clsT k) oo (w k) = (h', Ok j) /\ view h' j = Some z
               | Err e => exists h', hstep dt (dattT dc k) (clsT k) oo (w k) = (h', Err e) end ->
    let (w', r) := (let (h, r) := hstep dt (dattT dc k) (clsT k) oo (w k) in (upd w k h, match r with Ok i => Ok (k, i) | Err e => Err e end)) in
    match (let! e := rr in Ok (val k e)) with Ok v => exists q, r = Ok q /\ sees w' q = Some v | Err e => r = Err e end).
  { intros oo rr. destruct rr as [z|er]; cbn [bind].
    - intros (h' & j & -> & Vj). exists (k, j). split; [reflexivity|]. rewrite sees_upd_same. now rewrite Vj.
    - intros (h' & ->). reflexivity. }
  destruct o; cbn [operands] in Al; apply fin;
  try (destruct (alive_view w k i (Al _ (or_introl eq_refl))) as (x & Ex); rewrite (opd_some _ _ _ _ Ex); cbn [bind]);
  try (destruct (alive_view w k j (Al _ (or_intror (or_introl eq_refl)))) as (y & Ey); rewrite (opd_some _ _ _ _ Ey); cbn [bind]).
  1:{ pose proof (new_obj dt (clsT k) (w k) d t a (V k)) as Q. cbn [hstep]. destruct (h_new _ _ _ _ _ _) as [h' r]. destruct Q as [_ Q].
      destruct (new dt (clsT k) d t a) as [z|er]; [|subst r; eauto]. destruct Q as [-> Q]. exists h', (length (objs (w k))). split; [reflexivity|]. eapply isobj_view; eauto. }
  all: first [ pose proof (C08_objects_compute_values_l dt (dattT dc k) (clsT k) (w k) i j x y [] 0 Ex Ey) as Q
             | match goal with d : dict _ |- _ => pose proof (C08_objects_compute_values_l dt (dattT dc k) (clsT k) (w k) i i x x d 0 Ex Ex) as Q end
             | match goal with n : Z |- _ => pose proof (C08_objects_compute_values_l dt (dattT dc k) (clsT k) (w k) i i x x [] n Ex Ex) as Q end
             | pose proof (C08_objects_compute_values_l dt (dattT dc k) (clsT k) (w k) i i x x [] 0 Ex Ex) as Q ];
       cbv zeta in Q; decompose [and] Q; assumption.
Qed.
Lemma call_computes w c : wvalid w -> (forall q, In q (operands c) -> alive w q) ->
  let (w', r) := wcall c w in
  match expected dt w c with
  | Ok v => exists q, r = Ok q /\ sees w' q = Some v
  | Err e => r = Err e
  end.
Proof.
  intros V Al. destruct (is_free c) eqn:F.
  { destruct c; try discriminate. now apply free_computes. }
  destruct (call_cases dt dc w c V F) as [B|[I|D]].
  - destruct B as (k & m & r & D & -> & -> & Mk & _). unfold on, makes, gives in *. destruct (m (w k)) as [h' r'].
    destruct Mk as [_ Mk]. destruct r as [e|er]; cbn [bind]; [|now subst r'].
    destruct Mk as (j & d & -> & _ & _ & O). exists (k, j). split; [reflexivity|]. rewrite sees_upd_same.
    now rewrite (isobj_view _ _ _ _ O).
  - destruct I as (k & i & e & _ & -> & Ve & -> & _). unfold on. exists (k, i). split; [reflexivity|].
    rewrite sees_upd_same. now rewrite Ve.
  - destruct D as [(q & I & N) _]. now destruct (Al q I).
Qed.

(** new objects *)
Lemma free_builds w k o : wvalid w -> (forall q, In q (operands (CFree k o)) -> alive w q) -> returns_itself w (CFree k o) = None ->
  builds dt dc w (CFree k o).
Proof.
  intros V Al R. unfold builds.
  destruct o; try discriminate R; cbn [operands] in Al;
  try (destruct (alive_view w k i (Al _ (or_introl eq_refl))) as (x & Ex); destruct (view_isobj _ _ _ Ex) as (ds & Ix));
  try (destruct (alive_view w k j (Al _ (or_intror (or_introl eq_refl)))) as (y & Ey); destruct (view_isobj _ _ _ Ey) as (dy & Iy)).
  - exists k, (h_new dt (clsT k) d t a), (new dt (clsT k) d t a), (fresh (w k)). split; [reflexivity|]. split; [reflexivity|].
    split; [apply makes_new, V|]. cbn [owner]. auto.
  - eexists k, _, (create dt (clsT k) x d), (fun z => z = ds). split; [reflexivity|]. split; [cbn [expected]; now rewrite (opd_some _ _ _ _ Ex)|].
    split; [|cbn [owner]; exists i, ds, x; auto]. cbn [hstep]. eapply makes_get_obj; [exact Ix|]. apply makes_create; [apply V|exact Ix].
  - eexists k, _, (zero dt (clsT k) x), (fun z => z = ds). split; [reflexivity|]. split; [cbn [expected]; now rewrite (opd_some _ _ _ _ Ex)|].
    split; [|cbn [owner]; exists i, ds, x; auto]. apply makes_zero_only; [apply V|exact Ix].
  - eexists k, _, (add dt (clsT k) x y), (fun z => z = ds). split; [reflexivity|]. split; [cbn [expected]; now rewrite (opd_some _ _ _ _ Ex), (opd_some _ _ _ _ Ey)|].
    split; [|cbn [owner]; exists i, ds, x; auto]. exact (binop_makes dt (dattT dc k) (clsT k) (w k) i j ds dy x y (V k) Ix Iy dupdate).
  - eexists k, _, (sub dt (clsT k) x y), (fun z => z = ds). split; [reflexivity|]. split; [cbn [expected]; now rewrite (opd_some _ _ _ _ Ex), (opd_some _ _ _ _ Ey)|].
    split; [|cbn [owner]; exists i, ds, x; auto]. exact (binop_makes dt (dattT dc k) (clsT k) (w k) i j ds dy x y (V k) Ix Iy dsubtract).
  - eexists k, _, (scale dt (clsT k) n x), (fun z => z = ds). split; [reflexivity|]. split; [cbn [expected]; now rewrite (opd_some _ _ _ _ Ex)|].
    split; [|cbn [owner]; exists i, ds, x; auto]. apply makes_scale; [apply V|exact Ix].
  - eexists k, _, (neg dt (clsT k) x), (fun z => z = ds). split; [reflexivity|]. split; [cbn [expected]; now rewrite (opd_some _ _ _ _ Ex)|].
    split; [|cbn [owner]; exists i, ds, x; auto]. apply makes_scale; [apply V|exact Ix].
  - eexists k, _, (truediv dt (clsT k) x n), (fun z => z = ds). split; [reflexivity|]. split; [cbn [expected]; now rewrite (opd_some _ _ _ _ Ex)|].
    split; [|cbn [owner]; exists i, ds, x; auto]. apply makes_div; [apply V|exact Ix].
Qed.
Lemma all_builds w c : wvalid w -> (forall q, In q (operands c) -> alive w q) -> returns_itself w c = None -> builds dt dc w c.
Proof.
  intros V Al R. destruct (is_free c) eqn:F.
  { destruct c; try discriminate. now apply free_builds. }
  destruct (call_cases dt dc w c V F) as [B|[I|D]]; [exact B|..].
  - destruct I as (k & i & e & E & _). congruence.
  - destruct D as [(q & I & N) _]. now destruct (Al q I).
Qed.

(** attribute dictionaries *)
Definition dof (w : world) (p : ref) : option nat := match nth_error (objs (w (fst p))) (snd p) with Some o => Some (dref o) | None => None end.
Lemma view_dof (w : world) k i (e : eltT k) : view (w k) i = Some e -> exists d, dof w (k, i) = Some d /\ isobj (w k) i d e.
Proof. intros E. destruct (view_isobj _ _ _ E) as (d & O). exists d. split; [|exact O]. unfold dof. cbn [fst snd]. now rewrite (proj1 O). Qed.
Lemma set_torsion_objs {K A} `{PyKey K} (c : pycls K) i t (h : @heap K A) j o : nth_error (objs h) j = Some o ->
  exists o', nth_error (objs (fst (h_set_torsion c i t h))) j = Some o' /\ dref o' = dref o.
Proof.
  intros Hj. unfold h_set_torsion, set_attr_torsion, mbind. unfold get_obj at 1.
  destruct (nth_error (objs h) i) as [oi|] eqn:Ei; [|cbn; eauto].
  destruct (nth_error (atts h) (dref oi)) as [a|] eqn:Ea; [|cbn; eauto].
  assert (L : (dref oi < length (atts h))%nat) by (apply nth_error_Some; congruence).
  rewrite (pref_rep_eq c (mkHeap (objs h) (lset (atts h) (dref oi) (t, snd a))) i oi (t, snd a)); [|exact Ei|cbn; now apply lset_same].
  cbn [fst]. destruct (pref c t (items oi)); cbn [fst ret objs]; [|eauto].
  destruct (Nat.eq_dec j i) as [->|N].
  - exists (mkObj a0 (dref oi)). rewrite lset_same by (apply nth_error_Some; congruence). split; [reflexivity|]. cbn. congruence.
  - rewrite lset_other by auto. eauto.
Qed.
Lemma dof_step w c p d : wvalid w -> dof w p = Some d -> dof (fst (wcall c w)) p = Some d.
Proof.
  intros V Hd. unfold dof in *. destruct p as [k i]. cbn [fst snd] in *.
  destruct (nth_error (objs (w k)) i) as [o|] eqn:Eo; [|discriminate]. injection Hd as <-.
  assert (C : sets_torsion c \/ ~ sets_torsion c) by (destruct c; cbn; auto; destruct o0; cbn; auto).
  destruct C as [T|T].
  - destruct c; try destruct T. destruct o0; try destruct T. cbn [World.wcall]. unfold on. cbn [hstep].
    destruct (klass_dec k k0) as [->|N].
    + destruct (set_torsion_objs (clsT k0) i0 t (w k0) i o Eo) as (o' & Q & R). destruct (h_set_torsion _ _ _ _) as [h' r]. cbn [fst] in *.
      rewrite upd_same, Q. now rewrite R.
    + destruct (h_set_torsion _ _ _ _) as [h' r]. cbn [fst]. rewrite upd_other by exact N. now rewrite Eo.
  - destruct (call_ext w c V T k) as (_ & _ & _ & O). destruct (O _ _ Eo) as (o' & -> & R & _). now rewrite R.
Qed.

(** calls that succeed have existing operands *)
Lemma nobj (w : world) k i : wvalid w -> sees w (k, i) = None -> nth_error (objs (w k)) i = None.
Proof.
  intros V. unfold sees, view. cbn [fst snd]. destruct (nth_error (objs (w k)) i) as [o|] eqn:E; [|auto].
  pose proof (V k o (nth_error_In _ _ E)) as L. destruct (nth_error (atts (w k)) (dref o)) eqn:Ea; [discriminate|].
  apply nth_error_None in Ea. lia.
Qed.
Lemma get_obj_dead {K A} (h : @heap K A) i : nth_error (objs h) i = None -> get_obj i h = (h, Err UnboundLocalError).
Proof. unfold get_obj. now intros ->. Qed.
Lemma get_attrs_dead {K A} (h : @heap K A) i : nth_error (objs h) i = None -> get_attrs i h = (h, Err UnboundLocalError).
Proof. unfold get_attrs, get_obj, mbind. now intros ->. Qed.
Lemma get_attrs_same {K A} (h : @heap K A) i : fst (get_attrs i h) = h.
Proof. unfold get_attrs, get_obj, mbind. destruct (nth_error (objs h) i); [|reflexivity]. now destruct (nth_error (atts h) (dref o)). Qed.

Lemma free_ok_alive w k o w' q : wvalid w -> wcall (CFree k o) w = (w', Ok q) -> forall p, In p (operands (CFree k o)) -> alive w p.
Proof.
  intros V E p Ip N.
  assert (Ek : exists i, p = (k, i)). { destruct o; cbn in Ip; intuition (subst; eauto). }
  destruct Ek as (pi & ->). apply (nobj w k pi V) in N.
  assert (D : exists h' e, hstep dt (dattT dc k) (clsT k) o (w k) = (h', Err e)).
  { assert (U : forall (f : Z * attT k -> M nat), exists h' e, mbind (get_attrs pi) f (w k) = (h', Err e)).
    { intros f. unfold mbind. rewrite get_attrs_dead by exact N. eauto. }
    assert (U2 : forall (i : nat) (f : Z * attT k -> Z * attT k -> M nat), exists h' e, mbind (get_attrs i) (fun a => mbind (get_attrs pi) (f a)) (w k) = (h', Err e)).
    { intros i f. unfold mbind at 1. pose proof (get_attrs_same (w k) i) as S1. destruct (get_attrs i (w k)) as [h1 [a|er]]; cbn in S1; subst h1; [|eauto].
      apply U. }
    assert (U3 : forall (f : obj -> @M (keyT k) (attT k) nat), exists h' e, mbind (get_obj pi) f (w k) = (h', Err e)).
    { intros f. unfold mbind. rewrite get_obj_dead by exact N. eauto. }
    destruct o; cbn [hstep operands In] in *.
    - destruct Ip.
    - destruct Ip as [[= ->]|[]]. apply U3.
    - destruct Ip as [[= ->]|[]]. apply U3.
    - destruct Ip as [[= ->]|[[= ->]|[]]]; [apply U|]. apply (U2 i).
    - destruct Ip as [[= ->]|[[= ->]|[]]]; [apply U|]. apply (U2 i).
    - destruct Ip as [[= ->]|[]]. apply U3.
    - destruct Ip as [[= ->]|[]]. apply U3.
    - destruct Ip as [[= ->]|[]]. apply U.
    - destruct Ip as [[= ->]|[[= ->]|[]]]; [apply U|]. apply (U2 i).
    - destruct Ip as [[= ->]|[[= ->]|[]]]; [apply U|]. apply (U2 i).
    - destruct Ip as [[= ->]|[]]. unfold h_set_torsion, set_attr_torsion, mbind. rewrite get_obj_dead by exact N. eauto. }
  destruct D as (h' & e & D). cbn [World.wcall] in E. unfold on in E. rewrite D in E. discriminate.
Qed.
Lemma see2_dead {K A} (h : @heap K A) i j (f : elt K A -> elt K A -> M nat) : view h j = None ->
  exists h' e, mbind (h_see i) (fun x => mbind (h_see j) (f x)) h = (h', Err e).
Proof. intros N. unfold mbind, h_see. destruct (view h i); [rewrite N|]; eauto. Qed.
Lemma ok_builds w c w' q : wvalid w -> wcall c w = (w', Ok q) -> returns_itself w c = None -> builds dt dc w c.
Proof.
  intros V E R. destruct (is_free c) eqn:F.
  { destruct c; try discriminate. eapply free_builds; eauto. eapply free_ok_alive; eauto. }
  destruct (call_cases dt dc w c V F) as [B|[I|D]]; [exact B|..].
  - destruct I as (k & i & e & E' & _). congruence.
  - exfalso. destruct D as [(p & Ip & N) _]. revert E.
    destruct c; try discriminate F; cbn [operands In] in Ip;
    repeat match goal with H : _ \/ _ |- _ => destruct H | H : False |- _ => destruct H end; subst p;
    unfold sees in N; cbn [fst snd] in N;
    match type of N with match view (?w0 ?k0) ?i0 with _ => _ end = None => destruct (view (w0 k0) i0) eqn:Ev; [discriminate N|] end;
    cbn [World.wcall]; unfold reading, on.
    all: try (rewrite Ev; discriminate).
    all: try match goal with |- match view ?a ?b with _ => _ end = _ -> _ => destruct (view a b); [|discriminate] end.
    all: match goal with |- context [let (_, _) := ?m (?ww ?k) in _] =>
      let X := fresh in assert (X : exists h' e, m (ww k) = (h', Err e)); [|destruct X as (? & ? & X); rewrite X; discriminate] end.
    all: try (do 2 eexists; apply see_dead; exact Ev).
    all: apply see2_dead; exact Ev.
Qed.
End W.
