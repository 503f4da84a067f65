(** * C05: operands of different torsion *)
From Verif Require Import PyBase Dict FreeModule FreeModuleFacts FreeModuleLaws Symmetric Simplicial Cubical Utils Surjection SurjFacts BarrattEccles GroupMul Heap HeapLaws HeapApi HeapSim HeapMethods World Spec SpecOperad SpecAttr AttrLaws SpecObjects SpecMixed WorldSim WorldLaws ObjLaws.

(** #C05_products# The product of the group ring and the actions of the group ring refuse an
    operand of another torsion before they look at anything else, and so does the composition of
    Barratt-Eccles elements; the composition of ring elements does unless the left one is zero. *)
Lemma C05_products_l (dt : Z) (r r' : ring) (x : simp) (y : cubc) (z : surj) (u u' : bee) (position : Z) :
  (torsion r <> torsion r' -> ring_mul dt r r' = Err TypeError /\ (data r <> [] -> ring_compose dt r r' position = Err TypeError)) /\
  (torsion r <> torsion x -> simp_act dt r x = Err TypeError) /\
  (torsion r <> torsion y -> cub_act dt r y = Err TypeError) /\
  (torsion r <> torsion z -> surj_act dt r z = Err TypeError) /\
  (torsion r <> torsion u -> be_act dt r u = Err TypeError) /\
  (torsion u <> torsion u' -> be_compose dt u u' position = Err TypeError).
Proof.
  assert (Q : forall a b, a <> b -> (b =? a) = false) by (intros; now apply Z.eqb_neq, not_eq_sym).
  assert (Q' : forall a b, a <> b -> (a =? b) = false) by (intros; now apply Z.eqb_neq).
  split; [intros E; split|repeat split; intros E].
  - unfold ring_mul. now rewrite (Q' _ _ E).
  - intros N. unfold ring_compose. rewrite (Q' _ _ E). destruct (data r); [easy|reflexivity].
  - unfold simp_act. now rewrite (Q _ _ E).
  - unfold cub_act. now rewrite (Q _ _ E).
  - unfold surj_act. now rewrite (Q _ _ E).
  - unfold be_act. now rewrite (Q _ _ E).
  - unfold be_compose, be_compose_check. now rewrite (Q' _ _ E).
Qed.

(** #C05_call# The action of a surjection element on simplicial and on cubical chains refuses a
    chain of another torsion, unless one of the two is zero. *)
Lemma C05_call_l (dt : Z) (z : surj) (x : simp) (y : cubc) (coord : Z) :
  keys_in (fun k => k <> []) z -> data z <> [] ->
  (data x <> [] -> torsion z <> torsion x -> surj_call_simplicial dt z x coord = Err TypeError) /\
  (data y <> [] -> torsion z <> torsion y -> surj_call_cubical dt z y coord = Err TypeError).
Proof.
  intros W N. destruct (C72_surj_arity_degree_l z W) as [(a & Ea & _) (d & Ed & _)].
  assert (C : forall t n, torsion z <> t -> call_check z t n coord = Err TypeError).
  { intros t n E. unfold call_check. rewrite Ea, Ed. cbn [bind]. apply Z.eqb_neq in E. rewrite E.
    destruct d, a; try reflexivity. destruct n as [n|]; [|reflexivity]. now destruct (n <? coord). }
  split; intros N' E.
  - unfold surj_call_simplicial. destruct (data z); [easy|]. destruct (data x); [easy|]. cbn [dempty orb]. now rewrite (C _ _ E).
  - unfold surj_call_cubical. destruct (data z); [easy|]. destruct (data y); [easy|]. cbn [dempty orb]. now rewrite (C _ _ E).
Qed.

Lemma sees_inv w k i v : sees w (k, i) = Some v -> exists e, view (w k) i = Some e /\ v = val k e.
Proof. unfold sees. cbn [fst snd]. destruct (view (w k) i) as [e|]; [|discriminate]. intros [= <-]. now exists e. Qed.

Lemma attrs_of {K A} (h : @heap K A) i e : view h i = Some e -> get_attrs i h = (h, Ok (torsion e, attr e)).
Proof.
  unfold view, get_attrs. unfold get_obj, mbind, ret. destruct (nth_error (objs h) i) as [o|] eqn:E; [|discriminate].
  destruct (nth_error (atts h) (dref o)) as [[t a]|] eqn:E'; [|discriminate]. intros [= <-]. cbn. rewrite ?E, ?E'. reflexivity.
Qed.
Lemma upd_id w k q : sees (upd w k (w k)) q = sees w q.
Proof.
  destruct q as [k' i]. unfold sees. cbn [fst snd]. destruct (klass_dec k' k) as [->|N]; [now rewrite upd_same|now rewrite upd_other].
Qed.

(** #C05_operands_unchanged# In every state a program can reach, such a call on two objects of
    different torsion raises TypeError, and afterwards the two operands and every other object are
    what they were. *)
Lemma C05_operands_unchanged_l (dt : Z) (dc : conv) (before : list call) (c : call) (p q : ref) (v v' : value) :
  let w := wrun dt dc before empty_world in
  sees w p = Some v -> sees w q = Some v' -> mixes c p q v -> value_torsion v <> value_torsion v' ->
  let (w', r) := wcall dt dc c w in
  r = Err TypeError /\ forall o u, sees w o = Some u -> sees w' o = Some u.
Proof.
  intros w Ep Eq M T.
  assert (I : (exists k i j, c = CFree k (OIadd i j) \/ c = CFree k (OIsub i j)) \/ (forall o, ~ in_place c o /\ ~ sets_torsion c)).
  { destruct c as [k o| | | | | | | | | | | | | | | | | | | | | | | | | | | | |]; try (right; intros o; split; exact id).
    destruct o; try (right; intros o; split; exact id); try (now destruct M).
    all: left; exists k, i, j; auto. }
  destruct I as [(k & i & j & Ec)|I].
  - assert (M' : p = (k, i) /\ q = (k, j)) by (destruct Ec; subst c; exact M). destruct M' as [-> ->].
    destruct (sees_inv _ _ _ _ Ep) as (e & Ve & ->), (sees_inv _ _ _ _ Eq) as (e' & Ve' & ->).
    change (torsion e <> torsion e') in T. apply Z.eqb_neq in T.
    assert (S1 : wcall dt dc c w = (upd w k (w k), Err TypeError)).
    { destruct Ec; subst c; cbn [wcall hstep]; unfold on, h_iadd, h_isub, mbind;
      rewrite (attrs_of _ _ _ Ve); rewrite (attrs_of _ _ _ Ve'); cbn [fst]; rewrite T; reflexivity. }
    rewrite S1. split; [reflexivity|]. intros o u Eo. now rewrite upd_id.
  - pose proof (C92_answers_l dt dc before c) as A. cbn zeta in A. fold w in A.
    pose proof (fun o u E => C92_objects_stable_l dt dc before [c] o u E) as B. cbn zeta in B. fold w in B.
    assert (Al : alive w p /\ alive w q) by (unfold alive; rewrite Ep, Eq; split; discriminate).
    assert (F : forall o, In o (operands c) -> alive w o).
    { destruct Al as [Al Al']. intros o Ho.
      destruct c as [k o'| | | | | | | | | | | | | | | | | | | | | | | | | | | | |]; try (now destruct M);
        [destruct o'; try (now destruct M)|..]; cbn in M, Ho; destruct M as (-> & M); try destruct M as (-> & M); subst;
        repeat (destruct Ho as [<-|Ho]; [assumption|]); destruct Ho. }
    specialize (A F). cbn [wrun fold_left] in B.
    assert (X : expected dt w c = Err TypeError).
    { destruct c as [k o'| | | | | | | | | | | | | | | | | | | | | | | | | | | | |]; try (now destruct M);
        [destruct o'; try (now destruct M)|..]; cbn in M; destruct M as (-> & M); try destruct M as (-> & M); subst;
        destruct (sees_inv _ _ _ _ Ep) as (e & Ve & ->), (sees_inv _ _ _ _ Eq) as (e' & Ve' & ->);
        cbn [expected gives]; unfold gives, opd; rewrite Ve, Ve'; cbn [bind]; change (torsion e <> torsion e') in T; apply Z.eqb_neq in T; assert (T' := T); rewrite Z.eqb_sym in T'.
      - unfold add. now rewrite T.
      - unfold sub. now rewrite T.
      - unfold iadd. now rewrite T.
      - unfold isub. now rewrite T.
      - unfold ring_mul. cbv [eltT keyT attT] in *. now rewrite T.
      - unfold ring_compose. cbv [eltT keyT attT] in *. rewrite T. change (dempty (data e) = false) in M. now rewrite M.
      - unfold simp_act. cbv [eltT keyT attT] in *. now rewrite T'.
      - unfold cub_act. cbv [eltT keyT attT] in *. now rewrite T'.
      - unfold surj_act. cbv [eltT keyT attT] in *. now rewrite T'.
      - unfold be_act. cbv [eltT keyT attT] in *. now rewrite T'.
      - unfold be_compose, be_compose_check. cbv [eltT keyT attT] in *. now rewrite T. }
    rewrite X in A. destruct (wcall dt dc c w) as [w' r] eqn:Ew. split; [exact A|].
    intros o u Eo. assert (B' := B o u Eo). change (wrun dt dc [c] w) with (fst (wcall dt dc c w)) in B'. rewrite ?Ew in B'. apply B'. intros c' [<-|[]]. apply I.
Qed.

(** Objects 0 (torsion 0) and 1 (torsion 2) of two group ring elements: [+=] and [*] raise, and both
    keep their values. *)
Example ex_mixed_l :
  let new_id t := CFree KRing (ONew [(SGE [1; 2], 3)] t tt) in
  let w := wrun 0 BF [new_id None; new_id (Some 2)] empty_world in
  exists v v' : value, sees w (KRing, 0%nat) = Some v /\ sees w (KRing, 1%nat) = Some v' /\ value_torsion v <> value_torsion v' /\ mixes (CFree KRing (OIadd 0%nat 1%nat)) (KRing, 0%nat) (KRing, 1%nat) v /\ mixes (RingMul 0%nat 1%nat) (KRing, 0%nat) (KRing, 1%nat) v.
Proof. eexists. eexists. split; [reflexivity|]. split; [reflexivity|]. split; [now vm_compute|]. split; split; reflexivity. Qed.
