(** * Proofs: programs on objects simulate programs on values *)
From Verif Require Import PyBase Dict FreeModule Heap HeapLaws HeapApi.

Definition none : nat -> Prop := fun _ => False.

Section Sim.
Context {K A : Type} `{PyKey K}.
Variable dt : Z.
Variable dA : A.
Variable c : pycls K.
Notation heap := (@heap K A).
Notation M := (@M K A).

(** the object [j] exists, has the items and attributes of [e], and its
    attribute dictionary is the [d]-th *)
Definition isobj (h : heap) (j : nat) (d : nat) (e : elt K A) : Prop :=
  nth_error (objs h) j = Some (mkObj (data e) d) /\ nth_error (atts h) d = Some (torsion e, attr e).

Lemma isobj_view h j d e : isobj h j d e -> view h j = Some e.
Proof. intros [E1 E2]. unfold view. rewrite E1. cbn. rewrite E2. destruct e; reflexivity. Qed.
Lemma view_isobj h j e : view h j = Some e -> exists d, isobj h j d e.
Proof.
  intros V. destruct (view_some _ _ _ V) as ([it d] & Ho & Ha & Hd). exists d. cbn in *. subst it. split; assumption.
Qed.
Lemma isobj_lt h j d e : isobj h j d e -> (j < length (objs h))%nat.
Proof. intros [E _]. apply nth_error_Some. congruence. Qed.

Lemma ext_isobj (P : nat -> Prop) (h h' : heap) j d e : ext P h h' -> ~ P j -> isobj h j d e -> isobj h' j d e.
Proof.
  intros (V & L & (l & A1) & O) N [E1 E2]. destruct (O _ _ E1) as (o' & Ho & _ & Q). rewrite (Q N) in Ho.
  split; [exact Ho|]. rewrite A1, nth_error_app1; [exact E2|]. apply nth_error_Some. congruence.
Qed.
Lemma ext_len (P : nat -> Prop) (h h' : heap) : ext P h h' -> (length (objs h) <= length (objs h'))%nat.
Proof. now intros (_ & L & _). Qed.
Lemma ext_atts (P : nat -> Prop) (h h' : heap) : ext P h h' -> (length (atts h) <= length (atts h'))%nat.
Proof. intros (_ & _ & (l & ->) & _). rewrite app_length. lia. Qed.
Lemma ext_valid (P : nat -> Prop) (h h' : heap) : ext P h h' -> valid h'.
Proof. now intros (V & _). Qed.
Lemma ext_none_own ia (h0 h h' : heap) : ext none h0 h -> ext (fun k => k = ia) h h' -> (length (objs h0) <= ia)%nat -> ext none h0 h'.
Proof.
  intros E1 E2 L. eapply (ext_weaken (fun k => k = ia)); [|eapply ext_trans; [|exact E2]].
  - intros i Hi ->. lia.
  - eapply ext_weaken; [|exact E1]. intros i _ [].
Qed.
Lemma create_ext s d (h : heap) : valid h -> ext none h (fst (h_create dt dA c s d h)).
Proof. intros V. apply extn_ext. apply (keepsn_create dt dA c none (length (objs h)) s d h V). lia. Qed.
Lemma new_ext d t (a : A) (h : heap) : valid h -> ext none h (fst (h_new dt c d t a h)).
Proof. intros V. apply extn_ext. apply (keepsn_new dt c none (length (objs h)) d t a h V). lia. Qed.

(** [create] on objects *)
Lemma create_obj h s ds x d : valid h -> isobj h s ds x ->
  let (h', r) := h_create dt dA c s d h in
  ext none h h' /\
  match create dt c x d with
  | Ok z => r = Ok (length (objs h)) /\ isobj h' (length (objs h)) ds z
  | Err e => r = Err e
  end.
Proof.
  intros V Hs. pose proof (create_ext s d h V) as E. pose proof (h_create_eq dt dA c h s x d (isobj_view _ _ _ _ Hs)) as Q.
  destruct (h_create dt dA c s d h) as [h' r]. split; [exact E|].
  destruct (create dt c x d) as [z|e] eqn:Ec.
  - destruct Q as (l & Q). destruct Hs as [Hs1 Hs2]. rewrite Hs1 in Q. cbn in Q. injection Q as -> ->.
    split; [reflexivity|]. unfold create in Ec.
    destruct (pref _ _ _); cbn in Ec; [|discriminate]. destruct (pref _ _ _); cbn in Ec; [|discriminate].
    injection Ec as <-. split; cbn; [apply nth_error_end|]. rewrite nth_error_app1; [exact Hs2|]. apply nth_error_Some. congruence.
  - destruct Q as (h'' & Q). now injection Q as -> ->.
Qed.
Lemma new_obj (h : heap) d t (a : A) : valid h ->
  let (h', r) := h_new dt c d t a h in
  ext none h h' /\
  match new dt c d t a with
  | Ok z => r = Ok (length (objs h)) /\ isobj h' (length (objs h)) (length (atts h)) z
  | Err e => r = Err e
  end.
Proof.
  intros V. pose proof (new_ext d t a h V) as E. pose proof (h_new_eq dt c h d t a) as Q. cbv zeta in Q.
  destruct (h_new dt c d t a h) as [h' r]. split; [exact E|]. unfold new. cbv zeta.
  destruct (pref c _ (convert c d)) as [z|e]; cbn [bind]; injection Q as -> ->; [|reflexivity].
  split; [reflexivity|]. split; cbn; apply nth_error_end.
Qed.
Lemma iadd_obj h s ds x t y : valid h -> isobj h s ds x -> view h t = Some y ->
  let (h', r) := h_iadd c s t h in
  ext (fun k => k = s) h h' /\
  match iadd c x y with
  | Ok z => r = Ok s /\ isobj h' s ds z
  | Err e => r = Err e
  end.
Proof.
  intros V Hs Ht.
  pose proof (iop_keeps c dupdate (fun k => k = s) s t eq_refl h V) as E.
  change (ext (fun k => k = s) h (fst (h_iadd c s t h))) in E.
  pose proof (iop_computes c dupdate h s t x y (isobj_view _ _ _ _ Hs) Ht) as Q.
  change (computes h (h_iadd c s t) (iadd c x y)) in Q. unfold computes in Q.
  assert (R : forall h' k, h_iadd c s t h = (h', Ok k) -> k = s).
  { intros h' k. unfold h_iadd, mbind, ret, raise. intros W.
    repeat match type of W with (let (_, _) := ?m in _) = _ => destruct m as [? [|]]; try discriminate
      | (if ?b then _ else _) _ = _ => destruct b; try discriminate end.
    congruence. }
  destruct (h_iadd c s t h) as [h' r]. split; [exact E|]. cbn [fst] in E.
  destruct (iadd c x y) as [z|e] eqn:Ei.
  - destruct Q as (h'' & k & Q & Vk). injection Q as -> ->. pose proof (R _ _ eq_refl) as ->. split; [reflexivity|].
    destruct (view_isobj _ _ _ Vk) as (d' & Hk).
    assert (d' = ds) as ->; [|exact Hk].
    destruct E as (_ & _ & _ & O). destruct Hs as [Hs1 _]. destruct (O _ _ Hs1) as (o' & Ho & R' & _).
    destruct Hk as [Hk _]. rewrite Hk in Ho. injection Ho as <-. exact R'.
  - destruct Q as (h'' & Q). now injection Q as -> ->.
Qed.

(** ** Programs that build an answer *)

(** [m], run in the heap [h], changes no existing object, and returns a new
    object with the value [r] and the attribute dictionary described by
    [D], or raises the exception of [r] *)
Definition makes (h : heap) (D : nat -> Prop) (m : M nat) (r : res (elt K A)) : Prop :=
  let (h', r') := m h in
  ext none h h' /\
  match r with
  | Ok e => exists j d, r' = Ok j /\ D d /\ (length (objs h) <= j)%nat /\ isobj h' j d e
  | Err er => r' = Err er
  end.

(** the state of a loop with answer object [ia], started in heap [h0]; the
    objects of [L] are other objects the loop relies on *)
Definition good (h0 : heap) (d ia : nat) (L : list (nat * nat * elt K A)) (h : heap) (e : elt K A) : Prop :=
  ext none h0 h /\ (length (objs h0) <= ia)%nat /\ isobj h ia d e /\
  Forall (fun p => fst (fst p) <> ia /\ isobj h (fst (fst p)) (snd (fst p)) (snd p)) L.

Definition steps h0 d ia L (m : M nat) (f : elt K A -> res (elt K A)) : Prop :=
  forall h e, good h0 d ia L h e ->
    let (h', r) := m h in
    match f e with
    | Ok e' => r = Ok ia /\ good h0 d ia L h' e'
    | Err er => r = Err er /\ ext none h0 h'
    end.
Definition steps2 {X} h0 d ia L (m : M (nat * X)) (f : elt K A -> res (elt K A * X)) : Prop :=
  forall h e, good h0 d ia L h e ->
    let (h', r) := m h in
    match f e with
    | Ok (e', x) => r = Ok (ia, x) /\ good h0 d ia L h' e'
    | Err er => r = Err er /\ ext none h0 h'
    end.

Lemma good_ext h0 d ia L h h' e : good h0 d ia L h e -> ext none h h' -> good h0 d ia L h' e.
Proof.
  intros (E & Li & O & F) E'. split; [eapply ext_trans; eauto|]. split; [exact Li|].
  split; [eapply ext_isobj; eauto; intros []|]. eapply Forall_impl; [|exact F]. intros p [N I]. split; [exact N|].
  eapply ext_isobj; eauto; intros [].
Qed.
Lemma good_own h0 d ia L h h' e e' : good h0 d ia L h e -> ext (fun k => k = ia) h h' -> isobj h' ia d e' -> good h0 d ia L h' e'.
Proof.
  intros (E & Li & O & F) E' O'. split; [eapply ext_none_own; eauto|]. split; [exact Li|].
  split; [exact O'|]. eapply Forall_impl; [|exact F]. intros p [N I]. split; [exact N|].
  eapply ext_isobj; eauto.
Qed.
Lemma good_valid h0 d ia L h e : good h0 d ia L h e -> valid h.
Proof. intros (E & _). eapply ext_valid; eauto. Qed.
Lemma good_in h0 d ia L h e j dj z : good h0 d ia L h e -> In (j, dj, z) L -> isobj h j dj z.
Proof. intros (_ & _ & _ & F) I. rewrite Forall_forall in F. apply (F _ I). Qed.
Lemma good_add h0 d ia L h e j dj z : good h0 d ia L h e -> isobj h j dj z -> j <> ia -> good h0 d ia ((j, dj, z) :: L) h e.
Proof. intros (E & Li & O & F) I N. split; [exact E|]. split; [exact Li|]. split; [exact O|]. constructor; auto. Qed.
Lemma good_tail h0 d ia L p h e : good h0 d ia (p :: L) h e -> good h0 d ia L h e.
Proof. intros (E & Li & O & F). split; [exact E|]. split; [exact Li|]. split; [exact O|]. now inversion F. Qed.

Lemma steps_ret h0 d ia L : steps h0 d ia L (ret ia) (fun e => Ok e).
Proof. intros h e G. cbn. auto. Qed.
Lemma steps_raise h0 d ia L er : steps h0 d ia L (raise er) (fun _ => Err er).
Proof. intros h e G. cbn. split; [reflexivity|]. apply G. Qed.
Lemma steps_bind h0 d ia L m f k g : steps h0 d ia L m f -> steps h0 d ia L (k ia) g ->
  steps h0 d ia L (mbind m k) (fun e => let! e' := f e in g e').
Proof.
  intros S1 S2 h e G. pose proof (S1 h e G) as Q. unfold mbind. destruct (m h) as [h' r].
  destruct (f e) as [e'|er]; cbn [bind]; destruct Q as [-> Q]; [|auto]. exact (S2 h' e' Q).
Qed.
Lemma steps_for {X} h0 d ia L (l : list X) body vbody :
  (forall x, In x l -> steps h0 d ia L (body ia x) (fun e => vbody e x)) ->
  steps h0 d ia L (hfor_ l ia body) (fun e => for_ l e vbody).
Proof.
  induction l as [|x l IH]; intros B; cbn [hfor_ for_]; [apply steps_ret|].
  apply (steps_bind h0 d ia L (body ia x) (fun e => vbody e x) (fun s => hfor_ l s body)).
  - apply B. now left.
  - apply IH. intros y Hy. apply B. now right.
Qed.
Lemma steps_bind2 {X} h0 d ia L (m : M (nat * X)) f k g : steps2 h0 d ia L m f -> (forall x, steps h0 d ia L (k (ia, x)) (fun e => g (e, x))) ->
  steps h0 d ia L (mbind m k) (fun e => let! r := f e in g r).
Proof.
  intros S1 S2 h e G. pose proof (S1 h e G) as Q. unfold mbind. destruct (m h) as [h' r].
  destruct (f e) as [[e' x]|er]; cbn [bind]; destruct Q as [-> Q]; [|auto]. exact (S2 x h' e' Q).
Qed.
Lemma steps2_bind2 {X Y} h0 d ia L (m : M (nat * X)) f (k : nat * X -> M (nat * Y)) g : steps2 h0 d ia L m f -> (forall x, steps2 h0 d ia L (k (ia, x)) (fun e => g (e, x))) ->
  steps2 h0 d ia L (mbind m k) (fun e => let! r := f e in g r).
Proof.
  intros S1 S2 h e G. pose proof (S1 h e G) as Q. unfold mbind. destruct (m h) as [h' r].
  destruct (f e) as [[e' x]|er]; cbn [bind]; destruct Q as [-> Q]; [|auto]. exact (S2 x h' e' Q).
Qed.
Lemma steps2_bind {X} h0 d ia L m f (k : nat -> M (nat * X)) g : steps h0 d ia L m f -> steps2 h0 d ia L (k ia) g ->
  steps2 h0 d ia L (mbind m k) (fun e => let! e' := f e in g e').
Proof.
  intros S1 S2 h e G. pose proof (S1 h e G) as Q. unfold mbind. destruct (m h) as [h' r].
  destruct (f e) as [e'|er]; cbn [bind]; destruct Q as [-> Q]; [|auto]. exact (S2 h' e' Q).
Qed.
Lemma steps2_ret {X} h0 d ia L (x : X) : steps2 h0 d ia L (ret (ia, x)) (fun e => Ok (e, x)).
Proof. intros h e G. cbn. auto. Qed.
Lemma steps2_raise {X} h0 d ia L er : steps2 (X := X) h0 d ia L (raise er) (fun _ => Err er).
Proof. intros h e G. cbn. split; [reflexivity|]. apply G. Qed.
Lemma steps2_for {X Y} h0 d ia L (l : list X) (y : Y) body vbody :
  (forall y x, steps2 h0 d ia L (body (ia, y) x) (fun e => vbody (e, y) x)) ->
  steps2 h0 d ia L (hfor_ l (ia, y) body) (fun e => for_ l (e, y) vbody).
Proof.
  intros B. revert y. induction l as [|x l IH]; intros y; cbn [hfor_ for_]; [apply steps2_ret|].
  apply (steps2_bind2 h0 d ia L (body (ia, y) x) (fun e => vbody (e, y) x) (fun s => hfor_ l s body) (fun s => for_ l s vbody)).
  - apply B.
  - intros y'. apply IH.
Qed.

(** [answer += base.create(d)] *)
Lemma steps_create_iadd h0 d ia L s ds x dd : In (s, ds, x) L ->
  steps h0 d ia L (mbind (h_create dt dA c s dd) (fun t => h_iadd c ia t))
    (fun e => let! t := create dt c x dd in iadd c e t).
Proof.
  intros I h e G. pose proof (create_obj h s ds x dd (good_valid _ _ _ _ _ _ G) (good_in _ _ _ _ _ _ _ _ _ G I)) as Q.
  unfold mbind. destruct (h_create dt dA c s dd h) as [h' r]. destruct Q as [E Q].
  destruct (create dt c x dd) as [z|er]; cbn [bind]; [|subst r; split; [reflexivity|eapply ext_trans; [apply G|exact E]]].
  destruct Q as [-> Q]. pose proof (good_ext _ _ _ _ _ _ _ G E) as G'.
  pose proof (iadd_obj h' ia d e _ z (good_valid _ _ _ _ _ _ G') (proj1 (proj2 (proj2 G'))) (isobj_view _ _ _ _ Q)) as R.
  destruct (h_iadd c ia _ h') as [h'' r']. destruct R as [E' R].
  destruct (iadd c e z) as [w|er]; [|subst r'; split; [reflexivity|eapply ext_none_own; [apply G'|exact E'|apply G]]].
  destruct R as [-> R]. split; [reflexivity|]. eapply good_own; eauto.
Qed.
Lemma steps_create_iadd_self h0 d ia L dd :
  steps h0 d ia L (mbind (h_create dt dA c ia dd) (fun t => h_iadd c ia t))
    (fun e => let! t := create dt c e dd in iadd c e t).
Proof.
  intros h e G. pose proof (create_obj h ia d e dd (good_valid _ _ _ _ _ _ G) (proj1 (proj2 (proj2 G)))) as Q.
  unfold mbind. destruct (h_create dt dA c ia dd h) as [h' r]. destruct Q as [E Q].
  destruct (create dt c e dd) as [z|er]; cbn [bind]; [|subst r; split; [reflexivity|eapply ext_trans; [apply G|exact E]]].
  destruct Q as [-> Q]. pose proof (good_ext _ _ _ _ _ _ _ G E) as G'.
  pose proof (iadd_obj h' ia d e _ z (good_valid _ _ _ _ _ _ G') (proj1 (proj2 (proj2 G'))) (isobj_view _ _ _ _ Q)) as R.
  destruct (h_iadd c ia _ h') as [h'' r']. destruct R as [E' R].
  destruct (iadd c e z) as [w|er]; [|subst r'; split; [reflexivity|eapply ext_none_own; [apply G'|exact E'|apply G]]].
  destruct R as [-> R]. split; [reflexivity|]. eapply good_own; eauto.
Qed.
Lemma steps_term h0 d ia L s ds x k v : In (s, ds, x) L ->
  steps h0 d ia L (h_add_term dt dA c s ia k v) (fun e => add_term dt c x e k v).
Proof. intros I. apply (steps_create_iadd h0 d ia L s ds x [(k, v)] I). Qed.
Lemma steps_term_self h0 d ia L k v :
  steps h0 d ia L (h_add_term dt dA c ia ia k v) (fun e => add_term dt c e e k v).
Proof. apply (steps_create_iadd_self h0 d ia L [(k, v)]). Qed.

(** [answer.preferred_rep()] *)
Lemma steps_pref h0 d ia L :
  steps h0 d ia L (mbind (h_preferred_rep c ia) (fun _ => ret ia))
    (fun e => let! dd := pref c (torsion e) (data e) in Ok (mkElt dd (torsion e) (attr e))).
Proof.
  intros h e G. pose proof (proj1 (proj2 (proj2 G))) as O.
  pose proof (keeps_preferred_rep c (fun k => k = ia) ia eq_refl h (good_valid _ _ _ _ _ _ G)) as E.
  unfold mbind. destruct O as [O1 O2]. rewrite (pref_rep_eq c h ia _ _ O1 O2) in *. cbn [fst items dref] in *.
  destruct (pref c (torsion e) (data e)) as [dd|er]; cbn [bind ret] in *.
  - split; [reflexivity|]. eapply good_own; eauto. split; cbn; [|exact O2].
    apply lset_same. apply nth_error_Some. congruence.
  - split; [reflexivity|]. apply G.
Qed.
(** writing an item of the answer *)
Lemma steps_write h0 d ia L (g : dict K -> dict K) :
  steps h0 d ia L (mbind (get_obj ia) (fun o => mbind (set_items ia (g (items o))) (fun _ => ret ia)))
    (fun e => Ok (mkElt (g (data e)) (torsion e) (attr e))).
Proof.
  intros h e G. pose proof (proj1 (proj2 (proj2 G))) as O. destruct O as [O1 O2].
  pose proof (keeps_set_items (fun k => k = ia) ia (g (data e)) eq_refl h (good_valid _ _ _ _ _ _ G)) as E.
  unfold set_items, mbind in *. rewrite (get_obj_eq _ _ _ O1) in E. cbn [items dref ret fst] in E.
  rewrite (get_obj_eq _ _ _ O1). cbv beta iota. rewrite (get_obj_eq _ _ _ O1). cbv beta iota. unfold ret. cbn [items dref].
  split; [reflexivity|]. eapply good_own; eauto. split; cbn; [|exact O2].
  apply lset_same. apply nth_error_Some. congruence.
Qed.

(** an auxiliary object, made by a method *)
Lemma steps_aux h0 d ia L D m (r : res (elt K A)) k g :
  (forall h, valid h -> ext none h0 h -> Forall (fun p => isobj h (fst (fst p)) (snd (fst p)) (snd p)) L -> makes h (D h) m r) ->
  (forall j dj z, steps h0 d ia ((j, dj, z) :: L) (k j) (fun e => g z e)) ->
  steps h0 d ia L (mbind m k) (fun e => let! z := r in g z e).
Proof.
  intros Mk S1 h e G. pose proof (Mk h (good_valid _ _ _ _ _ _ G) (proj1 G)
    ltac:(eapply Forall_impl; [|exact (proj2 (proj2 (proj2 G)))]; intros p Hp; apply Hp)) as Q. unfold makes, mbind in *. destruct (m h) as [h' r'].
  destruct Q as [E Q]. destruct r as [z|er]; cbn [bind].
  - destruct Q as (j & dj & -> & _ & Lj & O). pose proof (good_ext _ _ _ _ _ _ _ G E) as G'.
    assert (N : j <> ia). { pose proof (isobj_lt _ _ _ _ (proj1 (proj2 (proj2 G)))). lia. }
    pose proof (S1 j dj z h' e (good_add _ _ _ _ _ _ _ _ _ G' O N)) as W.
    destruct (k j h') as [h'' r'']. destruct (g z e) as [e'|er]; [|exact W]. destruct W as [-> W]. split; [reflexivity|]. eapply good_tail; eauto.
  - subst r'. split; [reflexivity|]. eapply ext_trans; [apply G|exact E].
Qed.
Lemma steps_see h0 d ia L j dj z k g : In (j, dj, z) L ->
  steps h0 d ia L (k z) g -> steps h0 d ia L (mbind (h_see j) k) g.
Proof.
  intros I S1 h e G. unfold mbind, h_see. rewrite (isobj_view _ _ _ _ (good_in _ _ _ _ _ _ _ _ _ G I)). exact (S1 h e G).
Qed.
Lemma steps_iadd h0 d ia L j dj z : In (j, dj, z) L -> steps h0 d ia L (h_iadd c ia j) (fun e => iadd c e z).
Proof.
  intros I h e G.
  pose proof (iadd_obj h ia d e j z (good_valid _ _ _ _ _ _ G) (proj1 (proj2 (proj2 G))) (isobj_view _ _ _ _ (good_in _ _ _ _ _ _ _ _ _ G I))) as R.
  destruct (h_iadd c ia j h) as [h'' r']. destruct R as [E' R].
  destruct (iadd c e z) as [w|er]; [|subst r'; split; [reflexivity|eapply ext_none_own; [apply G|exact E'|apply G]]].
  destruct R as [-> R]. split; [reflexivity|]. eapply good_own; eauto.
Qed.
Lemma steps_ext h0 d ia L m f g : (forall e, f e = g e) -> steps h0 d ia L m f -> steps h0 d ia L m g.
Proof. intros E S1 h e G. rewrite <- E. exact (S1 h e G). Qed.

(** ** Starting and finishing *)
Lemma makes_steps h0 (D : nat -> Prop) d ia L h1 z m f : good h0 d ia L h1 z -> D d -> steps h0 d ia L m f ->
  let (h', r') := m h1 in ext none h0 h' /\
  match f z with Ok e => exists j d, r' = Ok j /\ D d /\ (length (objs h0) <= j)%nat /\ isobj h' j d e | Err er => r' = Err er end.
Proof.
  intros G Dd S1. pose proof (S1 h1 z G) as Q. destruct (m h1) as [h' r']. destruct (f z) as [e|er].
  - destruct Q as [-> Q]. split; [apply Q|]. exists ia, d. split; [reflexivity|]. split; [exact Dd|]. split; [apply Q|apply Q].
  - destruct Q. auto.
Qed.
Lemma makes_zero h0 s ds x k f L : valid h0 -> isobj h0 s ds x -> Forall (fun p => isobj h0 (fst (fst p)) (snd (fst p)) (snd p)) L ->
  (forall ia, steps h0 ds ia L (k ia) f) ->
  makes h0 (fun d => d = ds) (mbind (h_zero dt dA c s) k) (let! z := zero dt c x in f z).
Proof.
  intros V Hs FL S1. unfold makes, mbind at 1, h_zero, mbind at 1. rewrite (get_obj_eq _ _ _ (proj1 Hs)).
  pose proof (create_obj h0 s ds x [] V Hs) as Q. destruct (h_create dt dA c s [] h0) as [h1 r1]. destruct Q as [E Q].
  unfold zero. destruct (create dt c x []) as [z|er]; cbn [bind]; [|subst r1; auto]. destruct Q as [-> Q].
  eapply makes_steps; [|reflexivity|apply S1]. split; [exact E|]. split; [lia|]. split; [exact Q|].
  eapply Forall_impl; [|exact FL]. intros p I. pose proof (isobj_lt _ _ _ _ I). split; [lia|]. eapply ext_isobj; eauto; intros [].
Qed.
Lemma makes_zero_only h0 s ds x : valid h0 -> isobj h0 s ds x ->
  makes h0 (fun d => d = ds) (h_zero dt dA c s) (zero dt c x).
Proof.
  intros V Hs. unfold makes, h_zero, mbind at 1. rewrite (get_obj_eq _ _ _ (proj1 Hs)).
  pose proof (create_obj h0 s ds x [] V Hs) as Q. destruct (h_create dt dA c s [] h0) as [h1 r1]. destruct Q as [E Q].
  unfold zero. split; [exact E|]. destruct (create dt c x []) as [z|er]; [|exact Q]. destruct Q as [-> Q].
  exists (length (objs h0)), ds. auto.
Qed.
Lemma makes_create h0 s ds x dd : valid h0 -> isobj h0 s ds x ->
  makes h0 (fun d => d = ds) (h_create dt dA c s dd) (create dt c x dd).
Proof.
  intros V Hs. unfold makes.
  pose proof (create_obj h0 s ds x dd V Hs) as Q. destruct (h_create dt dA c s dd h0) as [h1 r1]. destruct Q as [E Q].
  split; [exact E|]. destruct (create dt c x dd) as [z|er]; [|exact Q]. destruct Q as [-> Q].
  exists (length (objs h0)), ds. auto.
Qed.
Definition fresh (h : heap) (d : nat) : Prop := (length (atts h) <= d)%nat.
Lemma makes_new (h0 : heap) dd t (a : A) : valid h0 ->
  makes h0 (fresh h0) (h_new dt c dd t a) (new dt c dd t a).
Proof.
  intros V. unfold makes. pose proof (new_obj h0 dd t a V) as Q. destruct (h_new dt c dd t a h0) as [h1 r1]. destruct Q as [E Q].
  split; [exact E|]. destruct (new dt c dd t a) as [z|er]; [|exact Q]. destruct Q as [-> Q].
  exists (length (objs h0)), (length (atts h0)). unfold fresh. auto.
Qed.
Lemma makes_new_then (h0 : heap) dd t (a : A) k f L : valid h0 -> Forall (fun p => isobj h0 (fst (fst p)) (snd (fst p)) (snd p)) L ->
  (forall d ia, fresh h0 d -> steps h0 d ia L (k ia) f) ->
  makes h0 (fresh h0) (mbind (h_new dt c dd t a) k) (let! z := new dt c dd t a in f z).
Proof.
  intros V FL S1. unfold makes, mbind. pose proof (new_obj h0 dd t a V) as Q. destruct (h_new dt c dd t a h0) as [h1 r1]. destruct Q as [E Q].
  destruct (new dt c dd t a) as [z|er]; cbn [bind]; [|subst r1; auto]. destruct Q as [-> Q].
  eapply (makes_steps h0 (fresh h0)); [|unfold fresh; reflexivity|apply S1; unfold fresh; reflexivity].
  split; [exact E|]. split; [lia|]. split; [exact Q|].
  eapply Forall_impl; [|exact FL]. intros p I. pose proof (isobj_lt _ _ _ _ I). split; [lia|]. eapply ext_isobj; eauto; intros [].
Qed.
Lemma makes_see h0 D j dj z k r : isobj h0 j dj z -> makes h0 D (k z) r -> makes h0 D (mbind (h_see j) k) r.
Proof. intros O Q. unfold makes, mbind, h_see in *. rewrite (isobj_view _ _ _ _ O). exact Q. Qed.
Lemma makes_raise h0 D er : valid h0 -> makes h0 D (raise er) (Err er).
Proof. intros V. unfold makes, raise. split; [now apply ext_refl|reflexivity]. Qed.

End Sim.
