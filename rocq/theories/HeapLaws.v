(** * Aliasing: proofs for C08. *)
From Verif Require Import PyBase Dict FreeModule Eqm Spec FreeModuleFacts FreeModuleLaws Heap.

Lemma lset_length {X} (l : list X) n a : length (lset l n a) = length l.
Proof. revert n. induction l as [|b l IH]; intros [|n]; cbn; auto. Qed.
Lemma lset_same {X} (l : list X) n a : (n < length l)%nat -> nth_error (lset l n a) n = Some a.
Proof. revert n. induction l as [|b l IH]; intros [|n] Hn; cbn in *; try lia; auto. apply IH. lia. Qed.
Lemma lset_other {X} (l : list X) n m a : n <> m -> nth_error (lset l n a) m = nth_error l m.
Proof. revert n m. induction l as [|b l IH]; intros [|n] [|m] Hn; cbn; try congruence. apply IH. congruence. Qed.

Section HeapFacts.
Context {K A : Type} `{PyKey K}.
Variable dt : Z.
Variable dA : A.
Variable c : pycls K.
Notation heap := (@heap K A).
Notation view := (@view K A).

(** every object has an attribute dictionary *)
Definition valid (h : heap) : Prop := forall o, In o (objs h) -> (dref o < length (atts h))%nat.

(** [h'] extends [h] by new objects, and changes at most the items of the
    old objects satisfying [P] *)
Definition ext (P : nat -> Prop) (h h' : heap) : Prop :=
  valid h' /\ (length (objs h) <= length (objs h'))%nat /\
  (exists l, atts h' = atts h ++ l) /\
  (forall i o, nth_error (objs h) i = Some o -> exists o', nth_error (objs h') i = Some o' /\ dref o' = dref o /\
     (~ P i -> o' = o)).

Lemma ext_refl P h : valid h -> ext P h h.
Proof. intros V. split; [exact V|]. split; [lia|]. split; [exists []; now rewrite app_nil_r|]. eauto. Qed.
Lemma ext_trans P h1 h2 h3 : ext P h1 h2 -> ext P h2 h3 -> ext P h1 h3.
Proof.
  intros (V1 & L1 & (a1 & A1) & O1) (V2 & L2 & (a2 & A2) & O2).
  split; [exact V2|]. split; [lia|]. split; [exists (a1 ++ a2); rewrite A2, A1; now rewrite app_assoc|].
  intros i o Hi. destruct (O1 i o Hi) as (o' & Hi' & R & E). destruct (O2 i o' Hi') as (o'' & Hi'' & R' & E').
  exists o''. split; [exact Hi''|]. split; [congruence|]. intros N. rewrite E', E; auto.
Qed.
Lemma ext_weaken (P Q : nat -> Prop) h h' : (forall i, (i < length (objs h))%nat -> P i -> Q i) -> ext P h h' -> ext Q h h'.
Proof.
  intros PQ (V & L & A1 & O). split; [exact V|]. split; [exact L|]. split; [exact A1|].
  intros i o Hi. destruct (O i o Hi) as (o' & ? & ? & E). exists o'. split; [assumption|]. split; [assumption|].
  intros N. apply E. intros Hp. apply N, PQ; auto. apply nth_error_Some. congruence.
Qed.

(** a method keeps the heap within [ext P] *)
Definition keeps {X} (P : nat -> Prop) (m : M X) : Prop := forall h, valid h -> ext P h (fst (m h)).
Lemma keeps_ret {X} P (x : X) : keeps P (ret x).
Proof. intros h V. now apply ext_refl. Qed.
Lemma keeps_raise {X} P e : keeps P (raise e : M X).
Proof. intros h V. now apply ext_refl. Qed.
Lemma keeps_get_obj P i : keeps P (get_obj i).
Proof. intros h V. unfold get_obj. destruct (nth_error _ _); now apply ext_refl. Qed.
Lemma keeps_bind {X Y} P (m : M X) (f : X -> M Y) : keeps P m -> (forall x, keeps P (f x)) -> keeps P (mbind m f).
Proof.
  intros Hm Hf h V. unfold mbind. destruct (m h) as [h' r] eqn:E. specialize (Hm h V). rewrite E in Hm. cbn in Hm.
  destruct r as [x|e]; [|exact Hm]. eapply ext_trans; [exact Hm|]. apply Hf. apply Hm.
Qed.
Lemma keeps_get_attrs P i : keeps P (get_attrs i).
Proof.
  apply keeps_bind; [apply keeps_get_obj|]. intros o h V. destruct (nth_error _ _); now apply ext_refl.
Qed.
Lemma In_lset {X} (l : list X) n a x : In x (lset l n a) -> In x l \/ x = a.
Proof. revert n. induction l as [|b l IH]; intros [|n]; cbn; intuition. apply IH in H1. tauto. Qed.
Lemma keeps_set_items (P : nat -> Prop) i d : P i -> keeps P (set_items i d).
Proof.
  intros Pi h V. unfold set_items, mbind, get_obj.
  destruct (nth_error (objs h) i) as [o|] eqn:E; cbn; [|now apply ext_refl].
  split; [|split; [|split]]; cbn.
  - intros o' Ho'. cbn in *. apply In_lset in Ho'. destruct Ho' as [Ho'| ->]; [now apply V|]. cbn. apply V. eapply nth_error_In; eauto.
  - rewrite lset_length. lia.
  - exists []. now rewrite app_nil_r.
  - intros j oj Hj. destruct (Nat.eq_dec i j) as [<-|N].
    + rewrite E in Hj. injection Hj as <-. eexists. rewrite lset_same by (apply nth_error_Some; congruence).
      split; [reflexivity|]. split; [reflexivity|]. tauto.
    + exists oj. rewrite lset_other by auto. auto.
Qed.
Lemma keeps_preferred_rep (P : nat -> Prop) i : P i -> keeps P (h_preferred_rep c i).
Proof.
  intros Pi. unfold h_preferred_rep. apply keeps_bind; [apply keeps_get_obj|]. intros o.
  apply keeps_bind; [apply keeps_get_attrs|]. intros a. destruct (pref _ _ _); [now apply keeps_set_items|apply keeps_raise].
Qed.

Lemma h_new_keeps (P : nat -> Prop) d t a : (forall h : heap, True) ->
  forall h, valid h -> ext (fun i => (length (objs h) <= i)%nat) h (fst (h_new dt c d t a h)).
Proof.
  intros _ h V. unfold h_new, mbind at 1, alloc.
  set (h1 := mkHeap _ _). assert (E1 : ext (fun i => (length (objs h) <= i)%nat) h h1).
  { split; [|split; [|split]]; cbn.
    - intros o Ho. cbn in *. rewrite app_length. cbn. apply in_app_or in Ho. destruct Ho as [Ho|[<-|[]]]; [apply V in Ho; lia|cbn; lia].
    - rewrite app_length. lia.
    - eauto.
    - intros i o Hi. exists o. rewrite nth_error_app1 by (apply nth_error_Some; congruence). auto. }
  eapply ext_trans; [exact E1|].
  apply (keeps_bind (fun i => (length (objs h) <= i)%nat)); [|intros; apply keeps_ret|apply E1].
  apply keeps_preferred_rep. lia.
Qed.
Lemma h_new_ok d t a h h' i : valid h -> h_new dt c d t a h = (h', Ok i) -> i = length (objs h).
Proof.
  intros V. unfold h_new, mbind, alloc. unfold ret. destruct (h_preferred_rep c _ _) as [h2 [[]|e]]; cbn; intros [= _ E]; auto.
Qed.
Lemma h_new_ok_lt d t a h h' i : valid h -> h_new dt c d t a h = (h', Ok i) -> (length (objs h) < length (objs h'))%nat.
Proof.
  intros V. unfold h_new, mbind at 1, alloc.
  set (h1 := mkHeap _ _).
  assert (V1 : valid h1).
  { intros o Ho. cbn in *. rewrite app_length. cbn. apply in_app_or in Ho. destruct Ho as [Ho|[<-|[]]]; [apply V in Ho; lia|cbn; lia]. }
  pose proof (keeps_preferred_rep (fun _ => True) (length (objs h)) I h1 V1) as (_ & L & _).
  unfold mbind. destruct (h_preferred_rep c _ h1) as [h2 [[]|e]]; cbn; [|congruence].
  intros [= <- _]. cbn in L. rewrite app_length in L. cbn in L. lia.
Qed.

(** changing the reference of a new object to an existing dictionary *)
Lemma set_ref_new n i r : (n <= i)%nat -> forall h : heap, valid h -> (r < length (atts h))%nat -> 
  valid (fst (set_ref i r h)) /\ length (objs (fst (set_ref i r h))) = length (objs h) /\
  atts (fst (set_ref i r h)) = atts h /\
  forall j, (j < n)%nat -> nth_error (objs (fst (set_ref i r h))) j = nth_error (objs h) j.
Proof.
  intros Hn h V R. unfold set_ref, mbind, get_obj. destruct (nth_error (objs h) i) as [o|] eqn:E; cbn; [|auto].
  split; [|split; [|split]]; cbn.
  - intros o' Ho'. cbn in *. apply In_lset in Ho'. destruct Ho' as [Ho'| ->]; [now apply V|exact R].
  - apply lset_length.
  - reflexivity.
  - intros j Hj. apply lset_other. lia.
Qed.


(** [ext] restricted to the first [n] objects *)
Definition extn (P : nat -> Prop) (n : nat) (h h' : heap) : Prop :=
  valid h' /\ (length (objs h) <= length (objs h'))%nat /\
  (exists l, atts h' = atts h ++ l) /\
  (forall i o, (i < n)%nat -> nth_error (objs h) i = Some o -> exists o', nth_error (objs h') i = Some o' /\ dref o' = dref o /\
     (~ P i -> o' = o)).
Lemma ext_extn P n h h' : ext P h h' -> extn P n h h'.
Proof. intros (V & L & A1 & O). split; [exact V|]. split; [exact L|]. split; [exact A1|]. intros i o _. apply O. Qed.
Lemma extn_ext P h h' : extn P (length (objs h)) h h' -> ext P h h'.
Proof.
  intros (V & L & A1 & O). split; [exact V|]. split; [exact L|]. split; [exact A1|].
  intros i o Hi. apply O; [|exact Hi]. apply nth_error_Some. congruence.
Qed.
Lemma extn_trans P n h1 h2 h3 : extn P n h1 h2 -> extn P n h2 h3 -> extn P n h1 h3.
Proof.
  intros (V1 & L1 & (a1 & A1) & O1) (V2 & L2 & (a2 & A2) & O2).
  split; [exact V2|]. split; [lia|]. split; [exists (a1 ++ a2); rewrite A2, A1; now rewrite app_assoc|].
  intros i o Hn Hi. destruct (O1 i o Hn Hi) as (o' & Hi' & R & E). destruct (O2 i o' Hn Hi') as (o'' & Hi'' & R' & E').
  exists o''. split; [exact Hi''|]. split; [congruence|]. intros N. rewrite E', E; auto.
Qed.
Definition keepsn {X} (P : nat -> Prop) (n : nat) (m : M X) : Prop :=
  forall h, valid h -> (n <= length (objs h))%nat -> extn P n h (fst (m h)).
Lemma keeps_keepsn {X} P n (m : M X) : keeps P m -> keepsn P n m.
Proof. intros Hm h V _. apply ext_extn. now apply Hm. Qed.
Lemma keepsn_bind {X Y} P n (m : M X) (f : X -> M Y) : keepsn P n m ->
  (forall h h' x, valid h -> (n <= length (objs h))%nat -> m h = (h', Ok x) -> valid h' -> (n <= length (objs h'))%nat -> extn P n h' (fst (f x h'))) ->
  keepsn P n (mbind m f).
Proof.
  intros Hm Hf h V L. unfold mbind. destruct (m h) as [h' r] eqn:E. pose proof (Hm h V L) as Hm'. rewrite E in Hm'. cbn in Hm'.
  destruct r as [x|e]; [|exact Hm']. eapply extn_trans; [exact Hm'|]. destruct Hm' as (V' & L' & _). apply (Hf h h' x V L E V'). lia.
Qed.

Lemma keepsn_new (P : nat -> Prop) n d t a : keepsn P n (h_new dt c d t a).
Proof.
  intros h V L. pose proof (h_new_keeps P d t a (fun _ => I) h V) as E.
  destruct E as (V1 & L1 & A1 & O). split; [exact V1|]. split; [exact L1|]. split; [exact A1|].
  intros i o Hi Hn. destruct (O i o Hn) as (o' & ? & ? & E). exists o'. split; [assumption|]. split; [assumption|].
  intros _. apply E. lia.
Qed.
Lemma new_ge n d t a h h' i : valid h -> (n <= length (objs h))%nat -> h_new dt c d t a h = (h', Ok i) -> (n <= i)%nat.
Proof. intros V L E. apply h_new_ok in E; [lia|exact V]. Qed.

Lemma create_post (P : nat -> Prop) n s d :
  forall h, valid h -> (n <= length (objs h))%nat ->
  extn P n h (fst (h_create dt dA c s d h)) /\
  forall h' i, h_create dt dA c s d h = (h', Ok i) -> (n <= i)%nat.
Proof.
  intros h V L. destruct (h_create dt dA c s d h) as [hf rf] eqn:EE. cbn [fst].
  cut (extn P n h hf /\ forall i, rf = Ok i -> (n <= i)%nat).
  { intros [Q1 Q2]. split; [exact Q1|]. intros h' i [= <- E]. now apply Q2. }
  unfold h_create, mbind at 1 in EE.
  pose proof (keepsn_new P n d None dA h V L) as K1.
  destruct (h_new dt c d None dA h) as [h1 [i|e]] eqn:E1; cbn in K1; [|injection EE as <- <-; split; [exact K1|congruence]].
  pose proof (new_ge n _ _ _ _ _ _ V L E1) as Hi.
  pose proof K1 as (V1 & L1 & _).
  unfold mbind at 1 in EE. unfold get_obj at 1 in EE.
  destruct (nth_error (objs h1) s) as [o|] eqn:Eo; [|injection EE as <- <-; split; [exact K1|congruence]].
  assert (Ro : (dref o < length (atts h1))%nat) by (apply V1; eapply nth_error_In; eauto).
  destruct (set_ref_new n i (dref o) Hi h1 V1 Ro) as (V2 & L2 & A2 & O2).
  unfold mbind at 1 in EE. destruct (set_ref i (dref o) h1) as [h2 [[]|e]] eqn:E2; cbn [fst] in *.
  - assert (K2 : extn P n h1 h2).
    { split; [exact V2|]. split; [lia|]. split; [exists []; rewrite app_nil_r; auto|].
      intros j oj Hj Hn. exists oj. rewrite O2 by lia. auto. }
    pose proof (keeps_preferred_rep (fun j => (n <= j)%nat) i Hi h2 V2) as K3.
    unfold mbind in EE. destruct (h_preferred_rep c i h2) as [h3 r3] eqn:E3; cbn [fst] in *.
    assert (hf = h3 /\ (forall i', rf = Ok i' -> i' = i)) as [-> Hr].
    { destruct r3 as [[]|]; injection EE as <- <-; split; auto; congruence. }
    split; [|intros i' Ei; rewrite (Hr _ Ei); exact Hi]. eapply extn_trans; [exact K1|]. eapply extn_trans; [exact K2|].
    destruct K3 as (V3 & L3 & A3 & O3). split; [exact V3|]. split; [exact L3|]. split; [exact A3|].
    intros j oj Hj Hn. destruct (O3 j oj Hn) as (o' & ? & ? & Ee). exists o'. split; [assumption|]. split; [assumption|].
    intros _. apply Ee. lia.
  - injection EE as <- <-. split; [|congruence]. eapply extn_trans; [exact K1|]. split; [exact V2|]. split; [lia|].
    split; [exists []; rewrite app_nil_r; auto|]. intros j oj Hj Hn. exists oj. rewrite O2 by lia. auto.
Qed.
Lemma keepsn_create (P : nat -> Prop) n s d : keepsn P n (h_create dt dA c s d).
Proof. intros h V L. now apply create_post. Qed.
Lemma keepsn_tail (P : nat -> Prop) n i (f : nat -> M unit) : (n <= i)%nat ->
  (forall Q : nat -> Prop, Q i -> keeps Q (f i)) -> keepsn P n (f i).
Proof.
  intros Hi Hf h V L. destruct (Hf (fun j => (n <= j)%nat) Hi h V) as (V3 & L3 & A3 & O3).
  split; [exact V3|]. split; [exact L3|]. split; [exact A3|].
  intros j oj Hj Hn. destruct (O3 j oj Hn) as (o' & ? & ? & Ee). exists o'. split; [assumption|]. split; [assumption|].
  intros _. apply Ee. lia.
Qed.

(** the objects whose items an operation may write *)
Definition target (o : @op K A) (i : nat) : Prop :=
  match o with
  | OIadd j _ | OIsub j _ | OSetTorsion j _ => i = j
  | _ => False
  end.
Definition is_set_torsion (o : @op K A) : bool := match o with OSetTorsion _ _ => true | _ => false end.

Lemma binop_keeps (f : dict K -> dict K -> dict K) P n s t :
  keepsn P n (mbind (get_attrs s) (fun a => mbind (get_attrs t) (fun b =>
    if negb (fst a =? fst b) then raise TypeError else
    mbind (get_obj s) (fun o => mbind (h_create dt dA c s (items o)) (fun i =>
    mbind (get_obj i) (fun ans => mbind (get_obj t) (fun p =>
    mbind (set_items i (f (items ans) (items p))) (fun _ =>
    mbind (h_preferred_rep c i) (fun _ => ret i))))))))).
Proof.
  apply keepsn_bind; [apply keeps_keepsn, keeps_get_attrs|]. intros _ h1 a _ _ _ V1 L1.
  revert h1 V1 L1. change (keepsn P n (fun h1 => mbind (get_attrs t) (fun b =>
    if negb (fst a =? fst b) then raise TypeError else
    mbind (get_obj s) (fun o => mbind (h_create dt dA c s (items o)) (fun i =>
    mbind (get_obj i) (fun ans => mbind (get_obj t) (fun p =>
    mbind (set_items i (f (items ans) (items p))) (fun _ =>
    mbind (h_preferred_rep c i) (fun _ => ret i))))))) h1)).
  apply keepsn_bind; [apply keeps_keepsn, keeps_get_attrs|]. intros _ h2 b _ _ _ V2 L2.
  destruct (negb _); [now apply ext_extn, ext_refl|].
  revert h2 V2 L2. change (keepsn P n (fun h1 => 
    mbind (get_obj s) (fun o => mbind (h_create dt dA c s (items o)) (fun i =>
    mbind (get_obj i) (fun ans => mbind (get_obj t) (fun p =>
    mbind (set_items i (f (items ans) (items p))) (fun _ =>
    mbind (h_preferred_rep c i) (fun _ => ret i)))))) h1)).
  apply keepsn_bind; [apply keeps_keepsn, keeps_get_obj|]. intros _ h3 o _ _ _ V3 L3.
  revert h3 V3 L3. change (keepsn P n (fun h1 => 
    mbind (h_create dt dA c s (items o)) (fun i =>
    mbind (get_obj i) (fun ans => mbind (get_obj t) (fun p =>
    mbind (set_items i (f (items ans) (items p))) (fun _ =>
    mbind (h_preferred_rep c i) (fun _ => ret i))))) h1)).
  apply keepsn_bind; [apply keepsn_create|]. intros h4 h5 i V4 L4 E4 V5 L5.
  assert (Hi : (n <= i)%nat) by (exact (proj2 (create_post P n s (items o) h4 V4 L4) h5 i E4)).
  revert h5 V5 L5 E4. intros h5 V5 L5 _. revert h5 V5 L5.
  set (g := fun i => mbind (A := A) (get_obj i) (fun ans => mbind (get_obj t) (fun p =>
    mbind (set_items i (f (items ans) (items p))) (fun _ =>
    mbind (h_preferred_rep c i) (fun _ => ret tt))))).
  assert (G : keepsn P n (g i)).
  { apply keepsn_tail; [exact Hi|]. intros Q Qi. unfold g.
    apply keeps_bind; [apply keeps_get_obj|]. intros ans. apply keeps_bind; [apply keeps_get_obj|]. intros p.
    apply keeps_bind; [now apply keeps_set_items|]. intros _. apply keeps_bind; [now apply keeps_preferred_rep|]. intros _. apply keeps_ret. }
  intros h5 V5 L5. specialize (G h5 V5 L5). unfold g, mbind, ret in *. cbn in *.
  repeat match goal with
  | |- context [let (_, _) := ?x in _] => destruct x as [? [?|?]]; cbn in *
  | |- context [get_obj ?a ?b] => destruct (get_obj a b) as [? [?|?]]; cbn in *
  end; exact G.
Qed.

Lemma iop_keeps (f : dict K -> dict K -> dict K) (P : nat -> Prop) s t : P s ->
  keeps P (mbind (get_attrs s) (fun a => mbind (get_attrs t) (fun b =>
    if negb (fst a =? fst b) then raise TypeError else
    mbind (get_obj s) (fun o => mbind (get_obj t) (fun p =>
    mbind (set_items s (f (items o) (items p))) (fun _ =>
    mbind (h_preferred_rep c s) (fun _ => ret s))))))).
Proof.
  intros Ps. apply keeps_bind; [apply keeps_get_attrs|]. intros a. apply keeps_bind; [apply keeps_get_attrs|]. intros b.
  destruct (negb _); [apply keeps_raise|].
  apply keeps_bind; [apply keeps_get_obj|]. intros o. apply keeps_bind; [apply keeps_get_obj|]. intros p.
  apply keeps_bind; [now apply keeps_set_items|]. intros _. apply keeps_bind; [now apply keeps_preferred_rep|]. intros _. apply keeps_ret.
Qed.

Lemma keepsn_get (P : nat -> Prop) n s (f : obj -> M nat) : (forall o, keepsn P n (f o)) -> keepsn P n (mbind (get_obj s) f).
Proof. intros Hf. apply keepsn_bind; [apply keeps_keepsn, keeps_get_obj|]. intros _ h' o _ _ _ V L. now apply Hf. Qed.

Lemma hstep_ext o h : valid h -> is_set_torsion o = false -> ext (target o) h (fst (hstep dt dA c o h)).
Proof.
  intros V Hs. 
  assert (KN : forall m : M nat, keepsn (target o) (length (objs h)) m -> ext (target o) h (fst (m h))).
  { intros m Hm. apply extn_ext. apply Hm; auto. }
  destruct o; cbn [hstep]; try discriminate Hs.
  - apply KN. apply keepsn_new.
  - apply KN. apply keepsn_get. intros _. apply keepsn_create.
  - apply KN. apply keepsn_get. intros _. apply keepsn_create.
  - apply KN. apply binop_keeps.
  - apply KN. apply binop_keeps.
  - apply KN. apply keepsn_get. intros o. apply keepsn_create.
  - apply KN. apply keepsn_get. intros o. apply keepsn_create.
  - apply KN. unfold h_truediv. apply keepsn_bind; [apply keeps_keepsn, keeps_get_attrs|]. intros _ h1 a _ _ _ V1 L1.
    destruct (fst a =? 0); [now apply ext_extn, ext_refl|]. destruct (py_pow_inv n (fst a)); [|now apply ext_extn, ext_refl].
    apply keepsn_get; auto. intros o. apply keepsn_create.
  - apply iop_keeps; auto. reflexivity.
  - apply iop_keeps; auto. reflexivity.
Qed.

Lemma ext_view P h h' i e : ext P h h' -> view h i = Some e ->
  exists d, view h' i = Some (mkElt d (torsion e) (attr e)) /\ (~ P i -> d = data e).
Proof.
  intros (V & L & (l & A1) & O) E. unfold Heap.view in *. destruct (nth_error (objs h) i) as [o|] eqn:Eo; [|discriminate].
  destruct (O i o Eo) as (o' & -> & R & Q). destruct (nth_error (atts h) (dref o)) as [a|] eqn:Ea; [|discriminate].
  injection E as <-. rewrite R, A1, nth_error_app1, Ea by (apply nth_error_Some; congruence).
  exists (items o'). split; [reflexivity|]. intros N. now rewrite Q.
Qed.

Lemma set_torsion_post i t h : valid h ->
  let h' := fst (hstep dt dA c (OSetTorsion i t) h) in
  valid h' /\ forall j o e, nth_error (objs h) j = Some o -> view h j = Some e -> j <> i ->
     match nth_error (objs h) i with
     | Some oi => if Nat.eqb (dref o) (dref oi) then view h' j = Some (mkElt (data e) t (attr e)) else view h' j = Some e
     | None => view h' j = Some e
     end.
Proof.
  intros V h'. assert (Eh : h' = fst (h_set_torsion c i t h)) by reflexivity. clearbody h'.
  unfold h_set_torsion, mbind at 1, set_attr_torsion, mbind at 1, get_obj at 1 in Eh.
  destruct (nth_error (objs h) i) as [oi|] eqn:Ei; [|cbn in Eh; subst h'; split; [exact V|intros j o e _ He _; exact He]].
  assert (Ri : (dref oi < length (atts h))%nat) by (apply V; eapply nth_error_In; eauto).
  destruct (nth_error (atts h) (dref oi)) as [ai|] eqn:Ea; [|apply nth_error_None in Ea; lia].
  set (h1 := mkHeap (objs h) (lset (atts h) (dref oi) (t, snd ai))) in *.
  assert (V1 : valid h1). { intros o Ho. cbn. rewrite lset_length. now apply V. }
  pose proof (keeps_bind (fun k => k = i) (h_preferred_rep c i) (fun _ => ret i)
    (keeps_preferred_rep _ i eq_refl) (fun _ => keeps_ret _ i) h1 V1) as E. rewrite <- Eh in E.
  split; [apply E|].
  intros j o e Hj He N.
  assert (He1 : view h1 j = Some (if Nat.eqb (dref o) (dref oi) then mkElt (data e) t (attr e) else e)).
  { unfold Heap.view in *. cbn [objs atts h1]. rewrite Hj in *.
    destruct (Nat.eqb_spec (dref o) (dref oi)) as [Er|Nd]; [rewrite Er in *|].
    - rewrite lset_same by exact Ri. rewrite Ea in He. injection He as <-. reflexivity.
    - rewrite lset_other by auto. exact He. }
  destruct (ext_view _ _ _ _ _ E He1) as (d & Hd & Q). rewrite (Q N) in Hd.
  destruct (Nat.eqb (dref o) (dref oi)); [exact Hd|]. destruct e; exact Hd.
Qed.

Lemma valid_step o h : valid h -> valid (fst (hstep dt dA c o h)).
Proof.
  intros V. destruct (is_set_torsion o) eqn:E.
  - destruct o; try discriminate. now apply set_torsion_post.
  - now apply (hstep_ext o h V E).
Qed.
Lemma valid_run ops : forall h, valid h -> valid (hrun dt dA c ops h).
Proof. unfold hrun. induction ops as [|o ops IH]; intros h V; [exact V|]. apply IH. now apply valid_step. Qed.
Lemma valid_empty : valid empty_heap.
Proof. intros o []. Qed.

End HeapFacts.

Section Refine.
Context {K A : Type} `{PyKey K}.
Variable dt : Z.
Variable dA : A.
Variable c : pycls K.

Lemma nth_error_end {X} (l : list X) a : nth_error (l ++ [a]) (length l) = Some a.
Proof. rewrite nth_error_app2 by lia. now rewrite Nat.sub_diag. Qed.
Lemma lset_end {X} (l : list X) a b : lset (l ++ [a]) (length l) b = l ++ [b].
Proof. induction l as [|x l IH]; cbn; [reflexivity|]. now rewrite IH. Qed.

Lemma pref_rep_eq (h : @heap K A) i o a : nth_error (objs h) i = Some o -> nth_error (atts h) (dref o) = Some a ->
  h_preferred_rep c i h = match pref c (fst a) (items o) with
    | Ok d => (mkHeap (lset (objs h) i (mkObj d (dref o))) (atts h), Ok tt)
    | Err e => (h, Err e) end.
Proof.
  intros Ho Ha. unfold h_preferred_rep, get_attrs, set_items, raise, mbind, get_obj. rewrite Ho. cbn. rewrite Ho, Ha.
  destruct (pref c (fst a) (items o)); [|reflexivity]. now rewrite Ho.
Qed.
Lemma h_new_eq (h : @heap K A) d t a : 
  let t' := match t with Some t => t | None => dt end in
  h_new dt c d t a h = match pref c t' (convert c d) with
    | Ok d' => (mkHeap (objs h ++ [mkObj d' (length (atts h))]) (atts h ++ [(t', a)]), Ok (length (objs h)))
    | Err e => (mkHeap (objs h ++ [mkObj (convert c d) (length (atts h))]) (atts h ++ [(t', a)]), Err e) end.
Proof.
  intros t'. unfold h_new, alloc. unfold mbind at 1. fold t'. unfold mbind.
  erewrite pref_rep_eq; [|apply nth_error_end|cbn; apply nth_error_end]. cbn.
  destruct (pref c t' (convert c d)); cbn; [|reflexivity]. rewrite lset_end. reflexivity.
Qed.
Lemma view_some (h : @heap K A) i x : view h i = Some x ->
  exists o, nth_error (objs h) i = Some o /\ nth_error (atts h) (dref o) = Some (torsion x, attr x) /\ items o = data x.
Proof.
  unfold view. destruct (nth_error (objs h) i) as [o|]; [|discriminate].
  destruct (nth_error (atts h) (dref o)) as [[t a]|] eqn:E; [|discriminate]. intros [= <-]. eauto.
Qed.
Lemma get_obj_eq (h : @heap K A) i o : nth_error (objs h) i = Some o -> get_obj i h = (h, Ok o).
Proof. unfold get_obj. now intros ->. Qed.
Lemma get_attrs_eq (h : @heap K A) i o a : nth_error (objs h) i = Some o -> nth_error (atts h) (dref o) = Some a ->
  get_attrs i h = (h, Ok a).
Proof. intros Ho Ha. unfold get_attrs, mbind. rewrite (get_obj_eq _ _ _ Ho). now rewrite Ha. Qed.

Lemma h_create_eq (h : @heap K A) i x d : view h i = Some x ->
  match create dt c x d with
  | Ok z => exists l, h_create dt dA c i d h =
      (mkHeap (objs h ++ [mkObj (data z) match nth_error (objs h) i with Some o => dref o | None => O end]) (atts h ++ l), Ok (length (objs h)))
  | Err e => exists h', h_create dt dA c i d h = (h', Err e)
  end.
Proof.
  intros Hx. destruct (view_some _ _ _ Hx) as (o & Ho & Ha & Hd).
  destruct (h_create dt dA c i d h) as [hf rf] eqn:EE. unfold create.
  unfold h_create in EE. unfold mbind at 1 in EE. rewrite h_new_eq in EE. cbn zeta iota beta in EE.
  destruct (pref c dt (convert c d)) as [d1|e]; cbn [bind] in *; [|injection EE as <- <-; eauto].
  set (h1 := mkHeap _ _) in EE.
  assert (Ho1 : nth_error (objs h1) i = Some o).
  { cbn. rewrite nth_error_app1; [exact Ho|]. apply nth_error_Some. congruence. }
  unfold mbind at 1 in EE. rewrite (get_obj_eq _ _ _ Ho1) in EE.
  unfold mbind at 1 in EE. unfold set_ref, mbind at 1 in EE.
  rewrite (get_obj_eq h1 _ (mkObj d1 (length (atts h)))) in EE by (cbn; apply nth_error_end). cbn [items objs atts h1] in EE.
  rewrite lset_end in EE. unfold mbind in EE.
  erewrite pref_rep_eq in EE; [|cbn; apply nth_error_end|cbn; rewrite nth_error_app1; [exact Ha|apply nth_error_Some; congruence]].
  cbn in EE. destruct (pref c (torsion x) d1) as [d2|e]; cbn in *; [|injection EE as <- <-; eauto].
  rewrite lset_end in EE. rewrite Ho. injection EE as <- <-. eauto.
Qed.
Lemma view_end (h : @heap K A) i (x : elt K A) (d : dict K) l o : nth_error (objs h) i = Some o -> nth_error (atts h) (dref o) = Some (torsion x, attr x) ->
  view (mkHeap (objs h ++ [mkObj d (dref o)]) (atts h ++ l)) (length (objs h)) = Some (mkElt d (torsion x) (attr x)).
Proof.
  intros Ho Ha. unfold view. cbn. rewrite nth_error_end. cbn. rewrite nth_error_app1, Ha; [reflexivity|]. apply nth_error_Some. congruence.
Qed.
(** [r], run on the heap [h], computes what the value-level function computes *)
Definition computes (h : @heap K A) (m : M nat) (r : res (elt K A)) : Prop :=
  match r with
  | Ok z => exists h' k, m h = (h', Ok k) /\ view h' k = Some z
  | Err e => exists h', m h = (h', Err e)
  end.
Lemma create_computes (h : @heap K A) i x d : view h i = Some x ->
  computes h (h_create dt dA c i d) (create dt c x d).
Proof.
  intros Hx. pose proof (h_create_eq h i x d Hx) as Q. destruct (view_some _ _ _ Hx) as (o & Ho & Ha & Hd).
  unfold computes. destruct (create dt c x d) as [z|e] eqn:E; [|exact Q].
  destruct Q as (l & ->). rewrite Ho. eexists _, _. split; [reflexivity|].
  rewrite (view_end h i x _ _ o Ho Ha). f_equal.
  unfold create in E. destruct (pref _ _ _); cbn in E; [|discriminate]. destruct (pref _ _ _); cbn in E; [|discriminate].
  injection E as <-. reflexivity.
Qed.
Lemma get_then (h : @heap K A) i o (f : obj -> M nat) r : nth_error (objs h) i = Some o -> computes h (f o) r -> computes h (mbind (get_obj i) f) r.
Proof. intros Ho. unfold computes, mbind. rewrite (get_obj_eq _ _ _ Ho). auto. Qed.
Lemma attrs_then (h : @heap K A) i x (f : Z * A -> M nat) r : view h i = Some x -> computes h (f (torsion x, attr x)) r -> computes h (mbind (get_attrs i) f) r.
Proof.
  intros Hx. destruct (view_some _ _ _ Hx) as (o & Ho & Ha & _). unfold computes, mbind. rewrite (get_attrs_eq _ _ _ _ Ho Ha). auto.
Qed.

Lemma binop_computes (f : dict K -> dict K -> dict K) (h : @heap K A) s t x y : view h s = Some x -> view h t = Some y ->
  computes h (mbind (get_attrs s) (fun a => mbind (get_attrs t) (fun b =>
    if negb (fst a =? fst b) then raise TypeError else
    mbind (get_obj s) (fun o => mbind (h_create dt dA c s (items o)) (fun i =>
    mbind (get_obj i) (fun ans => mbind (get_obj t) (fun p =>
    mbind (set_items i (f (items ans) (items p))) (fun _ =>
    mbind (h_preferred_rep c i) (fun _ => ret i)))))))))
  (if negb (torsion x =? torsion y) then Err TypeError else
  let! answer := create dt c x (data x) in
  let! d := pref c (torsion x) (f (data answer) (data y)) in
  Ok (mkElt d (torsion x) (attr x))).
Proof.
  intros Hx Hy. eapply attrs_then; [exact Hx|]. eapply attrs_then; [exact Hy|]. cbn [fst].
  destruct (negb _); [exists h; reflexivity|].
  destruct (view_some _ _ _ Hx) as (o & Ho & Ha & Hd). destruct (view_some _ _ _ Hy) as (p & Hp & Hpa & Hpd).
  eapply get_then; [exact Ho|]. rewrite Hd.
  pose proof (h_create_eq h s x (data x) Hx) as Q.
  destruct (create dt c x (data x)) as [z|e]; cbn [bind].
  2:{ destruct Q as (h' & Q). exists h'. unfold mbind. now rewrite Q. }
  destruct Q as (l & Q). rewrite Ho in Q. unfold computes.
  match goal with |- match _ with Ok z => exists h' k, ?m h = _ /\ _ | Err _ => _ end => destruct (m h) as [hf rf] eqn:EE end.
  unfold mbind at 1 in EE. rewrite Q in EE. clear Q.
  set (h1 := mkHeap _ _) in EE.
  assert (E1 : nth_error (objs h1) (length (objs h)) = Some (mkObj (data z) (dref o))) by apply nth_error_end.
  unfold mbind at 1 in EE. rewrite (get_obj_eq _ _ _ E1) in EE.
  assert (E2 : nth_error (objs h1) t = Some p). { cbn. rewrite nth_error_app1; [exact Hp|apply nth_error_Some; congruence]. }
  unfold mbind at 1 in EE. rewrite (get_obj_eq _ _ _ E2) in EE. cbn [items] in EE. rewrite Hpd in EE.
  unfold mbind at 1 in EE. unfold set_items, mbind at 1 in EE. rewrite (get_obj_eq _ _ _ E1) in EE.
  cbn [objs atts h1 dref] in EE. rewrite lset_end in EE. unfold mbind in EE.
  erewrite pref_rep_eq in EE; [|cbn; apply nth_error_end|cbn; rewrite nth_error_app1; [exact Ha|apply nth_error_Some; congruence]].
  cbn [fst items] in EE. destruct (pref c (torsion x) _) as [d|e]; cbn [bind]; [|injection EE as <- <-; eauto].
  cbn [objs atts dref] in EE. rewrite lset_end in EE. injection EE as <- <-.
  eexists _, _. split; [reflexivity|]. now apply (view_end h s).
Qed.
Lemma iop_computes (f : dict K -> dict K -> dict K) (h : @heap K A) s t x y : view h s = Some x -> view h t = Some y ->
  computes h (mbind (get_attrs s) (fun a => mbind (get_attrs t) (fun b =>
    if negb (fst a =? fst b) then raise TypeError else
    mbind (get_obj s) (fun o => mbind (get_obj t) (fun p =>
    mbind (set_items s (f (items o) (items p))) (fun _ =>
    mbind (h_preferred_rep c s) (fun _ => ret s)))))))
  (if negb (torsion x =? torsion y) then Err TypeError else
  let! d := pref c (torsion x) (f (data x) (data y)) in
  Ok (mkElt d (torsion x) (attr x))).
Proof.
  intros Hx Hy. eapply attrs_then; [exact Hx|]. eapply attrs_then; [exact Hy|]. cbn [fst].
  destruct (negb _); [exists h; reflexivity|].
  destruct (view_some _ _ _ Hx) as (o & Ho & Ha & Hd). destruct (view_some _ _ _ Hy) as (p & Hp & Hpa & Hpd).
  assert (Ls : (s < length (objs h))%nat) by (apply nth_error_Some; congruence).
  eapply get_then; [exact Ho|]. eapply get_then; [exact Hp|]. rewrite Hd, Hpd.
  unfold computes, mbind, set_items, mbind. rewrite (get_obj_eq _ _ _ Ho).
  erewrite pref_rep_eq; [|cbn; rewrite lset_same by exact Ls; reflexivity|cbn; exact Ha].
  cbn [fst items objs atts dref]. destruct (pref c (torsion x) _) as [d|e]; cbn [bind]; [|eauto].
  eexists _, _. split; [reflexivity|]. unfold view. cbn. rewrite lset_same by (rewrite lset_length; exact Ls). cbn. rewrite Ha. reflexivity.
Qed.
Lemma set_torsion_computes (h : @heap K A) s t x : view h s = Some x ->
  computes h (h_set_torsion c s t) (set_torsion c x t).
Proof.
  intros Hx. destruct (view_some _ _ _ Hx) as (o & Ho & Ha & Hd).
  assert (Ls : (s < length (objs h))%nat) by (apply nth_error_Some; congruence).
  assert (Lo : (dref o < length (atts h))%nat) by (apply nth_error_Some; congruence).
  unfold computes, h_set_torsion, set_torsion, mbind, set_attr_torsion, mbind. rewrite (get_obj_eq _ _ _ Ho), Ha.
  erewrite pref_rep_eq; [|exact Ho|cbn; apply lset_same; exact Lo]. cbn [fst snd]. rewrite Hd.
  destruct (pref c t (data x)) as [d|e]; cbn [bind]; [|eauto].
  eexists _, _. split; [reflexivity|]. unfold view. cbn. rewrite lset_same by exact Ls. cbn. rewrite lset_same by exact Lo. reflexivity.
Qed.
End Refine.

(** #C08_objects_compute_values# Each operation on objects returns an object
    whose value is that computed by the value-level model used in all the
    other theorems (or raises the same exception), in every heap. *)
Lemma C08_objects_compute_values_l {K A} `{PyKey K} (dt : Z) (dA : A) (c : pycls K) (h : heap) (i j : nat)
  (x y : elt K A) (d : dict K) (n : Z) :
  view h i = Some x -> view h j = Some y ->
  let computes o r := match r with
                      | Ok z => exists h' k, hstep dt dA c o h = (h', Ok k) /\ view h' k = Some z
                      | Err e => exists h', hstep dt dA c o h = (h', Err e)
                      end in
  computes (OCreate i d) (create dt c x d) /\ computes (OZero i) (zero dt c x) /\
  computes (OAdd i j) (add dt c x y) /\ computes (OSub i j) (sub dt c x y) /\
  computes (OScale n i) (scale dt c n x) /\ computes (ONeg i) (neg dt c x) /\
  computes (ODiv i n) (truediv dt c x n) /\
  computes (OIadd i j) (iadd c x y) /\ computes (OIsub i j) (isub c x y) /\
  computes (OSetTorsion i n) (set_torsion c x n).
Proof.
  intros Hx Hy. cbv zeta. destruct (view_some _ _ _ Hx) as (o & Ho & Ha & Hd).
  refine (conj _ (conj _ (conj _ (conj _ (conj _ (conj _ (conj _ (conj _ (conj _ _)))))))));
    match goal with |- match ?r with Ok z => exists h' k, hstep _ _ _ ?o _ = _ /\ _ | Err _ => _ end =>
      change (computes h (hstep dt dA c o) r) end; cbn [hstep].
  - eapply get_then; [exact Ho|]. now apply create_computes.
  - eapply get_then; [exact Ho|]. now apply create_computes.
  - exact (binop_computes dt dA c dupdate h i j x y Hx Hy).
  - exact (binop_computes dt dA c dsubtract h i j x y Hx Hy).
  - eapply get_then; [exact Ho|]. rewrite Hd. now apply create_computes.
  - eapply get_then; [exact Ho|]. rewrite Hd. now apply create_computes.
  - eapply attrs_then; [exact Hx|]. unfold truediv. cbn [fst]. destruct (torsion x =? 0); [exists h; reflexivity|].
    destruct (py_pow_inv n (torsion x)); cbn [bind]; [|exists h; reflexivity].
    eapply get_then; [exact Ho|]. rewrite Hd. now apply create_computes.
  - exact (iop_computes c dupdate h i j x y Hx Hy).
  - exact (iop_computes c dsubtract h i j x y Hx Hy).
  - now apply set_torsion_computes.
Qed.

(** #C08_results_and_operands_stable# In any history (over any heap reached
    by a history [before]) that contains no [set_torsion] and no [+=]/[-=]
    whose left operand is the object [k], the value and attributes of [k]
    never change; [+=]/[-=] on [k] itself keep its attributes. *)
Lemma C08_results_and_operands_stable_l {K A} `{PyKey K} (dt : Z) (dA : A) (c : pycls K)
  (before after : list op) (k : nat) (e : elt K A) :
  let h := hrun dt dA c before empty_heap in
  view h k = Some e ->
  (forall o, In o after -> match o with OSetTorsion _ _ => False | OIadd i _ | OIsub i _ => i <> k | _ => True end) ->
  view (hrun dt dA c after h) k = Some e.
Proof.
  intros h. assert (V : valid h) by apply valid_run, valid_empty. clearbody h. revert h V.
  unfold hrun. induction after as [|o after IH]; intros h V He Hf; [exact He|]. cbn [fold_left].
  pose proof (Hf o (or_introl eq_refl)) as Ho.
  assert (Hs : is_set_torsion o = false) by (destruct o; tauto).
  pose proof (hstep_ext dt dA c o h V Hs) as E.
  destruct (ext_view _ _ _ _ _ E He) as (d & Hd & Q).
  apply IH.
  - apply E.
  - rewrite Hd, Q; [destruct e; reflexivity|]. destruct o; cbn; auto; congruence.
  - intros o' Ho'. apply Hf. now right.
Qed.

(** #C08_inplace_frame# [x += y] and [x -= y] change no other object, and not the attributes of [x]. *)
Lemma C08_inplace_frame_l {K A} `{PyKey K} (dt : Z) (dA : A) (c : pycls K) (before : list op) (i j k : nat) (e : elt K A) (o : op) :
  let h := hrun dt dA c before empty_heap in
  o = OIadd i j \/ o = OIsub i j -> view h k = Some e ->
  exists d, view (fst (hstep dt dA c o h)) k = Some (mkElt d (torsion e) (attr e)) /\ (k <> i -> d = data e).
Proof.
  intros h Ho He. assert (V : valid h) by apply valid_run, valid_empty.
  assert (Hs : is_set_torsion o = false) by (destruct Ho as [-> | ->]; reflexivity).
  pose proof (hstep_ext dt dA c o h V Hs) as E.
  destruct (ext_view _ _ _ _ _ E He) as (d & Hd & Q). exists d. split; [exact Hd|]. intros N. apply Q.
  destruct Ho as [-> | ->]; cbn; auto.
Qed.

(** #C08_set_torsion_exact# Exactly what [set_torsion] on the object [i]
    does to another object [j]: nothing if the two do not share their
    attribute dictionary; otherwise the torsion of [j] changes and its
    coefficients are not reduced. *)
Lemma C08_set_torsion_exact_l {K A} `{PyKey K} (dt : Z) (dA : A) (c : pycls K) (before : list op) (i j : nat) (t : Z)
  (oi oj : obj) (e : elt K A) :
  let h := hrun dt dA c before empty_heap in
  nth_error (objs h) i = Some oi -> nth_error (objs h) j = Some oj -> j <> i -> view h j = Some e ->
  view (fst (hstep dt dA c (OSetTorsion i t) h)) j =
    Some (if Nat.eqb (dref oj) (dref oi) then mkElt (data e) t (attr e) else e).
Proof.
  intros h Hi Hj N He. assert (V : valid h) by apply valid_run, valid_empty.
  pose proof (proj2 (set_torsion_post dt dA c i t h V) j oj e Hj He N) as Q. rewrite Hi in Q.
  destruct (Nat.eqb (dref oj) (dref oi)); exact Q.
Qed.

(** #C08_set_torsion_refuted# The second half of C08 is false: after
    [z = x + y], the call [z.set_torsion(2)] changes the torsion of [x] and
    leaves [x] with a coefficient that is not reduced, so that [x] is no
    longer canonical and [x != x + x.zero()]. *)
Lemma C08_set_torsion_refuted_l : exists (before : list (@op Z unit)) (e e' : elt Z unit),
  let h := hrun 0 tt (cls_free Z) before empty_heap in
  let h' := fst (hstep 0 tt (cls_free Z) (OSetTorsion 2 2) h) in
  before = [ONew [(7, 3)] None tt; ONew [(8, 1)] None tt; OAdd 0 1] /\
  view h 0 = Some e /\ view h' 0 = Some e' /\ torsion e = 0 /\ torsion e' = 2 /\
  wf (cls_free Z) e /\ ~ wf (cls_free Z) e' /\
  exists z s, zero 0 (cls_free Z) e' = Ok z /\ add 0 (cls_free Z) e' z = Ok s /\ elt_eqb s e' = false.
Proof.
  exists [ONew [(7, 3)] None tt; ONew [(8, 1)] None tt; OAdd 0 1], (mkElt [(7, 3)] 0 tt), (mkElt [(7, 3)] 2 tt).
  cbv zeta. split; [reflexivity|]. split; [vm_compute; reflexivity|]. split; [vm_compute; reflexivity|].
  split; [reflexivity|]. split; [reflexivity|]. split; [apply wfb_wf; reflexivity|]. split.
  - intros [_ [_ Hc]]. destruct (Hc 7 3) as [[_ Hv] _]; [now left|]. cbn in Hv. lia.
  - exists (mkElt [] 2 tt), (mkElt [(7, 1)] 2 tt). repeat split; vm_compute; reflexivity.
Qed.

(** #C08_example# A history that meets the hypotheses of the frame theorem. *)
Example C08_example_l :
  let before := [ONew [(7, 3)] None tt; ONew [(8, 1)] None tt; OAdd 0 1] in
  let after := [OIadd 1 2; OScale 5 0; OIsub 3 1] in
  view (hrun 0 tt (cls_free Z) before empty_heap) 0 = Some (mkElt [(7, 3)] 0 tt) /\
  (forall o, In o after -> match o with OSetTorsion _ _ => False | OIadd i _ | OIsub i _ => i <> 0%nat | _ => True end) /\
  view (hrun 0 tt (cls_free Z) (before ++ after) empty_heap) 1 = Some (mkElt [(8, 2); (7, 3)] 0 tt).
Proof.
  cbv zeta. split; [reflexivity|]. split; [|reflexivity].
  intros o [<-|[<-|[<-|[]]]]; auto; discriminate.
Qed.
