(** * The attribute dimension, and attributes under histories (C79) *)
From Verif Require Import PyBase Dict FreeModule Simplicial Heap SimpDim Eqm Spec FreeModuleFacts FreeModuleLaws ListFacts HeapLaws.

Section Attr.
Context {K A : Type} `{PyKey K}.
Variables (dt : Z) (dA : A) (c : pycls K).
Lemma set_torsion_attr i t h k e : valid h -> view h k = Some e -> exists e', view (fst (hstep dt dA c (OSetTorsion i t) h)) k = Some e' /\ attr e' = attr e.
Proof.
  intros V He. remember (fst (hstep dt dA c (OSetTorsion i t) h)) as h' eqn:Eh. cbn [hstep] in Eh.
  unfold h_set_torsion, mbind at 1, set_attr_torsion, mbind at 1, get_obj at 1 in Eh.
  destruct (nth_error (objs h) i) as [oi|] eqn:Ei; [|cbn in Eh; subst h'; exists e; split; [exact He|reflexivity]].
  assert (Ri : (dref oi < length (atts h))%nat) by (apply V; eapply nth_error_In; eauto).
  destruct (nth_error (atts h) (dref oi)) as [ai|] eqn:Ea; [|apply nth_error_None in Ea; lia].
  set (h1 := mkHeap (objs h) (lset (atts h) (dref oi) (t, snd ai))) in *.
  assert (V1 : valid h1). { intros o Ho. cbn. rewrite lset_length. now apply V. }
  pose proof (keeps_bind (fun k => k = i) (h_preferred_rep c i) (fun _ => ret i)
    (keeps_preferred_rep c _ i eq_refl) (fun _ => keeps_ret _ i) h1 V1) as E. rewrite <- Eh in E.
  assert (He1 : exists e1, view h1 k = Some e1 /\ attr e1 = attr e).
  { unfold Heap.view in *. cbn [objs atts h1]. destruct (nth_error (objs h) k) as [o|]; [|discriminate].
    destruct (Nat.eq_dec (dref o) (dref oi)) as [Er|Nd]; [rewrite Er in *|].
    - rewrite lset_same by exact Ri. rewrite Ea in He. injection He as <-. eexists. split; reflexivity.
    - rewrite lset_other by auto. eauto. }
  destruct He1 as (e1 & He1 & Ae). destruct (ext_view _ _ _ _ _ E He1) as (d & Hd & _). eexists. split; [exact Hd|exact Ae].
Qed.
End Attr.
(** #C79_init# The attribute [dimension] set by the constructor: the argument when
    there are no data or when it is given and not 0; otherwise the largest vertex
    that occurs in the data, and -1 if none occurs. *)
Lemma C79_init_l (data : list (skey2 * Z)) (dimension : option Z) :
  let vertex v := exists k a s, In (k, a) data /\ In s k /\ In v s in
  simp_init_dimension None dimension = dimension /\
  (data = [] -> simp_init_dimension (Some data) dimension = dimension) /\
  (forall n, dimension = Some n -> n <> 0 -> simp_init_dimension (Some data) dimension = Some n) /\
  (data <> [] -> dimension = None \/ dimension = Some 0 ->
    exists m, simp_init_dimension (Some data) dimension = Some m /\
      ((vertex m /\ forall v, vertex v -> v <= m) \/ (m = -1 /\ forall v, ~ vertex v))).
Proof.
  intros vertex. split; [reflexivity|]. split; [now intros ->|]. split.
  - intros n -> N. destruct data; [reflexivity|]. cbn [simp_init_dimension]. destruct (Z.eqb_spec n 0); [contradiction|reflexivity].
  - intros N Hd. assert (V : forall v, vertex v <-> In v (concat (concat (map fst data)))).
    { intros v. rewrite in_concat. split.
      - intros (k & a & s & Hk & Hs & Hv). exists s. split; [|exact Hv]. apply in_concat. exists k. split; [|exact Hs]. now apply (in_map fst) in Hk.
      - intros (s & Hs & Hv). apply in_concat in Hs. destruct Hs as (k & Hk & Hs). apply in_map_iff in Hk. destruct Hk as ([k' a] & <- & Hk). exists k', a, s. auto. }
    assert (E : simp_init_dimension (Some data) dimension = match py_max (concat (concat (map fst data))) with Ok m => Some m | Err _ => Some (-1) end) by (destruct data; [contradiction|]; destruct Hd as [-> | ->]; reflexivity).
    destruct (py_max (concat (concat (map fst data)))) as [m|er] eqn:Em.
    + exists m. split; [exact E|]. left. apply py_max_spec in Em. destruct Em as [M1 M2]. split; [now apply V|]. intros v Hv. apply M2. now apply V.
    + exists (-1). split; [exact E|]. right. split; [reflexivity|]. intros v Hv. apply V in Hv. destruct (concat (concat (map fst data))) as [|b l]; [destruct Hv|discriminate Em].
Qed.
(** #C79_object# The constructor makes an object with the data and torsion of the
    value-level constructor and with this attribute, or raises the same exception. *)
Lemma C79_object_l (dt : Z) (h : heap) (data : list (skey2 * Z)) (dimension tor : option Z) :
  match simp_new dt data tor with
  | Ok x => exists h' k, simp_object dt (Some data) dimension tor h = (h', Ok k) /\
              view h' k = Some (mkElt (FreeModule.data x) (torsion x) (simp_init_dimension (Some data) dimension))
  | Err e => exists h', simp_object dt (Some data) dimension tor h = (h', Err e)
  end.
Proof.
  unfold simp_object, simp_new, new. rewrite h_new_eq. destruct (pref cls_simplicial _ (convert cls_simplicial (dict_of data))) as [d'|e] eqn:E; cbn [bind]; [|eexists; reflexivity].
  eexists _, _. split; [reflexivity|]. unfold view. cbn [objs atts]. rewrite nth_error_end. cbn [dref items]. rewrite nth_error_end. reflexivity.
Qed.
(** #C79_stable# No history of operations (constructors, +, -, *, /, in-place
    operations, set_torsion, failed calls) changes an attribute other than the
    torsion of an existing element; this holds for every class. *)
Lemma C79_stable_l {K A} `{PyKey K} (dt : Z) (dA : A) (c : pycls K) (before after : list op) (k : nat) (e : elt K A) :
  let h := hrun dt dA c before empty_heap in
  view h k = Some e -> exists e', view (hrun dt dA c after h) k = Some e' /\ attr e' = attr e.
Proof.
  intros h. assert (V : valid h) by apply valid_run, valid_empty. clearbody h. revert h e V.
  unfold hrun. induction after as [|o after IH]; intros h e V He; [exists e; auto|]. cbn [fold_left].
  assert (S1 : exists e1, view (fst (hstep dt dA c o h)) k = Some e1 /\ attr e1 = attr e).
  { destruct (is_set_torsion o) eqn:E.
    - destruct o; try discriminate E. now apply set_torsion_attr.
    - destruct (ext_view _ _ _ _ _ (hstep_ext dt dA c o h V E) He) as (d & Hd & _). eexists. split; [exact Hd|reflexivity]. }
  destruct S1 as (e1 & He1 & A1). destruct (IH _ e1 (valid_step dt dA c o h V) He1) as (e2 & He2 & A2). exists e2. split; [exact He2|congruence].
Qed.
(** #C79_derived# Every element made from an existing element [x] (x.create, zero,
    x + y, x - y, n * x, -x, x / n, x += y, x -= y, x.set_torsion) carries the
    attributes of [x], whatever its data are. *)
Lemma C79_derived_l {K A} `{PyKey K} (dt : Z) (dA : A) (c : pycls K) (h h' : heap) (i j k : nat) (d : dict K) (n : Z) (o : op) (x y z : elt K A) :
  view h i = Some x -> view h j = Some y ->
  In o [OCreate i d; OZero i; OAdd i j; OSub i j; OScale n i; ONeg i; ODiv i n; OIadd i j; OIsub i j; OSetTorsion i n] ->
  hstep dt dA c o h = (h', Ok k) -> view h' k = Some z -> attr z = attr x.
Proof.
  intros Hx Hy Ho Es Hz. pose proof (C08_objects_compute_values_l dt dA c h i j x y d n Hx Hy) as Q. cbv zeta in Q. destruct Q as (Q1 & Q2 & Q3 & Q4 & Q5 & Q6 & Q7 & Q8 & Q9 & Q10).
  assert (G : forall r, match r with Ok z0 => exists h'0 k0, hstep dt dA c o h = (h'0, Ok k0) /\ view h'0 k0 = Some z0 | Err e => exists h'0, hstep dt dA c o h = (h'0, Err e) end ->
     (forall z0, r = Ok z0 -> attr z0 = attr x) -> attr z = attr x).
  { intros [z0|e] R1 R2; [|destruct R1 as (h0 & R1); rewrite R1 in Es; discriminate Es]. destruct R1 as (h0 & k0 & R1 & R3). rewrite R1 in Es. injection Es as -> ->. rewrite Hz in R3. injection R3 as ->. now apply R2. }
  assert (T : forall z0 : elt K A, (create dt c x d = Ok z0 -> attr z0 = attr x) /\ (zero dt c x = Ok z0 -> attr z0 = attr x) /\ (add dt c x y = Ok z0 -> attr z0 = attr x) /\ (sub dt c x y = Ok z0 -> attr z0 = attr x) /\
     (scale dt c n x = Ok z0 -> attr z0 = attr x) /\ (neg dt c x = Ok z0 -> attr z0 = attr x) /\ (truediv dt c x n = Ok z0 -> attr z0 = attr x) /\ (iadd c x y = Ok z0 -> attr z0 = attr x) /\ (isub c x y = Ok z0 -> attr z0 = attr x) /\ (set_torsion c x n = Ok z0 -> attr z0 = attr x)).
  { intros z0. repeat apply conj; intros E; unfold zero, add, sub, neg, scale, truediv, iadd, isub, set_torsion, create, bind in E;
      repeat match type of E with context [match ?b with _ => _ end] => destruct b; try discriminate E end; now injection E as <-. }
  cbn [In] in Ho. destruct Ho as [E0|[E0|[E0|[E0|[E0|[E0|[E0|[E0|[E0|[E0|[]]]]]]]]]]]; subst o.
  - eapply G; [exact Q1|intros z0; apply (T z0)].
  - eapply G; [exact Q2|intros z0; apply (T z0)].
  - eapply G; [exact Q3|intros z0; apply (T z0)].
  - eapply G; [exact Q4|intros z0; apply (T z0)].
  - eapply G; [exact Q5|intros z0; apply (T z0)].
  - eapply G; [exact Q6|intros z0; apply (T z0)].
  - eapply G; [exact Q7|intros z0; apply (T z0)].
  - eapply G; [exact Q8|intros z0; apply (T z0)].
  - eapply G; [exact Q9|intros z0; apply (T z0)].
  - eapply G; [exact Q10|intros z0; apply (T z0)].
Qed.
(** #C79_example# The attribute is not updated: for x = (0,1,2) - (0,1) built by the
    constructor the value is 2, and the element x.create({((0,),): 1}) shows 2 as well,
    while the element built directly from the same data shows 0; without vertices it is -1. *)
Example C79_example_l :
  let x := [([[0; 1; 2]], 1); ([[0; 1]], -1)] in
  let h := hrun 0 None cls_simplicial [ONew (dict_of x) None (simp_init_dimension (Some x) None); OCreate 0 [([[0]], 1)]] empty_heap in
  view h 0 = Some (mkElt x 0 (Some 2)) /\ view h 1 = Some (mkElt [([[0]], 1)] 0 (Some 2)) /\
  simp_init_dimension (Some [([[0]], 1)]) None = Some 0 /\ simp_init_dimension (Some [([], 1)]) None = Some (-1) /\ simp_init_dimension None None = None.
Proof. cbv zeta. repeat apply conj; vm_compute; reflexivity. Qed.
