(** * The sign of the action: [compute_sign] computes [action_exponent].  Proof library. *)
From Coq Require Import Setoid Morphisms Sorting.Sorted.
From Verif Require Import PyBase Dict FreeModule Symmetric Simplicial Utils Surjection Eqm Spec SpecChain SpecOperad SpecSurj SpecAction FreeModuleFacts FreeModuleLaws ListFacts
  ClassFacts LinearFacts Tensor SymmetricFacts CycleFacts SymmetricLaws UtilsLaws ActFacts.

Lemma pairsum_sorted {A} (R : A -> A -> Prop) (f g : A -> A -> Z) l : StronglySorted R l ->
  (forall a b, In a l -> In b l -> R a b -> f a b = g a b) -> pairsum f l = pairsum g l.
Proof.
  induction l as [|a l IH]; intros HS E; [reflexivity|]. inversion HS as [|? ? HS' HF]; subst. cbn [pairsum]. f_equal.
  - apply sumf_ext. intros b Hb. apply E; [now left|now right|]. rewrite Forall_forall in HF. auto.
  - apply IH; [exact HS'|]. intros; apply E; auto; now right.
Qed.
Definition lex (x y : Z * Z) : Prop := snd x < snd y \/ (snd x = snd y /\ fst x < fst y).
Lemma insert_pair_perm p l : Permutation (insert_pair p l) (p :: l).
Proof. induction l as [|q l IH]; [reflexivity|]. cbn [insert_pair]. destruct (snd p <=? snd q); [reflexivity|]. rewrite IH. apply perm_swap. Qed.
Lemma sort_pairs_perm l : Permutation (sort_pairs l) l.
Proof. induction l as [|p l IH]; [reflexivity|]. cbn [sort_pairs fold_right]. fold (sort_pairs l). rewrite insert_pair_perm. now rewrite IH. Qed.
Lemma insert_pair_sorted p l : StronglySorted lex l -> (forall q, In q l -> fst p < fst q) -> StronglySorted lex (insert_pair p l).
Proof.
  induction l as [|q l IH]; intros HS HF; cbn [insert_pair]; [now repeat constructor|]. inversion HS as [|? ? HS' HF']; subst. rewrite Forall_forall in HF'.
  destruct (Z.leb_spec (snd p) (snd q)) as [L|L].
  - constructor; [exact HS|]. apply Forall_forall. intros q' [<-|Hq'].
    + unfold lex. specialize (HF q (or_introl eq_refl)). lia.
    + specialize (HF' q' Hq'). specialize (HF q' (or_intror Hq')). unfold lex in *. lia.
  - constructor.
    + apply IH; [exact HS'|]. intros q' Hq'. apply HF. now right.
    + apply Forall_forall. intros q' Hq'. apply (Permutation_in _ (insert_pair_perm p l)) in Hq'. destruct Hq' as [<-|Hq']; [unfold lex; lia|auto].
Qed.
Lemma sort_pairs_sorted l : StronglySorted (fun x y => fst x < fst y) l -> StronglySorted lex (sort_pairs l).
Proof.
  induction l as [|p l IH]; intros HS; [constructor|]. inversion HS as [|? ? HS' HF]; subst. cbn [sort_pairs fold_right]. fold (sort_pairs l).
  apply insert_pair_sorted; [now apply IH|]. intros q Hq. apply (Permutation_in _ (sort_pairs_perm l)) in Hq. rewrite Forall_forall in HF. auto.
Qed.
Lemma enumerate_sorted (k : list Z) : StronglySorted (fun x y => fst x < fst y) (enumerate k).
Proof.
  induction k as [|a k IH]; [constructor|]. rewrite enumerate_cons. constructor.
  - remember (enumerate k) as e. clear Heqe. induction IH as [|x l HS IH HF]; constructor; auto. apply Forall_forall. intros y Hy. apply in_map_iff in Hy. destruct Hy as (z & <- & Hz).
    rewrite Forall_forall in HF. specialize (HF z Hz). cbn. lia.
  - apply Forall_forall. intros y Hy. apply in_map_iff in Hy. destruct Hy as ([i b] & <- & Hz). cbn. apply (in_map fst) in Hz. rewrite enumerate_fst in Hz. apply in_zrange in Hz. cbn in Hz. lia.
Qed.
Lemma zsort_pairs l : zsort (map snd l) = map snd (sort_pairs l).
Proof.
  induction l as [|p l IH]; [reflexivity|]. cbn [map zsort sort_pairs fold_right]. fold (zsort (map snd l)). fold (sort_pairs l). rewrite IH.
  generalize (sort_pairs l) as m. induction m as [|q m IHm]; [reflexivity|]. cbn [map insert_sorted insert_pair]. destruct (snd p <=? snd q); [reflexivity|]. cbn [map]. now rewrite IHm.
Qed.
(** an entry before another one has the smaller position *)
Lemma posn_sorted p : NoDup p -> StronglySorted (fun i j => posn p i < posn p j) p.
Proof.
  assert (G : forall l pre, NoDup (pre ++ l) -> StronglySorted (fun i j => posn (pre ++ l) i < posn (pre ++ l) j) l).
  { induction l as [|a l IH]; intros pre ND; [constructor|]. constructor.
    - replace (pre ++ a :: l) with ((pre ++ [a]) ++ l) in * by (now rewrite <- app_assoc). now apply IH.
    - apply Forall_forall. intros j Hj. apply in_split in Hj. destruct Hj as (m1 & m2 & ->). rewrite posn_app.
      + replace (pre ++ a :: m1 ++ j :: m2) with ((pre ++ a :: m1) ++ j :: m2) in * by (now rewrite <- app_assoc).
        rewrite posn_app; [rewrite zlen_app, zlen_cons; pose proof (zlen_nonneg m1); lia|]. apply NoDup_remove_2 in ND. intros H. apply ND, in_or_app. now left.
      + apply NoDup_remove_2 in ND. intros H. apply ND, in_or_app. now left. }
  intros ND. exact (G p [] ND).
Qed.
(** ** [ordering_sign] *)
Lemma ordering_ok p ws : NoDup p -> zlen ws = zlen p ->
  ordering_sign p ws = Ok (kinv p (fun j => znth 0 ws (posn p j - 1)) mod 2).
Proof.
  intros ND Lw. unfold ordering_sign. set (W := fun j => znth 0 ws (posn p j - 1)).
  rewrite (for_enum_splits p _ (fun l1 i l2 acc => acc + sumf (fun j => if j <? i then W i * W j else 0) l2)).
  - cbn [bind]. f_equal. f_equal. unfold kinv. rewrite <- splits_pairsum.
    assert (Q : forall (l : list (list Z * Z * list Z)) s, fold_left (fun s '(l1, i, l2) => s + sumf (fun j => if j <? i then W i * W j else 0) l2) l s =
       s + sumf (fun '(l1, i, l2) => sumf (fun j => if j <? i then W i * W j else 0) l2) l).
    { induction l as [|[[l1 i] l2] l IH]; intros s; cbn [fold_left]; rewrite ?sumf_nil, ?sumf_cons; [ring|]. rewrite IH. ring. }
    rewrite Q. ring.
  - intros l1 i l2 s E. replace (slice_from p (zlen l1 + 1)) with l2 by (rewrite E; now rewrite slice_from_app_S).
    rewrite (mapM_map _ W).
    + cbn [bind].
      assert (Ni : ~ In i l1). { rewrite E in ND. apply NoDup_remove_2 in ND. intros Hi. apply ND, in_or_app. now left. }
      assert (Ep : posn p i = zlen l1 + 1) by (rewrite E; now apply posn_app).
      replace (zlen l1) with (posn p i - 1) by lia.
      assert (Hi : In i p) by (rewrite E; apply in_or_app; right; now left). destruct (posn_index p i Hi) as (_ & H1 & _).
      rewrite (py_get_in 0) by lia. cbn [bind]. f_equal. f_equal. change (zsum (map W (filter (fun j => j <? i) l2))) with (sumf W (filter (fun j => j <? i) l2)).
      rewrite sumf_filter, <- sumf_scal. apply sumf_ext. intros j _. fold (W i). destruct (j <? i); ring.
    + intros j Hj. apply filter_In in Hj. destruct Hj as [Hj _].
      assert (Hj2 : In j p) by (rewrite E; apply in_or_app; right; now right). destruct (posn_index p j Hj2) as (-> & H1 & _). cbn [bind].
      apply py_get_in. lia.
Qed.
(** ** [action_sign] *)
Fixpoint R (acc : Z) (l : list (Z * Z)) : Z :=
  match l with
  | (a, v) :: (((b, w) :: _) as l') => (if a =? b then acc + v else 0) + R (acc + v) l'
  | _ => 0
  end.
Lemma R_code l : forall pre, sumf (fun p => if fst (snd p) =? snd (snd p) then zsum (slice_to (pre ++ map snd l) (zlen pre + fst p + 1)) else 0) (enumerate (pairwise (map fst l))) = R (zsum pre) l.
Proof.
  induction l as [|[a v] l IH]; intros pre; [reflexivity|]. destruct l as [|[b w] l]; [reflexivity|].
  cbn [map fst]. rewrite pairwise_cons, enumerate_cons, sumf_cons, sumf_map. cbn [fst snd].
  change (R (zsum pre) ((a, v) :: (b, w) :: l)) with ((if a =? b then zsum pre + v else 0) + R (zsum pre + v) ((b, w) :: l)).
  assert (Z1 : zsum (pre ++ [v]) = zsum pre + v).
  { clear. induction pre as [|c pre IH]; cbn [app zsum fold_right] in *; [ring|]. unfold zsum in *. cbn [fold_right]. lia. }
  f_equal.
  - destruct (a =? b); [|reflexivity]. cbn [map snd]. replace (pre ++ v :: w :: map snd l) with ((pre ++ [v]) ++ w :: map snd l) by (now rewrite <- app_assoc).
    replace (zlen pre + 0 + 1) with (zlen (pre ++ [v])) by (rewrite zlen_app, zlen_cons, zlen_nil; ring). rewrite slice_to_app. exact Z1.
  - pose proof (IH (pre ++ [v])) as E. rewrite Z1 in E. rewrite <- E. cbn [map fst]. apply sumf_ext. intros [i [c d]] _. cbn [fst snd]. rewrite <- app_assoc. cbn [map snd app].
    destruct (c =? d); [|reflexivity]. do 2 f_equal. rewrite (zlen_app pre [v]), (zlen_cons v []), zlen_nil. ring.
Qed.
Lemma R_climb r l : forall a v acc, StronglySorted (fun x y => fst x <= fst y) ((a, v) :: l) -> (forall c, a <= c <= r <-> In c (map fst ((a, v) :: l))) ->
  R acc ((a, v) :: l) = acc * (zlen l - (r - a)) + pairsum (fun x _ => snd x) ((a, v) :: l) - sumf (fun x => snd x * (r - fst x)) ((a, v) :: l).
Proof.
  induction l as [|[b w] l IH]; intros a v acc HS HC.
  - assert (a = r). { assert (In a (map fst [(a, v)])) by now left. apply HC in H. assert (In r (map fst [(a, v)])) by (apply HC; lia). destruct H0 as [H0|[]]. cbn in H0. lia. }
    subst. cbn [R pairsum]. rewrite sumf_cons, !sumf_nil. change (zlen (@nil (Z * Z))) with 0. cbn [fst snd]. ring.
  - change (R acc ((a, v) :: (b, w) :: l)) with ((if a =? b then acc + v else 0) + R (acc + v) ((b, w) :: l)). inversion HS as [|? ? HS' HF]; subst. rewrite Forall_forall in HF. assert (Hab : a <= b) by exact (HF (b, w) (or_introl eq_refl)).
    assert (Hbmin : forall c, In c (map fst ((b, w) :: l)) -> b <= c).
    { intros c Hc. apply in_map_iff in Hc. destruct Hc as (q & <- & Hq). inversion HS' as [|? ? _ HF']; subst. rewrite Forall_forall in HF'. destruct Hq as [<-|Hq]; [cbn; lia|]. exact (HF' q Hq). }
    change (pairsum (fun x _ : Z * Z => snd x) ((a, v) :: (b, w) :: l)) with (sumf (fun _ => v) ((b, w) :: l) + pairsum (fun x _ : Z * Z => snd x) ((b, w) :: l)).
    rewrite (sumf_cons _ (a, v)). cbn [fst snd].
    assert (E : sumf (fun _ : Z * Z => v) ((b, w) :: l) = v * zlen ((b, w) :: l)) by (rewrite <- sumf_1, <- sumf_scal; apply sumf_ext; intros; ring).
    rewrite E, (zlen_cons (b, w)). destruct (Z.eqb_spec a b) as [<-|N].
    + rewrite (IH a w (acc + v)); [ring|exact HS'|]. intros c. rewrite HC. cbn [map fst In]. tauto.
    + assert (b = a + 1).
      { assert (Hr : b <= r) by (apply HC; right; now left). assert (H1 : In (a + 1) (map fst ((a, v) :: (b, w) :: l))) by (apply HC; lia).
        destruct H1 as [H1|H1]; [cbn in H1; lia|]. specialize (Hbmin _ H1). lia. }
      subst b. rewrite (IH (a + 1) w (acc + v)); [ring|exact HS'|]. intros c. split.
      * intros Hc. assert (H1 : In c (map fst ((a, v) :: (a + 1, w) :: l))) by (apply HC; lia). destruct H1 as [H1|H1]; [cbn in H1; lia|exact H1].
      * intros Hc. pose proof (Hbmin c Hc). assert (H1 : a <= c <= r) by (apply HC; now right). lia.
Qed.
Lemma posn_map_inj (f : Z -> Z) l i : (forall a, In a l -> f a = f i -> a = i) -> In i l -> posn (map f l) (f i) = posn l i.
Proof.
  induction l as [|a l IH]; intros HI Hi; [destruct Hi|]. cbn [map posn]. destruct (Z.eqb_spec (f a) (f i)) as [E|N].
  - rewrite (HI a (or_introl eq_refl) E), Z.eqb_refl. reflexivity.
  - destruct (Z.eqb_spec a i) as [->|_]; [congruence|]. rewrite IH; [reflexivity|intros; apply HI; [now right|assumption]|]. destruct Hi as [->|Hi]; [congruence|exact Hi].
Qed.
Lemma posn_zrange0 n i : 0 <= i < n -> posn (zrange 0 n) i = i + 1.
Proof.
  intros Hi. rewrite (zrange_split 0 n i) by lia. rewrite posn_app; [rewrite zlen_zrange; lia|]. rewrite in_zrange. lia.
Qed.
Lemma zrange_sorted a b : StronglySorted Z.lt (zrange a b).
Proof.
  unfold zrange. generalize (Z.to_nat (b - a)) as n. intros n. revert a. induction n as [|n IH]; intros a; [constructor|]. cbn [seq map].
  constructor.
  - specialize (IH (a + 1)). rewrite <- seq_shift, map_map. erewrite map_ext; [exact IH|]. intros j. cbn. lia.
  - apply Forall_forall. intros x Hx. apply in_map_iff in Hx. destruct Hx as (j & <- & Hj). apply in_seq in Hj. lia.
Qed.
Lemma aex_pairsum r l : action_exponent r l = sumf (fun p => snd p * (r - fst p)) l + pairsum (fun x y => if fst y <? fst x then snd x * snd y + snd y else snd x) l.
Proof.
  induction l as [|[a v] l IH]; [reflexivity|]. rewrite aex_cons, IH, sumf_cons. cbn [pairsum fst snd]. ring.
Qed.
Lemma combine_enum (k ws : list Z) : zlen ws = zlen k -> combine k ws = map (fun x => (snd x, znth 0 ws (fst x))) (enumerate k).
Proof.
  revert ws. induction k as [|a k IH]; intros [|w ws] E; try reflexivity; try (rewrite zlen_cons in E; pose proof (zlen_nonneg k); change (zlen (@nil Z)) with 0 in E; lia).
  rewrite !zlen_cons in E. rewrite enumerate_cons. cbn [combine map fst snd]. f_equal. rewrite (IH ws) by lia. rewrite map_map. apply map_ext_in. intros [i b] Hi. cbn [fst snd]. f_equal.
  apply (in_map fst) in Hi. rewrite enumerate_fst, in_zrange in Hi. cbn in Hi. unfold znth. replace (Z.to_nat (i + 1)) with (Datatypes.S (Z.to_nat i)) by lia. reflexivity.
Qed.
Lemma compute_sign_ok r k ws : onto r k -> zlen ws = zlen k -> compute_sign k ws = Ok (sgn (action_exponent r (combine k ws))).
Proof.
  intros Ho Lw. unfold compute_sign. set (Q := sort_pairs (enumerate k)). set (inv := map fst Q). set (N := zlen k). set (W := fun i => znth 0 ws i).
  assert (HP : Permutation Q (enumerate k)) by apply sort_pairs_perm.
  assert (HS : StronglySorted lex Q) by apply sort_pairs_sorted, enumerate_sorted.
  assert (HPi : Permutation inv (zrange 0 N)). { unfold inv, N. rewrite <- enumerate_fst. now apply Permutation_map. }
  assert (NDi : NoDup inv) by (eapply Permutation_NoDup; [symmetry; exact HPi|apply NoDup_zrange]).
  assert (N0 : 0 <= N) by apply zlen_nonneg.
  assert (Li : zlen inv = N). { unfold zlen at 1. rewrite (Permutation_length HPi). fold (zlen (zrange 0 N)). rewrite zlen_zrange. lia. }
  assert (Hin : forall i, In i inv <-> 0 <= i < N). { intros i. rewrite <- in_zrange. split; apply Permutation_in; [exact HPi|now symmetry]. }
  set (rank := fun i => posn inv i - 1). set (permu := map rank (zrange 0 N)).
  assert (Hinj : forall a i, In a inv -> In i inv -> rank a = rank i -> a = i).
  { intros a i Ha Hi E. destruct (posn_index inv a Ha) as (_ & _ & Ea). destruct (posn_index inv i Hi) as (_ & _ & Ei). unfold rank in E. rewrite <- Ea, <- Ei. f_equal. lia. }
  assert (NDp : NoDup permu).
  { unfold permu. apply NoDup_map_inj; [|apply NoDup_zrange]. intros a b Ha Hb. rewrite in_zrange in Ha, Hb. apply Hinj; now apply Hin. }
  rewrite Li, (mapM_map _ rank); [|intros i Hi; rewrite in_zrange in Hi; apply Hin in Hi; destruct (posn_index inv i Hi) as (-> & _ & _); reflexivity].
  cbn [bind]. fold permu. rewrite (ordering_ok permu ws NDp); [|unfold permu; rewrite zlen_map, zlen_zrange, Lw; lia]. cbn [bind].
  rewrite (mapM_map _ W); [|intros i Hi; apply Hin in Hi; apply py_get_in; rewrite Lw; exact Hi]. cbn [bind]. f_equal.
  set (V := fun j => znth 0 ws (posn permu j - 1)).
  assert (VE : forall i, 0 <= i < N -> V (rank i) = W i).
  { intros i Hi. unfold V, permu. rewrite posn_map_inj; [rewrite posn_zrange0 by exact Hi; unfold W; f_equal; lia| |now apply in_zrange].
    intros a Ha. rewrite in_zrange in Ha. apply Hinj; now apply Hin. }
  assert (E1 : kinv permu V = pairsum (fun x y => if snd y <? snd x then W (fst x) * W (fst y) else 0) (enumerate k)).
  { unfold kinv, permu. rewrite pairsum_map.
    rewrite (pairsum_sorted Z.lt _ (fun i j => if ((i <? j) && (rank j <? rank i)) || ((j <? i) && (rank i <? rank j)) then W i * W j else 0) _ (zrange_sorted 0 N)).
    2:{ intros i j Hi Hj Hij. rewrite in_zrange in Hi, Hj. rewrite !VE by assumption. replace (i <? j) with true by (symmetry; now apply Z.ltb_lt). replace (j <? i) with false by (symmetry; apply Z.ltb_ge; lia).
        cbn [andb orb]. now rewrite orb_false_r. }
    rewrite <- (pairsum_perm _ inv (zrange 0 N)); [| |exact HPi].
    2:{ intros a b. destruct (Z.ltb_spec a b), (Z.ltb_spec b a), (Z.ltb_spec (rank a) (rank b)), (Z.ltb_spec (rank b) (rank a)); cbn [andb orb]; try lia; ring. }
    rewrite (pairsum_sorted _ _ (fun i j => if j <? i then W i * W j else 0) _ (posn_sorted inv NDi)).
    2:{ intros i j Hi Hj Hij. unfold rank. replace (posn inv j - 1 <? posn inv i - 1) with false by (symmetry; apply Z.ltb_ge; lia). replace (posn inv i - 1 <? posn inv j - 1) with true by (symmetry; apply Z.ltb_lt; lia).
        now rewrite andb_false_r, andb_true_r. }
    unfold inv. rewrite pairsum_map.
    rewrite (pairsum_sorted _ _ (fun x y => if ((fst y <? fst x) && (snd x <? snd y)) || ((fst x <? fst y) && (snd y <? snd x)) then W (fst x) * W (fst y) else 0) _ HS).
    2:{ intros [i a] [j b] _ _ L. unfold lex in L. cbn [fst snd] in *. destruct (Z.ltb_spec j i), (Z.ltb_spec i j), (Z.ltb_spec a b), (Z.ltb_spec b a); cbn [andb orb]; try lia; ring. }
    rewrite (pairsum_perm _ Q (enumerate k)); [| |exact HP].
    2:{ intros [i a] [j b]. cbn [fst snd]. destruct (Z.ltb_spec j i), (Z.ltb_spec i j), (Z.ltb_spec a b), (Z.ltb_spec b a); cbn [andb orb]; try lia; ring. }
    apply (pairsum_sorted _ _ _ _ (enumerate_sorted k)). intros [i a] [j b] _ _ L. cbn [fst snd] in *.
    replace (j <? i) with false by (symmetry; apply Z.ltb_ge; lia). replace (i <? j) with true by (symmetry; now apply Z.ltb_lt). reflexivity. }
  set (Qa := map (fun x => (snd x, W (fst x))) Q).
  assert (E2 : exists z, action_sign (zsort k) (map W inv) = (pairsum (fun x y => if snd y <? snd x then W (fst y) else W (fst x)) (enumerate k) + sumf (fun x => W (fst x) * (r - snd x)) (enumerate k) + 2 * z) mod 2).
  { unfold action_sign.
    assert (EA : zsort k = map fst Qa). { unfold Qa. rewrite map_map. cbn [fst]. change (zsort k = map snd Q). unfold Q. rewrite <- zsort_pairs, enumerate_snd. reflexivity. }
    assert (EB : map W inv = map snd Qa). { unfold Qa, inv. rewrite !map_map. reflexivity. }
    rewrite EA, EB. pose proof (R_code Qa []) as ER. change (zsum []) with 0 in ER. cbn [app] in ER.
    change (zsum (map (fun '(idx, (i, j)) => if i =? j then zsum (slice_to (map snd Qa) (idx + 1)) else 0) (enumerate (pairwise (map fst Qa))))) with
      (sumf (fun '(idx, (i, j)) => if i =? j then zsum (slice_to (map snd Qa) (idx + 1)) else 0) (enumerate (pairwise (map fst Qa)))).
    erewrite sumf_ext; [rewrite ER|intros [idx [i j]] _; cbn [fst snd]; change (zlen (@nil Z)) with 0; rewrite Z.add_0_l; reflexivity].
    assert (ER2 : R 0 Qa = pairsum (fun x _ => snd x) Qa - sumf (fun x => snd x * (r - fst x)) Qa).
    { assert (HSa : StronglySorted (fun x y => fst x <= fst y) Qa).
      { unfold Qa. clear -HS. induction HS as [|x l HS IH HF]; [constructor|]. cbn [map]. constructor; [exact IH|]. rewrite Forall_forall in *. intros y Hy. apply in_map_iff in Hy. destruct Hy as (z & <- & Hz).
        specialize (HF z Hz). unfold lex in HF. cbn [fst]. lia. }
      assert (HC : forall c, 1 <= c <= r <-> In c (map fst Qa)).
      { intros c. rewrite <- EA. rewrite <- (Ho c). split; apply Permutation_in; [symmetry|]; apply zsort_perm. }
      clearbody Qa. destruct Qa as [|[a v] Qa']; [reflexivity|].
      assert (a = 1).
      { assert (H1 : 1 <= a <= r) by (apply HC; now left). assert (H2 : In 1 (map fst ((a, v) :: Qa'))) by (apply HC; lia). destruct H2 as [H2|H2]; [exact H2|].
        apply in_map_iff in H2. destruct H2 as (q & Eq & Hq). inversion HSa as [|? ? _ HF]; subst. rewrite Forall_forall in HF. specialize (HF q Hq). cbn [fst] in HF. lia. }
      subst a. rewrite (R_climb r Qa' 1 v 0 HSa HC). ring. }
    rewrite ER2. unfold Qa. rewrite pairsum_map, sumf_map. cbn [fst snd].
    rewrite (pairsum_sorted _ _ (fun x y => if (snd x <? snd y) || ((snd x =? snd y) && (fst x <? fst y)) then W (fst x) else if (snd y <? snd x) || ((snd x =? snd y) && (fst y <? fst x)) then W (fst y) else 0) _ HS).
    2:{ intros [i a] [j b] _ _ L. unfold lex in L. cbn [fst snd] in *. destruct (Z.ltb_spec i j), (Z.ltb_spec a b), (Z.eqb_spec a b); cbn [andb orb]; try lia; reflexivity. }
    rewrite (pairsum_perm _ Q (enumerate k)); [| |exact HP].
    2:{ intros [i a] [j b]. cbn [fst snd]. rewrite (Z.eqb_sym b a). destruct (Z.ltb_spec j i), (Z.ltb_spec i j), (Z.ltb_spec a b), (Z.ltb_spec b a), (Z.eqb_spec a b); cbn [andb orb]; try lia; reflexivity. }
    rewrite (sumf_perm _ _ _ HP). 
    rewrite (pairsum_sorted _ _ (fun x y => if snd y <? snd x then W (fst y) else W (fst x)) _ (enumerate_sorted k)).
    2:{ intros [i a] [j b] _ _ L. cbn [fst snd] in *. destruct (Z.ltb_spec j i), (Z.ltb_spec i j), (Z.ltb_spec a b), (Z.ltb_spec b a), (Z.eqb_spec a b); cbn [andb orb]; try lia; reflexivity. }
    exists (- sumf (fun x => W (fst x) * (r - snd x)) (enumerate k)). f_equal. ring. }
  destruct E2 as [z E2]. rewrite E2. rewrite sgn_add, !sgn_mod2, E1, <- sgn_add.
  rewrite aex_pairsum, (combine_enum k ws Lw), sumf_map, pairsum_map. fold W. cbn [fst snd].
  rewrite (pairsum_ext (fun a b => if snd b <? snd a then W (fst a) * W (fst b) + W (fst b) else W (fst a))
    (fun a b => (if snd b <? snd a then W (fst a) * W (fst b) else 0) + (if snd b <? snd a then W (fst b) else W (fst a)))) by (intros a b _ _; destruct (snd b <? snd a); ring).
  rewrite pairsum_add. apply sgn_ext. change (sumf (fun a : Z * Z => znth 0 ws (fst a) * (r - snd a)) (enumerate k)) with (sumf (fun x : Z * Z => W (fst x) * (r - snd x)) (enumerate k)).
  match goal with |- Z.even ?a = Z.even ?b => replace a with (b + 2 * z) by ring end. rewrite Z.even_add_mul_2. reflexivity.
Qed.
Lemma aex_par r l l' : map fst l = map fst l' -> map (fun x => snd x mod 2) l = map (fun x => snd x mod 2) l' -> sgn (action_exponent r l) = sgn (action_exponent r l').
Proof.
  intros E1 E2. apply sgn_eqm. revert l' E1 E2. induction l as [|[a v] l IH]; intros [|[a' v'] l'] E1 E2; try discriminate; [reflexivity|].
  cbn [map fst snd] in E1, E2. injection E1 as <- E1. injection E2 as E2 E3. rewrite !aex_cons.
  assert (Ev : eqm 2 v v') by (rewrite <- (eqm_mod 2 v), <- (eqm_mod 2 v') by lia; now rewrite E2). 
  apply eqm_add; [|now apply IH]. apply eqm_add; [now rewrite Ev|].
  clear IH. revert l' E1 E3. induction l as [|[b w] l IH]; intros [|[b' w'] l'] E1 E3; try discriminate; [reflexivity|].
  cbn [map fst snd] in E1, E3. injection E1 as <- E1. injection E3 as E3 E4. rewrite !sumf_cons. cbn [fst snd].
  assert (Ew : eqm 2 w w') by (rewrite <- (eqm_mod 2 w), <- (eqm_mod 2 w') by lia; now rewrite E3).
  apply eqm_add; [|now apply IH]. destruct (b <? a); [|exact Ev]. now rewrite Ev, Ew.
Qed.
