(** * Permutations: proof library for Symmetric.v *)
From Coq Require Import Setoid Morphisms.
From Verif Require Import PyBase Dict FreeModule Symmetric Eqm Spec FreeModuleFacts FreeModuleLaws ListFacts ClassFacts.

Lemma perm_in n p i : perm n p -> (In i p <-> 1 <= i <= n).
Proof.
  intros H. split.
  - intros Hi. apply (Permutation_in _ H) in Hi. apply in_zrange in Hi. lia.
  - intros Hi. apply (Permutation_in i (Permutation_sym H)). apply in_zrange. lia.
Qed.
Lemma perm_len n p : 0 <= n -> perm n p -> zlen p = n.
Proof. intros Hn H. unfold zlen. rewrite (Permutation_length H), zrange_length. lia. Qed.
Lemma perm_nodup n p : perm n p -> NoDup p.
Proof. intros H. apply (Permutation_NoDup (Permutation_sym H)), NoDup_zrange. Qed.
Lemma perm_id n : perm n (zrange 1 (n + 1)). Proof. apply Permutation_refl. Qed.
Lemma perm_max n p : 1 <= n -> perm n p -> py_max p = Ok n.
Proof. intros Hn H. rewrite (py_max_perm _ _ H). now apply py_max_zrange. Qed.

Lemma image_get p i : 1 <= i <= zlen p -> py_get p (i - 1) = Ok (image p i).
Proof. intros H. now rewrite (py_get_in 0) by lia. Qed.
Lemma image_in p i : 1 <= i <= zlen p -> In (image p i) p.
Proof. intros H. unfold image. apply nth_In. unfold zlen in H. lia. Qed.
Lemma image_range n p i : perm n p -> 1 <= i <= n -> 1 <= image p i <= n.
Proof. intros H Hi. apply (perm_in n p _ H). apply image_in. rewrite (perm_len n); auto; lia. Qed.
Lemma image_zrange n i : 1 <= i <= n -> image (zrange 1 (n + 1)) i = i.
Proof.
  intros Hi. unfold image. rewrite nth_indep with (d' := 1 + Z.of_nat 0) by (rewrite zrange_length; lia).
  unfold zrange. rewrite (map_nth (fun k => 1 + Z.of_nat k)), seq_nth by lia. lia.
Qed.
Lemma image_map f p i : 1 <= i <= zlen p -> image (map f p) i = f (image p i).
Proof.
  intros Hi. unfold image. rewrite nth_indep with (d' := f 0) by (rewrite map_length; unfold zlen in Hi; lia).
  apply map_nth.
Qed.
Lemma map_image_id p : map (image p) (zrange 1 (zlen p + 1)) = p.
Proof.
  unfold zrange. rewrite map_map. replace (Z.to_nat (zlen p + 1 - 1)) with (length p) by (unfold zlen; lia).
  transitivity (map (fun x => nth x p 0) (seq 0 (length p))).
  - apply map_ext. intros k. unfold image. f_equal. lia.
  - induction p as [|a p IH]; [reflexivity|]. cbn [length seq map]. f_equal. rewrite <- seq_shift, map_map. exact IH.
Qed.
Lemma perm_map_image n p : 0 <= n -> perm n p -> map (image p) (zrange 1 (n + 1)) = p.
Proof. intros Hn H. pose proof (map_image_id p) as E. now rewrite (perm_len n p Hn H) in E. Qed.
Lemma list_image_ext p q : length p = length q -> (forall i, 1 <= i <= zlen p -> image p i = image q i) -> p = q.
Proof.
  intros HL H. rewrite <- (map_image_id p), <- (map_image_id q). unfold zlen in *. rewrite <- HL.
  apply map_ext_in. intros i Hi. apply in_zrange in Hi. apply H. lia.
Qed.
Lemma image_inj n p i j : perm n p -> 1 <= i <= n -> 1 <= j <= n -> image p i = image p j -> i = j.
Proof.
  intros H Hi Hj E. pose proof (perm_nodup _ _ H) as ND. pose proof (perm_len n p ltac:(lia) H) as L.
  unfold image in E. rewrite NoDup_nth in ND. apply ND in E; unfold zlen in L; lia.
Qed.
Lemma image_surj n p v : perm n p -> 1 <= v <= n -> exists i, 1 <= i <= n /\ image p i = v.
Proof.
  intros H Hv. apply (perm_in n p v H) in Hv. pose proof H as H'.
  assert (0 <= n). { apply (perm_in n p v H') in Hv. lia. }
  rewrite <- (perm_map_image n p) in Hv by auto. apply in_map_iff in Hv. destruct Hv as (i & E & Hi).
  apply in_zrange in Hi. exists i. split; [lia|exact E].
Qed.

(** product of permutations *)
Definition pmul (a b : list Z) : list Z := map (image a) b.
Lemma perm_pmul n a b : 0 <= n -> perm n a -> perm n b -> perm n (pmul a b).
Proof.
  intros Hn Ha Hb. unfold perm, pmul. rewrite (Permutation_map (image a) Hb).
  rewrite (perm_map_image n a Hn Ha). exact Ha.
Qed.
Lemma gets_pmul n a b : perm n a -> (forall i, In i b -> 1 <= i <= n) ->
  mapM (fun i => py_get a (i - 1)) b = Ok (pmul a b).
Proof.
  intros Ha Hb. apply mapM_map. intros i Hi. apply Hb in Hi. apply image_get. rewrite (perm_len n); auto; lia.
Qed.
Lemma sg_mul_ok n a b : 1 <= n -> perm n a -> perm n b -> sg_mul a b = Ok (pmul a b).
Proof.
  intros Hn Ha Hb. unfold sg_mul, sg_arity. rewrite (perm_max n a), (perm_max n b) by auto. cbn.
  rewrite Z.eqb_refl. cbn. apply (gets_pmul n); auto. intros i Hi. now apply (perm_in n b).
Qed.
Lemma image_pmul n a b i : perm n b -> 1 <= i <= n -> image (pmul a b) i = image a (image b i).
Proof. intros Hb Hi. apply image_map. rewrite (perm_len n); auto; lia. Qed.
Lemma pmul_assoc n a b c : perm n b -> perm n c -> pmul (pmul a b) c = pmul a (pmul b c).
Proof.
  intros Hb Hc. unfold pmul at 1 3 4. rewrite map_map. apply map_ext_in. intros i Hi.
  apply (image_pmul n); auto. now apply (perm_in n c).
Qed.
Lemma pmul_id_l n a : perm n a -> pmul (zrange 1 (n + 1)) a = a.
Proof.
  intros Ha. unfold pmul. rewrite <- (map_id a) at 2. apply map_ext_in. intros i Hi. apply image_zrange. now apply (perm_in n a).
Qed.
Lemma pmul_id_r n a : 0 <= n -> perm n a -> pmul a (zrange 1 (n + 1)) = a.
Proof. intros. now apply perm_map_image. Qed.

(** inverse *)
Fixpoint posn (l : list Z) (v : Z) : Z :=
  match l with
  | [] => 0
  | a :: l' => if a =? v then 1 else posn l' v + 1
  end.
Lemma posn_index l v : In v l -> py_index l v = Ok (posn l v - 1) /\ 1 <= posn l v <= zlen l /\ image l (posn l v) = v.
Proof.
  intros H. unfold py_index.
  assert (G : forall k, index_from l v k = Ok (k + posn l v - 1) /\ 1 <= posn l v <= zlen l /\ image l (posn l v) = v).
  { induction l as [|a l IH]; [destruct H|]. intros k. cbn [index_from posn]. rewrite zlen_cons. pose proof (zlen_nonneg l).
    destruct (Z.eqb_spec a v) as [->|N].
    - split; [f_equal; lia|]. split; [lia|]. reflexivity.
    - destruct H as [H|H]; [congruence|]. destruct (IH H (k + 1)) as (E1 & E2 & E3). split; [rewrite E1; f_equal; lia|].
      split; [lia|]. unfold image in *. replace (Z.to_nat (posn l v + 1 - 1)) with (S (Z.to_nat (posn l v - 1))) by lia.
      exact E3. }
  destruct (G 0) as (E1 & E2 & E3). split; [|auto]. rewrite E1. f_equal. 
Qed.
Definition pinv (a : list Z) : list Z := map (posn a) (zrange 1 (zlen a + 1)).
Lemma index_pinv n a : 0 <= n -> perm n a ->
  mapM (fun i => let! j := py_index a (i + 1) in Ok (j + 1)) (zrange 0 n) = Ok (pinv a).
Proof.
  intros Hn Ha. unfold pinv. rewrite (perm_len n a Hn Ha).
  replace (zrange 1 (n + 1)) with (map (fun x => x + 1) (zrange 0 n)) by now rewrite <- zrange_shift.
  rewrite map_map. apply mapM_map. intros i Hi. apply in_zrange in Hi.
  assert (In (i + 1) a) by (apply (perm_in n a); auto; lia). destruct (posn_index _ _ H) as [-> _]. cbn. f_equal. lia.
Qed.
Lemma posn_image n a i : perm n a -> 1 <= i <= n -> posn a (image a i) = i.
Proof.
  intros Ha Hi. assert (HI : In (image a i) a) by (apply image_in; rewrite (perm_len n a); auto; lia).
  destruct (posn_index _ _ HI) as (_ & H1 & H2). rewrite (perm_len n a) in H1 by (auto; lia).
  eapply (image_inj n); eauto.
Qed.
Lemma pinv_l n a : 0 <= n -> perm n a -> pmul (pinv a) a = zrange 1 (n + 1).
Proof.
  intros Hn Ha. rewrite <- (perm_map_image n a Hn Ha) at 2. unfold pmul. rewrite map_map.
  rewrite <- (map_id (zrange 1 (n + 1))) at 2. apply map_ext_in. intros i Hi. apply in_zrange in Hi.
  pose proof (image_range n a i Ha ltac:(lia)) as R.
  unfold pinv. rewrite (perm_len n a Hn Ha). rewrite image_map by (rewrite zlen_zrange; lia).
  rewrite image_zrange by lia. apply (posn_image n); auto; lia.
Qed.
Lemma pinv_r n a : 0 <= n -> perm n a -> pmul a (pinv a) = zrange 1 (n + 1).
Proof.
  intros Hn Ha. unfold pmul, pinv. rewrite (perm_len n a Hn Ha), map_map. rewrite <- (map_id (zrange 1 (n + 1))) at 2.
  apply map_ext_in. intros i Hi. apply in_zrange in Hi. apply posn_index. apply (perm_in n a); auto; lia.
Qed.
Lemma perm_of_incl n p : 0 <= n -> zlen p = n -> (forall i, 1 <= i <= n -> In i p) -> perm n p.
Proof.
  intros Hn L H. apply Permutation_sym, NoDup_Permutation_bis.
  - apply NoDup_zrange.
  - rewrite zrange_length. unfold zlen in L. lia.
  - intros i Hi. apply in_zrange in Hi. apply H. lia.
Qed.
Lemma perm_of_nodup n p : 0 <= n -> zlen p = n -> NoDup p -> (forall i, In i p -> 1 <= i <= n) -> perm n p.
Proof.
  intros Hn L ND H. apply NoDup_Permutation_bis; auto.
  - rewrite zrange_length. unfold zlen in L. lia.
  - intros i Hi. apply in_zrange. apply H in Hi. lia.
Qed.
Lemma perm_pinv n a : 0 <= n -> perm n a -> perm n (pinv a).
Proof.
  intros Hn Ha. apply perm_of_incl; auto.
  - unfold pinv. rewrite zlen_map, zlen_zrange, (perm_len n a); auto. lia.
  - intros i Hi. unfold pinv. rewrite (perm_len n a Hn Ha). apply in_map_iff. exists (image a i).
    split; [now apply (posn_image n)|]. apply in_zrange. pose proof (image_range n a i Ha Hi). lia.
Qed.
Lemma sg_inverse_ok n a : 1 <= n -> perm n a -> sg_inverse a = Ok (pinv a).
Proof. intros Hn Ha. unfold sg_inverse, sg_arity. rewrite (perm_max n a) by auto. cbn. apply index_pinv; auto; lia. Qed.
Lemma pmul_cancel_l n a b c : 0 <= n -> perm n a -> perm n b -> perm n c -> pmul a b = pmul a c -> b = c.
Proof.
  intros Hn Ha Hb Hc E. rewrite <- (pmul_id_l n b Hb), <- (pmul_id_l n c Hc), <- (pinv_l n a Hn Ha).
  rewrite !(pmul_assoc n) by auto. now rewrite E.
Qed.

(** powers *)
Fixpoint ppow (n : Z) (a : list Z) (m : nat) : list Z :=
  match m with O => zrange 1 (n + 1) | S m' => pmul (ppow n a m') a end.
Lemma perm_ppow n a m : 0 <= n -> perm n a -> perm n (ppow n a m).
Proof. intros Hn Ha. induction m; cbn; [apply perm_id|]. now apply perm_pmul. Qed.
Lemma ppow_1 n a : perm n a -> ppow n a 1 = a.
Proof. intros Ha. cbn. now apply pmul_id_l. Qed.
Lemma ppow_add n a k m : 0 <= n -> perm n a -> ppow n a (k + m) = pmul (ppow n a k) (ppow n a m).
Proof.
  intros Hn Ha. induction m as [|m IH].
  - rewrite Nat.add_0_r. cbn. symmetry. apply pmul_id_r; auto. now apply perm_ppow.
  - rewrite Nat.add_succ_r. cbn. rewrite IH. apply (pmul_assoc n); auto. now apply perm_ppow.
Qed.
Lemma sg_pow_ok n a m : 1 <= n -> perm n a -> 0 <= m -> sg_pow a m = Ok (ppow n a (Z.to_nat m)).
Proof.
  intros Hn Ha Hm. unfold sg_pow. destruct (Z.eqb_spec m 0) as [->|N].
  - rewrite (perm_max n a) by auto. reflexivity.
  - assert (G : forall k s j, perm n s -> for_ (zrange j (j + Z.of_nat k)) s (fun answer _ => sg_mul answer a) = Ok (fold_left (fun x _ => pmul x a) (repeat tt k) s)).
    { induction k as [|k IH]; intros s j Hs.
      - rewrite zrange_nil by lia. reflexivity.
      - rewrite zrange_cons by lia. cbn [for_ repeat fold_left]. rewrite (sg_mul_ok n) by auto. cbn [bind].
        replace (j + Z.of_nat (S k)) with ((j + 1) + Z.of_nat k) by lia. apply IH. apply perm_pmul; auto; lia. }
    replace (m - 1) with (0 + Z.of_nat (Z.to_nat (m - 1))) by lia. rewrite G by auto. f_equal.
    replace (Z.to_nat m) with (1 + Z.to_nat (m - 1))%nat by lia. rewrite ppow_add, ppow_1 by (auto; lia).
    assert (G2 : forall k s, perm n s -> forall a, perm n a -> fold_left (fun x _ => pmul x a) (repeat tt k) s = pmul s (ppow n a k)).
    { clear G. clear dependent m. clear a Ha. induction k as [|k IH]; intros s Hs a Ha; cbn [repeat fold_left].
      - cbn. symmetry. apply pmul_id_r; auto; lia.
      - rewrite IH; auto; [|apply perm_pmul; auto; lia]. rewrite (pmul_assoc n); auto; [|apply perm_ppow; auto; lia].
        f_equal. change (S k) with (1 + k)%nat. rewrite ppow_add, ppow_1 by (auto; lia). reflexivity. }
    now apply G2.
Qed.

(** ** Inversions *)
Definition gtb (a b : Z) : Z := if b <? a then 1 else 0.
Lemma inversions_pairsum l : inversions l = pairsum gtb l.
Proof.
  induction l as [|a l IH]; [reflexivity|]. cbn [inversions pairsum]. rewrite IH. f_equal.
  clear. induction l as [|b l IH]; [reflexivity|]. rewrite sumf_cons. cbn [filter]. unfold gtb at 1.
  destruct (b <? a); rewrite ?zlen_cons, IH; lia.
Qed.
Definition psgn (l : list Z) : Z := sgn (inversions l).
Lemma psgn_sq l : psgn l * psgn l = 1. Proof. apply sgn_sq. Qed.

(** xor-difference of order, symmetric *)
Definition ordx (f : Z -> Z) (x y : Z) : Z := if Bool.eqb (x <? y) (f x <? f y) then 0 else 1.
Lemma ordx_sym f x y : x <> y -> f x <> f y -> ordx f x y = ordx f y x.
Proof. intros H1 H2. unfold ordx. destruct (Z.ltb_spec x y), (Z.ltb_spec y x), (Z.ltb_spec (f x) (f y)), (Z.ltb_spec (f y) (f x)); cbn; try reflexivity; lia. Qed.
(** made symmetric everywhere *)
Definition ordx' f x y := if (x =? y) || (f x =? f y) then 0 else ordx f x y.
Lemma ordx'_sym f x y : ordx' f x y = ordx' f y x.
Proof.
  unfold ordx'. rewrite (Z.eqb_sym x y), (Z.eqb_sym (f x)). destruct (Z.eqb_spec y x); [reflexivity|]. cbn.
  destruct (Z.eqb_spec (f y) (f x)); [reflexivity|]. apply ordx_sym; congruence.
Qed.
Lemma psgn_pmul n a b : 0 <= n -> perm n a -> perm n b -> psgn (pmul a b) = psgn a * psgn b.
Proof.
  intros Hn Ha Hb. unfold psgn. rewrite <- sgn_add. apply sgn_eqm. rewrite !inversions_pairsum.
  assert (G : forall l, NoDup l -> (forall i, In i l -> 1 <= i <= n) ->
     eqm 2 (pairsum gtb (map (image a) l)) (pairsum gtb l + pairsum (ordx' (image a)) l)).
  { intros l ND Hl. rewrite pairsum_map, <- pairsum_add. apply pairsum_eqm_nodup; auto. intros x y Nxy Hx Hy.
    assert (image a x <> image a y) by (intros E; apply Nxy; apply (image_inj n a); auto).
    unfold gtb, ordx', ordx. destruct (Z.eqb_spec x y); [lia|]. destruct (Z.eqb_spec (image a x) (image a y)); [lia|].
    cbn. destruct (Z.ltb_spec y x), (Z.ltb_spec x y), (Z.ltb_spec (image a y) (image a x)), (Z.ltb_spec (image a x) (image a y)); cbn; try lia; try reflexivity; exists (-1); lia. }
  unfold pmul. rewrite G; [| eapply perm_nodup; eauto | intros i Hi; now apply (perm_in n b)].
  rewrite (pairsum_perm _ b (zrange 1 (n + 1)) (ordx'_sym _) Hb).
  rewrite <- (perm_map_image n a Hn Ha) at 2. rewrite G by (apply NoDup_zrange || (intros i Hi; apply in_zrange in Hi; lia)).
  assert (Z0 : pairsum gtb (zrange 1 (n + 1)) = 0).
  { assert (forall k j, pairsum gtb (zrange j (j + Z.of_nat k)) = 0) as Q.
    { induction k as [|k IH]; intros j; [rewrite zrange_nil by lia; reflexivity|].
      rewrite zrange_cons by lia. cbn [pairsum]. replace (j + Z.of_nat (S k)) with ((j + 1) + Z.of_nat k) by lia. rewrite IH.
      rewrite sumf_0; [reflexivity|]. intros i Hi. apply in_zrange in Hi. unfold gtb. destruct (Z.ltb_spec i j); lia. }
    replace (n + 1) with (1 + Z.of_nat (Z.to_nat n)) by lia. apply Q. }
  rewrite Z0. apply eqm_eq. ring.
Qed.
Lemma psgn_id n : 0 <= n -> psgn (zrange 1 (n + 1)) = 1.
Proof.
  intros Hn. pose proof (psgn_pmul n _ _ Hn (perm_id n) (perm_id n)) as E. rewrite pmul_id_l in E by apply perm_id.
  rewrite psgn_sq in E. exact E.
Qed.
Lemma psgn_swap l1 a l2 b l3 : NoDup (l1 ++ a :: l2 ++ b :: l3) ->
  psgn (l1 ++ b :: l2 ++ a :: l3) = - psgn (l1 ++ a :: l2 ++ b :: l3).
Proof.
  intros ND. unfold psgn. rewrite !inversions_pairsum, <- sgn_S. apply sgn_eqm.
  assert (Hab : a <> b /\ (forall x, In x l2 -> x <> a /\ x <> b)).
  { apply NoDup_remove in ND. destruct ND as [ND Hn]. rewrite in_app_iff in Hn. split.
    - intros ->. apply Hn. right. apply in_or_app. right. now left.
    - intros x Hx. split.
      + intros ->. apply Hn. right. apply in_or_app. now left.
      + intros ->. rewrite app_assoc in ND. apply NoDup_remove in ND. destruct ND as [_ Hn']. apply Hn'.
        apply in_or_app. left. apply in_or_app. now right. }
  destruct Hab as [Hab Hl2].
  rewrite !pairsum_app. cbn [pairsum]. rewrite !pairsum_app. cbn [pairsum]. rewrite !sumf_app, !sumf_cons.
  assert (Gab : gtb b a = 1 - gtb a b). { unfold gtb. destruct (Z.ltb_spec a b), (Z.ltb_spec b a); lia. }
  assert (Ea : sumf (gtb a) l2 = zlen l2 - sumf (fun x => gtb x a) l2).
  { revert Hl2. clear. induction l2 as [|x l IH]; intros H; [reflexivity|]. rewrite !sumf_cons, zlen_cons, IH by (intros; apply H; now right).
    destruct (H x (or_introl eq_refl)). unfold gtb. destruct (Z.ltb_spec x a), (Z.ltb_spec a x); lia. }
  assert (Eb : sumf (gtb b) l2 = zlen l2 - sumf (fun x => gtb x b) l2).
  { revert Hl2. clear. induction l2 as [|x l IH]; intros H; [reflexivity|]. rewrite !sumf_cons, zlen_cons, IH by (intros; apply H; now right).
    destruct (H x (or_introl eq_refl)). unfold gtb. destruct (Z.ltb_spec x b), (Z.ltb_spec b x); lia. }
  assert (E1 : forall c d, sumf (fun x => sumf (gtb x) (c :: l2 ++ d :: l3)) l1 = sumf (fun x => gtb x c) l1 + sumf (fun x => gtb x d) l1 + sumf (fun x => sumf (gtb x) (l2 ++ l3)) l1).
  { intros c d. rewrite <- !sumf_add. apply sumf_ext. intros x _. rewrite sumf_cons, !sumf_app, sumf_cons. ring. }
  assert (E2 : forall d, sumf (fun x => sumf (gtb x) (d :: l3)) l2 = sumf (fun x => gtb x d) l2 + sumf (fun x => sumf (gtb x) l3) l2).
  { intros d. rewrite <- !sumf_add. apply sumf_ext. intros x _. now rewrite sumf_cons. }
  rewrite !E1, !E2, Gab, Ea, Eb.
  match goal with |- eqm 2 ?X ?Y => exists (sumf (fun x => gtb x a) l2 - sumf (fun x => gtb x b) l2 - gtb a b) end.
  ring.
Qed.
