(** * Identity words and alternating words acting on simplices (proof library for C75) *)
From Coq Require Import Setoid Morphisms.
From Verif Require Import PyBase Dict FreeModule Symmetric Simplicial Utils Surjection BarrattEccles Eqm Spec SpecChain SpecOperad SpecSurj SpecAction SpecCochain SpecCup FreeModuleFacts FreeModuleLaws ListFacts
  ClassFacts LinearFacts BilFacts SymmetricFacts CycleFacts SymmetricLaws RingFacts Tensor TensorAct KoszulFacts LoopFacts AW SimplicialFacts SimplicialDiag SimplicialLaws BEOrbit BEDiag MayFacts BELaws3 SurjFacts SurjBoundary SurjLaws SurjAct SurjMay
  SteenrodFacts ActFacts ActSign ActCore ActCode ActLaws EquivAct.

(** ** the identity word *)
Lemma joined_range a b u i : a <= i < b -> zlen u = b - a -> joined i (combine (zrange a b) u) = znth [] u (i - a).
Proof.
  revert a. induction u as [|x u IH]; intros a Hi L; [change (zlen (@nil (list Z))) with 0 in L; lia|]. rewrite zlen_cons in L. rewrite (zrange_cons a b) by lia. cbn [combine]. rewrite joined_cons.
  destruct (Z.eqb_spec a i) as [->|N].
  - rewrite Z.sub_diag. change (znth [] (x :: u) 0) with x. rewrite joined_none; [apply app_nil_r|]. rewrite map_fst_combine by (rewrite zrange_length; unfold zlen in L; lia).
    destruct (mem i (zrange (i + 1) b)) eqn:M; [|reflexivity]. apply mem_in in M. apply in_zrange in M. lia.
  - cbn [app]. rewrite IH by lia. unfold znth. replace (Z.to_nat (i - a)) with (Datatypes.S (Z.to_nat (i - (a + 1)))) by lia. reflexivity.
Qed.
Lemma joins_id r u : 0 <= r -> zlen u = r -> joins r (combine (zrange 1 (r + 1)) u) = u.
Proof.
  intros Hr L. unfold joins. rewrite (map_ext_in _ (fun i => znth [] u (i - 1))) by (intros i Hi; apply in_zrange in Hi; apply joined_range; lia).
  clear Hr. subst r. generalize (zlen_nonneg u). intros _. induction u as [|x u IH] using rev_ind; [reflexivity|]. rewrite zlen_app, zlen_cons, zlen_nil. replace (zlen u + (0 + 1) + 1) with (zlen u + 1 + 1) by ring.
  pose proof (zlen_nonneg u) as Hu. rewrite (zrange_app 1 (zlen u + 1) (zlen u + 1 + 1)) by lia. rewrite (zrange_cons (zlen u + 1)) by lia. rewrite (zrange_nil (zlen u + 1 + 1)) by lia. rewrite map_app. f_equal.
  - rewrite <- IH at 2. apply map_ext_in. intros i Hi. apply in_zrange in Hi. unfold znth. rewrite app_nth1; [reflexivity|]. unfold zlen in *. lia.
  - cbn [map]. f_equal. replace (zlen u + 1 - 1) with (zlen u) by ring. unfold znth, zlen. rewrite Nat2Z.id, app_nth2, Nat.sub_diag by lia. reflexivity.
Qed.
Lemma exp_range r l : forall a, a + zlen l = r + 1 -> Z.even (action_exponent r (combine (zrange a (r + 1)) l)) = true.
Proof.
  induction l as [|v l IH]; intros a E; [destruct (zrange a (r + 1)); reflexivity|]. rewrite zlen_cons in E. pose proof (zlen_nonneg l). rewrite zrange_cons by lia. cbn [combine action_exponent].
  rewrite !Z.even_add, IH by lia.
  assert (E1 : zsum (map (fun '(b, w) => if b <? a then v * w + w else v) (combine (zrange (a + 1) (r + 1)) l)) = v * (r - a)).
  { change (sumf (fun '(b, w) => if b <? a then v * w + w else v) (combine (zrange (a + 1) (r + 1)) l) = v * (r - a)).
    rewrite (sumf_ext _ (fun _ => v * 1)).
    - rewrite sumf_scal, sumf_1. f_equal. unfold zlen. rewrite combine_length, zrange_length. unfold zlen in *. lia.
    - intros [b w] Hb. apply in_combine_l in Hb. apply in_zrange in Hb. destruct (Z.ltb_spec b a); [lia|ring]. }
  rewrite E1. now destruct (Z.even (v * (r - a))).
Qed.
Lemma Phi_id r coord g K : 1 <= r -> Phi r coord g (zrange 1 (r + 1)) K = Sd (Z.to_nat (r - 1)) coord g K.
Proof.
  intros Hr. rewrite Phi_at. unfold Sd. rewrite zlen_zrange. replace (Z.max 0 (r + 1 - 1) - r) with 0 by lia. rewrite zrange_length. replace (Z.to_nat (r + 1 - 1) - 1)%nat with (Z.to_nat (r - 1)) by lia.
  unfold at_pos. apply sumf_ext. intros [[l1 s] l2] _. destruct (zlen l1 =? coord - 1); [|reflexivity]. rewrite Z.mul_0_r, sgn_0, Z.mul_1_l. apply S_ext_in. intros u Hu. apply front_back_len in Hu.
  unfold T1. rewrite joins_id by (unfold zlen; lia). rewrite <- wt_combine. unfold sgn. rewrite exp_range by (unfold zlen; rewrite map_length; lia). ring.
Qed.

(** ** alternating words *)
Lemma altw_len n : forall a, length (altw a n) = n. Proof. induction n as [|n IH]; intros a; cbn [altw length]; [reflexivity|]. now rewrite IH. Qed.
Lemma altw_in n : forall a b, a = 1 \/ a = 2 -> In b (altw a n) -> b = 1 \/ b = 2.
Proof. induction n as [|n IH]; intros a b Ha; cbn [altw]; [intros []|]. intros [<-|Hb]; [exact Ha|]. apply (IH (3 - a)); [lia|exact Hb]. Qed.
Lemma altw_unique k : (forall b, In b k -> b = 1 \/ b = 2) -> adj k = false -> k = altw (hd 0 k) (length k).
Proof.
  induction k as [|a k IH]; intros Hk A; [reflexivity|]. cbn [hd length altw]. f_equal. destruct k as [|b k]; [reflexivity|]. rewrite adj_cons2 in A. apply orb_false_iff in A. destruct A as [A1 A2]. apply Z.eqb_neq in A1.
  rewrite IH at 1 by (try exact A2; intros; apply Hk; now right). cbn [hd]. f_equal. pose proof (Hk a ltac:(now left)). pose proof (Hk b ltac:(right; now left)). lia.
Qed.
Lemma altw_adj n : forall a, adj (altw a n) = false.
Proof. induction n as [|n IH]; intros a; [reflexivity|]. cbn [altw]. destruct n as [|n]; [reflexivity|]. cbn [altw] in *. rewrite adj_cons2. rewrite IH. destruct (Z.eqb_spec a (3 - a)); [lia|reflexivity]. Qed.
Lemma altw_split n : forall a k1 b k2, altw a n = k1 ++ b :: k2 -> exists m, b :: k2 = altw b m.
Proof.
  induction n as [|n IH]; intros a k1 b k2 E; cbn [altw] in E; [destruct k1; discriminate|]. destruct k1 as [|x k1].
  - injection E as -> <-. exists (Datatypes.S n). reflexivity.
  - injection E as _ E. eapply IH; eauto.
Qed.
Lemma altw_cell d : surj_cell 2 (Z.of_nat d) (altw 1 (d + 2)).
Proof.
  split; [|unfold zlen; rewrite altw_len; lia]. intros j. split.
  - intros Hj. apply altw_in in Hj; [lia|now left].
  - intros Hj. replace (d + 2)%nat with (Datatypes.S (Datatypes.S d)) by lia. cbn [altw In]. lia.
Qed.
(** ** short interior pieces *)
Fixpoint ppairs (x : Z) (s : list Z) : list (list Z) := match s with [] => [[x]] | y :: s' => [x; y] :: ppairs y s' end.
Definition short (b : list Z) : bool := match b with _ :: _ :: _ => false | _ => true end.
Lemma fb_pairs t : forall (F : list (list Z) -> Z) x l, (forall u, In u (front_back t (x :: l)) -> existsb short (removelast u) = true -> F u = 0) -> (length l <= t)%nat ->
  sumf F (front_back t (x :: l)) = if (length l =? t)%nat then F (ppairs x l) else 0.
Proof.
  induction t as [|t IH]; intros F x l HF L.
  - destruct l; [|cbn in L; lia]. cbn [front_back length Nat.eqb ppairs]. rewrite sumf_cons, sumf_nil. ring.
  - cbn [front_back] in *. rewrite cuts_splits in *. rewrite sumf_flat_map, splits_cons, sumf_cons.
    assert (ne : forall y u l', In u (front_back t (y :: l')) -> u <> []) by (intros y u l' Hu ->; apply front_back_len in Hu; discriminate).
    assert (Z0 : sumf F (map (cons ([] ++ [x])) (front_back t (x :: l))) = 0).
    { rewrite sumf_map. apply sumf_0. intros u Hu. apply HF.
      - rewrite splits_cons. cbn [flat_map]. apply in_app_iff. left. now apply in_map.
      - cbn [app removelast]. destruct u; [now apply ne in Hu|]. reflexivity. }
    rewrite Z0, Z.add_0_l. rewrite sumf_map.
    assert (HF' : forall l1 y l2 u, In (l1, y, l2) (splits l) -> In u (front_back t (y :: l2)) -> existsb short (removelast u) = true -> F (((x :: l1) ++ [y]) :: u) = 0).
    { intros l1 y l2 u Hs Hu Sh. apply HF.
      - rewrite splits_cons. cbn [flat_map]. apply in_app_iff. right. apply in_flat_map. exists (x :: l1, y, l2). split; [apply in_map_iff; exists (l1, y, l2); auto|]. now apply in_map.
      - cbn [removelast]. destruct u; [now apply ne in Hu|]. cbn [existsb]. rewrite Sh. apply orb_true_r. }
    destruct l as [|y l]; [reflexivity|]. cbn [length] in *. rewrite splits_cons in *. rewrite sumf_cons, sumf_map.
    match goal with |- ?A + ?B = _ => assert (Z1 : B = 0); [rewrite (sumf_map _ (fun s : list Z * Z * list Z => (y :: fst (fst s), snd (fst s), snd s))); apply sumf_0|rewrite Z1, Z.add_0_r] end.
    2:{ cbn [fst snd]. change ((x :: []) ++ [y]) with ([x] ++ [y]). rewrite (IH (fun u => F (([x] ++ [y]) :: u))); [|intros u Hu Sh; apply (HF' [] y l u); auto; now left|lia]. reflexivity. }
    + intros [[l1 z] l2] Hs. cbn [fst snd]. rewrite sumf_map. pose proof (proj1 (splits_in _ _ _ _) Hs) as E. rewrite (IH (fun u => F _)).
      * assert (Ll : (length l2 < length l)%nat) by (rewrite E, app_length; cbn; lia). destruct (Nat.eqb_spec (length l2) t); [lia|reflexivity].
      * intros u Hu Sh. apply (HF' (y :: l1) z l2 u); auto. right. apply in_map_iff. exists (l1, z, l2). auto.
      * rewrite E, app_length in L. cbn in L. lia.
Qed.
Lemma fb_alt d (F : list (list Z) -> Z) x l : (forall u, In u (front_back (d + 1) (x :: l)) -> existsb short (removelast (tl u)) = true -> F u = 0) -> (length l <= d)%nat ->
  sumf F (front_back (d + 1) (x :: l)) = if (length l =? d)%nat then F ([x] :: ppairs x l) else 0.
Proof.
  intros HF L. replace (d + 1)%nat with (Datatypes.S d) in * by lia. cbn [front_back] in *. rewrite cuts_splits in *. rewrite sumf_flat_map, splits_cons, sumf_cons in *.
  rewrite sumf_map. rewrite (fb_pairs d (fun u => F (([] ++ [x]) :: u))); [|intros u Hu Sh; apply HF; [cbn [flat_map]; apply in_app_iff; left; now apply in_map|exact Sh]|exact L].
  match goal with |- ?A + ?B = _ => assert (Z1 : B = 0); [rewrite sumf_map; apply sumf_0|rewrite Z1, Z.add_0_r; reflexivity] end.
  intros [[l1 z] l2] Hs. cbn [fst snd]. rewrite sumf_map. pose proof (proj1 (splits_in _ _ _ _) Hs) as E. rewrite (fb_pairs d (fun u => F _)).
  - assert (Ll : (length l2 < length l)%nat) by (rewrite E, app_length; cbn; lia). destruct (Nat.eqb_spec (length l2) d); [lia|reflexivity].
  - intros u Hu Sh. apply HF; [|exact Sh]. cbn [flat_map]. apply in_app_iff. right. apply in_flat_map. exists (x :: l1, z, l2). split; [apply in_map_iff; exists (l1, z, l2); auto|]. now apply in_map.
  - rewrite E, app_length in L. cbn in L. lia.
Qed.

(** ** degenerate joins *)
Lemma short_split (u : list (list Z)) p : hasnil u = false -> existsb short (removelast u) = true -> exists u1 b x c u2, p :: u = u1 ++ b :: [x] :: c :: u2.
Proof.
  revert p. induction u as [|q u IH]; intros p Nu Sh; [discriminate|]. rewrite hasnil_cons in Nu. apply orb_false_iff in Nu. destruct Nu as [Nq Nu]. destruct u as [|c u]; [discriminate|].
  change (removelast (q :: c :: u)) with (q :: removelast (c :: u)) in Sh. cbn [existsb] in Sh. apply orb_true_iff in Sh. destruct Sh as [Sh|Sh].
  - destruct q as [|x [|y q]]; try discriminate. exists [], p, x, c, u. reflexivity.
  - destruct (IH q Nu Sh) as (u1 & b & x & c' & u2 & E). exists (p :: u1), b, x, c', u2. cbn [app]. now rewrite E.
Qed.
Lemma alt_bad d (s : list Z) u : s <> [] -> In u (front_back (d + 1) s) -> existsb short (removelast (tl u)) = true -> existsb spx_is_degenerate (joins 2 (combine (altw 1 (d + 2)) u)) = true.
Proof.
  intros Ns Hu Sh. pose proof (front_back_nonnil _ _ _ Ns Hu) as Nu. pose proof (front_back_len _ _ _ Hu) as Lu. destruct u as [|p u]; [discriminate|]. cbn [tl] in Sh. rewrite hasnil_cons in Nu. apply orb_false_iff in Nu. destruct Nu as [_ Nu].
  destruct (short_split u p Nu Sh) as (u1 & b & x & c & u2 & E). rewrite E in *.
  destruct (share _ _ _ _ _ _ Hu) as (b0 & y & c0 & -> & Ey). injection Ey as <- <-.
  replace (u1 ++ (b0 ++ [x]) :: [x] :: c :: u2) with ((u1 ++ [b0 ++ [x]]) ++ [x] :: c :: u2) in Hu by (rewrite <- app_assoc; reflexivity).
  destruct (share _ _ _ _ _ _ Hu) as (b1 & y & c1 & Ex & ->). destruct b1 as [|? b1]; [|destruct b1; discriminate]. injection Ex as <-.
  remember (altw 1 (d + 2)) as k eqn:Ek. pose proof (altw_len (d + 2) 1) as Lk. rewrite <- Ek in Lk. rewrite app_length in Lu. cbn [length] in Lu.
  assert (Hk : exists k1 a k2, k = k1 ++ a :: (3 - a) :: a :: k2 /\ length k1 = length u1 /\ (a = 1 \/ a = 2)).
  { rewrite <- (firstn_skipn (length u1) k). set (k1 := firstn (length u1) k). assert (L1 : length k1 = length u1) by (unfold k1; rewrite firstn_length; lia).
    assert (L2 : length (skipn (length u1) k) = (3 + length u2)%nat) by (rewrite skipn_length; lia). destruct (skipn (length u1) k) as [|a k2] eqn:E2; [discriminate|].
    assert (Ek2 : altw 1 (d + 2) = k1 ++ a :: k2) by (rewrite <- Ek, <- E2; symmetry; apply firstn_skipn).
    destruct (altw_split _ _ _ _ _ Ek2) as [m Em]. destruct m as [|[|[|m]]]; cbn [altw] in Em; try (apply (f_equal (@length Z)) in Em; cbn in Em, L2; lia).
    exists k1, a, (altw (3 - a) m). split; [f_equal; rewrite Em; repeat f_equal; ring|]. split; [exact L1|]. apply (altw_in (d + 2) 1); [now left|]. rewrite Ek2. apply in_or_app. right. now left. }
  destruct Hk as (k1 & a & k2 & -> & L1 & Ha).
  assert (Ec : combine (k1 ++ a :: (3 - a) :: a :: k2) (u1 ++ (b0 ++ [x]) :: [x] :: (x :: c1) :: u2) = combine k1 u1 ++ (a, b0 ++ [x]) :: (3 - a, [x]) :: (a, x :: c1) :: combine k2 u2).
  { clear -L1. revert u1 L1. induction k1 as [|z k1 IH]; intros [|w u1] L1; try discriminate; [reflexivity|]. cbn [app combine]. f_equal. apply IH. cbn in L1. lia. }
  rewrite Ec. apply (joined_bad 2 _ a); [lia|]. apply dupb_deg. rewrite joined_app, !joined_cons, Z.eqb_refl. destruct (Z.eqb_spec (3 - a) a); [lia|]. cbn [app].
  rewrite <- app_assoc. cbn [app]. replace (b0 ++ x :: x :: c1 ++ joined a (combine k2 u2)) with (b0 ++ [x; x] ++ (c1 ++ joined a (combine k2 u2))) by reflexivity. rewrite app_assoc.
  rewrite <- (app_assoc (joined a (combine k1 u1)) b0). rewrite app_assoc. apply dupb_mid. cbn. now rewrite Z.eqb_refl.
Qed.
(** ** the surviving term *)
Lemma joined_pairs l : forall x a, a = 1 \/ a = 2 ->
  joined a (combine (altw a (length l + 1)) (ppairs x l)) = x :: l /\ joined (3 - a) (combine (altw a (length l + 1)) (ppairs x l)) = l.
Proof.
  induction l as [|y l IH]; intros x a Ha.
  - cbn [length Nat.add altw ppairs combine]. rewrite !joined_cons, Z.eqb_refl. destruct (Z.eqb_spec a (3 - a)); [lia|]. split; reflexivity.
  - cbn [length Nat.add altw ppairs combine]. rewrite !joined_cons, Z.eqb_refl. destruct (Z.eqb_spec a (3 - a)); [lia|]. cbn [app]. destruct (IH y (3 - a) ltac:(lia)) as [H1 H2]. replace (3 - (3 - a)) with a in H2 by ring. rewrite H1, H2. split; reflexivity.
Qed.
Lemma joins_pairs x l : joins 2 (combine (altw 1 (length l + 2)) ([x] :: ppairs x l)) = [x :: l; x :: l].
Proof.
  replace (length l + 2)%nat with (Datatypes.S (length l + 1)) by lia. unfold joins. change (zrange 1 (2 + 1)) with [1; 2]. cbn [map altw combine]. rewrite !joined_cons. change (1 =? 1) with true. change (1 =? 2) with false. cbv iota. change (3 - 1) with 2.
  destruct (joined_pairs l x 2 ltac:(lia)) as [H1 H2]. change (3 - 2) with 1 in H2. rewrite H1, H2. reflexivity.
Qed.
(** exponent: letters from [a] on, pieces of dimension one, the last of dimension zero *)
Definition ones (n : nat) : list Z := repeat 1 n ++ [0].
Lemma dims_pairs l : forall x, map (fun b => zlen b - 1) (ppairs x l) = ones (length l).
Proof. induction l as [|y l IH]; intros x; [reflexivity|]. cbn [ppairs map length]. unfold ones in *. cbn [repeat app]. rewrite <- (IH y). reflexivity. Qed.
Lemma T1_pairs x l : exists e, sgn (action_exponent 2 (wt (combine (altw 1 (length l + 2)) ([x] :: ppairs x l)))) = e /\ e = sgn (action_exponent 2 (combine (altw 2 (length l + 1)) (ones (length l)))).
Proof.
  eexists. split; [reflexivity|]. rewrite <- wt_combine. replace (length l + 2)%nat with (Datatypes.S (length l + 1)) by lia. cbn [map altw combine action_exponent]. rewrite dims_pairs. change (3 - 1) with 2. f_equal.
  change (zlen [x] - 1) with 0. rewrite (map_ext_in _ (fun _ => 0)).
  - assert (E : forall (L : list (Z * Z)), zsum (map (fun _ => 0) L) = 0) by (intros L; change (sumf (fun _ : Z * Z => 0) L = 0); now apply sumf_0). rewrite E. ring.
  - intros [b w] Hb. apply in_combine_l in Hb. apply altw_in in Hb; [|lia]. destruct (Z.ltb_spec b 1); [lia|reflexivity].
Qed.
(** ** the sign *)
Notation XA a n := (action_exponent 2 (combine (altw a (n + 1)) (ones n))).
Lemma ones_S n : ones (Datatypes.S n) = 1 :: ones n. Proof. reflexivity. Qed.
Lemma ones_len n : length (ones n) = (n + 1)%nat. Proof. unfold ones. now rewrite app_length, repeat_length. Qed.
Lemma XA1 n : XA 1 (Datatypes.S n) = 1 + Z.of_nat (n + 1) + XA 2 n.
Proof.
  cbn [Nat.add altw]. rewrite ones_S. cbn [combine action_exponent]. change (3 - 1) with 2. f_equal. rewrite (map_ext_in _ (fun _ => 1)).
  - assert (E : forall L : list (Z * Z), zsum (map (fun _ => 1) L) = Z.of_nat (length L)) by (induction L as [|p L IH]; [reflexivity|]; cbn [map length]; rewrite Nat2Z.inj_succ; change (1 + zsum (map (fun _ => 1) L) = Z.succ (Z.of_nat (length L))); rewrite IH; lia).
    rewrite E, combine_length, altw_len, ones_len, Nat.min_id. lia.
  - intros [b w] Hb. apply in_combine_l in Hb. apply altw_in in Hb; [|lia]. destruct (Z.ltb_spec b 1); [lia|ring].
Qed.
Lemma sum2 n : forall l : list Z, length l = n -> (exists q, zsum (map (fun '(b, w) => if b <? 2 then 1 * w + w else 1) (combine (altw 1 n) l)) = 2 * q + Z.of_nat (n / 2))
  /\ (exists q, zsum (map (fun '(b, w) => if b <? 2 then 1 * w + w else 1) (combine (altw 2 n) l)) = 2 * q + Z.of_nat (Datatypes.S n / 2)).
Proof.
  induction n as [|n IH]; intros [|w l] L; try discriminate.
  - split; exists 0; reflexivity.
  - cbn [length] in L. destruct (IH l ltac:(lia)) as [[q1 E1] [q2 E2]]. cbn [altw combine map]. change (3 - 1) with 2. change (3 - 2) with 1. cbn [zsum fold_right] in *. change (fold_right Z.add 0) with zsum in *. change (1 <? 2) with true. change (2 <? 2) with false. cbv iota. split.
    + exists (w + q2). rewrite E2. lia.
    + exists q1. rewrite E1. replace (Datatypes.S (Datatypes.S n)) with (n + 1 * 2)%nat by lia. rewrite Nat.div_add by lia. lia.
Qed.
Lemma XA2 n : exists q, XA 2 (Datatypes.S n) = 2 * q + Z.of_nat (Datatypes.S n / 2) + XA 1 n.
Proof.
  cbn [Nat.add altw]. rewrite ones_S. cbn [combine action_exponent]. change (3 - 2) with 1. destruct (sum2 (n + 1) (ones n) (ones_len n)) as [[q E] _]. rewrite E. exists q. replace (Datatypes.S n) with (n + 1)%nat by lia. lia.
Qed.
Definition tri (h : nat) : Z := Z.of_nat h * (Z.of_nat h + 1) / 2.
Lemma tri_S h : tri (Datatypes.S h) = tri h + Z.of_nat h + 1.
Proof. unfold tri. rewrite Nat2Z.inj_succ. replace (Z.succ (Z.of_nat h) * (Z.succ (Z.of_nat h) + 1)) with (Z.of_nat h * (Z.of_nat h + 1) + (Z.of_nat h + 1) * 2) by ring. rewrite Z.div_add by lia. ring. Qed.
Lemma XA_tri h : forall b, (b < 2)%nat -> exists q, XA 2 (2 * h + b)%nat = 2 * q + tri h + Z.of_nat b * Z.of_nat h.
Proof.
  induction h as [|h IH]; intros b Hb.
  - destruct b as [|[|b]]; [exists 0; reflexivity|exists 0; reflexivity|lia].
  - replace (2 * Datatypes.S h + b)%nat with (Datatypes.S (Datatypes.S (2 * h + b))) by lia. destruct (XA2 (Datatypes.S (2 * h + b))) as [q E]. rewrite E, XA1. destruct (IH b Hb) as [q' E']. rewrite E'.
    replace (Datatypes.S (Datatypes.S (2 * h + b)))%nat with (b + Datatypes.S h * 2)%nat by lia. rewrite Nat.div_add, Nat.div_small by lia. rewrite tri_S.
    exists (q + q' + 1 + Z.of_nat h - Z.of_nat h * 1 + Z.of_nat h). destruct b as [|[|b]]; [| |lia]; nia.
Qed.
Lemma sgn_XA n : sgn (XA 2 n) = alt_sign (Z.of_nat n).
Proof.
  unfold alt_sign. destruct (XA_tri (n / 2) (n mod 2) ltac:(apply Nat.mod_upper_bound; lia)) as [q E]. rewrite <- (Nat.div_mod n 2) in E by lia. rewrite E. unfold tri. 
  set (h := Z.of_nat (n / 2)). assert (En : Z.of_nat n = 2 * h + Z.of_nat (n mod 2)) by (unfold h; rewrite (Nat.div_mod n 2) at 1 by lia; lia). rewrite En.
  transitivity (sgn (h * (h + 1) / 2 + (2 * h + Z.of_nat (n mod 2)) * h + 2 * (q - h * h))); [f_equal; ring|].
  rewrite sgn_add. rewrite (sgn_mul_even 2 (q - h * h)) by reflexivity.
  replace ((2 * h + Z.of_nat (n mod 2)) / 2) with h; [ring|]. assert (Z.of_nat (n mod 2) < 2) by (pose proof (Nat.mod_upper_bound n 2 ltac:(lia)); lia).
  apply (Z.div_unique_pos _ 2 h (Z.of_nat (n mod 2))); lia.
Qed.

(** ** the alternating word acts on simplices of small dimension *)
Lemma Phi_alt G d x l : adm cls_simplicial G -> (length l <= d)%nat ->
  Phi 2 1 G (altw 1 (d + 2)) [x :: l] = if (length l =? d)%nat then alt_sign (Z.of_nat d) * G [x :: l; x :: l] else 0.
Proof.
  intros HG L. change [x :: l] with ([] ++ (x :: l) :: []). rewrite Phi_app by reflexivity. change (tdeg spx_dim []) with 0. rewrite Z.mul_0_l, sgn_0, Z.mul_1_l, altw_len. replace (d + 2 - 1)%nat with (d + 1)%nat by lia.
  rewrite S_sum, fb_alt; [|intros u Hu Sh|exact L].
  - destruct (Nat.eqb_spec (length l) d) as [<-|]; [|reflexivity]. unfold T1. destruct (T1_pairs x l) as (e & -> & ->). rewrite sgn_XA. rewrite joins_pairs. reflexivity.
  - unfold T1. cbn [app]. rewrite app_nil_r. rewrite (proj2 HG); [ring|]. cbn [bad cls_simplicial]. f_equal. apply (alt_bad d (x :: l)); [discriminate|exact Hu|exact Sh].
Qed.

(** ** the elements of arity two *)
Lemma rot21 n : forall a, a = 1 \/ a = 2 -> map (image (rot 2 1)) (altw a n) = altw (3 - a) n.
Proof. induction n as [|n IH]; intros a Ha; [reflexivity|]. cbn [altw map]. rewrite IH by lia. f_equal. destruct Ha as [-> | ->]; reflexivity. Qed.
Lemma kaS_alt d : kaS 2 d = altw 1 (d + 2).
Proof. induction d as [|d IH]; [reflexivity|]. cbn [kaS]. rewrite IH, rot21 by lia. reflexivity. Qed.
Lemma FpS_alt cv d g : adm cls_surj g -> FpS cv 2 d g = FpS cv 2 d (ind (kaS 2 d)) * g (altw 1 (d + 2)).
Proof.
  intros Hg. rewrite (FpS_ext cv 2 d g (fun k => g (altw 1 (d + 2)) * ind (kaS 2 d) k)); [|lia|].
  - rewrite FpS_scal by lia. ring.
  - intros k Hk. rewrite ind_eq. destruct (list_eq_dec Z.eq_dec k (kaS 2 d)) as [->|N]; [rewrite kaS_alt; ring|]. rewrite Z.mul_0_r. apply (proj2 Hg). cbn [bad cls_surj]. destruct Hk as [[Ho Hl] Hh].
    rewrite (surj_bad_onto 2) by (lia || exact Ho). f_equal. destruct (adj k) eqn:A; [reflexivity|]. exfalso. apply N. rewrite kaS_alt, (altw_unique k); [|intros b Hb; apply Ho in Hb; lia|exact A]. rewrite Hh. f_equal. unfold zlen in Hl. lia.
Qed.
Lemma FpS_kaS_rec cv n d : 2 <= n -> FpS cv n (Datatypes.S d) (ind (kaS n (Datatypes.S d))) = asg cv (rot n 1) (kaS n d) * FpS cv n d (ind (kaS n d)).
Proof.
  intros Hn. set (s := FpS cv n d (ind (kaS n d))). assert (IH : FpS cv n d (ind (kaS n d)) = s) by reflexivity. clearbody s.
    cbn [FpS]. set (m := Z.to_nat (n - 1)).
    assert (G : forall j, 0 <= j < n -> FpS cv n d (fun k => asg cv (rot n j) k * Hh m (ind (kaS n (Datatypes.S d))) (map (image (rot n j)) k)) = if j =? 1 then asg cv (rot n 1) (kaS n d) * s else 0).
    { intros j Hj.
      rewrite (FpS_ext cv n d _ (fun k => (if j =? 1 then asg cv (rot n 1) (kaS n d) else 0) * ind (kaS n d) k)).
      - rewrite FpS_scal, IH by lia. destruct (j =? 1); ring.
      - lia.
      - intros k Hk. rewrite (Hh_single m n); [|lia|lia|apply onto_move; [lia|apply perm_rot; lia|apply Hk]|].
        2:{ intros w Hw. rewrite ind_eq. destruct (list_eq_dec _ _ _) as [->|]; [|reflexivity]. now rewrite kaS_two in Hw by lia. }
        cbn [kaS]. rewrite !ind_eq. pose proof (spsi_kaS n d ltac:(lia)) as Hq.
        destruct (list_eq_dec Z.eq_dec k (kaS n d)) as [->|N].
        + destruct (Z.eqb_spec j 1) as [->|Nj]; [destruct (list_eq_dec _ _ _) as [|N]; [ring|congruence]|].
          destruct (list_eq_dec _ _ _) as [E|]; [|ring]. exfalso. injection E as E. apply (f_equal (hd 0)) in E. rewrite !hd_rot in E by (try lia; right; eexists; exact Hq). lia.
        + destruct (list_eq_dec _ _ _) as [E|]; [|destruct (j =? 1); ring]. exfalso. injection E as E. pose proof E as E'. apply (f_equal (hd 0)) in E'.
          rewrite !hd_rot in E' by (try lia; right; eexists; first [exact Hk|exact Hq]). assert (j = 1) by lia. subst j.
          apply (map_image_inj n) in E; [congruence|lia|apply perm_rot; lia|apply Hk|apply Hq]. }
    unfold RA. destruct (Nat.even (Datatypes.S d)).
    + rewrite (sumf_ext _ (fun j => if j =? 1 then asg cv (rot n 1) (kaS n d) * s else 0)) by (intros j Hj; apply in_zrange in Hj; apply G; lia).
      rewrite (zrange_cons 0), (zrange_cons (0 + 1)) by lia. rewrite !sumf_cons. change (0 =? 1) with false. change (0 + 1 =? 1) with true. cbv iota. rewrite sumf_0; [ring|].
      intros j Hj. apply in_zrange in Hj. destruct (Z.eqb_spec j 1); [lia|reflexivity].
    + rewrite !G by lia. change (0 =? 1) with false. change (1 =? 1) with true. cbv iota. ring.
Qed.
Lemma caes_alt d : forall a, a = 1 \/ a = 2 -> caes (altw a (d + 2)) [] = altw a d.
Proof.
  induction d as [|d IH]; intros a Ha; [destruct Ha as [-> | ->]; reflexivity|]. change (Datatypes.S d + 2)%nat with (Datatypes.S (d + 2)). cbn [altw caes]. rewrite app_nil_r, IH by lia.
  replace (d + 2)%nat with (Datatypes.S (Datatypes.S d)) by lia. cbn [altw mem existsb]. replace (3 - (3 - a)) with a by ring. rewrite Z.eqb_refl, orb_true_r. reflexivity.
Qed.
Lemma less_alt d : lessn 2 (altw 1 d) = Z.of_nat (Datatypes.S d / 2) /\ lessn 2 (altw 2 d) = Z.of_nat (d / 2).
Proof.
  induction d as [|d [I1 I2]]; [split; reflexivity|]. cbn [altw]. rewrite !lessn_cons. change (3 - 1) with 2. change (3 - 2) with 1. rewrite I1, I2. change (1 <? 2) with true. change (2 <? 2) with false. cbv iota.
  split; [|lia]. replace (Datatypes.S (Datatypes.S d)) with (d + 1 * 2)%nat by lia. rewrite Nat.div_add by lia. lia.
Qed.
Lemma inv_alt d : invn (altw 1 d) + invn (altw 2 d) = Z.of_nat (d / 2) * Z.of_nat (Datatypes.S d / 2).
Proof.
  induction d as [|d IH]; [reflexivity|]. cbn [altw invn]. change (3 - 1) with 2. change (3 - 2) with 1. rewrite (proj1 (less_alt d)). rewrite lessn_0 by (intros b Hb; apply altw_in in Hb; lia).
  replace (Datatypes.S (Datatypes.S d)) with (d + 1 * 2)%nat by lia. rewrite Nat.div_add by lia. nia.
Qed.
Definition two_sign (cv : conv) (d : Z) : Z := match cv with MS => sgn ((d + 1) / 4) | _ => 1 end.
Lemma four d : exists a b : Z, d = 4 * a + b /\ (b = 0 \/ b = 1 \/ b = 2 \/ b = 3).
Proof. exists (d / 4), (d mod 4). pose proof (Z.div_mod d 4 ltac:(lia)). pose proof (Z.mod_pos_bound d 4 ltac:(lia)). lia. Qed.
Lemma two_step (d : nat) : sgn ((Z.of_nat d + 1 + 1) / 4) = sgn (Z.of_nat (d / 2) * Z.of_nat (Datatypes.S d / 2)) * sgn ((Z.of_nat d + 1) / 4).
Proof.
  assert (H1 : Z.of_nat (d / 2) = Z.of_nat d / 2) by apply Nat2Z.inj_div. assert (H2 : Z.of_nat (Datatypes.S d / 2) = (Z.of_nat d + 1) / 2) by (rewrite Nat2Z.inj_div, Nat2Z.inj_succ; reflexivity). rewrite H1, H2.
  destruct (four (Z.of_nat d)) as (a & b & E & Hb). rewrite E. rewrite <- sgn_add. apply sgn_par.
  assert (D : forall q r n, n = 4 * q + r -> 0 <= r < 4 -> n / 4 = q) by (intros q r n -> Hr; symmetry; apply (Z.div_unique_pos _ 4 q r); lia).
  assert (D2 : forall q r n, n = 2 * q + r -> 0 <= r < 2 -> n / 2 = q) by (intros q r n -> Hr; symmetry; apply (Z.div_unique_pos _ 2 q r); lia).
  destruct Hb as [E0|[E0|[E0|E0]]]; subst b.
  - rewrite (D a 2), (D a 1), (D2 (2 * a) 0), (D2 (2 * a) 1) by lia. exists (- (2 * a * a)). nia.
  - rewrite (D a 3), (D a 2), (D2 (2 * a) 1), (D2 (2 * a + 1) 0) by lia. exists (- (a * (2 * a + 1))). nia.
  - rewrite (D (a + 1) 0), (D a 3), (D2 (2 * a + 1) 0), (D2 (2 * a + 1) 1) by lia. exists (- (2 * a * a + 2 * a)). nia.
  - rewrite (D (a + 1) 1), (D (a + 1) 0), (D2 (2 * a + 1) 1), (D2 (2 * a + 2) 0) by lia. exists (- ((2 * a + 1) * (a + 1))). nia.
Qed.
Lemma two_sign_ok cv d : cv = BF \/ cv = MS -> FpS cv 2 d (ind (kaS 2 d)) = two_sign cv (Z.of_nat d).
Proof.
  intros Hcv. induction d as [|d IH].
  - cbn [FpS kaS]. rewrite ind_eq. destruct (list_eq_dec _ _ _); [|congruence]. destruct Hcv as [-> | ->]; reflexivity.
  - rewrite FpS_kaS_rec by lia. rewrite IH, kaS_alt. unfold asg. rewrite rot21 by lia. change (3 - 1) with 2. destruct Hcv as [-> | ->]; cbn [tw two_sign]; [reflexivity|].
    unfold eps. rewrite !caes_alt by lia. rewrite <- sgn_add, inv_alt. rewrite Nat2Z.inj_succ. unfold Z.succ. symmetry. apply two_step.
Qed.
Lemma total_sign d : 0 <= d -> sgn ((d + 1) / 4) * alt_sign d = sgn (d * (d - 1) / 2).
Proof.
  intros Hd. unfold alt_sign. destruct (four d) as (a & b & -> & Hb). rewrite <- sgn_add. apply sgn_par.
  assert (D : forall q r n, n = 4 * q + r -> 0 <= r < 4 -> n / 4 = q) by (intros q r n -> Hr; symmetry; apply (Z.div_unique_pos _ 4 q r); lia).
  assert (D2 : forall q r n, n = 2 * q + r -> 0 <= r < 2 -> n / 2 = q) by (intros q r n -> Hr; symmetry; apply (Z.div_unique_pos _ 2 q r); lia).
  destruct Hb as [E0|[E0|[E0|E0]]]; subst b.
  - rewrite (D a 1) by lia. rewrite (D2 (2 * a) 0 (4 * a + 0)) by lia. rewrite (D2 (a * (2 * a + 1)) 0 (2 * a * (2 * a + 1))) by nia. rewrite (D2 (2 * a * (4 * a - 1)) 0) by nia. exists (a * a + 2 * a). ring.
  - rewrite (D a 2) by lia. rewrite (D2 (2 * a) 1 (4 * a + 1)) by lia. rewrite (D2 (a * (2 * a + 1)) 0 (2 * a * (2 * a + 1))) by nia. rewrite (D2 (2 * a * (4 * a + 1)) 0) by nia. exists (a * a + a). ring.
  - rewrite (D a 3) by lia. rewrite (D2 (2 * a + 1) 0 (4 * a + 2)) by lia. rewrite (D2 ((2 * a + 1) * (a + 1)) 0 ((2 * a + 1) * (2 * a + 1 + 1))) by nia. rewrite (D2 ((2 * a + 1) * (4 * a + 1)) 0) by nia. exists (a * a + 3 * a + 1). ring.
  - rewrite (D (a + 1) 0) by lia. rewrite (D2 (2 * a + 1) 1 (4 * a + 3)) by lia. rewrite (D2 ((2 * a + 1) * (a + 1)) 0 ((2 * a + 1) * (2 * a + 1 + 1))) by nia. rewrite (D2 ((4 * a + 3) * (2 * a + 1)) 0) by nia. exists (a * a + 2 * a + 1). ring.
Qed.
