(** * Equivariance of the action of surjections on simplicial chains.  Proof library. *)
From Coq Require Import Setoid Morphisms.
From Verif Require Import PyBase Dict FreeModule Symmetric Simplicial Utils Surjection Eqm Spec SpecChain SpecOperad SpecSurj SpecAction FreeModuleFacts FreeModuleLaws ListFacts
  ClassFacts LinearFacts BilFacts SymmetricFacts CycleFacts SymmetricLaws RingFacts Tensor TensorAct KoszulFacts LoopFacts AW SimplicialFacts SimplicialDiag SimplicialLaws SurjFacts SurjBoundary SurjLaws SurjAct ActFacts ActSign ActCore.

(** sums over pairs of entries of a weighted word, by letters *)
Definition wl (l : list (Z * Z)) (a : Z) : Z := sumf (fun x => if fst x =? a then snd x else 0) l.
Lemma wl_cons x l a : wl (x :: l) a = (if fst x =? a then snd x else 0) + wl l a. Proof. apply sumf_cons. Qed.
Lemma sumf_delta (f : Z -> Z) a n : 1 <= a <= n -> sumf (fun y => if a =? y then f y else 0) (zrange 1 (n + 1)) = f a.
Proof.
  intros Ha. rewrite (zrange_app 1 a) by lia. rewrite (zrange_cons a) by lia. rewrite sumf_app, sumf_cons, Z.eqb_refl, !sumf_0; [ring| |];
    intros y Hy; apply in_zrange in Hy; destruct (Z.eqb_spec a y); lia.
Qed.
Lemma sumf_wl (f : Z -> Z) l n : (forall x, In x l -> 1 <= fst x <= n) -> sumf (fun x => f (fst x) * snd x) l = sumf (fun a => f a * wl l a) (zrange 1 (n + 1)).
Proof.
  induction l as [|x l IH]; intros H.
  - rewrite (sumf_0 (fun a => f a * wl [] a)); [reflexivity|]. intros a _. change (wl [] a) with 0. ring.
  - rewrite sumf_cons, IH by (intros; apply H; now right).
    rewrite (sumf_ext (fun a => f a * wl (x :: l) a) (fun a => (if fst x =? a then f a * snd x else 0) + f a * wl l a)) by (intros a _; rewrite wl_cons; destruct (fst x =? a); ring).
    rewrite sumf_add, (sumf_delta (fun a => f a * snd x)) by (apply H; now left). reflexivity.
Qed.
Lemma wl_pairsum (f : Z -> Z -> Z) l n : (forall a b, f a b = f b a) -> (forall a, f a a = 0) -> (forall x, In x l -> 1 <= fst x <= n) ->
  pairsum (fun x y => f (fst x) (fst y) * (snd x * snd y)) l = pairsum (fun a b => f a b * (wl l a * wl l b)) (zrange 1 (n + 1)).
Proof.
  intros Hs H0. induction l as [|x l IH]; intros H.
  - cbn [pairsum]. generalize (zrange 1 (n + 1)). intros m. induction m as [|a m IHm]; [reflexivity|]. cbn [pairsum]. rewrite <- IHm. rewrite sumf_0; [reflexivity|]. intros b _. change (wl [] b) with 0. ring.
  - cbn [pairsum]. rewrite IH by (intros; apply H; now right). destruct x as [a v]. cbn [fst snd].
    rewrite (sumf_ext _ (fun y => (f a (fst y) * v) * snd y)) by (intros; ring).
    rewrite (sumf_wl (fun b => f a b * v) l n) by (intros; apply H; now right).
    rewrite <- (pairsum_delta (fun y => f a y * v * wl l y) a (zrange 1 (n + 1))).
    + rewrite <- pairsum_add. apply pairsum_ext. intros b c Hb Hc. rewrite !wl_cons. cbn [fst snd]. rewrite (Z.eqb_sym a b), (Z.eqb_sym a c).
      destruct (Z.eqb_spec b a) as [->|]; destruct (Z.eqb_spec c a) as [->|]; rewrite ?H0; try (rewrite (Hs b a)); ring.
    + apply NoDup_zrange.
    + apply in_zrange. assert (1 <= a <= n) by (apply (H (a, v)); now left). lia.
    + rewrite H0. ring.
Qed.
(** number of letters whose order with [a] is changed *)
Lemma count_lt n p (Hn : 0 <= n) (Hp : perm n p) b : 1 <= b <= n + 1 -> sumf (fun c => if c <? b then 1 else 0) p = b - 1.
Proof.
  intros Hb. rewrite (sumf_perm _ _ _ Hp). rewrite (zrange_app 1 b) by lia. rewrite sumf_app.
  rewrite (sumf_ext _ (fun _ => 1)) by (intros c Hc; apply in_zrange in Hc; destruct (Z.ltb_spec c b); [reflexivity|lia]). rewrite sumf_1, zlen_zrange.
  rewrite (sumf_0 _ (zrange b (n + 1))); [lia|]. intros c Hc. apply in_zrange in Hc. destruct (Z.ltb_spec c b); [lia|reflexivity].
Qed.
Lemma order_count n p a : 0 <= n -> perm n p -> 1 <= a <= n -> eqm 2 (sumf (fun b => ordx' (image p) a b) (zrange 1 (n + 1))) (image p a - a).
Proof.
  intros Hn Hp Ha. transitivity (sumf (fun b => (if image p b <? image p a then 1 else 0) - (if b <? a then 1 else 0)) (zrange 1 (n + 1))).
  - apply sumf_eqm. intros b Hb. apply in_zrange in Hb. unfold ordx', ordx. destruct (Z.eqb_spec a b) as [->|N]; [rewrite !Z.ltb_irrefl; reflexivity|].
    assert (image p a <> image p b) by (intros E; apply N, (image_inj n p); auto; lia). destruct (Z.eqb_spec (image p a) (image p b)); [contradiction|]. cbn [orb].
    destruct (Z.ltb_spec a b), (Z.ltb_spec b a), (Z.ltb_spec (image p b) (image p a)), (Z.ltb_spec (image p a) (image p b)); cbn [Bool.eqb]; try lia; try reflexivity. exists 1. lia.
  - apply eqm_eq. rewrite sumf_sub. rewrite <- (sumf_map (fun c => if c <? image p a then 1 else 0) (image p)). rewrite (perm_map_image n p Hn Hp).
    pose proof (image_range n p a Hp Ha). rewrite (count_lt n p) by (auto; lia). rewrite (count_lt n (zrange 1 (n + 1))) by (auto; try lia; unfold perm; auto). ring.
Qed.
Definition mvw (p : list Z) (l : list (Z * Z)) : list (Z * Z) := map (fun x => (image p (fst x), snd x)) l.
Definition inc (l : list (Z * Z)) : list (Z * Z) := map (fun x => (fst x, snd x + 1)) l.
Definition ones (l : list (Z * Z)) : list (Z * Z) := map (fun x => (fst x, 1)) l.
Definition IS (p : list Z) (n : Z) (w : Z -> Z) : Z := pairsum (fun a b => ordx' (image p) a b * (w a * w b)) (zrange 1 (n + 1)).
Lemma pairsum_scal {A} (f : A -> A -> Z) c l : pairsum (fun a b => c * f a b) l = c * pairsum f l.
Proof. induction l as [|a l IH]; cbn [pairsum]; [ring|]. rewrite sumf_scal, IH. ring. Qed.
Lemma sym_pairsum_sum (f : Z -> Z -> Z) (w : Z -> Z) l : (forall a b, f a b = f b a) -> (forall a, f a a = 0) -> NoDup l ->
  pairsum (fun a b => f a b * (w a + w b)) l = sumf (fun a => w a * sumf (fun b => f a b) l) l.
Proof.
  intros Hs H0. induction l as [|a l IH]; intros ND; [reflexivity|]. inversion ND as [|? ? Na ND']; subst. cbn [pairsum]. rewrite IH by assumption.
  transitivity (w a * (f a a + sumf (fun b => f a b) l) + sumf (fun b => f a b * w b + w b * sumf (fun c => f b c) l) l).
  - rewrite H0, sumf_add. rewrite (sumf_ext (fun b => f a b * (w a + w b)) (fun b => w a * f a b + f a b * w b)) by (intros; cbn beta; ring). rewrite sumf_add, sumf_scal. cbn beta. change (sumf (f a) l) with (sumf (fun b => f a b) l). generalize (sumf (fun b => f a b) l). intros. ring.
  - rewrite (sumf_cons (fun a0 => w a0 * sumf (fun b => f a0 b) (a :: l))). rewrite (sumf_cons (fun b => f a b)). f_equal. apply sumf_ext. intros b _. rewrite (sumf_cons (fun c => f b c)), (Hs b a). ring.
Qed.
Lemma aex_move n p l : 0 <= n -> perm n p -> (forall x, In x l -> 1 <= fst x <= n) ->
  eqm 2 (action_exponent n (mvw p l)) (action_exponent n l + IS p n (fun a => wl (inc l) a - 1) + IS p n (fun a => wl (ones l) a - 1)).
Proof.
  intros Hn Hp Hl. rewrite !aex_pairsum. unfold mvw. rewrite sumf_map, pairsum_map. cbn [fst snd]. set (I := ordx' (image p)).
  assert (I0 : forall a, I a a = 0) by (intros a; unfold I, ordx'; now rewrite Z.eqb_refl).
  transitivity (sumf (fun x => snd x * (n - fst x)) l + sumf (fun x => snd x * (image p (fst x) - fst x)) l +
     (pairsum (fun x y => if fst y <? fst x then snd x * snd y + snd y else snd x) l + pairsum (fun x y => I (fst x) (fst y) * (snd x * snd y + snd x + snd y)) l)).
  { rewrite <- !pairsum_add, <- !sumf_add. apply eqm_add.
    - apply sumf_eqm. intros x Hx. exists (- (snd x * (image p (fst x) - fst x))). ring.
    - apply pairsum_eqm. intros x y Hx Hy. pose proof (Hl _ Hx). pose proof (Hl _ Hy). unfold I, ordx', ordx.
      destruct (Z.eqb_spec (fst x) (fst y)) as [->|N]; [rewrite !Z.ltb_irrefl; cbn [orb]; apply eqm_eq; ring|].
      assert (image p (fst x) <> image p (fst y)) by (intros E; apply N, (image_inj n p); auto). destruct (Z.eqb_spec (image p (fst x)) (image p (fst y))); [contradiction|]. cbn [orb].
      destruct (Z.ltb_spec (fst x) (fst y)), (Z.ltb_spec (fst y) (fst x)), (Z.ltb_spec (image p (fst x)) (image p (fst y))), (Z.ltb_spec (image p (fst y)) (image p (fst x))); cbn [Bool.eqb]; try lia; try (apply eqm_eq; ring).
      + exists (- snd x). ring.
      + exists (- (snd x * snd y + snd y)). ring. }
  rewrite (pairsum_ext (fun x y => I (fst x) (fst y) * (snd x * snd y + snd x + snd y)) (fun x y => I (fst x) (fst y) * ((snd x + 1) * (snd y + 1)) + (-1) * (I (fst x) (fst y) * (1 * 1)))) by (intros; ring).
  rewrite pairsum_add, pairsum_scal.
  pose proof (wl_pairsum I (inc l) n (ordx'_sym _) I0) as Q1. unfold inc in Q1 at 2. rewrite pairsum_map in Q1. cbn [fst snd] in Q1. rewrite Q1 by (intros x Hx; unfold inc in Hx; apply in_map_iff in Hx; destruct Hx as (y & <- & Hy); cbn; auto). clear Q1.
  pose proof (wl_pairsum I (ones l) n (ordx'_sym _) I0) as Q1. unfold ones in Q1 at 2. rewrite pairsum_map in Q1. cbn [fst snd] in Q1. rewrite Q1 by (intros x Hx; unfold ones in Hx; apply in_map_iff in Hx; destruct Hx as (y & <- & Hy); cbn; auto). clear Q1.
  rewrite (sumf_ext (fun x => snd x * (image p (fst x) - fst x)) (fun x => (image p (fst x) - fst x) * snd x)) by (intros; ring).
  rewrite (sumf_wl (fun a => image p a - a) l n Hl). unfold IS. fold I.
  assert (HW : forall a, wl (inc l) a = wl l a + wl (ones l) a).
  { intros a. clear. induction l as [|x l IH]; [reflexivity|]. unfold inc, ones in *. cbn [map]. rewrite !wl_cons, IH. cbn [fst snd]. destruct (fst x =? a); ring. }
  rewrite (pairsum_ext (fun a b => I a b * ((wl (inc l) a - 1) * (wl (inc l) b - 1))) (fun a b => I a b * (wl (inc l) a * wl (inc l) b) + ((-1) * (I a b * (wl (inc l) a + wl (inc l) b)) + I a b))) by (intros; ring).
  rewrite (pairsum_ext (fun a b => I a b * ((wl (ones l) a - 1) * (wl (ones l) b - 1))) (fun a b => I a b * (wl (ones l) a * wl (ones l) b) + ((-1) * (I a b * (wl (ones l) a + wl (ones l) b)) + I a b))) by (intros; ring).
  rewrite !pairsum_add, !pairsum_scal. rewrite !(sym_pairsum_sum I) by (auto using NoDup_zrange; apply ordx'_sym).
  rewrite (sumf_ext (fun a => wl (inc l) a * sumf (fun b => I a b) (zrange 1 (n + 1))) (fun a => wl l a * sumf (fun b => I a b) (zrange 1 (n + 1)) + wl (ones l) a * sumf (fun b => I a b) (zrange 1 (n + 1)))) by (intros; rewrite HW; ring).
  rewrite sumf_add.
  assert (EN : eqm 2 (sumf (fun a => (image p a - a) * wl l a) (zrange 1 (n + 1))) (sumf (fun a => wl l a * sumf (fun b => I a b) (zrange 1 (n + 1))) (zrange 1 (n + 1)))).
  { apply sumf_eqm. intros a Ha. apply in_zrange in Ha. pose proof (order_count n p a Hn Hp ltac:(lia)) as EO; fold I in EO; rewrite EO. apply eqm_eq. ring. }
  rewrite EN. clear EN.
  set (A := sumf (fun x => snd x * (n - fst x)) l). set (B := sumf (fun a => wl l a * _) _). set (C := pairsum (fun x y : Z * Z => if fst y <? fst x then snd x * snd y + snd y else snd x) l). set (D := pairsum (fun a b => I a b * (wl (inc l) a * wl (inc l) b)) _).
  set (E := pairsum (fun a b => I a b * (wl (ones l) a * wl (ones l) b)) _). set (F := sumf (fun a => wl (ones l) a * _) _). set (G := pairsum (fun a b => I a b) _).
  exists (B - E + F - G). ring.
Qed.
Lemma kinv_IS n p w : 0 <= n -> perm n p -> kinv p w = IS p n (fun a => w (image p a)).
Proof.
  intros Hn Hp. unfold kinv. rewrite <- (perm_map_image n p Hn Hp) at 1. rewrite pairsum_map. unfold IS.
  assert (R : forall m j, 1 <= j -> j + Z.of_nat m <= n + 1 ->
      pairsum (fun a b => if image p b <? image p a then w (image p a) * w (image p b) else 0) (zrange j (j + Z.of_nat m)) =
      pairsum (fun x y => ordx' (image p) x y * (w (image p x) * w (image p y))) (zrange j (j + Z.of_nat m))).
  { induction m as [|m IH]; intros j Hj Hm; [rewrite zrange_nil by lia; reflexivity|]. rewrite zrange_cons by lia. cbn [pairsum].
    replace (j + Z.of_nat (Datatypes.S m)) with (j + 1 + Z.of_nat m) by lia. rewrite IH by lia. f_equal. apply sumf_ext. intros y Hy. apply in_zrange in Hy.
    assert (image p j <> image p y) by (intros E; apply (image_inj n p) in E; auto; lia).
    unfold ordx', ordx. destruct (Z.eqb_spec j y); [lia|]. destruct (Z.eqb_spec (image p j) (image p y)); [contradiction|]. cbn [orb].
    destruct (Z.ltb_spec j y); [|lia]. destruct (Z.ltb_spec (image p y) (image p j)), (Z.ltb_spec (image p j) (image p y)); cbn [Bool.eqb]; try lia; ring. }
  specialize (R (Z.to_nat n) 1 ltac:(lia) ltac:(lia)). replace (1 + Z.of_nat (Z.to_nat n)) with (n + 1) in R by lia. exact R.
Qed.
Lemma IS_ext p n w w' : (forall a, 1 <= a <= n -> w a = w' a) -> IS p n w = IS p n w'.
Proof. intros Hw. apply pairsum_ext. intros a b Ha Hb. apply in_zrange in Ha, Hb. rewrite !Hw by lia. reflexivity. Qed.
Definition mvl {B} (p : list Z) (L : list (Z * B)) : list (Z * B) := map (fun x => (image p (fst x), snd x)) L.
Lemma combine_mvl {B} p k (u : list B) : combine (map (image p) k) u = mvl p (combine k u).
Proof. revert u. induction k as [|a k IH]; intros [|b u]; try reflexivity. cbn. now rewrite IH. Qed.
Lemma joined_move n p L i : perm n p -> (forall x, In x L -> 1 <= fst x <= n) -> 1 <= i <= n -> joined (image p i) (mvl p L) = joined i L.
Proof.
  intros Hp HL Hi. induction L as [|[a b] L IH]; [reflexivity|]. cbn [mvl map fst snd]. fold (mvl p L). rewrite !joined_cons, IH by (intros; apply HL; now right). f_equal.
  assert (1 <= a <= n) by (apply (HL (a, b)); now left).
  destruct (Z.eqb_spec a i) as [->|N]; [now rewrite Z.eqb_refl|]. destruct (Z.eqb_spec (image p a) (image p i)) as [E|]; [|reflexivity]. exfalso. apply N, (image_inj n p); auto.
Qed.
Lemma nth_joins r L a : 1 <= a <= r -> znth [] (joins r L) (a - 1) = joined a L.
Proof.
  intros Ha. unfold joins, znth. rewrite (zrange_app 1 a (r + 1)), (zrange_cons a) by lia. rewrite map_app. cbn [map].
  rewrite app_nth2 by (rewrite map_length, zrange_length; lia). rewrite map_length, zrange_length. now replace (Z.to_nat (a - 1) - Z.to_nat (a - 1))%nat with O by lia.
Qed.
Lemma joins_move n p L : 0 <= n -> perm n p -> (forall x, In x L -> 1 <= fst x <= n) -> joins n (mvl p L) = placef p (joins n L).
Proof.
  intros Hn Hp HL. unfold joins at 1, placef. rewrite (perm_len n p) by assumption. apply map_ext_in. intros j Hj.
  assert (Hin : In j p) by (eapply Permutation_in; [apply Permutation_sym; exact Hp|exact Hj]). apply in_zrange in Hj. destruct (posn_index _ _ Hin) as (_ & R & E). rewrite (perm_len n p) in R by assumption.
  unfold lab. rewrite nth_joins by lia. rewrite <- E at 1. now apply (joined_move n).
Qed.
Lemma wt_mvl p L : wt (mvl p L) = mvw p (wt L).
Proof. unfold wt, mvl, mvw. rewrite !map_map. reflexivity. Qed.
Lemma wl_inc L a : wl (inc (wt L)) a = zlen (joined a L).
Proof. rewrite len_joined. unfold wl, inc. rewrite sumf_map. reflexivity. Qed.
Lemma wl_ones L a : wl (ones (wt L)) a = times_in a (map fst L).
Proof. unfold wl, ones, wt. rewrite map_map, sumf_map. cbn [fst snd]. induction L as [|[b s] L IH]; [reflexivity|]. rewrite sumf_cons, IH. cbn [map times_in fst]. reflexivity. Qed.
Lemma asg_IS n p k : 0 <= n -> perm n p -> onto n k -> asg MS p k = sgn (IS p n (fun a => times_in a k - 1)).
Proof.
  intros Hn Hp Hk. unfold asg. cbn [tw]. rewrite <- (eps_move n p k Hn Hp Hk). f_equal. rewrite (kinv_IS n) by assumption. apply IS_ext. intros a Ha. rewrite (posn_image n) by assumption. now apply nth_dims.
Qed.
(** one piece of the simplex at a time *)
Lemma piece_move r p k (u : list (list Z)) g : 0 <= r -> perm r p -> onto r k -> length u = length k ->
  asg MS p k * T1 r (map (image p) k) g u = T1 r k (fun K => kact spx_dim g p K) u.
Proof.
  intros Hr Hp Hk Lu. unfold T1. rewrite combine_mvl, wt_mvl. set (L := combine k u).
  assert (HL : forall x, In x L -> 1 <= fst x <= r) by (intros x Hx; eapply letters_ok; eauto).
  rewrite (joins_move r) by assumption. rewrite (asg_IS r) by assumption. unfold kact. rewrite (kinv_IS r) by assumption.
  assert (HW : forall x, In x (wt L) -> 1 <= fst x <= r) by (intros x Hx; unfold wt in Hx; apply in_map_iff in Hx; destruct Hx as (y & <- & Hy); cbn; auto).
  rewrite (sgn_eqm (action_exponent r (mvw p (wt L))) _ (aex_move r p (wt L) Hr Hp HW)). rewrite !sgn_add.
  rewrite (IS_ext p r (fun a => wl (ones (wt L)) a - 1) (fun a => times_in a k - 1)) by (intros a _; rewrite wl_ones; unfold L; now rewrite map_fst_combine).
  rewrite (IS_ext p r (fun a => spx_dim (lab p (joins r L) (image p a))) (fun a => wl (inc (wt L)) a - 1)).
  - set (A := sgn (IS p r (fun a => times_in a k - 1))). assert (AA : A * A = 1) by (unfold A; apply sgn_sq). set (B := sgn (IS p r _)). set (C := sgn (action_exponent r (wt L))).
    transitivity (A * A * (C * B * g (placef p (joins r L)))); [ring|]. rewrite AA. ring.
  - intros a Ha. unfold lab. rewrite (posn_image r) by assumption. rewrite nth_joins by assumption. now rewrite wl_inc.
Qed.
Lemma Phi_equiv r p k (s : list Z) g : 1 <= r -> perm r p -> onto r k -> asg MS p k * Phi r 1 g (map (image p) k) [s] = Phi r 1 (fun K => kact spx_dim g p K) k [s].
Proof.
  intros Hr Hp Hk. change [s] with ([] ++ s :: []). rewrite !(Phi_app r 1) by reflexivity. change (tdeg spx_dim []) with 0. rewrite !Z.mul_0_l, sgn_0, !Z.mul_1_l, map_length.
  assert (Nk : k <> []) by (intros ->; destruct (Hk 1) as [_ Hk1]; apply Hk1; lia).
  rewrite <- S_scal. apply S_ext_in. intros u Hu. pose proof (fb_len k s u Nk Hu) as Lu.
  etransitivity; [|etransitivity; [exact (piece_move r p k u (fun v => g ([] ++ v ++ [])) ltac:(lia) Hp Hk Lu)|]]; [reflexivity|].
  unfold T1, kact. cbn [app]. now rewrite !app_nil_r.
Qed.
