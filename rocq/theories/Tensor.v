(** * Tensor powers of a chain complex with a basis: boundary and Koszul
    action of permutations.  Proof library for Simplicial.v and Cubical.v. *)
From Coq Require Import Setoid Morphisms.
From Verif Require Import PyBase Dict FreeModule Symmetric Simplicial Eqm Spec FreeModuleFacts FreeModuleLaws ListFacts ClassFacts LinearFacts SymmetricFacts.

Lemma ev_lin2 {B} (g h : B -> Z) (d : dict B) : ev (fun k => g k + h k) d = ev g d + ev h d.
Proof. induction d as [|[k v] d IH]; rewrite ?ev_nil, ?ev_cons; [reflexivity|]. rewrite IH. ring. Qed.
Lemma ev_scal {B} n (g : B -> Z) (d : dict B) : ev (fun k => n * g k) d = n * ev g d.
Proof. induction d as [|[k v] d IH]; rewrite ?ev_nil, ?ev_cons; [ring|]. rewrite IH. ring. Qed.

Section Tensor.
Variable fb : list Z -> dict (list Z).
Variable dg : list Z -> Z.
Notation B := (list Z).

Definition fd (g : B -> Z) (b : B) : Z := ev g (fb b).
Fixpoint tb (k : list B) : dict (list B) :=
  match k with
  | [] => []
  | b :: k' => map (fun p => (fst p :: k', snd p)) (fb b) ++ map (fun p => (b :: fst p, sgn (dg b) * snd p)) (tb k')
  end.
Definition tD (g : list B -> Z) (k : list B) : Z := ev g (tb k).
Definition tdeg (k : list B) : Z := zsum (map dg k).

Lemma tdeg_cons b k : tdeg (b :: k) = dg b + tdeg k. Proof. reflexivity. Qed.
Lemma tdeg_app k k' : tdeg (k ++ k') = tdeg k + tdeg k'.
Proof. induction k as [|b k IH]; [reflexivity|]. cbn [app]. rewrite !tdeg_cons, IH. ring. Qed.

Lemma tD_nil g : tD g [] = 0. Proof. reflexivity. Qed.
Lemma tD_cons g b k : tD g (b :: k) = fd (fun b' => g (b' :: k)) b + sgn (dg b) * tD (fun k' => g (b :: k')) k.
Proof.
  unfold tD, fd. cbn [tb]. rewrite ev_app. f_equal.
  - unfold ev. rewrite sumf_map. reflexivity.
  - rewrite <- ev_scal. unfold ev. rewrite sumf_map. apply sumf_ext. intros [k' v] _. cbn. ring.
Qed.
Lemma tD_ext g h k : (forall k' v, In (k', v) (tb k) -> g k' = h k') -> tD g k = tD h k.
Proof. apply ev_ext. Qed.
Lemma tD_ext_all g h k : (forall k', g k' = h k') -> tD g k = tD h k.
Proof. intros E. apply ev_ext. auto. Qed.
Lemma fd_ext_all g h b : (forall b', g b' = h b') -> fd g b = fd h b.
Proof. intros E. apply ev_ext. auto. Qed.
Lemma tD_app g k1 k2 : tD g (k1 ++ k2) = tD (fun u => g (u ++ k2)) k1 + sgn (tdeg k1) * tD (fun u => g (k1 ++ u)) k2.
Proof.
  revert g. induction k1 as [|b k1 IH]; intros g; cbn [app]; [rewrite tD_nil; change (tdeg []) with 0; rewrite sgn_0, Z.mul_1_l, Z.add_0_l; reflexivity|].
  rewrite !tD_cons, IH, tdeg_cons, sgn_add. cbn beta. cbn [app]. ring.
Qed.
Lemma tD_splits g k : tD g k = sumf (fun '(l1, b, l2) => sgn (tdeg l1) * fd (fun b' => g (l1 ++ b' :: l2)) b) (splits k).
Proof.
  revert g. induction k as [|b k IH]; intros g; [reflexivity|]. rewrite tD_cons, splits_cons, sumf_cons, sumf_map, IH.
  cbn [app]. f_equal.
  - change (tdeg []) with 0. rewrite sgn_0, Z.mul_1_l. reflexivity.
  - rewrite <- sumf_scal. apply sumf_ext. intros [[l1 b'] l2] _. cbn [fst snd]. rewrite tdeg_cons, sgn_add. cbn [app]. ring.
Qed.

Hypothesis dg_fb : forall b b' v, In (b', v) (fb b) -> dg b' = dg b - 1.
Hypothesis fd_fd : forall g b, fd (fd g) b = 0.

Lemma tdeg_tb k k' v : In (k', v) (tb k) -> tdeg k' = tdeg k - 1 /\ length k' = length k.
Proof.
  revert k' v. induction k as [|b k IH]; intros k' v; cbn [tb]; [intros []|]. rewrite in_app_iff, !in_map_iff.
  intros [([b' s] & [= <- <-] & Hin)|([k0 s] & [= <- <-] & Hin)]; cbn [fst length]; rewrite !tdeg_cons.
  - apply dg_fb in Hin. lia.
  - apply IH in Hin. lia.
Qed.
Lemma fd_add g h b : fd (fun b' => g b' + h b') b = fd g b + fd h b.
Proof. apply ev_lin2. Qed.
Lemma tD_add g h b : tD (fun b' => g b' + h b') b = tD g b + tD h b.
Proof. apply ev_lin2. Qed.
Lemma fd_scal n g b : fd (fun b' => n * g b') b = n * fd g b.
Proof. apply ev_scal. Qed.
Lemma tD_scal n g b : tD (fun b' => n * g b') b = n * tD g b.
Proof. apply ev_scal. Qed.
Lemma fd_sgn g b : fd (fun b' => sgn (dg b') * g b') b = - (sgn (dg b) * fd g b).
Proof.
  unfold fd. transitivity (ev (fun b' => (- sgn (dg b)) * g b') (fb b)).
  - apply ev_ext. intros b' v Hin. apply dg_fb in Hin. rewrite Hin. rewrite sgn_sub, sgn_1. ring.
  - rewrite ev_scal. ring.
Qed.
Lemma tD_exch_fd (G : B -> list B -> Z) b k : fd (fun b' => tD (G b') k) b = tD (fun k' => fd (fun b' => G b' k') b) k.
Proof. apply ev_exch. Qed.
Lemma tD_tD g k : tD (tD g) k = 0.
Proof.
  revert g. induction k as [|b k IH]; intros g; [reflexivity|]. rewrite tD_cons.
  rewrite (fd_ext_all _ (fun b' => fd (fun b'' => g (b'' :: k)) b' + sgn (dg b') * tD (fun k' => g (b' :: k')) k)) by (intros; apply tD_cons).
  rewrite (tD_ext_all (fun k' => tD g (b :: k')) (fun k' => fd (fun b'' => g (b'' :: k')) b + sgn (dg b) * tD (fun k'' => g (b :: k'')) k')) by (intros; apply tD_cons).
  rewrite fd_add, tD_add, tD_scal, fd_fd, fd_sgn, IH. rewrite (tD_exch_fd (fun b' k' => g (b' :: k'))). ring.
Qed.
End Tensor.

(** ** Koszul action.  A key of length [n] is written [map K p], where [K]
    gives the factor that carries the label [i] and [p] is the list of labels. *)
Section Act.
Variable fb : list Z -> dict (list Z).
Variable dg : list Z -> Z.
Notation B := (list Z).
Hypothesis dg_fb : forall b b' v, In (b', v) (fb b) -> dg b' = dg b - 1.

Definition lab (p : list Z) (k : list B) (j : Z) : B := znth [] k (posn p j - 1).
Definition kinv (p : list Z) (w : Z -> Z) : Z := pairsum (fun i j => if j <? i then w i * w j else 0) p.
Definition placef (p : list Z) (k : list B) : list B := map (lab p k) (zrange 1 (zlen p + 1)).

Lemma map_lab p k : NoDup p -> length k = length p -> map (lab p k) p = k.
Proof.
  revert k. induction p as [|i p IH]; intros [|b k] ND L; try discriminate; [reflexivity|]. inversion ND as [|? ? Hn ND']; subst.
  cbn [map]. f_equal.
  - unfold lab. cbn [posn]. rewrite Z.eqb_refl. reflexivity.
  - rewrite <- (IH k) at 2; [|assumption|cbn in L; lia]. apply map_ext_in. intros j Hj. unfold lab. cbn [posn].
    destruct (Z.eqb_spec i j); [congruence|]. destruct (posn_index p j Hj) as (_ & H1 & _).
    unfold znth. replace (Z.to_nat (posn p j + 1 - 1)) with (S (Z.to_nat (posn p j - 1))) by lia. reflexivity.
Qed.
Lemma lab_get p k j : length k = length p -> In j p -> py_get k (posn p j - 1) = Ok (lab p k j).
Proof.
  intros L Hj. destruct (posn_index p j Hj) as (_ & H1 & _). apply py_get_in. unfold zlen in *. lia.
Qed.
Lemma posn_app p1 i p2 : ~ In i p1 -> posn (p1 ++ i :: p2) i = zlen p1 + 1.
Proof.
  induction p1 as [|a p1 IH]; intros H; cbn [app posn].
  - rewrite Z.eqb_refl. reflexivity.
  - destruct (Z.eqb_spec a i); [exfalso; apply H; now left|]. rewrite IH by (intros Hi; apply H; now right). rewrite zlen_cons. ring.
Qed.

Lemma place_ok n p k : 0 <= n -> perm n p -> zlen k = n -> place p k = Ok (placef p k).
Proof.
  intros Hn Hp Lk. pose proof (perm_len n p Hn Hp) as Lp. pose proof (perm_nodup _ _ Hp) as ND.
  assert (L : length k = length p) by (unfold zlen in *; lia).
  set (slots := fun done => map (fun j => if mem j done then Some (lab p k j) else None) (zrange 1 (n + 1))).
  assert (G : forall todo done, p = done ++ todo ->
     for_ (combine (zrange (zlen done) n) todo) (slots done) (fun slots '(idx, i) => let! a := py_get k idx in py_set slots (i - 1) (Some a)) = Ok (slots p)).
  { induction todo as [|i todo IH]; intros done E.
    - rewrite app_nil_r in E. subst done. destruct (zrange (zlen p) n); reflexivity.
    - assert (Lz : zlen done + zlen todo + 1 = n) by (rewrite <- Lp, E, zlen_app, zlen_cons; ring). pose proof (zlen_nonneg todo).
      rewrite (zrange_cons (zlen done) n) by lia. cbn [combine for_].
      assert (Nd : ~ In i done). { rewrite E in ND. apply NoDup_remove_2 in ND. intros Hi. apply ND, in_or_app. now left. }
      assert (Ep : posn p i = zlen done + 1) by (rewrite E; now apply posn_app).
      assert (Hi : In i p) by (rewrite E; apply in_or_app; right; now left).
      replace (zlen done) with (posn p i - 1) by lia. rewrite lab_get by auto. cbn [bind].
      pose proof (proj1 (perm_in n p i Hp) Hi) as Ri.
      unfold slots at 1. rewrite (zrange_app 1 i (n + 1)) by lia. rewrite (zrange_cons i (n + 1)) by lia. rewrite map_app. cbn [map].
      replace (i - 1) with (zlen (map (fun j => if mem j done then Some (lab p k j) else None) (zrange 1 i))) by (rewrite zlen_map, zlen_zrange; lia).
      rewrite py_set_app. cbn [bind].
      replace (posn p i - 1 + 1) with (zlen (done ++ [i])) by (rewrite zlen_app, Ep; unfold zlen at 2; cbn; ring).
      assert (Es : map (fun j => if mem j done then Some (lab p k j) else None) (zrange 1 i) ++ Some (lab p k i) :: map (fun j => if mem j done then Some (lab p k j) else None) (zrange (i + 1) (n + 1)) = slots (done ++ [i])).
      { unfold slots. rewrite (zrange_app 1 i (n + 1)) by lia. rewrite (zrange_cons i (n + 1)) by lia. rewrite map_app. cbn [map]. f_equal; [|f_equal].
        - apply map_ext_in. intros j Hj. apply in_zrange in Hj. rewrite mem_app. cbn. destruct (Z.eqb_spec j i); [lia|]. now rewrite !orb_false_r.
        - rewrite mem_app. cbn. rewrite Z.eqb_refl. now rewrite orb_true_r.
        - apply map_ext_in. intros j Hj. apply in_zrange in Hj. rewrite mem_app. cbn. destruct (Z.eqb_spec j i); [lia|]. now rewrite !orb_false_r. }
      rewrite Es. apply IH. now rewrite <- app_assoc. }
  unfold place.
  replace (repeat None (length p)) with (slots []).
  2:{ unfold slots. replace (length p) with (length (zrange 1 (n + 1))) by (rewrite zrange_length; unfold zlen in Lp; lia).
      generalize (zrange 1 (n + 1)). intros l. induction l as [|a l IH]; [reflexivity|]. cbn [map length repeat]. now rewrite IH. }
  unfold enumerate. rewrite Lp. change 0 with (zlen (@nil Z)) at 1. rewrite (G p []) by reflexivity. cbn [bind].
  unfold placef. rewrite Lp. unfold slots.
  erewrite mapM_map with (h := fun o => match o with Some b => b | None => [] end).
  - rewrite map_map. f_equal. apply map_ext_in. intros j Hj. apply in_zrange in Hj.
    replace (mem j p) with true; [reflexivity|]. symmetry. apply mem_in. apply (perm_in n p j Hp). lia.
  - intros o Ho. apply in_map_iff in Ho. destruct Ho as (j & <- & Hj). apply in_zrange in Hj.
    replace (mem j p) with true; [reflexivity|]. symmetry. apply mem_in. apply (perm_in n p j Hp). lia.
Qed.

Lemma splits_pairsum {A} (f : A -> A -> Z) l : sumf (fun '(l1, a, l2) => sumf (f a) l2) (splits l) = pairsum f l.
Proof.
  induction l as [|a l IH]; [reflexivity|]. rewrite splits_cons, sumf_cons, sumf_map. cbn [pairsum]. f_equal.
  rewrite <- IH. apply sumf_ext. now intros [[l1 b] l2] _.
Qed.
Lemma for_enum_splits {S} (p : list Z) (body : S -> Z * Z -> res S) (h : list Z -> Z -> list Z -> S -> S) :
  (forall l1 i l2 s, p = l1 ++ i :: l2 -> body s (zlen l1, i) = Ok (h l1 i l2 s)) ->
  forall s, for_ (enumerate p) s body = Ok (fold_left (fun s '(l1, i, l2) => h l1 i l2 s) (splits p) s).
Proof.
  intros Hb. assert (G : forall l done s, p = done ++ l -> for_ (combine (zrange (zlen done) (zlen p)) l) s body =
     Ok (fold_left (fun s '(l1, i, l2) => h l1 i l2 s) (splits_from done l) s)).
  { induction l as [|i l IH]; intros done s E.
    - destruct (zrange (zlen done) (zlen p)); reflexivity.
    - pose proof (zlen_nonneg l). rewrite zrange_cons by (rewrite E, zlen_app, zlen_cons; lia). cbn [combine for_ splits_from fold_left].
      rewrite (Hb done i l s E). cbn [bind]. replace (zlen done + 1) with (zlen (done ++ [i])) by (rewrite zlen_app; reflexivity).
      apply IH. now rewrite <- app_assoc. }
  intros s. apply (G p [] s). reflexivity.
Qed.
Lemma koszul_ok n p ws : 0 <= n -> perm n p -> zlen ws = n ->
  koszul_sign p ws = Ok (sgn (kinv p (fun j => znth 0 ws (posn p j - 1)))).
Proof.
  intros Hn Hp Lw. pose proof (perm_len n p Hn Hp) as Lp. pose proof (perm_nodup _ _ Hp) as ND. unfold koszul_sign.
  set (W := fun j => znth 0 ws (posn p j - 1)).
  rewrite (for_enum_splits p _ (fun l1 i l2 acc => acc + sumf (fun j => if j <? i then W i * W j else 0) l2)).
  - cbn [bind]. rewrite sgn_mod2. f_equal. f_equal. unfold kinv. rewrite <- splits_pairsum.
    assert (Q : forall (l : list (list Z * Z * list Z)) s, fold_left (fun s '(l1, i, l2) => s + sumf (fun j => if j <? i then W i * W j else 0) l2) l s =
       s + sumf (fun '(l1, i, l2) => sumf (fun j => if j <? i then W i * W j else 0) l2) l).
    { induction l as [|[[l1 i] l2] l IH]; intros s; cbn [fold_left]; rewrite ?sumf_nil, ?sumf_cons; [ring|]. rewrite IH. ring. }
    rewrite Q. ring.
  - intros l1 i l2 s E. replace (slice_from p (zlen l1 + 1)) with l2 by (rewrite E; now rewrite slice_from_app_S).
    rewrite (mapM_map _ W).
    + cbn [bind]. 
      assert (Ni : ~ In i l1). { rewrite E in ND. apply NoDup_remove_2 in ND. intros Hi. apply ND, in_or_app. now left. }
      assert (Ep : posn p i = zlen l1 + 1) by (rewrite E; now apply posn_app).
      replace (zlen l1) with (posn p i - 1) by lia. 
      assert (Hi : In i p) by (rewrite E; apply in_or_app; right; now left). destruct (posn_index p i Hi) as (_ & H1 & _).
      rewrite (py_get_in 0) by lia. cbn [bind]. f_equal. f_equal. change (zsum (map W (filter (fun j => j <? i) l2))) with (sumf W (filter (fun j => j <? i) l2)).
      rewrite sumf_filter, <- sumf_scal_r. apply sumf_ext. intros j _. fold (W i). destruct (j <? i); ring.
    + intros j Hj. apply filter_In in Hj. destruct Hj as [Hj _].
      assert (Hj2 : In j p) by (rewrite E; apply in_or_app; right; now right). destruct (posn_index p j Hj2) as (-> & H1 & _). cbn [bind].
      apply py_get_in. lia.
Qed.

(** the action on a form *)
Definition kact (g : list B -> Z) (p : list Z) (k : list B) : Z := sgn (kinv p (fun j => dg (lab p k j))) * g (placef p k).

Definition upd (K : Z -> B) (i : Z) (b : B) (j : Z) : B := if j =? i then b else K j.
Lemma kinv_ext p w w' : (forall i, In i p -> w i = w' i) -> kinv p w = kinv p w'.
Proof. intros E. apply pairsum_ext. intros i j Hi Hj. now rewrite !E. Qed.
Lemma kinv_eqm p w w' : (forall i, In i p -> eqm 2 (w i) (w' i)) -> eqm 2 (kinv p w) (kinv p w').
Proof. intros E. apply pairsum_eqm. intros i j Hi Hj. destruct (j <? i); [|reflexivity]. now rewrite !E. Qed.
Lemma lab_map p K j : In j p -> NoDup p -> lab p (map K p) j = K j.
Proof.
  intros Hj ND. unfold lab, znth. destruct (posn_index p j Hj) as (_ & H1 & H2). unfold image in H2.
  rewrite nth_indep with (d' := K 0) by (rewrite map_length; unfold zlen in H1; lia). rewrite map_nth. now rewrite H2.
Qed.
Lemma kact_map n g p K : 0 <= n -> perm n p -> kact g p (map K p) = sgn (kinv p (fun j => dg (K j))) * g (map K (zrange 1 (n + 1))).
Proof.
  intros Hn Hp. pose proof (perm_nodup _ _ Hp) as ND. unfold kact, placef. rewrite (perm_len n p Hn Hp). f_equal.
  - f_equal. apply kinv_ext. intros i Hi. now rewrite lab_map.
  - f_equal. apply map_ext_in. intros i Hi. apply in_zrange in Hi. apply lab_map; auto. apply (perm_in n p); auto. lia.
Qed.

(** boundary in terms of labels *)
Definition before (p : list Z) (w : Z -> Z) (i : Z) : Z := sumf (fun j => if posn p j <? posn p i then w j else 0) p.
Lemma posn_lt_app p1 i p2 j : NoDup (p1 ++ i :: p2) -> In j (p1 ++ i :: p2) -> (posn (p1 ++ i :: p2) j <? posn (p1 ++ i :: p2) i) = mem j p1.
Proof.
  intros ND Hj. assert (N1 : ~ In i p1) by (apply NoDup_remove_2 in ND; intros Hi; apply ND, in_or_app; now left).
  rewrite posn_app by exact N1. destruct (in_dec Z.eq_dec j p1) as [H1|H1].
  - rewrite (proj2 (mem_in j p1) H1). apply Z.ltb_lt.
    clear -H1. induction p1 as [|a p1 IH]; [destruct H1|]. cbn [app posn]. rewrite zlen_cons. pose proof (zlen_nonneg p1).
    destruct (Z.eqb_spec a j); [lia|]. destruct H1 as [->|H1]; [congruence|]. specialize (IH H1). lia.
  - rewrite (proj2 (mem_notin j p1) H1). apply Z.ltb_ge.
    clear -H1. induction p1 as [|a p1 IH]; cbn [app posn].
    + unfold zlen. cbn. destruct (Z.eqb_spec i j); [lia|]. assert (0 <= posn p2 j); [|lia]. clear. induction p2 as [|c p2 IH]; cbn; [lia|]. destruct (c =? j); lia.
    + rewrite zlen_cons. destruct (Z.eqb_spec a j); [exfalso; apply H1; now left|]. specialize (IH ltac:(intros Hi; apply H1; now right)). lia.
Qed.
Lemma before_app p1 i p2 w : NoDup (p1 ++ i :: p2) -> before (p1 ++ i :: p2) w i = sumf w p1.
Proof.
  intros ND. unfold before. rewrite (sumf_ext _ (fun j => if mem j p1 then w j else 0)).
  2:{ intros j Hj. now rewrite posn_lt_app. }
  rewrite sumf_app. rewrite (sumf_ext _ w p1) by (intros j Hj; now rewrite (proj2 (mem_in j p1) Hj)).
  rewrite (sumf_0 _ (i :: p2)); [ring|]. intros j Hj. rewrite (proj2 (mem_notin j p1)); [reflexivity|].
  intros Hj1. apply NoDup_app_remove_l in ND as ND2. clear -ND Hj Hj1. induction p1 as [|a p1 IH]; [destruct Hj1|].
  cbn in ND. inversion ND as [|? ? H1 H2]; subst. destruct Hj1 as [->|Hj1]; [apply H1, in_or_app; now right|auto].
Qed.
Lemma tD_map g p K : NoDup p ->
  tD fb dg g (map K p) = sumf (fun i => sgn (before p (fun j => dg (K j)) i) * fd fb (fun b => g (map (upd K i b) p)) (K i)) p.
Proof.
  intros ND. rewrite tD_splits.
  assert (E : forall f : list B * B * list B -> Z, sumf f (splits (map K p)) = sumf (fun '(l1, i, l2) => f (map K l1, K i, map K l2)) (splits p)).
  { clear. induction p as [|i p IH]; intros f; [reflexivity|]. cbn [map]. rewrite !splits_cons, !sumf_cons, !sumf_map. f_equal.
    rewrite IH. apply sumf_ext. now intros [[l1 b] l2] _. }
  rewrite E. clear E.
  assert (E : forall f : Z -> Z, sumf f p = sumf (fun '(l1, i, l2) => f i) (splits p)).
  { clear. induction p as [|i p IH]; intros f; [reflexivity|]. rewrite splits_cons, !sumf_cons, sumf_map. f_equal.
    rewrite IH. apply sumf_ext. now intros [[l1 b] l2] _. }
  rewrite E. apply sumf_ext. intros [[l1 i] l2] Hin. apply splits_in in Hin.
  assert (N1 : ~ In i l1) by (rewrite Hin in ND; apply NoDup_remove_2 in ND; intros Hi; apply ND, in_or_app; now left).
  assert (N2 : ~ In i l2) by (rewrite Hin in ND; apply NoDup_remove_2 in ND; intros Hi; apply ND, in_or_app; now right).
  f_equal.
  - f_equal. rewrite Hin, before_app by now rewrite <- Hin. unfold tdeg, sumf. now rewrite map_map.
  - apply fd_ext_all. intros b. f_equal. rewrite Hin, map_app. cbn [map]. f_equal; [|f_equal].
    + apply map_ext_in. intros j Hj. unfold upd. destruct (Z.eqb_spec j i); [congruence|reflexivity].
    + unfold upd. now rewrite Z.eqb_refl.
    + apply map_ext_in. intros j Hj. unfold upd. destruct (Z.eqb_spec j i); [congruence|reflexivity].
Qed.
Lemma posn_zrange n j : 1 <= j <= n -> posn (zrange 1 (n + 1)) j = j.
Proof.
  intros Hj. rewrite (zrange_app 1 j (n + 1)) by lia. rewrite (zrange_cons j) by lia. rewrite posn_app.
  - rewrite zlen_zrange. lia.
  - intros Hi. apply in_zrange in Hi. lia.
Qed.
Lemma kinv_upd p w w' i : NoDup p -> In i p -> (forall j, j <> i -> w' j = w j) -> w' i = w i - 1 ->
  eqm 2 (kinv p w' + before p w i) (kinv p w + sumf (fun j => if j <? i then w j else 0) p).
Proof.
  intros ND Hi Hw Hwi. apply in_split in Hi. destruct Hi as (l1 & l2 & E). rewrite E, before_app by now rewrite <- E.
  assert (N1 : ~ In i l1) by (rewrite E in ND; apply NoDup_remove_2 in ND; intros Hi; apply ND, in_or_app; now left).
  assert (N2 : ~ In i l2) by (rewrite E in ND; apply NoDup_remove_2 in ND; intros Hi; apply ND, in_or_app; now right).
  unfold kinv. rewrite !pairsum_app. cbn [pairsum]. rewrite !sumf_app, !sumf_cons. rewrite Z.ltb_irrefl.
  assert (X : forall l l', ~ In i l -> ~ In i l' -> sumf (fun a => sumf (fun j => if j <? a then w' a * w' j else 0) l') l = sumf (fun a => sumf (fun j => if j <? a then w a * w j else 0) l') l).
  { intros l l' Nl Nl'. apply sumf_ext. intros a Ha. apply sumf_ext. intros j Hj. destruct (j <? a); [|reflexivity]. rewrite !Hw; congruence. }
  assert (Y : forall l, ~ In i l -> pairsum (fun a j => if j <? a then w' a * w' j else 0) l = pairsum (fun a j => if j <? a then w a * w j else 0) l).
  { intros l Nl. apply pairsum_ext. intros a j Ha Hj. destruct (j <? a); [|reflexivity]. rewrite !Hw; congruence. }
  rewrite !Y by assumption.
  assert (Z1 : sumf (fun j => if j <? i then w' i * w' j else 0) l2 = sumf (fun j => if j <? i then w i * w j else 0) l2 - sumf (fun j => if j <? i then w j else 0) l2).
  { rewrite <- sumf_sub. apply sumf_ext. intros j Hj. rewrite Hwi. destruct (j <? i); [|reflexivity]. rewrite Hw by congruence. ring. }
  rewrite Z1.
  assert (Z2 : sumf (fun a => sumf (fun j => if j <? a then w' a * w' j else 0) (i :: l2)) l1 =
               sumf (fun a => sumf (fun j => if j <? a then w a * w j else 0) (i :: l2)) l1 - sumf (fun a => if i <? a then w a else 0) l1).
  { rewrite <- sumf_sub. apply sumf_ext. intros a Ha. rewrite !sumf_cons.
    rewrite (sumf_ext (fun j => if j <? a then w' a * w' j else 0) (fun j => if j <? a then w a * w j else 0) l2).
    - destruct (i <? a); [|ring]. rewrite Hwi, Hw by congruence. ring.
    - intros j Hj. destruct (j <? a); [|reflexivity]. rewrite !Hw; congruence. }
  rewrite Z2.
  assert (Z3 : sumf w l1 = sumf (fun j => if j <? i then w j else 0) l1 + sumf (fun a => if i <? a then w a else 0) l1).
  { rewrite <- sumf_add. apply sumf_ext. intros j Hj. assert (j <> i) by congruence. destruct (Z.ltb_spec j i), (Z.ltb_spec i j); lia. }
  rewrite Z3. exists (- sumf (fun j => if j <? i then w j else 0) l2). ring.
Qed.
Lemma kact_tD n g p k : 0 <= n -> perm n p -> zlen k = n -> tD fb dg (fun u => kact g p u) k = kact (tD fb dg g) p k.
Proof.
  intros Hn Hp Lk. pose proof (perm_nodup _ _ Hp) as ND. pose proof (perm_len n p Hn Hp) as Lp.
  rewrite <- (map_lab p k ND) by (unfold zlen in *; lia). set (K := lab p k).
  rewrite (kact_map n) by auto. rewrite !tD_map by (auto using NoDup_zrange). rewrite <- sumf_scal.
  rewrite (sumf_perm _ _ _ Hp). apply sumf_ext. intros i Hi. apply in_zrange in Hi.
  assert (Hip : In i p) by (apply (perm_in n p); auto; lia).
  unfold fd. rewrite Z.mul_assoc. rewrite <- !ev_scal. apply ev_ext. intros b v Hb. apply dg_fb in Hb.
  rewrite (kact_map n) by auto. rewrite Z.mul_assoc. f_equal. rewrite <- !sgn_add. apply sgn_eqm.
  pose proof (kinv_upd p (fun j => dg (K j)) (fun j => dg (upd K i b j)) i ND Hip) as Q.
  assert (before (zrange 1 (n + 1)) (fun j => dg (K j)) i = sumf (fun j => if j <? i then dg (K j) else 0) p) as ->.
  { unfold before. rewrite (sumf_perm _ _ _ Hp). apply sumf_ext. intros j Hj. apply in_zrange in Hj. now rewrite !posn_zrange by lia. }
  rewrite <- Q.
  - apply eqm_eq. ring.
  - intros j Nj. unfold upd. now destruct (Z.eqb_spec j i).
  - unfold upd. now rewrite Z.eqb_refl.
Qed.
Lemma placef_len n p k : 0 <= n -> perm n p -> zlen (placef p k) = n.
Proof. intros Hn Hp. unfold placef. rewrite zlen_map, zlen_zrange, (perm_len n); auto. lia. Qed.
Lemma placef_perm n p k : 0 <= n -> perm n p -> zlen k = n -> Permutation (placef p k) k.
Proof.
  intros Hn Hp Lk. pose proof (perm_nodup _ _ Hp) as ND. pose proof (perm_len n p Hn Hp) as Lp.
  rewrite <- (map_lab p k ND) at 2 by (unfold zlen in *; lia). unfold placef. rewrite Lp. apply Permutation_map. now apply Permutation_sym.
Qed.
Lemma kact_pmul n g a b k : 0 <= n -> perm n a -> perm n b -> zlen k = n ->
  kact (fun u => kact g a u) b k = kact g (pmul a b) k.
Proof.
  intros Hn Ha Hb Lk. pose proof (perm_nodup _ _ Hb) as ND. pose proof (perm_len n b Hn Hb) as Lb.
  rewrite <- (map_lab b k ND) by (unfold zlen in *; lia). set (K := lab b k).
  rewrite (kact_map n) by auto.
  set (K' := fun j => K (posn a j)).
  assert (EK : forall i, 1 <= i <= n -> K' (image a i) = K i) by (intros i Hi; unfold K'; now rewrite (posn_image n)).
  assert (E1 : map K (zrange 1 (n + 1)) = map K' a).
  { rewrite <- (perm_map_image n a Hn Ha) at 1. rewrite map_map. apply map_ext_in. intros i Hi. apply in_zrange in Hi. symmetry. apply EK. lia. }
  assert (E2 : map K b = map K' (pmul a b)).
  { unfold pmul. rewrite map_map. apply map_ext_in. intros i Hi. symmetry. apply EK. now apply (perm_in n b). }
  rewrite E1, E2. rewrite (kact_map n) by auto. rewrite (kact_map n) by auto using perm_pmul. rewrite Z.mul_assoc. f_equal.
  rewrite <- sgn_add. apply sgn_eqm.
  assert (Q : forall l, NoDup l -> (forall i, In i l -> 1 <= i <= n) ->
     eqm 2 (kinv (map (image a) l) (fun j => dg (K' j))) (kinv l (fun j => dg (K j)) + pairsum (fun x y => ordx' (image a) x y * (dg (K x) * dg (K y))) l)).
  { intros l NDl Hl. unfold kinv. rewrite pairsum_map, <- pairsum_add. apply pairsum_eqm_nodup; auto. intros x y Nxy Hx Hy. rewrite !EK by auto.
    assert (image a x <> image a y) by (intros E; apply Nxy; apply (image_inj n a); auto).
    unfold ordx', ordx. destruct (Z.eqb_spec x y); [lia|]. destruct (Z.eqb_spec (image a x) (image a y)); [lia|].
    cbn [orb]. destruct (Z.ltb_spec y x), (Z.ltb_spec x y), (Z.ltb_spec (image a y) (image a x)), (Z.ltb_spec (image a x) (image a y)); cbn [Bool.eqb]; try lia;
      try (apply eqm_eq; ring). exists (- (dg (K x) * dg (K y))). ring. }
  unfold pmul. rewrite (Q b ND) by (intros i Hi; now apply (perm_in n b)).
  rewrite (pairsum_perm _ b (zrange 1 (n + 1))); [|intros x y; rewrite ordx'_sym; ring|exact Hb].
  rewrite <- (perm_map_image n a Hn Ha) at 1. rewrite Q by (apply NoDup_zrange || (intros i Hi; apply in_zrange in Hi; lia)).
  assert (Z0 : kinv (zrange 1 (n + 1)) (fun j => dg (K j)) = 0).
  { assert (forall m j, kinv (zrange j (j + Z.of_nat m)) (fun j => dg (K j)) = 0) as R.
    { unfold kinv. induction m as [|m IH]; intros j; [rewrite zrange_nil by lia; reflexivity|].
      rewrite zrange_cons by lia. cbn [pairsum]. replace (j + Z.of_nat (S m)) with ((j + 1) + Z.of_nat m) by lia. rewrite IH.
      rewrite sumf_0; [reflexivity|]. intros i Hi. apply in_zrange in Hi. destruct (Z.ltb_spec i j); lia. }
    replace (n + 1) with (1 + Z.of_nat (Z.to_nat n)) by lia. apply R. }
  rewrite Z0. apply eqm_eq. ring.
Qed.
Lemma kact_id n g k : 0 <= n -> zlen k = n -> kact g (zrange 1 (n + 1)) k = g k.
Proof.
  intros Hn Lk. pose proof (NoDup_zrange 1 (n + 1)) as ND. assert (Hp := perm_id n). pose proof (perm_len n _ Hn Hp) as Lp.
  rewrite <- (map_lab _ k ND) by (unfold zlen in *; lia). set (K := lab _ k). rewrite (kact_map n) by auto.
  assert (Z0 : kinv (zrange 1 (n + 1)) (fun j => dg (K j)) = 0).
  { assert (forall m j, kinv (zrange j (j + Z.of_nat m)) (fun j => dg (K j)) = 0) as R.
    { unfold kinv. induction m as [|m IH]; intros j; [rewrite zrange_nil by lia; reflexivity|].
      rewrite zrange_cons by lia. cbn [pairsum]. replace (j + Z.of_nat (S m)) with ((j + 1) + Z.of_nat m) by lia. rewrite IH.
      rewrite sumf_0; [reflexivity|]. intros i Hi. apply in_zrange in Hi. destruct (Z.ltb_spec i j); lia. }
    replace (n + 1) with (1 + Z.of_nat (Z.to_nat n)) by lia. apply R. }
  rewrite Z0, sgn_0. ring.
Qed.
End Act.
