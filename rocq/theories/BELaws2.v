(** * Property theorems of the Barratt-Eccles operad: diagonal, complexity. *)
From Coq Require Import Setoid Morphisms.
From Verif Require Import PyBase Dict FreeModule Symmetric Simplicial Utils Surjection BarrattEccles Eqm Spec SpecOperad FreeModuleFacts FreeModuleLaws ListFacts
  ClassFacts LinearFacts SymmetricFacts CycleFacts SymmetricLaws RingFacts RingLaws TensorAct LoopFacts AW ActGeneric SimplicialLaws BEFacts BEOrbit BEDiag BELaws.

(** ** Diagonal *)
(** #C42_diagonal_formula# [diagonal(r)] is the sum of the cuts of the basis
    elements in [r + 1] overlapping pieces, each once and with the coefficient of
    the basis element; extended linearly. *)
Lemma C42_diagonal_formula_l (dt r : Z) (x : bee) : wf cls_be x -> dt_ok dt (torsion x) ->
  gives (cls_free (list bkey)) (be_diagonal dt x r) (torsion x) tt (extend (fun k => map (fun m => (m, 1)) (front_back (Z.to_nat r) k)) x).
Proof.
  intros Wx Hdt. pose proof (proj1 Wx) as Ht. eapply (den_gives _ (ok_free (list bkey))); [exact Ht|now apply diagonal_den|].
  intros g _. cbn beta. apply eqm_eq. rewrite ev_extend. apply ev_ext. intros k v _. rewrite S_sum. unfold ev. rewrite sumf_map. apply sumf_ext.
  intros m _. cbn [fst snd]. ring.
Qed.
Lemma split_factor_at s j m g : ev g (split_factor s j m) = at_pos j (fun u1 b u2 => AW.S s (fun w => g (u1 ++ w ++ u2)) b) m.
Proof.
  unfold split_factor, at_pos. unfold ev. rewrite sumf_flat_map, cuts_splits. apply sumf_ext. intros [[u1 b] u2] _. destruct (zlen u1 =? j); [|reflexivity].
  rewrite sumf_map, S_sum. apply sumf_ext. intros w _. cbn [fst snd]. ring.
Qed.
(** #C42_coassociative# Cutting any of the pieces of [diagonal(r)] again in
    [s + 1] pieces gives [diagonal(r + s)]. *)
Lemma C42_coassociative_l (dt r s j : Z) (x : bee) (y : elt (list bkey) unit) : wf cls_be x -> dt_ok dt (torsion x) ->
  0 <= s -> 0 <= j <= r -> be_diagonal dt x r = Ok y ->
  gives (cls_free (list bkey)) (be_diagonal dt x (r + s)) (torsion x) tt (extend (split_factor (Z.to_nat s) j) y).
Proof.
  intros Wx Hdt Hs Hj Ey. pose proof (proj1 Wx) as Ht. eapply (den_gives _ (ok_free (list bkey))); [exact Ht|now apply diagonal_den|].
  intros g Hg. cbn beta. rewrite ev_extend. destruct (diagonal_den dt r (torsion x) x Ht Hdt Wx eq_refl) as (y' & Ey' & Dy). assert (y' = y) as -> by congruence.
  rewrite (den_ev _ _ _ _ _ _ Dy).
  - apply eqm_eq. apply ev_ext. intros k v _. rewrite Z2Nat.inj_add by lia. rewrite <- (S_coassoc (Z.to_nat r) (Z.to_nat s) g j k) by lia.
    apply S_ext. intros m. symmetry. apply split_factor_at.
  - split; [|discriminate]. intros k k' E. apply keqb_eq in E. now subst.
Qed.
(** #C42_linear# *)
Lemma C42_linear_l (dt r n : Z) (x y : bee) : wf cls_be x -> wf cls_be y -> torsion y = torsion x -> dt_ok dt (torsion x) ->
  let c := cls_free (list bkey) in
  same (let! s := add dt cls_be x y in be_diagonal dt s r)
       (let! p := be_diagonal dt x r in let! q := be_diagonal dt y r in add dt c p q) /\
  same (let! s := scale dt cls_be n x in be_diagonal dt s r)
       (let! p := be_diagonal dt x r in scale dt c n p).
Proof.
  intros Wx Wy Ty Hdt c. pose proof (proj1 Wx) as Ht. pose proof (ok_free (list bkey)) as Hc.
  set (P := fun k : bkey => negb (bbad k) = true).
  assert (KP : kpred P) by apply kpred_bool.
  assert (L : linop cls_be c (torsion x) tt tt P (fun _ => True) (fun g k => AW.S (Z.to_nat r) g k) (fun z => be_diagonal dt z r)).
  { intros z Wz Tz _ _. eapply returns_mono; [now apply (diagonal_den dt r (torsion x))|]. intros w Hw. split; [exact Hw|]. intros k v _. exact I. }
  assert (AD : admop cls_be c P (fun _ => True) (fun g k => AW.S (Z.to_nat r) g k)).
  { intros g Hg. apply admP_keyeq. intros k Pk Hb. rewrite be_bad in Hb. injection Hb as Hb. unfold P in Pk. rewrite Hb in Pk. discriminate. }
  assert (KK : forall z : bee, wf cls_be z -> keys_in P z).
  { intros z Wz k v Hin. apply (proj2 (proj2 Wz)) in Hin. destruct Hin as [_ Hb]. rewrite be_bad in Hb. injection Hb as Hb. unfold P. now rewrite Hb. }
  split.
  - exact (linop_add cls_be c ok_be Hc dt (torsion x) tt tt P _ _ _ x y Ht Hdt KP L AD Wx eq_refl (be_attr x) (KK x Wx) Wy Ty (be_attr y) (KK y Wy)).
  - exact (linop_scale cls_be c ok_be Hc dt (torsion x) tt tt P _ _ _ x n Ht Hdt KP L AD Wx eq_refl (be_attr x) (KK x Wx)).
Qed.
(** #C42_example# *)
Example C42_example_l :
  let x := mkElt [([[1; 2]; [2; 1]; [1; 2]], 5)] 0 tt in
  wf cls_be x /\
  be_diagonal 0 x 1 = Ok (mkElt [([[[1; 2]]; [[1; 2]; [2; 1]; [1; 2]]], 5); ([[[1; 2]; [2; 1]]; [[2; 1]; [1; 2]]], 5);
     ([[[1; 2]; [2; 1]; [1; 2]]; [[1; 2]]], 5)] 0 tt).
Proof. cbn zeta. split; [apply wfb_wf; reflexivity|]. vm_compute. reflexivity. Qed.

(** ** Complexity *)
Lemma max_loop {B} (l : list B) (f : B -> Z) : forall c, exists m, for_ l c (fun c a => Ok (Z.max (f a) c)) = Ok m /\
  c <= m /\ (forall a, In a l -> f a <= m) /\ (m = c \/ exists a, In a l /\ f a = m).
Proof.
  induction l as [|b l IH]; intros c; cbn [for_ bind].
  - exists c. repeat split; auto; [lia|intros ? []].
  - destruct (IH (Z.max (f b) c)) as (m & E & H1 & H2 & H3). exists m. split; [exact E|]. split; [lia|]. split.
    + intros a [<-|Ha]; [lia|auto].
    + destruct H3 as [H3|(a & Ha & H3)]; [|right; exists a; split; [now right|exact H3]].
      destruct (Z.max_spec (f b) c) as [[_ E']|[_ E']]; rewrite E' in H3; [now left|right; exists b; split; [now left|now symmetry]].
Qed.
Lemma in_pairs_upto m i j : In (i, j) (pairs_upto m) <-> 1 <= i < j /\ j <= m.
Proof.
  unfold pairs_upto. rewrite in_flat_map. split.
  - intros (c & Hc & Hin). apply combinations_in in Hc. destruct Hc as (L & SS & Hr). destruct c as [|a [|b [|? ?]]]; try discriminate.
    destruct Hin as [[= <- <-]|[]]. inversion SS as [|? ? _ F]; subst. inversion F; subst. pose proof (Hr a (or_introl eq_refl)). pose proof (Hr b (or_intror (or_introl eq_refl))). lia.
  - intros H. exists [i; j]. split; [|now left]. apply combinations_in. split; [reflexivity|]. split; [repeat constructor; lia|]. intros v [<-|[<-|[]]]; lia.
Qed.
Lemma pairwise_zlen {B} (k : list B) : k <> [] -> zlen (pairwise k) = zlen k - 1.
Proof.
  induction k as [|a k IH]; [congruence|]. intros _. destruct k as [|b k]; [reflexivity|]. rewrite pairwise_cons, !zlen_cons, IH, zlen_cons by discriminate. lia.
Qed.
(** what the code computes: 0 when there are no pairs, otherwise the largest degree *)
Lemma be_complexity_loop n : 1 <= n -> forall (ks : list bkey) c, 0 <= c -> (forall k, In k ks -> be_simplex n k /\ k <> []) ->
  exists m, for_ ks c (fun complexity k =>
    let! k0 := py_get k 0 in let! m := py_max k0 in
    for_ (pairs_upto m) complexity (fun complexity '(i, j) => let cpxty := zlen (pairwise k) in Ok (Z.max cpxty complexity))) = Ok m /\
  c <= m /\ (2 <= n -> forall k, In k ks -> zlen k - 1 <= m) /\ (m = c \/ 2 <= n /\ exists k, In k ks /\ zlen k - 1 = m).
Proof.
  intros Hn. induction ks as [|k ks IH]; intros c Hc Hks; cbn [for_].
  - exists c. repeat split; auto; [lia|intros _ ? []].
  - destruct (Hks k (or_introl eq_refl)) as [Hk Nk]. destruct k as [|k0 k]; [congruence|].
    replace (py_get (k0 :: k) 0) with (Ok k0) by (symmetry; exact (py_get_app [] k k0)). cbn [bind].
    rewrite (perm_max n) by (auto; apply Hk; now left). cbn [bind].
    destruct (max_loop (pairs_upto n) (fun _ => zlen (pairwise (k0 :: k))) c) as (m1 & E1 & H1 & H2 & H3).
    rewrite (for_ext _ _ (fun c _ => Ok (Z.max (zlen (pairwise (k0 :: k))) c))) by (now intros ? [? ?] _). rewrite E1. cbn [bind].
    destruct (IH m1 ltac:(lia)) as (m & E & G1 & G2 & G3); [intros; apply Hks; now right|].
    exists m. split; [exact E|]. split; [lia|]. rewrite pairwise_zlen in * by discriminate. split.
    + intros Hn2 k' [<-|Hk']; [|auto]. specialize (H2 (1, 2)). rewrite in_pairs_upto in H2. specialize (H2 ltac:(lia)). lia.
    + destruct G3 as [->|[Hn2 (k' & Hk' & G3)]]; [|right; split; [exact Hn2|]; exists k'; split; [now right|exact G3]].
      destruct H3 as [->|([i j] & Hij & H3)]; [now left|right]. apply in_pairs_upto in Hij. split; [lia|]. exists (k0 :: k). split; [now left|exact H3].
Qed.
(** #C43_value# What the code returns: 0 for arity 1 and for the zero element; for arity at
    least 2 the largest degree of a basis element. *)
Lemma C43_value_l (n : Z) (x : bee) : 1 <= n -> wf cls_be x -> keys_in (be_simplex n) x ->
  exists c, be_complexity x = Ok c /\ 0 <= c /\
    (n = 1 -> c = 0) /\
    (2 <= n -> forall k v, In (k, v) (data x) -> zlen k - 1 <= c) /\
    (c = 0 \/ exists k v, In (k, v) (data x) /\ zlen k - 1 = c).
Proof.
  intros Hn Wx Kx. destruct (be_complexity_loop n Hn (dkeys (data x)) 0 ltac:(lia)) as (m & E & H1 & H2 & H3).
  - intros k Hk. unfold dkeys in Hk. apply in_map_iff in Hk. destruct Hk as ([k' v] & <- & Hin). split; [exact (Kx _ _ Hin)|]. cbn.
    intros ->. apply (proj2 (proj2 Wx)) in Hin. destruct Hin as [_ Hb]. discriminate.
  - exists m. split; [exact E|]. split; [lia|]. split; [|split].
    + intros ->. destruct H3 as [H3|[H3 _]]; [exact H3|lia].
    + intros Hn2 k v Hin. apply H2; [exact Hn2|]. now apply (in_map fst) in Hin.
    + destruct H3 as [->|[_ (k & Hk & H3)]]; [now left|right]. unfold dkeys in Hk. apply in_map_iff in Hk. destruct Hk as ([k' v] & <- & Hin). eauto.
Qed.
Lemma order_changes_le i j k : k <> [] -> order_changes i j k <= zlen k - 1.
Proof.
  induction k as [|p k IH]; [congruence|]. intros _. destruct k as [|q k]; [exact (Z.le_refl 0)|].
  change (order_changes i j (p :: q :: k)) with ((if Bool.eqb (before i j p) (before i j q) then 0 else 1) + order_changes i j (q :: k)).
  rewrite zlen_cons. specialize (IH ltac:(discriminate)). destruct (Bool.eqb _ _); lia.
Qed.
(** #C43_upper_bound# It is an upper bound for the complexity: the number of
    changes of the relative order of [i] and [j]. *)
Lemma C43_upper_bound_l (n c : Z) (x : bee) : 1 <= n -> wf cls_be x -> keys_in (be_simplex n) x -> be_complexity x = Ok c ->
  forall k v i j, In (k, v) (data x) -> 1 <= i < j -> j <= n -> order_changes i j k <= c.
Proof.
  intros Hn Wx Kx E k v i j Hin Hi Hj. destruct (C43_value_l n x Hn Wx Kx) as (c' & E' & _ & _ & H & _). assert (c' = c) as -> by congruence.
  specialize (H ltac:(lia) _ _ Hin). assert (Nk : k <> []). { intros ->. apply (proj2 (proj2 Wx)) in Hin. destruct Hin as [_ Hb]. discriminate. }
  pose proof (order_changes_le i j k Nk). lia.
Qed.
Lemma perm2 p : perm 2 p -> p = [1; 2] \/ p = [2; 1].
Proof.
  intros Hp. unfold perm in Hp. change (zrange 1 (2 + 1)) with [1; 2] in Hp. apply Permutation_sym, Permutation_length_2_inv in Hp. exact Hp.
Qed.
Lemma order_changes_2 k : be_simplex 2 k -> bdup k = false -> k <> [] -> order_changes 1 2 k = zlen k - 1.
Proof.
  induction k as [|p k IH]; [congruence|]. intros Hk Hd _. destruct k as [|q k]; [reflexivity|].
  change (order_changes 1 2 (p :: q :: k)) with ((if Bool.eqb (before 1 2 p) (before 1 2 q) then 0 else 1) + order_changes 1 2 (q :: k)).
  rewrite bdup_cons2 in Hd. apply orb_false_iff in Hd. destruct Hd as [Hpq Hd]. rewrite IH by (try discriminate; auto; intros r Hr; apply Hk; now right).
  rewrite (zlen_cons p). assert (perm 2 p /\ perm 2 q) as [Hp Hq] by (split; apply Hk; cbn; tauto).
  apply perm2 in Hp, Hq. destruct Hp as [-> | ->], Hq as [-> | ->]; try discriminate; match goal with |- context [Bool.eqb ?a ?b] => change (Bool.eqb a b) with false end; cbv iota; lia.
Qed.
(** #C43_arity_two# In arity two it is the complexity: the largest number of
    changes of the order of 1 and 2. *)
Lemma C43_arity_two_l (x : bee) : wf cls_be x -> keys_in (be_simplex 2) x ->
  exists c, be_complexity x = Ok c /\ (forall k v, In (k, v) (data x) -> order_changes 1 2 k <= c) /\
    (c = 0 \/ exists k v, In (k, v) (data x) /\ order_changes 1 2 k = c).
Proof.
  intros Wx Kx. destruct (C43_value_l 2 x ltac:(lia) Wx Kx) as (c & E & H0 & _ & H1 & H2). exists c. split; [exact E|].
  assert (G : forall k v, In (k, v) (data x) -> order_changes 1 2 k = zlen k - 1).
  { intros k v Hin. pose proof (proj2 (proj2 (proj2 Wx) _ _ Hin)) as Hb. rewrite be_bad in Hb. injection Hb as Hb.
    apply order_changes_2; [exact (Kx _ _ Hin)| |]; destruct k; try discriminate. exact Hb. }
  split; [intros k v Hin; rewrite (G _ _ Hin); now apply (H1 ltac:(lia) _ _ Hin)|].
  destruct H2 as [H2|(k & v & Hin & H2)]; [now left|right]. exists k, v. split; [exact Hin|]. now rewrite (G _ _ Hin).
Qed.
(** #C43_complexity_refuted# But in general it is not: for the basis element ((1,2,3),(1,3,2),(3,1,2)) the
    code returns 2 while no pair changes its order more than once. *)
Lemma C43_complexity_refuted_l :
  let x := mkElt [([[1; 2; 3]; [1; 3; 2]; [3; 1; 2]], 1)] 0 tt in
  wf cls_be x /\ keys_in (be_simplex 3) x /\ be_complexity x = Ok 2 /\
  forall k v i j, In (k, v) (data x) -> 1 <= i < j -> j <= 3 -> order_changes i j k <= 1.
Proof.
  cbn zeta. split; [apply wfb_wf; reflexivity|]. split; [|split; [reflexivity|]].
  - intros k v [[= <- <-]|[]] p Hp; cbn in Hp; decompose [or] Hp; subst; try tauto; permtac.
  - intros k v i j [[= <- <-]|[]] Hi Hj. assert (i = 1 /\ j = 2 \/ i = 1 /\ j = 3 \/ i = 2 /\ j = 3) as [[-> ->]|[[-> ->]|[-> ->]]] by lia; vm_compute; discriminate.
Qed.
