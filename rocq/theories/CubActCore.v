(** * The action of words on tensors of cubes: degree, degeneracy, boundary modulo 2.  Proof library. *)
From Coq Require Import Setoid Morphisms.
From Verif Require Import PyBase Dict FreeModule Symmetric Simplicial Cubical Utils Surjection Eqm Spec SpecChain SpecOperad SpecSurj SpecAction SpecCube SpecCubAction FreeModuleFacts FreeModuleLaws ListFacts
  ClassFacts LinearFacts BilFacts SymmetricFacts CycleFacts SymmetricLaws RingFacts Tensor TensorAct LoopFacts AW SimplicialFacts SimplicialDiag SurjFacts SurjBoundary SurjLaws ActFacts ActSign ActCore SpecCube CubicalFacts CubicalDiag CubicalJoin CubActFacts.

(** ** Joins of consecutive pieces vanish *)
Definition comp1 (x y : Z) : Prop := x = y \/ (x = 2 /\ y = 1) \/ (x = 0 /\ y = 2).
Definition comp : list Z -> list Z -> Prop := Forall2 comp1.
Lemma comp_delta x y : comp1 x y -> delta x y = 0.
Proof. intros [->|[[-> ->]|[-> ->]]]; [|reflexivity|reflexivity]. unfold delta. destruct (Z.eqb_spec y 0), (Z.eqb_spec y 1); try lia; reflexivity. Qed.
Lemma jj_comp b c : comp b c -> forall G, jj G b c = 0.
Proof.
  induction 1 as [|x y b c Hxy Hbc IH]; intros G; [reflexivity|]. cbn [jj]. destruct (y =? 2); [reflexivity|]. rewrite comp_delta, IH by assumption. ring.
Qed.
Lemma jj_in G G' c1 c2 : zlen c1 = zlen c2 -> (forall v, cube_dim v <> 0 -> G v = G' v) -> jj G c1 c2 = jj G' c1 c2.
Proof.
  intros L E. rewrite <- !join2_jj. apply ev_ext. intros v e Hin. apply E. apply join2_len in Hin; [|exact L]. pose proof (cube_dim_nonneg c1). pose proof (cube_dim_nonneg c2). lia.
Qed.
Lemma jj_scal n G c1 c2 : jj (fun v => n * G v) c1 c2 = n * jj G c1 c2. Proof. rewrite <- !join2_jj. apply ev_scal. Qed.
Lemma jj_zero c1 c2 : jj (fun _ => 0) c1 c2 = 0. Proof. rewrite <- join2_jj. now apply ev_zero. Qed.
Lemma jj_jj_comp b c : comp b c -> forall G A, zlen A = zlen b -> jj (fun v => jj G v c) A b = 0.
Proof.
  induction 1 as [|x y b c Hxy Hbc IH]; intros G A L; [destruct A; reflexivity|]. destruct A as [|a A]; [reflexivity|]. rewrite !zlen_cons in L.
  change (jj (fun v => jj G v (y :: c)) (a :: A) (x :: b)) with
    (if x =? 2 then 0 else e0 (a :: A) * delta a x * jj G (2 :: b) (y :: c) + (if a =? 2 then -1 else 1) * jj (fun v => jj G (a :: v) (y :: c)) A b).
  destruct (Z.eqb_spec x 2) as [|Nx]; [reflexivity|].
  assert (E1 : jj G (2 :: b) (y :: c) = 0).
  { cbn [jj]. destruct (y =? 2); [reflexivity|]. rewrite e0_cons. change (2 =? 2) with true. cbv iota. rewrite (jj_comp b c Hbc). ring. }
  rewrite E1.
  assert (E2 : jj (fun v => jj G (a :: v) (y :: c)) A b = 0).
  { destruct (Z.eq_dec y 2) as [->|Ny].
    - rewrite (jj_in _ (fun _ => 0)) by (lia || (intros; apply jj_n2)). apply jj_zero.
    - rewrite (jj_in _ (fun v => (if a =? 2 then -1 else 1) * jj (fun w => G (a :: w)) v c)); [rewrite jj_scal, IH by lia; ring|lia|].
      intros v Hv. cbn [jj]. destruct (Z.eqb_spec y 2); [contradiction|]. destruct (e0_cases (a :: v)) as [[E _]|[_ ->]]; [|ring].
      rewrite cube_dim_cons in E. pose proof (cube_dim_nonneg v). destruct (a =? 2); lia. }
  rewrite E2. ring.
Qed.
Lemma Jg_comp G N : forall A b c B, comp b c -> (forall x, In x (A ++ b :: c :: B) -> zlen x = N) -> Jg G (A ++ b :: c :: B) = 0.
Proof.
  intros A. remember (length A) as n eqn:En. revert A En. induction n as [|n IH]; intros A En b c B Hc HN.
  - destruct A; [|discriminate]. cbn [app]. rewrite Jg_2, join2_jj. now apply jj_comp.
  - destruct A as [|x A]; [discriminate|]. destruct A as [|y A].
    + cbn [app]. rewrite Jg_2. rewrite (ev_ext_all _ (fun v => jj (fun w => Jg G (w :: B)) v c)) by (intros; now rewrite Jg_2, join2_jj). rewrite join2_jj. apply jj_jj_comp; [exact Hc|].
      rewrite (HN x) by now left. rewrite (HN b) by (right; now left). reflexivity.
    + cbn [app]. rewrite Jg_2. apply ev_zero. intros v e Hv. change (v :: A ++ b :: c :: B) with ((v :: A) ++ b :: c :: B). apply IH; [cbn in *; lia|exact Hc|].
      intros z [<-|Hz]; [|apply HN; right; now right]. apply join2_len in Hv; [|rewrite (HN x) by (now left); rewrite (HN y) by (right; now left); reflexivity].
      rewrite (proj1 Hv). apply HN. now left.
Qed.
Lemma serre_pairs_comp c f b e : In (f, b, e) (serre_pairs c) -> Forall2 (fun x y => (x = 2 /\ y = 1) \/ (x = 0 /\ y = 2) \/ (x = y /\ y <> 2)) f b.
Proof.
  revert f b e. induction c as [|a w IH]; intros f b e Hin; cbn [serre_pairs] in Hin.
  - destruct Hin as [[= <- <- _]|[]]. constructor.
  - apply in_flat_map in Hin. destruct Hin as ([[f' b'] e'] & H1 & H2). apply IH in H1. destruct (Z.eqb_spec a 2).
    + destruct H2 as [[= <- <- _]|[[= <- <- _]|[]]]; constructor; auto.
    + destruct H2 as [[= <- <- _]|[]]. constructor; auto.
Qed.
Lemma comp_front f b c d e : Forall2 (fun x y => (x = 2 /\ y = 1) \/ (x = 0 /\ y = 2) \/ (x = y /\ y <> 2)) f b -> In (c, d, e) (serre_pairs b) -> comp f c.
Proof.
  intros H. revert c d e. induction H as [|x y f b Hxy Hfb IH]; intros c d e Hin; cbn [serre_pairs] in Hin.
  - destruct Hin as [[= <- <- _]|[]]. constructor.
  - apply in_flat_map in Hin. destruct Hin as ([[c' d'] e'] & H1 & H2). apply IH in H1. destruct (Z.eqb_spec y 2).
    + destruct H2 as [[= <- <- _]|[[= <- <- _]|[]]]; constructor; auto; unfold comp1; lia.
    + destruct H2 as [[= <- <- _]|[]]. constructor; [unfold comp1; lia|exact H1].
Qed.
Lemma serre_comp t : forall s u1 b c u2 e, In (u1 ++ b :: c :: u2, e) (serre t s) -> comp b c.
Proof.
  induction t as [|t IH]; intros s u1 b c u2 e Hu; cbn [serre] in Hu.
  - destruct Hu as [[= E _]|[]]. destruct u1 as [|? [|? ?]]; discriminate.
  - apply in_flat_map in Hu. destruct Hu as ([[f d] e1] & H1 & H2). apply in_map_iff in H2. destruct H2 as ([u' e'] & E & H2). injection E as E _. destruct u1 as [|b1 u1]; cbn [app] in E; injection E as -> E; subst u'.
    + apply serre_pairs_comp in H1. destruct t as [|t].
      * destruct H2 as [[= <- _ _]|[]]. clear -H1. induction H1 as [|x y f b Hxy H IH]; constructor; [unfold comp1; lia|exact IH].
      * cbn [serre] in H2. apply in_flat_map in H2. destruct H2 as ([[c' d'] e2] & H3 & H4). apply in_map_iff in H4. destruct H4 as ([u' e3] & E & _). injection E as -> _ _. eapply comp_front; eauto.
    + eapply IH; eauto.
Qed.
Lemma MJ_zero is g L a : In a is -> (forall G, Jg G (grouped a L) = 0) -> MJ is g L = 0.
Proof.
  intros Ha Hn. revert g. induction is as [|i is IH]; intros g; [destruct Ha|]. cbn [MJ]. destruct (Z.eq_dec i a) as [->|N]; [apply Hn|].
  destruct Ha as [Ha|Ha]; [congruence|]. rewrite (Jg_ext _ (fun _ => 0)) by (intros; now apply IH). now apply ev_zero.
Qed.
Lemma TC_adj r k g u t s e : onto r k -> length u = length k -> In (u, e) (serre t s) -> adj k = true -> TC r k g u = 0.
Proof.
  intros Ho L Hu E. apply adj_split in E. destruct E as (k1 & a & k2 & ->).
  assert (Hs : exists u1 b c u2, u = u1 ++ b :: c :: u2 /\ length u1 = length k1).
  { clear -L. revert u L. induction k1 as [|a' k1 IH]; intros [|b u] L; try discriminate.
    - destruct u as [|c u]; [discriminate|]. exists [], b, c, u. auto.
    - destruct (IH u) as (u1 & b' & c & u2 & -> & E); [cbn in L; lia|]. exists (b :: u1), b', c, u2. cbn. auto. }
  destruct Hs as (u1 & b & c & u2 & -> & L1). pose proof (serre_comp _ _ _ _ _ _ _ Hu) as Hc.
  assert (HN : forall x, In x (u1 ++ b :: c :: u2) -> zlen x = zlen s) by (intros x Hx; apply (serre_eqc _ _ _ _ (zlen s) eq_refl Hu x Hx)).
  unfold TC. apply (MJ_zero _ _ _ a).
  - apply in_zrange. assert (1 <= a <= r) by (apply Ho; apply in_or_app; right; now left). lia.
  - intros G. 
    assert (EC : combine (k1 ++ a :: a :: k2) (u1 ++ b :: c :: u2) = combine k1 u1 ++ (a, b) :: (a, c) :: combine k2 u2).
    { clear -L1. revert u1 L1. induction k1 as [|a' k1 IH]; intros [|b' u] L; try discriminate; [reflexivity|]. cbn [app combine]. f_equal. apply IH. cbn in L. lia. }
    rewrite EC, grouped_app, !grouped_cons, Z.eqb_refl. cbn [app]. apply (Jg_comp G (zlen s)); [exact Hc|].
    intros x Hx. apply HN. clear -Hx. apply in_app_or in Hx. apply in_or_app. destruct Hx as [Hx|[<-|[<-|Hx]]]; [left|right; now left|right; right; now left|right; right; right].
    + unfold grouped in Hx. apply in_map_iff in Hx. destruct Hx as ([a' x'] & <- & Hx). apply filter_In in Hx. now apply proj1, in_combine_r in Hx.
    + unfold grouped in Hx. apply in_map_iff in Hx. destruct Hx as ([a' x'] & <- & Hx). apply filter_In in Hx. now apply proj1, in_combine_r in Hx.
Qed.
(** ** The action on tensors *)
Definition PhiC (r coord : Z) (g : list (list Z) -> Z) (k : list Z) (K : list (list Z)) : Z := ev g (cub_acts r (zlen k - r) coord k K).
Definition cwt (L : list (Z * list Z)) : list (Z * Z) := map (fun p => (fst p, cube_dim (snd p))) L.
Definition csg (r : Z) (L : list (Z * list Z)) : Z := sgn (action_exponent r (cwt L) + join_exponent r (cwt L)).
Definition T1C (r : Z) (k : list Z) (g : list (list Z) -> Z) (u : list (list Z)) : Z := csg r (combine k u) * TC r k g u.
Lemma cwt_combine k u : combine k (map dim u) = cwt (combine k u).
Proof. revert u. induction k as [|a k IH]; intros [|b u]; try reflexivity. cbn [map combine]. unfold cwt in *. cbn [map fst snd]. rewrite cube_dim_dim, IH. reflexivity. Qed.
Lemma cdegt k : cube_degree k = tdeg cube_dim k.
Proof. unfold cube_degree, tdeg. f_equal. apply map_ext. intros c. symmetry. apply cube_dim_dim. Qed.
Lemma PhiC_at r coord g k K : PhiC r coord g k K =
  at_pos (coord - 1) (fun l1 s l2 => sgn (tdeg cube_dim l1 * (zlen k - r)) * SC (length k - 1) (T1C r k (fun v => g (l1 ++ v ++ l2))) s) K.
Proof.
  unfold PhiC, at_pos, cub_acts. unfold ev at 1. rewrite sumf_flat_map, cuts_splits. apply sumf_ext. intros [[l1 s] l2] _.
  destruct (zlen l1 =? coord - 1); [|reflexivity]. rewrite SC_sum. unfold ev at 1. rewrite sumf_flat_map, <- sumf_scal. apply sumf_ext. intros [u e] _. cbn [fst snd]. unfold T1C, TC. rewrite MJ_tensor.
  rewrite cwt_combine, cdegt. fold (csg r (combine k u)). unfold ev. rewrite sumf_map, <- !sumf_scal. apply sumf_ext. intros [w e'] _. cbn [fst snd]. ring.
Qed.
Lemma PhiC_app r coord g k l1 s l2 : zlen l1 = coord - 1 -> PhiC r coord g k (l1 ++ s :: l2) =
  sgn (tdeg cube_dim l1 * (zlen k - r)) * SC (length k - 1) (T1C r k (fun v => g (l1 ++ v ++ l2))) s.
Proof. intros E. rewrite PhiC_at. now rewrite at_pos_app. Qed.
(** ** degree *)
Lemma joins_in N : forall K b e, (forall c, In c K -> zlen c = N) -> In (b, e) (SpecCube.joins K) -> zlen b = N /\ cube_dim b = tdeg cube_dim K + zlen K - 1 /\ ((forall c, In c K -> is_cube c) -> is_cube b).
Proof.
  intros K b e HK Hin. destruct K as [|c K]; [destruct Hin|]. unfold SpecCube.joins in Hin.
  assert (G : forall K acc, (forall c : list Z, In c K -> zlen c = N) ->
    (forall (b : list Z) (e : Z), In (b, e) acc -> zlen b = N) -> forall b e, In (b, e) (fold_left (fun acc c' => flat_map (fun '(b, e) => map (fun '(b', e') => (b', e * e')) (join2 b c')) acc) K acc) ->
    zlen b = N /\ exists b0 e0, In (b0, e0) acc /\ cube_dim b = cube_dim b0 + tdeg cube_dim K + zlen K /\ (is_cube b0 -> (forall c, In c K -> is_cube c) -> is_cube b)).
  { clear. induction K as [|c K IH]; intros acc HK Hacc b e Hin; cbn [fold_left] in Hin.
    - split; [eapply Hacc; eauto|]. exists b, e. split; [exact Hin|]. unfold tdeg, zlen. cbn. split; [lia|auto].
    - assert (Hacc' : forall b' e', In (b', e') (flat_map (fun '(b, e) => map (fun '(b', e') => (b', e * e')) (join2 b c)) acc) -> zlen b' = N).
      { intros b' e' Hb'. apply in_flat_map in Hb'. destruct Hb' as ([b1 e1] & H1 & H2). apply in_map_iff in H2. destruct H2 as ([b2 e2] & [= <- _] & H2).
        apply join2_len in H2; [rewrite (proj1 H2); eapply Hacc; eauto|]. rewrite (HK c) by now left. eapply Hacc; eauto. }
      destruct (IH _ (fun x Hx => HK x (or_intror Hx)) Hacc' b e Hin) as (Lb & b0 & e0' & H0 & D0 & C0).
      split; [exact Lb|]. apply in_flat_map in H0. destruct H0 as ([b1 e1] & H1 & H2). apply in_map_iff in H2. destruct H2 as ([b2 e2] & [= <- _] & H2).
        exists b1, e1. split; [exact H1|]. pose proof H2 as H3. apply join2_len in H2; [|rewrite (HK c) by (now left); eapply Hacc; eauto]. split.
        * rewrite D0, tdeg_cons, zlen_cons. lia.
        * intros C1 CK. apply C0; [|intros; apply CK; now right]. apply (join2_cube b1 c b2 e2); [exact C1|apply CK; now left|exact H3]. }
  assert (H1 : forall (b' : list Z) (e' : Z), In (b', e') [(c, 1)] -> zlen b' = N) by (intros b' e' [[= <- _]|[]]; apply HK; now left).
  destruct (G K [(c, 1)] (fun x Hx => HK x (or_intror Hx)) H1 b e Hin) as (Lb & b0 & e1 & [[= <- _]|[]] & D & C).
  split; [exact Lb|]. split; [rewrite tdeg_cons, zlen_cons; lia|]. intros CK. apply C; [apply CK; now left|intros; apply CK; now right].
Qed.
Lemma tensor_in N (is : list Z) L : (forall p, In p L -> zlen (snd p) = N) -> forall w e, In (w, e) (tensor_chains (map (fun i => SpecCube.joins (grouped i L)) is)) ->
  zlen w = zlen is /\ tdeg cube_dim w = sumf (fun i => tdeg cube_dim (grouped i L) + zlen (grouped i L) - 1) is /\ ((forall p, In p L -> is_cube (snd p)) -> forall c, In c w -> is_cube c).
Proof.
  intros HL. assert (HG : forall i c, In c (grouped i L) -> zlen c = N).
  { intros i c Hc. unfold grouped in Hc. apply in_map_iff in Hc. destruct Hc as (p & <- & Hp). apply filter_In in Hp. now apply HL. }
  induction is as [|i is IH]; intros w e Hin; cbn [map tensor_chains] in Hin.
  - destruct Hin as [[= <- _]|[]]. split; [reflexivity|]. split; [reflexivity|]. intros _ c [].
  - apply in_flat_map in Hin. destruct Hin as ([b e1] & H1 & H2). apply in_map_iff in H2. destruct H2 as ([w' e'] & [= <- _] & H2). destruct (IH w' e' H2) as (Lw & Dw & Cw).
    apply (joins_in N) in H1; [|apply HG]. destruct H1 as (_ & Db & Cb). rewrite !zlen_cons, tdeg_cons, sumf_cons, Dw, Db, Lw. split; [reflexivity|]. split; [reflexivity|].
    intros CL c [<-|Hc]; [|now apply Cw]. apply Cb. intros c Hc. unfold grouped in Hc. apply in_map_iff in Hc. destruct Hc as (p & <- & Hp). apply filter_In in Hp. now apply CL.
Qed.
Lemma grouped_sum r (f : list Z -> Z) L : (forall p, In p L -> 1 <= fst p <= r) -> sumf (fun i => sumf f (grouped i L)) (zrange 1 (r + 1)) = sumf (fun p => f (snd p)) L.
Proof.
  intros HL. induction L as [|[a c] L IH]; [apply sumf_0; reflexivity|]. rewrite sumf_cons. cbn [snd]. rewrite <- IH by (intros; apply HL; now right).
  rewrite (sumf_ext _ (fun i => (if i =? a then f c else 0) + sumf f (grouped i L))).
  2:{ intros i _. rewrite grouped_cons, sumf_app, Z.eqb_sym. destruct (i =? a); [|reflexivity]. rewrite sumf_cons, sumf_nil. ring. }
  rewrite sumf_add. f_equal. assert (Ha : 1 <= a <= r) by exact (HL (a, c) (or_introl eq_refl)).
  rewrite (zrange_split 1 (r + 1) a) by lia. rewrite sumf_app, sumf_cons, Z.eqb_refl, !sumf_0; [ring| |]; intros i Hi; apply in_zrange in Hi; destruct (Z.eqb_spec i a); lia.
Qed.
Lemma len_sf k (s : list Z) u e : k <> [] -> In (u, e) (serre (length k - 1) s) -> length u = length (k : list Z).
Proof. intros N H. apply serre_deg in H. destruct H as [_ H]. unfold zlen in H. destruct k; [congruence|cbn [length] in *; lia]. Qed.
Lemma tensor_deg r k u w e N : 1 <= r -> onto r k -> length u = length k -> (forall c, In c u -> zlen c = N) ->
  In (w, e) (tensor_chains (map (fun i => SpecCube.joins (grouped i (combine k u))) (zrange 1 (r + 1)))) -> zlen w = r /\ tdeg cube_dim w = tdeg cube_dim u + (zlen k - r) /\ ((forall c, In c u -> is_cube c) -> forall c, In c w -> is_cube c).
Proof.
  intros Hr Ho L HN Hin. apply (tensor_in N) in Hin. 2:{ intros [a c] Hp. apply HN. now apply in_combine_r in Hp. }
  destruct Hin as (Lw & Dw & Cw). split; [rewrite Lw, zlen_zrange; lia|]. split.
  - rewrite Dw, sumf_sub, sumf_1, zlen_zrange. rewrite (sumf_ext _ (fun i => sumf (fun c => cube_dim c + 1) (grouped i (combine k u)))).
    2:{ intros i _. rewrite sumf_add, sumf_1. reflexivity. }
    rewrite (grouped_sum r (fun c => cube_dim c + 1)) by (intros p; apply (letters_ok r k u p Ho)).
    replace (sumf (fun p => cube_dim (snd p) + 1) (combine k u)) with (tdeg cube_dim u + zlen k); [lia|].
    clear -L. revert u L. induction k as [|a k IH]; intros [|b u] L; try discriminate; [reflexivity|]. cbn [combine]. rewrite sumf_cons, tdeg_cons, zlen_cons. cbn [snd]. rewrite <- IH by (cbn in L; lia). ring.
  - intros Cu. apply Cw. intros [a c] Hp. apply Cu. now apply in_combine_r in Hp.
Qed.
Lemma actsC_in r d coord k K w v : In (w, v) (cub_acts r d coord k K) -> exists l1 s l2 u e w' e', K = l1 ++ s :: l2 /\ zlen l1 = coord - 1 /\ In (u, e) (serre (length k - 1) s) /\
   In (w', e') (tensor_chains (map (fun i => SpecCube.joins (grouped i (combine k u))) (zrange 1 (r + 1)))) /\ w = l1 ++ w' ++ l2.
Proof.
  unfold cub_acts. rewrite in_flat_map. intros ([[l1 s] l2] & Hs & Hin). rewrite cuts_splits in Hs. apply splits_in in Hs. destruct (Z.eqb_spec (zlen l1) (coord - 1)); [|destruct Hin].
  apply in_flat_map in Hin. destruct Hin as ([u e'] & Hu & Hin). apply in_map_iff in Hin. destruct Hin as ([w' e2] & [= <- _] & Hw). exists l1, s, l2, u, e', w', e2. auto.
Qed.
Definition kcub (n e : Z) (K : list (list Z)) : Prop := kdegC n e K /\ forall c, In c K -> is_cube c.
Lemma actsC_deg r d n e coord k K w v : 1 <= r -> surj_cell r d k -> kdegC n e K -> In (w, v) (cub_acts r (zlen k - r) coord k K) ->
  kdegC (n + r - 1) (e + d) w /\ ((forall c, In c K -> is_cube c) -> forall c, In c w -> is_cube c).
Proof.
  intros Hr [Ho Lk] [Ln De] Hin. apply actsC_in in Hin. destruct Hin as (l1 & s & l2 & u & e1 & w' & e2 & -> & E1 & Hu & Hw & ->). assert (Nk : k <> []) by (apply (onto_ne r); auto).
  pose proof (serre_deg _ _ _ _ Hu) as [Ed _]. pose proof (len_sf k s u e1 Nk Hu) as Lu. pose proof (serre_eqc _ _ _ _ (zlen s) eq_refl Hu) as HU.
  apply (tensor_deg r k u w' e2 (zlen s) Hr Ho Lu) in Hw; [|intros c Hc; now apply HU]. destruct Hw as (Lw & Dw & Cw). split.
  - unfold kdeg. rewrite !tdeg_app, tdeg_cons, !zlen_app, zlen_cons in *. lia.
  - intros CK c Hc. apply in_app_or in Hc. destruct Hc as [Hc|Hc]; [apply CK; apply in_or_app; now left|]. apply in_app_or in Hc. destruct Hc as [Hc|Hc]; [|apply CK; apply in_or_app; right; now right].
    apply Cw; [|exact Hc]. intros c' Hc'. apply HU; [exact Hc'|]. apply CK. apply in_or_app. right. now left.
Qed.
Lemma rep_PhiC r d n e coord : 1 <= r -> rep2 (surj_cell r d) (kdegC n e) (kdegC (n + r - 1) (e + d)) (PhiC r coord).
Proof. intros Hr k K Hk HK. exists (cub_acts r (zlen k - r) coord k K). split; [intros w v Hin; now apply (actsC_deg r d n e coord k K w v)|reflexivity]. Qed.
Lemma rep_PhiC' r d n e coord : 1 <= r -> rep2 (surj_cell r d) (kcub n e) (kcub (n + r - 1) (e + d)) (PhiC r coord).
Proof. intros Hr k K Hk [HK CK]. exists (cub_acts r (zlen k - r) coord k K). split; [intros w v Hin; destruct (actsC_deg r d n e coord k K w v Hr Hk HK Hin); split; auto|reflexivity]. Qed.
Lemma PhiC_adj r coord g k K : onto r k -> k <> [] -> adj k = true -> PhiC r coord g k K = 0.
Proof.
  intros Ho Nk E. rewrite PhiC_at. unfold at_pos. apply sumf_0. intros [[l1 s] l2] _. destruct (zlen l1 =? coord - 1); [|reflexivity].
  rewrite SC_sum. rewrite ev_zero; [ring|]. intros u e Hu. unfold T1C. rewrite (TC_adj r k _ u _ s e Ho (len_sf k s u e Nk Hu) Hu E). ring.
Qed.
Lemma adm_PhiC r d P Q coord : 1 <= r -> adm2 cls_surj cls_cubical cls_cubical (surj_cell r d) P Q (PhiC r coord).
Proof.
  intros Hr g _. split; intros k Hk _; apply admP_keyeq; intros k' H' Hb; [|discriminate].
  change (bad cls_surj k') with (surj_bad k') in Hb. rewrite (surj_bad_onto r) in Hb by (lia || apply H'). injection Hb as Hb. apply PhiC_adj; [apply H'|apply (onto_ne r); [exact Hr|apply H']|exact Hb].
Qed.
(** ** boundary modulo 2 *)
Lemma PhiC_mod2 r coord g k l1 s l2 : zlen l1 = coord - 1 -> eqm 2 (PhiC r coord g k (l1 ++ s :: l2)) (PsiC r k (fun v => g (l1 ++ v ++ l2)) s).
Proof.
  intros E. rewrite PhiC_app by exact E. rewrite (sgn_eqm2 (tdeg cube_dim l1 * (zlen k - r))), Z.mul_1_l. unfold PsiC. rewrite !SC_sum. apply ev_eqm. intros u e _. unfold T1C, csg.
  rewrite (sgn_eqm2 (_ + _)). apply eqm_eq. ring.
Qed.
Lemma sd_eqm t cv F G k : (forall k', eqm t (F k') (G k')) -> eqm t (sd cv F k) (sd cv G k).
Proof. intros E. rewrite !sd_ev. apply ev_eqm. intros; apply E. Qed.
Lemma tD_eqm t F G (k : list (list Z)) : (forall k' v, In (k', v) (tb fbC cube_dim k) -> eqm t (F k') (G k')) -> eqm t (tDC F k) (tDC G k).
Proof. intros E. unfold tD. apply ev_eqm. intros; eapply E; eauto. Qed.
Lemma fdC_eqm t F G c : (forall c', eqm t (F c') (G c')) -> eqm t (fdC F c) (fdC G c).
Proof. intros E. unfold fd. apply ev_eqm. intros; apply E. Qed.
Lemma PsiC_ext r k g h s : (forall v, g v = h v) -> PsiC r k g s = PsiC r k h s.
Proof. intros E. unfold PsiC. apply SC_ext. intros u _ _. unfold TC. now apply MJ_ext. Qed.
Lemma PsiC_lin r k g h s : PsiC r k (fun v => g v + h v) s = PsiC r k g s + PsiC r k h s.
Proof. unfold PsiC. rewrite <- SC_add. apply SC_ext. intros u _ _. apply MJ_lin2. Qed.
Lemma PsiC_eqm t r k g h s : (forall v, eqm t (g v) (h v)) -> eqm t (PsiC r k g s) (PsiC r k h s).
Proof. intros E. unfold PsiC. rewrite !SC_sum. apply ev_eqm. intros u e _. unfold TC. now apply MJ_eqm. Qed.
Lemma PsiC_exch_tD r k (H : list (list Z) -> list (list Z) -> Z) l s : PsiC r k (fun v => tDC (H v) l) s = tDC (fun l' => PsiC r k (fun v => H v l') s) l.
Proof.
  unfold PsiC. rewrite <- (SC_exch_tD _ (fun u l' => TC r k (fun v => H v l') u)). apply SC_ext. intros u _ _. unfold TC. rewrite MJ_tensor.
  rewrite (tD_ext_all fbC cube_dim _ (fun l' => ev (fun v => H v l') (tensor_chains (map (fun i => SpecCube.joins (grouped i (combine k u))) (zrange 1 (r + 1)))))) by (intros; apply MJ_tensor).
  unfold tD. apply (ev_exch (fun v l' => H v l')).
Qed.
Lemma PhiC_chain r cv coord g k l1 s l2 : 1 <= r -> onto r k -> is_cube s -> zlen l1 = coord - 1 ->
  eqm 2 (PhiC r coord (tDC g) k (l1 ++ s :: l2)) (sd cv (fun k' => PhiC r coord g k' (l1 ++ s :: l2)) k + tDC (fun K' => PhiC r coord g k K') (l1 ++ s :: l2)).
Proof.
  intros Hr Ho Cs E1. assert (Nk : k <> []) by (now apply (onto_ne r)). rewrite PhiC_mod2 by exact E1.
  rewrite (sd_eqm 2 cv _ (fun k' => PsiC r k' (fun v => g (l1 ++ v ++ l2)) s) k) by (intros; now apply PhiC_mod2).
  rewrite tD_app, tD_cons.
  rewrite (tD_eqm 2 (fun u => PhiC r coord g k (u ++ s :: l2)) (fun u => PsiC r k (fun v => g (u ++ v ++ l2)) s) l1).
  2:{ intros u v Hin. apply (tdeg_tb fbC cube_dim dim_fbC) in Hin. destruct Hin as [_ L]. apply PhiC_mod2. unfold zlen in *. lia. }
  rewrite (fdC_eqm 2 (fun b' => PhiC r coord g k (l1 ++ b' :: l2)) (PsiC r k (fun v => g (l1 ++ v ++ l2))) s) by (intros; now apply PhiC_mod2).
  rewrite (tD_eqm 2 (fun k' => PhiC r coord g k (l1 ++ s :: k')) (fun u => PsiC r k (fun v => g (l1 ++ v ++ u)) s) l2) by (intros; now apply PhiC_mod2).
  rewrite (PsiC_eqm 2 r k (fun v => tDC g (l1 ++ v ++ l2)) (fun v => tDC (fun u => g (u ++ v ++ l2)) l1 + (tDC (fun v' => g (l1 ++ v' ++ l2)) v + tDC (fun u => g (l1 ++ v ++ u)) l2))).
  2:{ intros v. rewrite !tD_app. rewrite (sgn_eqm2 (tdeg cube_dim l1)), (sgn_eqm2 (tdeg cube_dim v)). apply eqm_eq. ring. }
  rewrite (PsiC_lin r k (fun v => tDC (fun u => g (u ++ v ++ l2)) l1)), (PsiC_lin r k (fun v => tDC (fun v' => g (l1 ++ v' ++ l2)) v)).
  rewrite (PsiC_exch_tD r k (fun v u => g (u ++ v ++ l2))), (PsiC_exch_tD r k (fun v u => g (l1 ++ v ++ u))).
  change (fun v => tDC (fun v' => g (l1 ++ v' ++ l2)) v) with (tDC (fun v' => g (l1 ++ v' ++ l2))).
  rewrite (actC_chain r cv k (fun v' => g (l1 ++ v' ++ l2)) s Ho Nk Cs).
  rewrite (sgn_eqm2 (tdeg cube_dim l1)), (sgn_eqm2 (cube_dim s)). apply eqm_eq. ring.
Qed.
