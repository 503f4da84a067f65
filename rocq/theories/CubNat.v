(** * Naturality of the cubical operations under maps of cubes (C107) *)
From Coq Require Import Setoid Morphisms.
From Verif Require Import PyBase Dict FreeModule Symmetric Simplicial Cubical Utils Surjection Eqm Spec SpecChain SpecOperad SpecSurj SpecAction SpecCube SpecCubAction SpecCubCup SpecCubNat FreeModuleFacts FreeModuleLaws ListFacts
  ClassFacts LinearFacts BilFacts SymmetricFacts CycleFacts SymmetricLaws RingFacts Tensor TensorAct KoszulFacts LoopFacts AW SimplicialFacts SimplicialDiag SimplicialLaws SurjFacts SurjBoundary SurjLaws
  SurjCompose ActFacts ActSign ActCore ActCode ActLaws CubicalFacts CubicalDiag CubicalJoin CubicalLaws CubActFacts CubActCore CubActCode CubActLaws CubCup2 JoinAssoc.

Definition pull (F : list Z -> option (list Z)) (G : list Z -> Z) (c : list Z) : Z := match F c with Some c' => G c' | None => 0 end.
Record good (F : list Z -> option (list Z)) : Prop := {
  g_fd : forall G c, fdC (pull F G) c = pull F (fdC G) c;
  g_se : forall H c, se (fun f b => pull F (fun f' => pull F (fun b' => H f' b') b) f) c = pull F (se H) c;
  g_jj : forall G a b, zlen a = zlen b -> jj (pull F G) a b = pull F (fun a' => pull F (fun b' => jj G a' b') b) a;
  g_dim : forall c c', F c = Some c' -> cube_dim c' = cube_dim c;
  g_len : forall a b a' b', zlen a = zlen b -> F a = Some a' -> F b = Some b' -> zlen a' = zlen b';
  g_none : forall c, F c = None -> cube_dim c <> 0 }.
Lemma pull_ext F G G' c : (forall v, G v = G' v) -> pull F G c = pull F G' c. Proof. intros E. unfold pull. destruct (F c); auto. Qed.
Lemma se_ext H H' c : (forall f b, H f b = H' f b) -> se H c = se H' c.
Proof.
  revert H H'. induction c as [|a c IH]; intros H H' E; cbn [se]; [apply E|]. destruct (a =? 2); [|apply IH; intros; apply E]. f_equal; apply IH; intros; [apply E|now rewrite E].
Qed.
Lemma se_zero c : se (fun _ _ => 0) c = 0.
Proof. rewrite se_sum. apply sumf_0. intros [[f b] e] _. ring. Qed.
Lemma delta_refl e : delta e e = 0. Proof. unfold delta. destruct (Z.eqb_spec e 0), (Z.eqb_spec e 1); try lia; reflexivity. Qed.
Lemma n2 a : a <> 2 -> (a =? 2) = false. Proof. intros; now apply Z.eqb_neq. Qed.
Lemma nil_len (b : list Z) : zlen (@nil Z) = zlen b -> b = []. Proof. destruct b; [reflexivity|]. rewrite zlen_nil, zlen_cons. pose proof (zlen_nonneg b). lia. Qed.
Lemma cons_len (a : Z) u (b : list Z) : zlen (a :: u) = zlen b -> exists y w, b = y :: w /\ zlen u = zlen w.
Proof. destruct b as [|y w]; rewrite ?zlen_nil, !zlen_cons; [pose proof (zlen_nonneg u); lia|]. intros. exists y, w. split; [reflexivity|lia]. Qed.

Lemma good_ins0 e : e <> 2 -> good (fun c => Some (e :: c)).
Proof.
  intros N. split.
  - intros G c. unfold pull. now rewrite fdC_n.
  - intros H c. unfold pull. now rewrite se_n.
  - intros G a b L. unfold pull. rewrite jj_nn by exact N. rewrite delta_refl. ring.
  - intros c c' [= <-]. rewrite cube_dim_cons, n2 by exact N. lia.
  - intros a b a' b' L [= <-] [= <-]. rewrite !zlen_cons. lia.
  - discriminate.
Qed.
Lemma good_del0 : good (forget_at 0).
Proof.
  split.
  - intros G [|a c]; [reflexivity|]. destruct (Z.eq_dec a 2) as [->|N].
    + rewrite fdC_2. unfold pull. cbn [forget_at]. change (1 =? 2) with false. change (0 =? 2) with false. change (2 =? 2) with true. cbn iota. rewrite fdC_0. ring.
    + rewrite fdC_n by exact N. unfold pull. cbn [forget_at]. now rewrite n2 by exact N.
  - intros H [|a c]; [reflexivity|]. destruct (Z.eq_dec a 2) as [->|N].
    + rewrite se_2. unfold pull. cbn [forget_at]. change (1 =? 2) with false. change (0 =? 2) with false. change (2 =? 2) with true. cbn iota. rewrite se_zero. rewrite (se_ext _ (fun _ _ => 0)) by (intros; ring). rewrite se_zero. reflexivity.
    + rewrite se_n by exact N. unfold pull. cbn [forget_at]. now rewrite n2 by exact N.
  - intros G [|a u] b L; [apply nil_len in L; subst; reflexivity|]. apply cons_len in L. destruct L as (y & w & -> & L). unfold pull. cbn [forget_at].
    destruct (Z.eqb_spec y 2) as [->|Ny]; [rewrite jj_two; destruct (a =? 2); reflexivity|].
    destruct (Z.eqb_spec a 2) as [->|Na]; [rewrite jj_2n by exact Ny; change (2 =? 2) with true; cbn iota; rewrite jj_zero; reflexivity|].
    rewrite jj_nn by assumption. change (2 =? 2) with true. cbn iota. rewrite (n2 a Na). rewrite Z.mul_0_r, Z.add_0_l. reflexivity.
  - intros [|a c] c'; cbn [forget_at]; [now intros [= <-]|]. destruct (Z.eqb_spec a 2) as [->|N]; [discriminate|]. intros [= <-]. rewrite cube_dim_cons, n2 by exact N. lia.
  - intros [|a u] b a' b' L; [apply nil_len in L; subst; now intros [= <-] [= <-]|]. apply cons_len in L. destruct L as (y & w & -> & L). cbn [forget_at]. destruct (a =? 2), (y =? 2); try discriminate. intros [= <-] [= <-]. exact L.
  - intros [|a c]; cbn [forget_at]; [discriminate|]. destruct (Z.eqb_spec a 2) as [->|N]; [|discriminate]. intros _. rewrite cube_dim_cons. change (2 =? 2) with true. cbn iota. pose proof (cube_dim_nonneg c). lia.
Qed.
Definition lift (d : list Z) (F : list Z -> option (list Z)) (c : list Z) : option (list Z) :=
  match c with [] => Some d | a :: c' => match F c' with Some w => Some (a :: w) | None => None end end.
Lemma pull_lift d F G a c : pull (lift d F) G (a :: c) = pull F (fun w => G (a :: w)) c.
Proof. unfold pull, lift. destruct (F c); reflexivity. Qed.
Lemma good_lift d F : d = [] \/ (exists e, e <> 2 /\ d = [e]) -> good F -> good (lift d F).
Proof.
  intros Hd [B S J D L N0].
  assert (Dd : cube_dim d = 0) by (destruct Hd as [->|(e & N & ->)]; [reflexivity|rewrite cube_dim_cons, n2, cube_dim_nil by exact N; reflexivity]).
  assert (Bd : forall G, fdC G d = 0) by (intros G; destruct Hd as [->|(e & N & ->)]; [reflexivity|rewrite fdC_n by exact N; reflexivity]).
  assert (Sd : forall H, se H d = H d d) by (intros H; destruct Hd as [->|(e & N & ->)]; [reflexivity|rewrite se_n by exact N; reflexivity]).
  assert (Jd : forall G, jj G d d = 0) by (intros G; destruct Hd as [->|(e & N & ->)]; [reflexivity|rewrite jj_nn by exact N; rewrite delta_refl; cbn [jj]; ring]).
  split.
  - intros G [|a c]; [unfold pull; cbn [lift]; now rewrite Bd|]. rewrite pull_lift. destruct (Z.eq_dec a 2) as [->|N].
    + rewrite fdC_2, !pull_lift. rewrite (fdC_ext _ (pull F (fun w => G (2 :: w)))) by (intros; apply pull_lift). rewrite B. unfold pull. destruct (F c) as [c'|]; [now rewrite fdC_2|ring].
    + rewrite fdC_n by exact N. rewrite (fdC_ext _ (pull F (fun w => G (a :: w)))) by (intros; apply pull_lift). rewrite B. apply pull_ext. intros v. now rewrite fdC_n.
  - intros H [|a c]; [unfold pull; cbn [lift se]; now rewrite Sd|]. rewrite pull_lift. destruct (Z.eq_dec a 2) as [->|N].
    + rewrite se_2. rewrite (se_ext _ (fun f b => pull F (fun f' => pull F (fun b' => H (2 :: f') (1 :: b')) b) f)) by (intros f b; rewrite pull_lift; apply pull_ext; intros; apply pull_lift).
      rewrite (S (fun f b => H (2 :: f) (1 :: b))).
      rewrite (se_ext _ (fun f b => pull F (fun f' => pull F (fun b' => sgn (cube_dim f') * H (0 :: f') (2 :: b')) b) f)).
      2:{ intros f b. rewrite pull_lift. unfold pull at 1 3. destruct (F f) as [f'|] eqn:E; [|ring]. rewrite pull_lift. rewrite (D f f' E). unfold pull. destruct (F b); ring. }
      rewrite (S (fun f b => sgn (cube_dim f) * H (0 :: f) (2 :: b))). unfold pull. destruct (F c); [now rewrite se_2|reflexivity].
    + rewrite se_n by exact N. rewrite (se_ext _ (fun f b => pull F (fun f' => pull F (fun b' => H (a :: f') (a :: b')) b) f)) by (intros f b; rewrite pull_lift; apply pull_ext; intros; apply pull_lift).
      rewrite (S (fun f b => H (a :: f) (a :: b))). apply pull_ext. intros v. now rewrite se_n.
  - intros G [|a u] b Lb; [apply nil_len in Lb; subst; unfold pull; cbn [lift jj]; now rewrite Jd|]. apply cons_len in Lb. destruct Lb as (y & w & -> & Lw). rewrite pull_lift.
    rewrite (pull_ext F _ (fun a' => pull F (fun b' => jj G (a :: a') (y :: b')) w)) by (intros v; apply pull_lift).
    destruct (Z.eqb_spec y 2) as [->|Ny].
    { rewrite jj_two. unfold pull. destruct (F u); [|reflexivity]. destruct (F w); [now rewrite jj_two|reflexivity]. }
    destruct (Z.eqb_spec a 2) as [->|Na].
    + rewrite jj_2n by exact Ny. rewrite (jj_ext_all _ (pull F (fun v => G (2 :: v)))) by (intros; apply pull_lift). rewrite J by exact Lw. unfold pull. destruct (F u); [|reflexivity]. destruct (F w); [now rewrite jj_2n|reflexivity].
    + rewrite jj_nn by assumption. rewrite pull_lift. rewrite (jj_ext_all _ (pull F (fun v => G (a :: v)))) by (intros; apply pull_lift). rewrite J by exact Lw. unfold pull at 2 3 4 5. destruct (F u) as [u'|] eqn:Eu.
      * unfold pull. destruct (F w) as [w'|]; [|ring]. rewrite jj_nn by assumption. unfold e0. rewrite (D _ _ Eu). reflexivity.
      * destruct (e0_cases u) as [[E _]|[_ ->]]; [exfalso; exact (N0 u Eu E)|ring].
  - intros [|a c] c'; cbn [lift]; [intros [= <-]; now rewrite Dd|]. destruct (F c) eqn:E; [|discriminate]. intros [= <-]. rewrite !cube_dim_cons. now rewrite (D _ _ E).
  - intros [|a u] b a' b' Lb; [apply nil_len in Lb; subst; cbn [lift]; now intros [= <-] [= <-]|]. apply cons_len in Lb. destruct Lb as (y & w & -> & Lw). cbn [lift]. destruct (F u) as [u'|] eqn:Eu; [|discriminate]. destruct (F w) as [w'|] eqn:Ew; [|discriminate].
    intros [= <-] [= <-]. rewrite !zlen_cons. f_equal. exact (L u w u' w' Lw Eu Ew).
  - intros [|a c]; cbn [lift]; [discriminate|]. destruct (F c) eqn:E; [discriminate|]. intros _. rewrite cube_dim_cons. pose proof (N0 c E). pose proof (cube_dim_nonneg c). destruct (a =? 2); lia.
Qed.
Lemma good_eq F F' : (forall c, F c = F' c) -> good F -> good F'.
Proof.
  intros E [B S J D L N]. assert (P : forall G c, pull F' G c = pull F G c) by (intros; unfold pull; now rewrite E). split.
  - intros G c. rewrite P, <- B. apply fdC_ext. intros; apply P.
  - intros H c. rewrite P, <- S. apply se_ext. intros f b. rewrite P. apply pull_ext. intros; apply P.
  - intros G a b Lb. rewrite P. rewrite (jj_ext_all _ (pull F G)) by (intros; apply P). rewrite J by exact Lb. apply pull_ext. intros; symmetry; apply P.
  - intros c c'. rewrite <- E. apply D.
  - intros a b a' b'. rewrite <- !E. apply L.
  - intros c. rewrite <- E. apply N.
Qed.
Lemma good_map m : proper m -> good (cube_image m).
Proof.
  destruct m as [p e|p]; intros H.
  - assert (N : e <> 2) by (cbn in H; lia). induction p as [|p IH]; [now apply good_ins0|]. apply (good_eq (lift [e] (cube_image (FaceInclusion p e)))); [|apply good_lift; [right; now exists e|exact (IH H)]].
    intros [|a c]; reflexivity.
  - induction p as [|p IH]; [exact good_del0|]. apply (good_eq (lift [] (cube_image (Projection p)))); [|apply good_lift; [now left|exact (IH H)]]. intros [|a c]; reflexivity.
Qed.
(** ** Tensors *)
Section Tens.
Variable F : list Z -> option (list Z).
Hypothesis HF : good F.
Definition isS (c : list Z) : bool := match F c with Some _ => true | None => false end.
Definition Ft (c : list Z) : list Z := match F c with Some d => d | None => [] end.
Definition allS (k : list (list Z)) : bool := forallb isS k.
Definition pullT (g : list (list Z) -> Z) (k : list (list Z)) : Z := if allS k then g (map Ft k) else 0.
Lemma pull_S G c : pull F G c = if isS c then G (Ft c) else 0. Proof. unfold pull, isS, Ft. destruct (F c); reflexivity. Qed.
Lemma pullT_ext g h k : (forall k', g k' = h k') -> pullT g k = pullT h k. Proof. intros E. unfold pullT. destruct (allS k); auto. Qed.
Lemma pullT_cons g c k : pullT g (c :: k) = pull F (fun c' => pullT (fun k' => g (c' :: k')) k) c.
Proof. rewrite pull_S. unfold pullT. cbn [allS forallb map]. change (forallb isS k) with (allS k). destruct (isS c); reflexivity. Qed.
Lemma allS_app k l : allS (k ++ l) = allS k && allS l. Proof. apply forallb_app. Qed.
Lemma pullT_app g k l : pullT g (k ++ l) = pullT (fun k' => pullT (fun l' => g (k' ++ l')) l) k.
Proof. unfold pullT. rewrite allS_app, map_app. destruct (allS k); reflexivity. Qed.
Lemma dim_S c : isS c = true -> cube_dim (Ft c) = cube_dim c.
Proof. unfold isS, Ft. destruct (F c) eqn:E; [|discriminate]. intros _. exact (g_dim F HF _ _ E). Qed.
Lemma tdeg_S k : allS k = true -> tdeg cube_dim (map Ft k) = tdeg cube_dim k.
Proof.
  induction k as [|c k IH]; [reflexivity|]. cbn [allS forallb map]. intros H. apply andb_prop in H. destruct H as [H1 H2]. rewrite !tdeg_cons, dim_S, IH by assumption. reflexivity.
Qed.
Lemma len_S N k : allN N k -> allS k = true -> forall c, In c k -> forall c', In c' k -> zlen (Ft c) = zlen (Ft c').
Proof.
  intros H A c Hc c' Hc'. unfold allS in A. rewrite forallb_forall in A. pose proof (A c Hc) as I1. pose proof (A c' Hc') as I2. unfold isS in I1, I2. unfold Ft. destruct (F c) eqn:E1; [|discriminate]. destruct (F c') eqn:E2; [|discriminate].
  eapply (g_len F HF c c'); eauto. rewrite (H c Hc), (H c' Hc'). reflexivity.
Qed.
Lemma nat_tDC g k : tDC (pullT g) k = pullT (tDC g) k.
Proof.
  revert g. induction k as [|c k IH]; intros g; [reflexivity|]. rewrite tD_cons.
  rewrite (fdC_ext _ (pull F (fun c' => pullT (fun k' => g (c' :: k')) k))) by (intros u; apply pullT_cons). rewrite (g_fd F HF).
  rewrite (tD_ext_all _ _ _ (fun k' => pullT (fun k2 => pull F (fun c' => g (c' :: k2)) c) k')).
  2:{ intros k'. rewrite pullT_cons. rewrite pull_S. unfold pullT. destruct (isS c) eqn:E; destruct (allS k'); rewrite ?pull_S, ?E; reflexivity. }
  rewrite IH, pullT_cons. rewrite !pull_S. unfold pullT. destruct (isS c) eqn:E.
  - destruct (allS k).
    + rewrite tD_cons, dim_S by exact E. f_equal. f_equal. apply tD_ext_all. intros k'. now rewrite pull_S, E.
    + rewrite fdC_0. ring.
  - destruct (allS k); [|ring]. rewrite (tD_ext_all _ _ _ (fun _ => 0)) by (intros; now rewrite pull_S, E). unfold tD. rewrite ev_zero by reflexivity. ring.
Qed.
Lemma nat_SC t : forall G c, SC t (pullT G) c = pull F (SC t G) c.
Proof.
  induction t as [|t IH]; intros G c; cbn [SC].
  - rewrite pullT_cons. apply pull_ext. intros v. reflexivity.
  - rewrite <- (g_se F HF). apply se_ext. intros f b. rewrite (SC_ext t _ (pullT (fun u => pull F (fun f' => G (f' :: u)) f))).
    2:{ intros u _ _. rewrite pullT_cons, pull_S. unfold pullT. destruct (isS f) eqn:E, (allS u); rewrite ?pull_S, ?E; reflexivity. }
    rewrite IH. rewrite !pull_S. destruct (isS f) eqn:E, (isS b); try reflexivity.
    + apply SC_ext. intros u _ _. now rewrite pull_S, E.
    + rewrite (SC_ext t _ (fun u => 0 * 0)) by (intros u _ _; now rewrite pull_S, E). rewrite SC_scal. ring.
Qed.
Lemma SC_zero t s : SC t (fun _ => 0) s = 0. Proof. rewrite SC_sum. now apply ev_zero. Qed.
Lemma pullT_mid g l1 u l2 : pullT g (l1 ++ u ++ l2) = pullT (fun u' => if allS l1 && allS l2 then g (map Ft l1 ++ u' ++ map Ft l2) else 0) u.
Proof. unfold pullT. rewrite !allS_app, !map_app. destruct (allS l1), (allS u), (allS l2); reflexivity. Qed.
Lemma nat_SdC n t coord g k : zlen k = n -> 1 <= coord <= n -> SdC t coord (pullT g) k = pullT (SdC t coord g) k.
Proof.
  intros L Hc. destruct (split_at k (coord - 1) ltac:(lia)) as (l1 & s & l2 & -> & L1). rewrite SdC_app by exact L1.
  rewrite (SC_ext t _ (pullT (fun u' => if allS l1 && allS l2 then g (map Ft l1 ++ u' ++ map Ft l2) else 0))) by (intros; apply pullT_mid).
  rewrite nat_SC, pull_S. unfold pullT. rewrite allS_app. change (allS (s :: l2)) with (isS s && allS l2). rewrite map_app. cbn [map]. destruct (allS l1), (isS s), (allS l2); cbn [andb]; try reflexivity; rewrite ?SC_zero; try reflexivity.
  rewrite SdC_app by (rewrite zlen_map; exact L1). reflexivity.
Qed.
Lemma nat_kactC n g p k : 0 <= n -> perm n p -> zlen k = n -> kact cube_dim (pullT g) p k = pullT (kact cube_dim g p) k.
Proof.
  intros Hn P L. pose proof (perm_nodup _ _ P) as Nd. pose proof (perm_len _ _ Hn P) as Lp. assert (Lk : length k = length p) by (unfold zlen in *; lia).
  assert (Ek : map (lab p k) p = k) by (apply map_lab; auto).
  assert (EL : forall j, In j p -> lab p (map Ft k) j = Ft (lab p k j)).
  { intros j Hj. rewrite <- Ek at 1. rewrite map_map. apply (lab_map p (fun j => Ft (lab p k j))); auto. }
  assert (EA : allS (placef p k) = allS k).
  { rewrite <- Ek at 2. unfold allS, placef. apply Bool.eq_iff_eq_true. rewrite !forallb_forall. rewrite Lp. split; intros H x Hx; apply H; apply in_map_iff in Hx; destruct Hx as (j & <- & Hj); apply in_map; [apply in_zrange; apply (perm_in _ _ _ P) in Hj; lia|apply (perm_in _ _ _ P); apply in_zrange in Hj; lia]. }
  unfold kact. unfold pullT. rewrite EA. destruct (allS k) eqn:A; [|ring]. f_equal.
  - f_equal. apply kinv_ext. intros j Hj. rewrite EL by exact Hj. symmetry. apply dim_S. unfold allS in A. rewrite forallb_forall in A. apply A. pose proof (in_map (lab p k) p j Hj) as H9. rewrite Ek in H9. exact H9.
  - f_equal. unfold placef. rewrite map_map. apply map_ext_in. intros j Hj. symmetry. apply EL. apply (perm_in _ _ _ P). apply in_zrange in Hj. lia.
Qed.
Lemma nat_Jn N : forall k b G, zlen b = N -> allN N k -> Jn (pull F G) k b = pull F (fun b' => pullT (fun k' => Jn G k' b') k) b.
Proof.
  induction k as [|c k IH]; intros b G Lb Hk; [reflexivity|]. destruct (allN_cons _ _ _ Hk) as [Lc Hk']. rewrite Jn_cons.
  rewrite (jj_in2 _ (pull F (fun v => pullT (fun k' => Jn G k' v) k)) b c ltac:(congruence)) by (intros v Lv _; apply IH; [congruence|exact Hk']).
  rewrite (g_jj F HF) by congruence. apply pull_ext. intros b'. rewrite pullT_cons. apply pull_ext. intros c'. unfold pullT. destruct (allS k); [symmetry; apply Jn_cons|apply jj_zero].
Qed.
Lemma nat_Jg N K G : allN N K -> Jg (pull F G) K = pullT (Jg G) K.
Proof.
  destruct K as [|c K]; intros H; [reflexivity|]. destruct (allN_cons _ _ _ H) as [Lc HK]. unfold Jg at 1. rewrite joins_Jn, (nat_Jn N) by assumption. rewrite pullT_cons. apply pull_ext. intros c'. apply pullT_ext. intros k'. unfold Jg. now rewrite joins_Jn.
Qed.
Definition FL (L : list (Z * list Z)) : list (Z * list Z) := map (fun p => (fst p, Ft (snd p))) L.
Lemma grouped_FL i L : grouped i (FL L) = map Ft (grouped i L).
Proof. unfold FL. induction L as [|[a c] L IH]; [reflexivity|]. cbn [map fst snd]. rewrite !grouped_cons, IH, map_app. destruct (a =? i); reflexivity. Qed.
Lemma nat_MJ N is : forall g L, (forall i, In i is -> allN N (grouped i L)) -> MJ is (pullT g) L = if forallb (fun i => allS (grouped i L)) is then MJ is g (FL L) else 0.
Proof.
  induction is as [|i is IH]; intros g L H; [reflexivity|]. cbn [MJ forallb].
  rewrite (Jg_ext _ (pull F (fun b' => if forallb (fun i => allS (grouped i L)) is then MJ is (fun w => g (b' :: w)) (FL L) else 0))).
  - rewrite (nat_Jg N) by (apply H; now left). unfold pullT. destruct (allS (grouped i L)); cbn [andb]; [|reflexivity]. rewrite <- grouped_FL. destruct (forallb _ is); [reflexivity|]. unfold Jg. now apply ev_zero.
  - intros b. rewrite pull_S. destruct (isS b) eqn:E.
    + rewrite <- IH by (intros; apply H; now right). apply MJ_ext. intros w. now rewrite pullT_cons, pull_S, E.
    + rewrite (MJ_ext is _ (fun w => 0 * 0)) by (intros w; now rewrite pullT_cons, pull_S, E). rewrite MJ_scal. ring.
Qed.
Lemma combine_FL k u : combine k (map Ft u) = FL (combine k u).
Proof. revert u. induction k as [|a k IH]; intros [|b u]; try reflexivity. cbn [map combine]. unfold FL in *. cbn [map fst snd]. now rewrite IH. Qed.
Lemma in_grouped {A} i (L : list (Z * A)) c : In c (grouped i L) <-> In (i, c) L.
Proof.
  unfold grouped. rewrite in_map_iff. split.
  - intros ([a c'] & <- & H). apply filter_In in H. destruct H as [H E]. apply Z.eqb_eq in E. cbn [fst snd] in *. now subst.
  - intros H. exists (i, c). split; [reflexivity|]. apply filter_In. split; [exact H|]. apply Z.eqb_refl.
Qed.
Lemma nat_T1C N r k g u : onto r k -> length u = length k -> allN N u -> T1C r k (pullT g) u = pullT (T1C r k g) u.
Proof.
  intros Ho Lu Hu. unfold T1C, TC. rewrite (nat_MJ N).
  2:{ intros i _ c Hc. apply in_grouped in Hc. apply in_combine_r in Hc. now apply Hu. }
  assert (E : forallb (fun i => allS (grouped i (combine k u))) (zrange 1 (r + 1)) = allS u).
  { apply Bool.eq_iff_eq_true. unfold allS. rewrite !forallb_forall. split.
    - intros H c Hc. destruct (In_nth u c [] Hc) as (j & Hj & Ec). assert (Hp : In (nth j k 0, c) (combine k u)) by (rewrite <- Ec, <- combine_nth by (symmetry; exact Lu); apply nth_In; rewrite combine_length; lia).
      assert (Hi : In (nth j k 0) (zrange 1 (r + 1))). { apply in_zrange. assert (In (nth j k 0) k) by (apply nth_In; lia). apply Ho in H0. lia. }
      specialize (H _ Hi). rewrite forallb_forall in H. apply H. now apply in_grouped.
    - intros H i _. apply forallb_forall. intros c Hc. apply H. apply in_grouped in Hc. now apply in_combine_r in Hc. }
  rewrite E. unfold pullT. destruct (allS u) eqn:A; [|ring]. rewrite combine_FL. f_equal. unfold csg. f_equal.
  assert (EW : cwt (FL (combine k u)) = cwt (combine k u)); [|now rewrite EW].
  unfold cwt, FL. rewrite map_map. apply map_ext_in. intros [a c] Hp. cbn [fst snd]. f_equal. apply dim_S. unfold allS in A. rewrite forallb_forall in A. apply A. now apply in_combine_r in Hp.
Qed.
Lemma nat_PhiC r d n coord g w k : 1 <= r -> surj_cell r d w -> zlen k = n -> 1 <= coord <= n -> PhiC r coord (pullT g) w k = pullT (PhiC r coord g w) k.
Proof.
  intros Hr [Ho Lw] L Hc. destruct (split_at k (coord - 1) ltac:(lia)) as (l1 & s & l2 & -> & L1). rewrite PhiC_app by exact L1.
  assert (Nw : w <> []) by (apply (onto_ne r); auto).
  rewrite (SC_sum _ (T1C r w _)). rewrite (ev_ext _ (pullT (T1C r w (fun u' => if allS l1 && allS l2 then g (map Ft l1 ++ u' ++ map Ft l2) else 0)))).
  2:{ intros u e Hu. rewrite <- (nat_T1C (zlen s) r w _ u Ho (len_sf w s u e Nw Hu)) by (intros c Hcc; apply (serre_eqc _ s u e (zlen s) eq_refl Hu c Hcc)).
      unfold T1C. f_equal. apply MJ_ext. intros v. apply pullT_mid. }
  rewrite <- SC_sum, nat_SC, pull_S. unfold pullT. rewrite allS_app. change (allS (s :: l2)) with (isS s && allS l2). rewrite map_app. cbn [map].
  assert (Z0 : forall s', SC (length w - 1) (T1C r w (fun _ => 0)) s' = 0).
  { intros s'. rewrite (SC_ext _ _ (fun u => 0 * 0)); [rewrite SC_scal; ring|]. intros u _ _. unfold T1C, TC. rewrite (MJ_ext _ _ (fun _ => 0 * 0)) by reflexivity. rewrite MJ_scal. ring. }
  destruct (allS l1) eqn:A1, (isS s), (allS l2); cbn [andb]; rewrite ?Z0; try ring.
  rewrite PhiC_app by (rewrite zlen_map; exact L1). now rewrite tdeg_S.
Qed.
End Tens.
(** ** Values and images *)
Notation key := (list (list Z)).
Lemma coef_sum (g : key -> Z) (L : list (key * Z)) (D : list key) : NoDup D -> (forall p, In p L -> In (fst p) D) -> ev g L = sumf (fun k => coef L k * g k) D.
Proof.
  intros Nd. induction L as [|[k v] L IH]; intros HD.
  - symmetry. apply sumf_0. intros k _. unfold coef. cbn. ring.
  - rewrite ev_cons, IH by (intros p Hp; apply HD; now right). clear IH.
    rewrite (sumf_ext (fun k0 => coef ((k, v) :: L) k0 * g k0) (fun k0 => (if list_eq_dec (list_eq_dec Z.eq_dec) k k0 then v * g k else 0) + coef L k0 * g k0)).
    2:{ intros k0 _. unfold coef. cbn [map fst snd]. change (zsum (?a :: ?l)) with (a + zsum l). destruct (list_eq_dec (list_eq_dec Z.eq_dec) k k0) as [<-|N]; [rewrite keqb_refl; ring|]. destruct (keqb k k0) eqn:E; [apply keqb_eq in E; contradiction|ring]. }
    rewrite sumf_add. f_equal. specialize (HD (k, v) ltac:(now left)). cbn [fst] in HD. clear -Nd HD. induction Nd as [|k0 D N0 Nd IH]; [destruct HD|]. rewrite sumf_cons. destruct (list_eq_dec (list_eq_dec Z.eq_dec) k k0) as [<-|N].
    + rewrite sumf_0; [ring|]. intros k1 H1. destruct (list_eq_dec (list_eq_dec Z.eq_dec) k k1); [congruence|reflexivity].
    + rewrite <- IH; [ring|]. destruct HD; [congruence|auto].
Qed.
Lemma rep_ev (y : cubc) L g : wf cls_cubical y -> represents cls_cubical y L -> eqm (torsion y) (ev g (data y)) (ev g L).
Proof.
  intros Wy R. set (D := nodup (list_eq_dec (list_eq_dec Z.eq_dec)) (dkeys (data y) ++ dkeys L)).
  assert (HD : forall p, In p (data y) \/ In p L -> In (fst p) D) by (intros p Hp; apply nodup_In, in_or_app; destruct Hp; [left|right]; now apply in_map).
  assert (N : NoDup D) by apply NoDup_nodup. transitivity (sumf (fun k => coef (data y) k * g k) D); [apply eqm_eq, (coef_sum g (data y) D N); auto|]. transitivity (sumf (fun k => coef L k * g k) D); [|apply eqm_eq; symmetry; apply (coef_sum g L D N); auto]. apply sumf_eqm. intros k _.
  assert (Hb : bad cls_cubical k = Ok false) by reflexivity.
  assert (E : eqm (torsion y) (coef (data y) k) (coef L k)); [|now rewrite E]. specialize (R k Hb). rewrite (coef_ev (data y)), dget_ind; [exact R|]. apply (proj2 Wy).
Qed.
Definition anyk (k : list (list Z)) : Prop := True.
Lemma kpred_anyk : kpred anyk. Proof. apply kpred_eq. intros k. now left. Qed.
Lemma tensor_image_all m k : tensor_image m k = if allS (cube_image m) k then Some (map (Ft (cube_image m)) k) else None.
Proof.
  induction k as [|c k IH]; [reflexivity|]. cbn [tensor_image]. rewrite IH. change (allS (cube_image m) (c :: k)) with (isS (cube_image m) c && allS (cube_image m) k). cbn [map]. unfold isS at 1. unfold Ft at 2. destruct (cube_image m c); [|reflexivity]. cbn [andb]. destruct (allS (cube_image m) k); reflexivity.
Qed.
Section Nat.
Variable m : cube_map.
Hypothesis Hm : proper m.
Definition im (g : key -> Z) (k : key) : Z := pullT (cube_image m) g k.
Lemma adm_all g : adm cls_cubical g. Proof. split; [intros k k' E; apply keqb_eq in E; now subst|]. intros k Hb. discriminate Hb. Qed.
Lemma ev_im (x : cubc) g : ev g (extend (fun k => match tensor_image m k with Some l => [(l, 1)] | None => [] end) x) = ev (im g) (data x).
Proof. rewrite ev_extend. apply ev_ext_all. intros k. rewrite tensor_image_all. unfold im, pullT. destruct (allS (cube_image m) k); rewrite ?ev_cons, ?ev_nil; ring. Qed.
Lemma im_den x y : is_cube_image m x y -> den cls_cubical (torsion x) tt (fun g => ev (im g) (data x)) y.
Proof.
  intros (Wy & Ty & R). rewrite <- Ty. split; [reflexivity|]. split; [apply cub_attr|]. split; [apply Wy|]. intros g Hg. rewrite (rep_ev y _ g Wy R). apply eqm_eq. apply ev_im.
Qed.
Lemma den_im x y : 0 <= torsion x -> den cls_cubical (torsion x) tt (fun g => ev (im g) (data x)) y -> is_cube_image m x y.
Proof.
  intros Ht Dy. destruct (den_gives cls_cubical ok_cubical (torsion x) tt _ (Ok y) (extend (fun k => match tensor_image m k with Some l => [(l, 1)] | None => [] end) x) Ht (returns_ok _ _ Dy)) as (z & [= <-] & W & T & _ & R).
  - intros g _. apply eqm_eq. symmetry. apply ev_im.
  - split; [exact W|]. split; [exact T|exact R].
Qed.
Lemma den_im2 t F (x' y' : cubc) : 0 <= t -> den cls_cubical t tt F x' -> den cls_cubical t tt (fun g => F (im g)) y' -> is_cube_image m x' y'.
Proof.
  intros Ht Dx Dy. pose proof Dx as (Tx & _). subst t. apply den_im; [exact Ht|]. eapply den_ext; [|exact Dy]. intros g Hg. cbn beta. symmetry. apply (den_ev cls_cubical _ tt _ x' _ Dx (adm_all _)).
Qed.
Definition nat_keys (P P' : key -> Prop) : Prop := forall k, P k -> allS (cube_image m) k = true -> P' (map (Ft (cube_image m)) k).
Lemma im_keys (P P' : key -> Prop) x y : kpred P' -> nat_keys P P' -> wf cls_cubical x -> keys_in P x -> is_cube_image m x y -> keys_in P' y.
Proof.
  intros KP NP Wx Kx I. apply (den_keys cls_cubical ok_cubical (torsion x) tt _ y P' (proj1 Wx) KP (im_den x y I)). intros g _ H0. apply eqm_eq. apply ev_zero. intros k v Hk. unfold im, pullT. destruct (allS (cube_image m) k) eqn:A; [|reflexivity]. apply H0, NP; [|exact A]. eapply Kx; eauto.
Qed.
Lemma nat_linop (P Q P' Q' : key -> Prop) D (op : cubc -> res cubc) (x y : cubc) : kpred P' -> nat_keys P P' -> linop cls_cubical cls_cubical (torsion x) tt tt P Q D op -> linop cls_cubical cls_cubical (torsion x) tt tt P' Q' D op ->
  (forall g k, P k -> D (im g) k = im (D g) k) -> wf cls_cubical x -> keys_in P x -> is_cube_image m x y -> exists x' y', op x = Ok x' /\ op y = Ok y' /\ is_cube_image m x' y'.
Proof.
  intros KP NP L L' N Wx Kx I. pose proof (proj1 Wx) as Ht. pose proof (im_keys P P' x y KP NP Wx Kx I) as Ky. pose proof I as (Wy & Ty & _).
  destruct (L x Wx eq_refl (cub_attr x) Kx) as (x' & Ex & Dx & _). destruct (L' y Wy Ty (cub_attr y) Ky) as (y' & Ey & Dy & _). exists x', y'. split; [exact Ex|]. split; [exact Ey|].
  assert (Tx' : torsion x' = torsion x) by exact (proj1 Dx). apply den_im; [change (0 <= torsion x'); rewrite Tx'; exact Ht|]. change (den cls_cubical (torsion x') tt (fun g => ev (im g) (data x')) y'). rewrite Tx'. eapply den_ext; [|exact Dy]. intros g Hg. cbn beta.
  rewrite (den_ev cls_cubical _ tt _ x' _ Dx (adm_all _)).
  rewrite (den_ev cls_cubical _ tt _ y (D g) (im_den x y I) (adm_all _)).
  apply eqm_eq. apply ev_ext. intros k v Hk. symmetry. apply N. eapply Kx; eauto.
Qed.
Lemma nat_kdeg n e : nat_keys (kdegC n e) (kdegC n e).
Proof. intros k [L T] A. split; [now rewrite zlen_map|]. rewrite tdeg_S; auto using good_map. Qed.
Lemma im_len N : exists N', forall c c', zlen c = N -> cube_image m c = Some c' -> zlen c' = N'.
Proof.
  set (z := repeat 0 (Z.to_nat N)). assert (Dz : cube_dim z = 0).
  { unfold z. induction (Z.to_nat N) as [|j IH]; [reflexivity|]. cbn [repeat]. rewrite cube_dim_cons, IH. reflexivity. }
  destruct (cube_image m z) as [z'|] eqn:E; [|destruct (g_none _ (good_map m Hm) z E Dz)].
  exists (zlen z'). intros c c' L Ec. eapply (g_len _ (good_map m Hm) c z); eauto. unfold z, zlen in *. rewrite repeat_length. lia.
Qed.
Lemma nat_kN N n d : exists N', nat_keys (kN N n d) (kN N' n d).
Proof.
  destruct (im_len N) as (N' & H). exists N'. intros k (L & T & A) AS. split; [now rewrite zlen_map|]. split; [rewrite tdeg_S; auto using good_map|].
  intros c Hc. apply in_map_iff in Hc. destruct Hc as (b & <- & Hb). unfold allS in AS. rewrite forallb_forall in AS. specialize (AS b Hb). unfold isS in AS. unfold Ft. destruct (cube_image m b) eqn:E; [|discriminate]. exact (H b l (A b Hb) E).
Qed.
End Nat.
(** #C107_image# Every chain has an image under every face inclusion and every projection,
    unique up to ==. *)
Lemma C107_image_l (m : cube_map) (x : cubc) : proper m -> wf cls_cubical x ->
  (exists y, is_cube_image m x y) /\ (forall y y', is_cube_image m x y -> is_cube_image m x y' -> same (Ok y) (Ok y')).
Proof.
  intros Pm Wx. pose proof (proj1 Wx) as Ht. assert (Hdt : dt_ok 0 (torsion x)) by (split; [lia|now left]). split.
  - destruct (zero_den cls_cubical ok_cubical 0 (torsion x) x Ht Hdt eq_refl) as (z & Ez & Dz).
    destruct (for_den cls_cubical (torsion x) (data x) (fun y kv => match tensor_image m (fst kv) with Some l => add_term 0 cls_cubical x y l (snd kv) | None => Ok y end) (fun kv g => snd kv * im m g (fst kv)) (attr x)) with (F := fun _ : key -> Z => 0) (y := z) as (y & Ey & Dy).
    + intros [k v] F y _ Dy. cbn [fst snd]. rewrite tensor_image_all. unfold im, pullT. destruct (allS (cube_image m) k).
      * apply (add_term_den cls_cubical ok_cubical 0 (torsion x) Ht Hdt); auto. exists false. reflexivity.
      * exists y. split; [reflexivity|]. eapply den_ext; [|exact Dy]. intros h _. apply eqm_eq. ring.
    + exact Dz.
    + exists y. apply den_im; [exact Ht|]. rewrite <- (cub_attr x). eapply den_ext; [|exact Dy]. intros h _. apply eqm_eq. reflexivity.
  - intros y y' I I'. eapply (same_den cls_cubical ok_cubical (torsion x) tt); [exact Ht|apply returns_ok, im_den; exact I|apply returns_ok, im_den; exact I'|]. intros h _. reflexivity.
Qed.
(** #C107_linear# Images of sums and multiples are the sums and multiples of the images. *)
Lemma C107_linear_l (dt n : Z) (m : cube_map) (x x' y y' : cubc) : proper m -> wf cls_cubical x -> wf cls_cubical x' -> torsion x' = torsion x -> dt_ok dt (torsion x) ->
  is_cube_image m x y -> is_cube_image m x' y' ->
  exists s s' p p', add dt cls_cubical x x' = Ok s /\ add dt cls_cubical y y' = Ok s' /\ is_cube_image m s s' /\
    scale dt cls_cubical n x = Ok p /\ scale dt cls_cubical n y = Ok p' /\ is_cube_image m p p'.
Proof.
  intros _ Wx Wx' Tx' Hdt I I'. pose proof (proj1 Wx) as Ht. pose proof (im_den m x y I) as Dy. pose proof (im_den m x' y' I') as Dy'. rewrite Tx' in Dy'.
  pose proof (den_self cls_cubical x Wx) as Dx. pose proof (den_self cls_cubical x' Wx') as Dx'. rewrite Tx' in Dx'. rewrite (cub_attr x) in Dx. rewrite (cub_attr x') in Dx'.
  destruct (add_den cls_cubical ok_cubical dt (torsion x) Ht Hdt tt tt _ _ x x' Dx Dx') as (s & Es & Ds). destruct (add_den cls_cubical ok_cubical dt (torsion x) Ht Hdt tt tt _ _ y y' Dy Dy') as (s' & Es' & Ds').
  destruct (scale_den cls_cubical ok_cubical dt (torsion x) Ht Hdt tt _ n x Dx) as (p & Em & Dm). destruct (scale_den cls_cubical ok_cubical dt (torsion x) Ht Hdt tt _ n y Dy) as (p' & Em' & Dm').
  exists s, s', p, p'. split; [exact Es|]. split; [exact Es'|]. split; [|split; [exact Em|split; [exact Em'|]]].
  - exact (den_im2 m (torsion x) _ s s' Ht Ds Ds').
  - exact (den_im2 m (torsion x) _ p p' Ht Dm Dm').
Qed.
(** #C107_boundary# The boundary of the image is the image of the boundary. *)
Lemma C107_boundary_l (dt : Z) (m : cube_map) (x y : cubc) : proper m -> wf cls_cubical x -> dt_ok dt (torsion x) -> is_cube_image m x y ->
  exists bx by', cub_boundary dt x = Ok bx /\ cub_boundary dt y = Ok by' /\ is_cube_image m bx by'.
Proof.
  intros Pm Wx Hdt I. pose proof (proj1 Wx) as Ht.
  assert (L : linop cls_cubical cls_cubical (torsion x) tt tt anyk anyk tDC (cub_boundary dt)) by exact (linop_bnd cls_cubical cck fbC cube_dim dt (cub_boundary dt) (fun t x => cub_boundary_den dt t x) (torsion x) _ _ Ht Hdt kpred_anyk (fun k k' v _ _ => Logic.I)).
  apply (nat_linop m anyk anyk anyk anyk tDC); auto.
  - apply kpred_anyk.
  - intros k _ _. exact Logic.I.
  - intros g k _. apply nat_tDC, good_map, Pm.
  - intros k v _. exact Logic.I.
Qed.
(** #C107_diagonal# The iterated diagonal of the image is the image of the iterated diagonal,
    for every number of iterations and every coordinate (extended by 0: the code refuses the
    zero element, and the image may be zero). *)
Lemma C107_diagonal_l (dt n e times coord : Z) (m : cube_map) (x y : cubc) : proper m -> wf cls_cubical x -> dt_ok dt (torsion x) -> 1 <= coord <= n -> 0 <= times ->
  keys_in (fun k => zlen k = n /\ cube_degree k = e) x -> is_cube_image m x y ->
  exists dx dy, extended1 dt cls_cubical (fun z => cub_iterated_diagonal dt z times coord) x = Ok dx /\
    extended1 dt cls_cubical (fun z => cub_iterated_diagonal dt z times coord) y = Ok dy /\ is_cube_image m dx dy.
Proof.
  intros Pm Wx Hdt Hc Htm Kx I. pose proof (proj1 Wx) as Ht. apply kdegC_of in Kx. pose proof (linop_diagC dt (torsion x) n e times coord Ht Hdt Hc Htm) as L.
  apply (nat_linop m (kdegC n e) (kdegC (n + times) e) (kdegC n e) (kdegC (n + times) e) (SdC (Z.to_nat times) coord)); auto.
  - apply kpred_kdegC.
  - now apply nat_kdeg.
  - intros g k [Lk _]. apply (nat_SdC _ (good_map m Pm) n); auto.
Qed.
(** #C107_symmetric# The action of the symmetric ring commutes with images. *)
Lemma C107_symmetric_l (dt n : Z) (m : cube_map) (a : ring) (x y : cubc) : proper m -> 1 <= n -> wf cls_ring a -> wf cls_cubical x -> torsion a = torsion x -> dt_ok dt (torsion x) ->
  keys_in (fun k => perm n (kval k)) a -> keys_in (fun k => zlen k = n) x -> is_cube_image m x y ->
  exists ax ay, extended dt cls_cubical (cub_act dt) a x = Ok ax /\ extended dt cls_cubical (cub_act dt) a y = Ok ay /\ is_cube_image m ax ay.
Proof.
  intros Pm Hn Wa Wx Ta Hdt Ka Kx I. pose proof (proj1 Wx) as Ht. rewrite cub_act_tact.
  pose proof (linop_act cls_cubical noc cbad cck cube_dim dt n (torsion x) a Hn Ht Hdt Wa Ta Ka) as L.
  apply (nat_linop m (kar n) (kar n) (kar n) (kar n) (DBL (Pact cube_dim) a) (fun z => extended dt cls_cubical (tact cls_cubical cube_dim dt) a z)); auto.
  - apply kpred_kar.
  - intros k Hk _. unfold kar in *. now rewrite zlen_map.
  - intros g k Hk. unfold DBL. unfold im at 2. unfold pullT. rewrite (ev_ext _ (fun p => pullT (cube_image m) (Pact cube_dim g p) k)).
    + unfold pullT. destruct (allS (cube_image m) k); [reflexivity|]. now apply ev_zero.
    + intros p v Hp. unfold Pact. apply (nat_kactC _ (good_map m Pm) n); [lia| |exact Hk]. exact (Ka _ _ Hp).
Qed.
(** #C107_join# The join of the images is the image of the join. *)
Lemma C107_join_l (dt N n d : Z) (m : cube_map) (x y : cubc) : proper m -> 1 <= n -> wf cls_cubical x -> dt_ok dt (torsion x) ->
  keys_in (fun k => zlen k = n /\ cube_degree k = d /\ forall c, In c k -> zlen c = N) x -> is_cube_image m x y ->
  exists jx jy, cub_join dt x = Ok jx /\ cub_join dt y = Ok jy /\ is_cube_image m jx jy.
Proof.
  intros Pm Hn Wx Hdt Kx I. pose proof (proj1 Wx) as Ht. destruct (nat_kN m Pm N n d) as (N' & NK).
  apply (nat_linop m (kN N n d) (kN N 1 (d + n - 1)) (kN N' n d) (kN N' 1 (d + n - 1)) DJ); auto using kpred_kN.
  - exact (linop_joinN dt (torsion x) N n d Ht Hdt Hn).
  - exact (linop_joinN dt (torsion x) N' n d Ht Hdt Hn).
  - intros g k (_ & _ & A). change (DJ (im m g) k) with (Jg (fun b => pullT (cube_image m) g [b]) k). change (im m (DJ g) k) with (pullT (cube_image m) (Jg (fun b => g [b])) k).
    rewrite <- (nat_Jg _ (good_map m Pm) N) by exact A. apply Jg_ext. intros b. rewrite pullT_cons. reflexivity.
  - intros k v Hin. destruct (Kx _ _ Hin) as (L & D & A). split; [exact L|]. split; [rewrite <- cdeg; exact D|exact A].
Qed.
(** #C107_surjection# The action of every element of the surjection operad, under either sign
    convention, hence every cubical cup-i product and Steenrod operation that the code
    computes, commutes with images. *)
Lemma C107_surjection_l (dt r d n e coord : Z) (m : cube_map) (u : surj) (x y : cubc) : proper m ->
  1 <= r -> 1 <= coord <= n -> wf cls_surj u -> wf cls_cubical x -> torsion x = torsion u -> dt_ok dt (torsion u) ->
  keys_in (surj_cell r d) u -> keys_in (fun k => zlen k = n /\ cube_degree k = e) x -> is_cube_image m x y ->
  exists ux uy, surj_call_cubical dt u x coord = Ok ux /\ surj_call_cubical dt u y coord = Ok uy /\ is_cube_image m ux uy.
Proof.
  intros Pm Hr Hc Wu Wx Tx Hdt Ku Kx I. pose proof (proj1 Wx) as Ht. rewrite <- Tx in Hdt. apply kdegC_of in Kx.
  pose proof (linop_bilL cls_surj cls_cubical cls_cubical ok_cubical (torsion x) (attr u) tt tt _ _ _ _ _ Ht (kpred_kdegC (n + r - 1) (e + d)) (bil_actC dt (torsion x) r d n e coord (attr u) Ht Hdt Hr Hc)
      (rep2_local2 _ _ _ _ (rep_PhiC r d n e coord Hr)) (rep2_zero _ _ _ _ (rep_PhiC r d n e coord Hr)) u Wu (eq_sym Tx) eq_refl Ku) as L.
  apply (nat_linop m (kdegC n e) (kdegC (n + r - 1) (e + d)) (kdegC n e) (kdegC (n + r - 1) (e + d)) (DBL (PhiC r coord) u) (fun z => surj_call_cubical dt u z coord)); auto.
  - apply kpred_kdegC.
  - now apply nat_kdeg.
  - intros g k [Lk _]. unfold DBL. unfold im at 2. unfold pullT. rewrite (ev_ext _ (fun w => pullT (cube_image m) (PhiC r coord g w) k)).
    + unfold pullT. destruct (allS (cube_image m) k); [reflexivity|]. now apply ev_zero.
    + intros w v Hw. apply (nat_PhiC _ (good_map m Pm) r d n); auto. exact (Ku _ _ Hw).
Qed.
(** #C107_retraction# Forgetting the coordinate that a face inclusion inserted gives back the
    chain: the projection is a left inverse of the face inclusions. *)
Lemma C107_retraction_l (p : nat) (e : Z) (x y : cubc) : e = 0 \/ e = 1 -> wf cls_cubical x ->
  keys_in (fun k => forall c, In c k -> Z.of_nat p <= zlen c) x -> is_cube_image (FaceInclusion p e) x y -> is_cube_image (Projection p) y x.
Proof.
  intros He Wx Kx I. pose proof (proj1 Wx) as Ht. pose proof I as (Wy & Ty & _).
  assert (R : forall c, Z.of_nat p <= zlen c -> forget_at p (insert_at p e c) = Some c).
  { clear -He. induction p as [|p IH]; intros c L; [cbn [insert_at forget_at]; destruct He as [-> | ->]; reflexivity|]. destruct c as [|a c]; [rewrite zlen_nil in L; lia|]. cbn [insert_at forget_at]. rewrite zlen_cons in L. rewrite IH by lia. reflexivity. }
  apply den_im; [exact (proj1 Wy)|]. change (den cls_cubical (torsion y) tt (fun g => ev (im (Projection p) g) (data y)) x). rewrite Ty, <- (cub_attr x). eapply den_ext; [|apply (den_self cls_cubical x Wx)]. intros g _. cbn beta.
  rewrite (den_ev cls_cubical _ tt _ y _ (im_den (FaceInclusion p e) x y I) (adm_all _)). apply eqm_eq. apply ev_ext. intros k v Hk. specialize (Kx k v Hk). clear -R Kx.
  assert (E : tensor_image (FaceInclusion p e) k = Some (map (insert_at p e) k) /\ tensor_image (Projection p) (map (insert_at p e) k) = Some k).
  { induction k as [|c k IH]; [split; reflexivity|]. destruct IH as [I1 I2]; [intros c' Hc'; apply Kx; now right|]. cbn [tensor_image map cube_image]. rewrite I1, I2, R by (apply Kx; now left). split; reflexivity. }
  destruct E as [E1 E2]. rewrite tensor_image_all in E1, E2. unfold im, pullT. destruct (allS (cube_image (FaceInclusion p e)) k); [|discriminate]. change (map (Ft (cube_image (FaceInclusion p e))) k) with (map (insert_at p e) k). destruct (allS (cube_image (Projection p)) (map (insert_at p e) k)); [|discriminate]. injection E2 as E2. now rewrite E2.
Qed.
(** #C107_cochains# On cochains the maps induce the pull back: it commutes with the coboundary
    and preserves cocycles; the value of a cochain, or of a pair of cochains, on the image of a
    chain is the value of the pull backs on the chain; and so the products of a pair of cochains
    that an element of the surjection operad of arity two defines are natural: the product of
    the pull backs is the pull back of the product. *)
Lemma C107_cochains_l (m : cube_map) (a b : list Z -> Z) : proper m ->
  (forall c, cub_coboundary (cube_pull_back m a) c = cube_pull_back m (cub_coboundary a) c) /\
  (forall x y : cubc, wf cls_cubical x -> is_cube_image m x y ->
     (torsion x | cub_value (on_single a) y - cub_value (on_single (cube_pull_back m a)) x) /\
     (torsion x | cub_value (on_pair a b) y - cub_value (on_pair (cube_pull_back m a) (cube_pull_back m b)) x)) /\
  (forall (dt d e : Z) (u : surj) (x y ux uy : cubc), wf cls_surj u -> wf cls_cubical x -> torsion x = torsion u -> dt_ok dt (torsion u) ->
     keys_in (surj_cell 2 d) u -> keys_in (fun k => zlen k = 1 /\ cube_degree k = e) x -> is_cube_image m x y ->
     surj_call_cubical dt u x 1 = Ok ux -> surj_call_cubical dt u y 1 = Ok uy ->
     (torsion x | cub_value (on_pair a b) uy - cub_value (on_pair (cube_pull_back m a) (cube_pull_back m b)) ux)).
Proof.
  intros Pm.
  assert (V : forall g h (x y : cubc), wf cls_cubical x -> is_cube_image m x y -> (forall k, im m g k = h k) -> eqm (torsion x) (cub_value g y) (cub_value h x)).
  { intros g h x y Wx I E. change (cub_value g y) with (ev g (data y)). change (cub_value h x) with (ev h (data x)). rewrite (den_ev cls_cubical _ tt _ y g (im_den m x y I) (adm_all _)). apply eqm_eq. apply ev_ext_all. exact E. }
  assert (E1 : forall k, im m (on_single a) k = on_single (cube_pull_back m a) k).
  { intros [|c [|c' k]]; [reflexivity| |].
    - unfold im. rewrite pullT_cons. reflexivity.
    - unfold im, pullT. destruct (allS _ _); reflexivity. }
  assert (E2 : forall k, im m (on_pair a b) k = on_pair (cube_pull_back m a) (cube_pull_back m b) k).
  { intros [|c [|c' [|c2 k]]]; [reflexivity| | |].
    - unfold im, pullT. destruct (allS _ _); reflexivity.
    - unfold im. rewrite pullT_cons. unfold pull at 1. cbn [on_pair]. unfold cube_pull_back at 1. destruct (cube_image m c); [|ring]. rewrite pullT_cons. unfold pull, cube_pull_back. destruct (cube_image m c'); [reflexivity|ring].
    - unfold im, pullT. destruct (allS _ _); reflexivity. }
  split; [|split].
  - intros c. transitivity (fdC (pull (cube_image m) a) c); [|transitivity (pull (cube_image m) (fdC a) c)].
    + apply cob_fd.
    + apply (g_fd _ (good_map m Pm)).
    + unfold pull, cube_pull_back. destruct (cube_image m c); [|reflexivity]. symmetry. apply cob_fd.
  - intros x y Wx I. split; apply V; auto.
  - intros dt d e u x y ux uy Wu Wx Tx Hdt Ku Kx I Eu Ey.
    destruct (C107_surjection_l dt 2 d 1 e 1 m u x y Pm ltac:(lia) ltac:(lia) Wu Wx Tx Hdt Ku Kx I) as (ux' & uy' & Eu' & Ey' & I').
    rewrite Eu in Eu'. injection Eu' as <-. rewrite Ey in Ey'. injection Ey' as <-.
    destruct (C51_action_degree_l dt 2 d 1 e 1 u x ltac:(lia) ltac:(lia) Wu Wx Tx Hdt Ku Kx) as (z & Ez & Wz & Tz & _). rewrite Eu in Ez. injection Ez as <-. rewrite Tx, <- Tz.
    apply V; auto.
Qed.
(** #C107_example# *)
Example C107_example_l :
  let x := mkElt [([[2; 0; 2]; [0; 2; 1]], 1)] 0 tt in
  let z := mkElt [([[2; 0; 1; 2]; [0; 2; 1; 1]], 1)] 0 tt in
  let u := mkElt [([[2; 0; 0]; [0; 1; 1]], 1)] 0 tt in
  let y := mkElt [([[2; 0]; [0; 1]], 1)] 0 tt in
  let ju := mkElt [([[2; 2; 1]], -1); ([[2; 0; 2]], -1)] 0 tt in
  let jy := mkElt [([[2; 2]], -1)] 0 tt in
  wf cls_cubical x /\ wf cls_cubical u /\ is_cube_image (FaceInclusion 2 1) x z /\ is_cube_image (Projection 1) u y /\
  is_cube_image (Projection 1) x (mkElt [] 0 tt) /\
  cub_join 0 u = Ok ju /\ cub_join 0 y = Ok jy /\ is_cube_image (Projection 1) ju jy.
Proof.
  cbn zeta.
  assert (E : forall m (x y : cubc), torsion x = 0 -> torsion y = 0 -> wf cls_cubical y -> (forall g, ev g (data y) = ev (im m g) (data x)) -> is_cube_image m x y).
  { intros m [dx tx []] [dy ty []] T T' W H. cbn [torsion] in T, T'. subst tx ty. apply den_im; [apply Z.le_refl|]. split; [reflexivity|]. split; [reflexivity|]. split; [apply W|]. intros g _. apply eqm_eq. apply H. }
  split; [apply wfb_wf; reflexivity|]. split; [apply wfb_wf; reflexivity|].
  split; [apply E; [reflexivity|reflexivity|apply wfb_wf; reflexivity|intros g; reflexivity]|].
  split; [apply E; [reflexivity|reflexivity|apply wfb_wf; reflexivity|intros g; reflexivity]|].
  split; [apply E; [reflexivity|reflexivity|apply wfb_wf; reflexivity|intros g; reflexivity]|].
  split; [vm_compute; reflexivity|]. split; [vm_compute; reflexivity|].
  apply E; [reflexivity|reflexivity|apply wfb_wf; reflexivity|intros g; reflexivity].
Qed.
