(** * Surjections: composition as a bilinear operation.  Proof library. *)
From Coq Require Import Setoid Morphisms.
From Verif Require Import PyBase Dict FreeModule Symmetric Simplicial Utils Surjection Eqm Spec SpecChain SpecOperad SpecSurj FreeModuleFacts FreeModuleLaws ListFacts
  ClassFacts LinearFacts BilFacts SymmetricFacts CycleFacts SymmetricLaws RingFacts TensorAct LoopFacts AW SimplicialDiag SurjFacts SurjBoundary SurjLaws SurjAct SurjCompose SurjCompose2 SurjCompose3.

Lemma sgn_mul_if b n c : sgn (((if b : bool then 1 else 0) + c) * n) = (if b then sgn n else 1) * sgn (c * n).
Proof. destruct b; rewrite Z.mul_add_distr_r, sgn_add; f_equal; rewrite ?Z.mul_1_l; reflexivity. Qed.
Lemma Cc_unroll m u : mem m u = true -> forall y g,
  Cc m g (m :: u) y = sumf (fun '(A, b, B) => sgn (caesuras_in A (b :: B) * nc (m :: u)) * Cc m (fun w => g (A ++ b :: w)) u (b :: B)) (splits y).
Proof.
  intros Em. induction y as [|b y IH]; intros g; [rewrite Cc_m_nil, Em; reflexivity|]. rewrite Cc_m_cons, Em, IH, splits_cons, sumf_cons, sumf_map, <- sumf_scal. f_equal.
  - cbn [caesuras_in app]. rewrite Z.mul_0_l, sgn_0, Z.mul_1_l. reflexivity.
  - apply sumf_ext. intros [[A c] B] Hin. apply splits_in in Hin. cbn [fst snd app caesuras_in]. rewrite <- Hin, sgn_mul_if, Z.mul_assoc. reflexivity.
Qed.
Definition lift1 (m i s a : Z) : Z := if a =? i then m else up i s a.
Lemma lift1_i m i s : lift1 m i s i = m. Proof. unfold lift1. now rewrite Z.eqb_refl. Qed.
Lemma lift1_inj m i s a b : m <= 0 -> 1 <= i -> 1 <= s -> 1 <= a -> 1 <= b -> lift1 m i s a = lift1 m i s b -> a = b.
Proof.
  intros Hm Hi Hs Ha Hb. unfold lift1, up. destruct (Z.eqb_spec a i), (Z.eqb_spec b i), (Z.ltb_spec a i), (Z.ltb_spec b i); lia.
Qed.
Lemma sh_inj i a b : sh i a = sh i b -> a = b. Proof. unfold sh. lia. Qed.
Lemma lift1_mem m i s u : m <= 0 -> 1 <= i -> 1 <= s -> (forall a, In a u -> 1 <= a) -> mem m (map (lift1 m i s) u) = mem i u.
Proof.
  intros Hm Hi Hs Hu. apply mem_iff. rewrite in_map_iff, mem_in. split.
  - intros (a & E & Ha). rewrite <- (lift1_i m i s) in E at 2. apply lift1_inj in E; auto. now subst.
  - intros H. exists i. split; [apply lift1_i|exact H].
Qed.
Lemma nc_inj (f : Z -> Z) u : (forall a b, In a u -> In b u -> f a = f b -> a = b) -> nc (map f u) = nc u.
Proof. intros Hf. apply nc_map. exact Hf. Qed.
Lemma caesuras_app u v : caesuras_in u v = nc (u ++ v) - nc v.
Proof. induction u as [|a u IH]; [cbn [caesuras_in app]; lia|]. cbn [caesuras_in app]. rewrite nc_cons, IH. lia. Qed.
Lemma composites_Cc m i s u : m <= 0 -> 1 <= i -> 1 <= s -> forall y g, (forall a, In a u -> 1 <= a) ->
  ev g (surj_composites i s u y) = Cc m g (map (lift1 m i s) u) (map (sh i) y).
Proof.
  intros Hm Hi Hs. induction u as [|a u IH]; intros y g Hu; [rewrite Cc_nil; unfold ev; cbn [surj_composites map]; rewrite sumf_cons, sumf_nil; cbn [fst snd]; ring|].
  assert (Hu' : forall c, In c u -> 1 <= c) by (intros c Hc; apply Hu; now right).
  assert (Enc : nc (map (lift1 m i s) (a :: u)) = nc (a :: u)) by (apply nc_inj; intros b c Hb Hc; apply lift1_inj; auto).
  cbn [surj_composites]. cbn [map] in *. destruct (Z.eqb_spec a i) as [->|N].
  - rewrite lift1_i in *. destruct (mem i u) eqn:E.
    + rewrite Cc_unroll by (now rewrite lift1_mem). rewrite ev_flat_map, cuts_splits.
      assert (HS : forall (F : list Z * Z * list Z -> Z), sumf F (splits (map (sh i) y)) = sumf (fun p => F (map (sh i) (fst (fst p)), sh i (snd (fst p)), map (sh i) (snd p))) (splits y)).
      { clear. induction y as [|b y IH]; intros F; [reflexivity|]. cbn [map]. rewrite !splits_cons, !sumf_cons, !sumf_map, IH. reflexivity. }
      rewrite HS. apply sumf_ext. intros [[A b] B] _. cbn [fst snd]. rewrite Enc.
      assert (Ec : caesuras_in (map (sh i) A) (sh i b :: map (sh i) B) = caesuras_in A (b :: B)).
      { rewrite !caesuras_app. change (sh i b :: map (sh i) B) with (map (sh i) (b :: B)). rewrite <- map_app, !nc_inj by (intros; eapply sh_inj; eassumption). reflexivity. }
      rewrite Ec. change (sh i b :: map (sh i) B) with (map (sh i) (b :: B)). rewrite <- (IH (b :: B) _ Hu'). unfold ev. rewrite sumf_map, <- sumf_scal. apply sumf_ext. intros [w v] _. cbn [fst snd].
      rewrite map_app, <- app_assoc. cbn [map app]. unfold sh, nc. ring.
    + rewrite Cc_last by (now rewrite lift1_mem). unfold ev. rewrite sumf_cons, sumf_nil, Z.add_0_r. cbn [fst snd]. rewrite nc_inj by (intros; eapply sh_inj; eassumption).
      assert (Enc' : nc (map (lift1 m i s) u) = nc (i :: u)). { rewrite <- Enc, nc_cons, lift1_mem by auto. rewrite E. lia. } rewrite Enc'. unfold nc. f_equal. f_equal. f_equal.
      apply map_ext_in. intros c Hc. unfold lift1. destruct (Z.eqb_spec c i) as [->|]; [|reflexivity]. apply mem_in in Hc. congruence.
  - rewrite Cc_other. 2:{ unfold lift1. rewrite (proj2 (Z.eqb_neq _ _) N). specialize (Hu a (or_introl eq_refl)). unfold up. destruct (Z.ltb_spec a i); lia. }
    rewrite <- IH by exact Hu'. unfold ev. rewrite sumf_map. apply sumf_ext. intros [w v] _. cbn [fst snd]. unfold lift1. rewrite (proj2 (Z.eqb_neq _ _) N). reflexivity.
Qed.

(** ** support *)
Lemma sumf_1 {B} (l : list B) : sumf (fun _ => 1) l = zlen l.
Proof. induction l as [|a l IH]; [reflexivity|]. rewrite sumf_cons, zlen_cons, IH. lia. Qed.
Lemma zlen_count c n : (forall a, In a c -> 1 <= a <= n) -> zlen c = sumf (fun y => times_in y c) (zrange 1 (n + 1)).
Proof. intros H. rewrite <- (sumf_1 c), (SurjAct.sumf_count (fun _ => 1) c n H). apply sumf_ext. intros; ring. Qed.
Lemma onto_nc r k : 0 <= r -> onto r k -> nc k = zlen k - r.
Proof.
  intros Hr Ho. unfold nc. rewrite <- caes_len. rewrite (zlen_count (caes k []) r) by (intros a Ha; apply in_caes in Ha; now apply Ho).
  rewrite (zlen_count k r) by (intros a Ha; now apply Ho).
  transitivity (sumf (fun y => times_in y k - 1) (zrange 1 (r + 1))).
  - apply sumf_ext. intros y Hy. apply in_zrange in Hy. rewrite times_caes. cbn [mem existsb]. rewrite (proj2 (mem_in y k)) by (apply Ho; lia). reflexivity.
  - rewrite sumf_sub, sumf_1, zlen_zrange by lia. lia.
Qed.
Definition Pc (i s : Z) (g : list Z -> Z) (k1 k2 : list Z) : Z := ev g (surj_composites i s k1 k2).
Lemma onto_pos r k : onto r k -> forall a, In a k -> 1 <= a. Proof. intros H a Ha. apply H in Ha. lia. Qed.
Lemma Pc_Cc m i s g k1 k2 r : m <= 0 -> 1 <= i -> 1 <= s -> onto r k1 -> Pc i s g k1 k2 = Cc m g (map (lift1 m i s) k1) (map (sh i) k2).
Proof. intros Hm Hi Hs Ho. apply composites_Cc; auto. eapply onto_pos; eauto. Qed.
Lemma lift_dj m i s k1 k2 r : m <= 0 -> 1 <= i -> 1 <= s -> onto r k1 -> onto s k2 -> dj m (map (lift1 m i s) k1) (map (sh i) k2).
Proof.
  intros Hm Hi Hs H1 H2. split.
  - intros c Hc Nc Hc2. apply in_map_iff in Hc. destruct Hc as (a & <- & Ha). apply in_map_iff in Hc2. destruct Hc2 as (b & E & Hb). apply H1 in Ha. apply H2 in Hb.
    unfold lift1, up, sh in *. destruct (Z.eqb_spec a i); [congruence|]. destruct (Z.ltb_spec a i); lia.
  - intros Hc. apply in_map_iff in Hc. destruct Hc as (b & E & Hb). apply H2 in Hb. unfold sh in E. lia.
Qed.
Lemma mem_onto r k i : onto r k -> 1 <= i <= r -> mem i k = true. Proof. intros H Hi. apply mem_in, H, Hi. Qed.
Lemma Cl_onto m i n1 n2 k1 k2 w v : m <= 0 -> 1 <= i <= n1 -> 1 <= n2 -> onto n1 k1 -> onto n2 k2 -> In (w, v) (Cl m (map (lift1 m i n2) k1) (map (sh i) k2)) -> onto (n1 + n2 - 1) w.
Proof.
  intros Hm Hi Hn H1 H2 Hin c. pose proof (Cl_in m _ _ _ _ (lift_dj m i n2 k1 k2 n1 Hm ltac:(lia) Hn H1 H2) Hin c) as H. rewrite H. clear H.
  assert (Em : In m (map (lift1 m i n2) k1)) by (apply in_map_iff; exists i; split; [apply lift1_i|now apply H1]).
  rewrite !in_map_iff. split.
  - intros [[(a & E & Ha) N]|[_ (b & E & Hb)]].
    + apply H1 in Ha. unfold lift1, up in E. destruct (Z.eqb_spec a i); [congruence|]. destruct (Z.ltb_spec a i); lia.
    + apply H2 in Hb. unfold sh in E. lia.
  - intros Hc. destruct (Z_lt_dec c i); [|destruct (Z_lt_dec c (i + n2))].
    + left. split; [|lia]. exists c. split; [|apply H1; lia]. unfold lift1, up. destruct (Z.eqb_spec c i); [lia|]. destruct (Z.ltb_spec c i); lia.
    + right. split; [now apply in_map_iff in Em|]. exists (c - i + 1). split; [unfold sh; lia|apply H2; lia].
    + left. split; [|lia]. exists (c - n2 + 1). split; [|apply H1; lia]. unfold lift1, up. destruct (Z.eqb_spec (c - n2 + 1) i); [lia|]. destruct (Z.ltb_spec (c - n2 + 1) i); lia.
Qed.
Lemma zlen_map {B D} (f : B -> D) l : zlen (map f l) = zlen l. Proof. unfold zlen. now rewrite map_length. Qed.
Lemma Cl_cell m i n1 n2 p q k1 k2 w v : m <= 0 -> 1 <= i <= n1 -> 1 <= n2 -> surj_cell n1 p k1 -> surj_cell n2 q k2 -> In (w, v) (Cl m (map (lift1 m i n2) k1) (map (sh i) k2)) -> surj_cell (n1 + n2 - 1) (p + q) w.
Proof.
  intros Hm Hi Hn [H1 L1] [H2 L2] Hin. assert (Ho : onto (n1 + n2 - 1) w) by (eapply Cl_onto; eauto). split; [exact Ho|].
  apply onto_nc in Ho; [|lia]. pose proof (Cl_nc m _ _ _ _ (lift_dj m i n2 k1 k2 n1 Hm ltac:(lia) Hn H1 H2) Hin) as E. rewrite lift1_mem in E; try lia; [|eapply onto_pos; eauto].
  rewrite (mem_onto n1) in E by auto. rewrite !nc_inj in E. 2:{ intros; eapply sh_inj; eauto. } 2:{ intros a b Ha Hb. apply H1 in Ha. apply H1 in Hb. apply lift1_inj; lia. }
  rewrite (onto_nc n1 k1), (onto_nc n2 k2) in E by (auto; lia). lia.
Qed.
Lemma rep_Pc n1 n2 p q i : 1 <= i <= n1 -> 1 <= n2 -> rep2 (surj_cell n1 p) (surj_cell n2 q) (surj_cell (n1 + n2 - 1) (p + q)) (Pc i n2).
Proof.
  intros Hi Hn k1 k2 H1 H2. exists (Cl 0 (map (lift1 0 i n2) k1) (map (sh i) k2)). split.
  - intros w v. eapply Cl_cell; eauto; lia.
  - intros g. rewrite (Pc_Cc 0 i n2 g k1 k2 n1) by (try lia; apply H1). apply Cc_ev.
Qed.
Lemma rep_Pc_o n1 n2 i : 1 <= i <= n1 -> 1 <= n2 -> rep2 (onto n1) (onto n2) (onto (n1 + n2 - 1)) (Pc i n2).
Proof.
  intros Hi Hn k1 k2 H1 H2. exists (Cl 0 (map (lift1 0 i n2) k1) (map (sh i) k2)). split.
  - intros w v. eapply Cl_onto; eauto; lia.
  - intros g. rewrite (Pc_Cc 0 i n2 g k1 k2 n1) by (try lia; apply H1). apply Cc_ev.
Qed.
Lemma adj_map (f : Z -> Z) u : adj u = true -> adj (map f u) = true.
Proof.
  induction u as [|a u IH]; [discriminate|]. destruct u as [|b u]; [discriminate|]. cbn [map]. rewrite !adj_cons2. intros E. apply orb_true_iff in E. apply orb_true_iff. destruct E as [E|E].
  - left. apply Z.eqb_eq in E. subst. apply Z.eqb_refl.
  - right. now apply IH.
Qed.
Lemma adm_Pc n1 n2 p q i : 1 <= i <= n1 -> 1 <= n2 -> adm2 cls_surj cls_surj cls_surj (surj_cell n1 p) (surj_cell n2 q) (surj_cell (n1 + n2 - 1) (p + q)) (Pc i n2).
Proof.
  intros Hi Hn g [_ Hg].
  assert (Z0 : forall k1 k2, surj_cell n1 p k1 -> surj_cell n2 q k2 -> adj k1 = true \/ adj k2 = true -> Pc i n2 g k1 k2 = 0).
  { intros k1 k2 H1 H2 Hb. rewrite (Pc_Cc 0 i n2 g k1 k2 n1) by (try lia; apply H1). rewrite Cc_ev. apply ev_zero. intros w v Hin.
    assert (Hc : surj_cell (n1 + n2 - 1) (p + q) w) by (eapply Cl_cell; eauto; lia). apply Hg; [exact Hc|]. cbn. rewrite (surj_bad_onto (n1 + n2 - 1)) by (lia || apply Hc). f_equal.
    destruct Hb as [Hb|Hb].
    - eapply Cl_adj_u; [|exact Hin]. now apply adj_map.
    - eapply Cl_adj_y; [| |exact Hin]; [|now apply adj_map]. rewrite lift1_mem; try lia; [|eapply onto_pos, H1]. eapply mem_onto; [apply H1|lia]. }
  split; intros k H _; apply admP_keyeq; intros k' H' Hb; cbn in Hb.
  - rewrite (surj_bad_onto n1) in Hb by (lia || apply H'). injection Hb as Hb. apply Z0; auto.
  - rewrite (surj_bad_onto n2) in Hb by (lia || apply H'). injection Hb as Hb. apply Z0; auto.
Qed.

Lemma adm_Pc_o n1 n2 i : 1 <= i <= n1 -> 1 <= n2 -> adm2 cls_surj cls_surj cls_surj (onto n1) (onto n2) (onto (n1 + n2 - 1)) (Pc i n2).
Proof.
  intros Hi Hn g [_ Hg].
  assert (Z0 : forall k1 k2, onto n1 k1 -> onto n2 k2 -> adj k1 = true \/ adj k2 = true -> Pc i n2 g k1 k2 = 0).
  { intros k1 k2 H1 H2 Hb. rewrite (Pc_Cc 0 i n2 g k1 k2 n1) by (try lia; apply H1). rewrite Cc_ev. apply ev_zero. intros w v Hin.
    assert (Hc : onto (n1 + n2 - 1) w) by (eapply Cl_onto; eauto; lia). apply Hg; [exact Hc|]. cbn. rewrite (surj_bad_onto (n1 + n2 - 1)) by (lia || apply Hc). f_equal.
    destruct Hb as [Hb|Hb].
    - eapply Cl_adj_u; [|exact Hin]. now apply adj_map.
    - eapply Cl_adj_y; [| |exact Hin]; [|now apply adj_map]. rewrite lift1_mem; try lia; [|eapply onto_pos, H1]. eapply mem_onto; [apply H1|lia]. }
  split; intros k H _; apply admP_keyeq; intros k' H' Hb; cbn in Hb.
  - rewrite (surj_bad_onto n1) in Hb by (lia || apply H'). injection Hb as Hb. apply Z0; auto.
  - rewrite (surj_bad_onto n2) in Hb by (lia || apply H'). injection Hb as Hb. apply Z0; auto.
Qed.

(** ** the code *)
Definition cok (cv : conv) (t : Z) : Prop := cv = BF \/ t = 2.
Lemma pairwise_len {B} (p : list B) b c : zlen (pairwise (b :: p ++ [c])) = zlen p + 1.
Proof. unfold pairwise, zlen. rewrite combine_length. cbn [tl length]. rewrite app_length. cbn [length]. lia. Qed.
Lemma cwr_len {B} t (l : list B) : forall p, In p (cwr t l) -> zlen p = Z.of_nat t.
Proof.
  revert l. induction t as [|t IH]; intros l p; [intros [<-|[]]; reflexivity|]. induction l as [|a l IHl]; [intros []|].
  change (In p (map (cons a) (cwr t (a :: l)) ++ cwr (Datatypes.S t) l) -> zlen p = Z.of_nat (Datatypes.S t)). rewrite in_app_iff, in_map_iff. intros [(p' & <- & Hp)|Hp]; [|auto].
  rewrite zlen_cons, (IH _ _ Hp). lia.
Qed.
Lemma cwr_elt {B} t (l : list B) : forall p, In p (cwr t l) -> forall e, In e p -> In e l.
Proof.
  revert l. induction t as [|t IH]; intros l p; [intros [<-|[]] e []|]. induction l as [|a l IHl]; [intros []|].
  change (In p (map (cons a) (cwr t (a :: l)) ++ cwr (Datatypes.S t) l) -> forall e, In e p -> In e (a :: l)). rewrite in_app_iff, in_map_iff. intros [(p' & <- & Hp)|Hp] e.
  - intros [<-|He]; [now left|]. eapply IH; eauto.
  - intros He. right. eapply IHl; eauto.
Qed.
Lemma ck_ne i s k1 k2 p : k1 <> [] -> k2 <> [] -> (forall e, In e p -> 0 <= e) ->
  ck i s k1 (map (map (sh i)) (map (fun ab => slice k2 (fst ab) (snd ab + 1)) (pairwise (0 :: p ++ [zlen k2 - 1])))) <> [].
Proof.
  intros N1 N2 Hp. destruct k1 as [|a k1]; [congruence|]. cbn [ck]. destruct (a =? i); [|discriminate].
  destruct (pairwise_snoc_ne 0 p (zlen k2 - 1)) as (e & r & Ee & ->). cbn [map fst snd]. destruct k2 as [|b k2]; [congruence|].
  assert (He : 0 <= e). { assert (In e (p ++ [zlen (b :: k2) - 1])) by (rewrite Ee; now left). apply in_app_iff in H. destruct H as [H|[<-|[]]]; [auto|]. rewrite zlen_cons. pose proof (zlen_nonneg k2). lia. }
  unfold slice, clamp. rewrite zlen_cons. pose proof (zlen_nonneg k2). destruct (Z.ltb_spec 0 0); [lia|]. destruct (Z.ltb_spec (e + 1) 0); [lia|]. rewrite (Z.min_l 0) by lia. cbn [Z.to_nat skipn].
  destruct (Z.to_nat (Z.min (e + 1) (zlen k2 + 1) - 0)) eqn:E0; [lia|]. cbn [firstn map app]. discriminate.
Qed.
Lemma surj_compose_den_g dt t cvx n2 i o (x y : surj) : 0 <= t -> dt_ok dt t -> cok cvx t ->
  wf cls_surj x -> torsion x = t -> attr x = cvx -> keys_in (fun k => In i k) x -> keys_in (fun k => k <> []) y ->
  surj_arity y = Ok o -> data y = [] \/ o = Some n2 \/ keys_in (fun k => forall a, In a k -> a <= i) x ->
  returns (surj_compose dt x y i) (den cls_surj t cvx (fun g => ev (fun k1 => ev (fun k2 => Pc i n2 g k1 k2) (data y)) (data x))).
Proof.
  intros Ht Hdt Hcv Wx Tx Ax Kx Ky Ar Ho. unfold surj_compose.
  eapply returns_bind; [apply (zero_den cls_surj ok_surj dt t); auto|]. intros ans Hans. rewrite Ax in Hans.
  rewrite Ar. cbn [bind].
  eapply returns_mono.
  - apply (pair_loop_den cls_surj ok_surj t cvx (data x) (data y) _ (fun k1 k2 g => Pc i n2 g k1 k2)); [|exact Hans].
    intros k1 v1 k2 v2 F z H1 H2 Hz. destruct Ho as [Ho|Ho]; [rewrite Ho in H2; destruct H2|].
    assert (O1 : In i k1) by exact (Kx _ _ H1). assert (O2 : k2 <> []) by exact (Ky _ _ H2). rewrite pos_code, zlen_pos.
    assert (CK : forall ins, zlen ins = times_in i k1 -> compose_key k1 i o ins = Ok (ck i n2 k1 ins)).
    { intros ins Hz1. destruct Ho as [-> |Ho]; [now apply compose_key_ck|]. assert (Ho1 : forall a, In a k1 -> a <= i) by exact (Ho _ _ H1).
      rewrite <- (compose_key_ck i n2 k1 ins Hz1). clear - Ho1. revert ins. induction k1 as [|a k1 IH]; intros ins; [reflexivity|]. cbn [compose_key].
      pose proof (Ho1 a (or_introl eq_refl)). assert (Ho2 : forall a, In a k1 -> a <= i) by (intros; apply Ho1; now right).
      destruct (Z.ltb_spec a i); [now rewrite IH|]. destruct (Z.eqb_spec a i); [|lia]. destruct ins; [reflexivity|now rewrite IH]. }
    assert (T1 : 1 <= times_in i k1) by now apply times_in_pos. unfold py_cwr. destruct (Z.ltb_spec (times_in i k1 - 1) 0); [lia|]. cbn [bind].
    eapply returns_mono.
    + apply (for_den cls_surj t _ _ (fun p g => v1 * v2 * (sgn (if t =? 2 then 0 else sgE i k1 (map (fun '(a, b) => cnt k2 a b) (pairwise (0 :: p ++ [zlen k2 - 1])))))
          * g (ck i n2 k1 (map (map (sh i)) (map (fun ab => slice k2 (fst ab) (snd ab + 1)) (pairwise (0 :: p ++ [zlen k2 - 1])))))) cvx); [|exact Hz].
      intros p0 F' z' Hin Hz'. cbn beta. cbn [app]. pose proof (cwr_len _ _ _ Hin) as Lp.
      rewrite CK. 2:{ rewrite !zlen_map, pairwise_len. lia. } cbn [bind].
      rewrite Tx. set (K := ck _ _ _ _).
      assert (ES : (if t =? 2 then Ok 1 else match attr x with BF => Ok (bf_sign (pos i 0 k1) k1 (0 :: p0 ++ [zlen k2 - 1]) k2) | MS => Err NotImplementedError | OtherConv => Err UnboundLocalError end)
        = Ok (sgn (if t =? 2 then 0 else sgE i k1 (map (fun '(a, b) => cnt k2 a b) (pairwise (0 :: p0 ++ [zlen k2 - 1])))))).
      { rewrite Ax. destruct (Z.eqb_spec t 2); [reflexivity|]. destruct Hcv as [-> |]; [|congruence]. rewrite bf_sign_code; [reflexivity|]. rewrite zlen_cons, zlen_app. change (zlen [zlen k2 - 1]) with 1. lia. }
      match goal with |- context [Ok 1] => idtac end. rewrite ES. cbn [bind].
      eapply returns_mono; [eapply (add_term_den cls_surj ok_surj dt t); eauto|].
      * exact (proj1 Hz').
      * apply surj_okey, ck_ne; [intros ->; destruct O1|exact O2|]. intros e He. pose proof (cwr_elt _ _ _ Hin _ He) as Hr. apply in_zrange in Hr. lia.
      * intros z2 Hz2. exact Hz2.
    + intros z1 Hz1. eapply den_ext; [|exact Hz1]. intros g Hg. cbn beta. apply eqm_add_l || idtac.
      unfold Pc. rewrite <- (code_composites i n2 k2 k1 T1 [] k2 g) by (reflexivity || exact O2).
      change (zlen (@nil Z)) with 0. rewrite <- sumf_scal. apply (f_equal (fun a => F g + a)) || idtac.
      assert (E : eqm t (sumf (fun p0 => v1 * v2 * (sgn (if t =? 2 then 0 else sgE i k1 (map (fun '(a, b) => cnt k2 a b) (pairwise (0 :: p0 ++ [zlen k2 - 1])))))
          * g (ck i n2 k1 (map (map (sh i)) (map (fun ab => slice k2 (fst ab) (snd ab + 1)) (pairwise (0 :: p0 ++ [zlen k2 - 1])))))) (cwr (Z.to_nat (times_in i k1 - 1)) (zrange 0 (zlen k2))))
        (sumf (fun p0 => v1 * v2 * term i n2 k1 k2 g (0 :: p0 ++ [zlen k2 - 1])) (cwr (Z.to_nat (times_in i k1 - 1)) (zrange 0 (zlen k2))))).
      { apply sumf_eqm. intros p0 _. unfold term. rewrite <- !Z.mul_assoc. set (G := g _). set (E := sgE _ _ _). destruct (Z.eqb_spec t 2) as [->|]; [|reflexivity].
        now rewrite sgn_0, (sgn_eqm2 E). }
      now rewrite E.
  - intros z Hz. eapply den_ext; [|exact Hz]. intros g _. cbn beta. rewrite Z.add_0_l. reflexivity.
Qed.
Lemma surj_compose_den_o dt t cvx n2 i (x y : surj) : 0 <= t -> dt_ok dt t -> cok cvx t -> 1 <= n2 ->
  wf cls_surj x -> torsion x = t -> attr x = cvx -> keys_in (fun k => In i k) x -> keys_in (onto n2) y ->
  returns (surj_compose dt x y i) (den cls_surj t cvx (fun g => ev (fun k1 => ev (fun k2 => Pc i n2 g k1 k2) (data y)) (data x))).
Proof.
  intros Ht Hdt Hcv Hn Wx Tx Ax Kx Ky.
  assert (Ar : exists o, surj_arity y = Ok o /\ (data y = [] \/ o = Some n2)).
  { destruct (data y) eqn:E; [exists None; split; [unfold surj_arity, dkeys; rewrite E; reflexivity|now left]|]. exists (Some n2). split; [|now right].
    apply surj_arity_ok; [lia|exact Ky|congruence]. }
  destruct Ar as (o & Ar & Ho). apply (surj_compose_den_g dt t cvx n2 i o); auto; [|tauto].
  intros k v Hin. apply (onto_ne n2); [lia|exact (Ky _ _ Hin)].
Qed.
Lemma surj_compose_den dt t cvx n1 n2 p q i (x y : surj) : 0 <= t -> dt_ok dt t -> cok cvx t -> 1 <= i <= n1 -> 1 <= n2 ->
  wf cls_surj x -> torsion x = t -> attr x = cvx -> keys_in (surj_cell n1 p) x -> wf cls_surj y -> keys_in (surj_cell n2 q) y ->
  returns (surj_compose dt x y i) (den cls_surj t cvx (fun g => ev (fun k1 => ev (fun k2 => Pc i n2 g k1 k2) (data y)) (data x))).
Proof.
  intros Ht Hdt Hcv Hi Hn Wx Tx Ax Kx Wy Ky. apply surj_compose_den_o; auto.
  - intros k v Hin. apply (proj1 (Kx _ _ Hin)). lia.
  - intros k v Hin. exact (proj1 (Ky _ _ Hin)).
Qed.
Lemma bil_surj_o dt t cvx cvy n1 n2 i : 0 <= t -> dt_ok dt t -> cok cvx t -> 1 <= i <= n1 -> 1 <= n2 ->
  bilop cls_surj cls_surj cls_surj t cvx cvy cvx (onto n1) (onto n2) (Pc i n2) (fun x y => surj_compose dt x y i).
Proof.
  intros Ht Hdt Hc Hi Hn x y Wx Tx Ax Kx Wy Ty Ay Ky. apply surj_compose_den_o; auto.
  intros k v Hin. apply (Kx _ _ Hin). lia.
Qed.
Lemma bil_surj dt t cvx cvy n1 n2 p q i : 0 <= t -> dt_ok dt t -> cok cvx t -> 1 <= i <= n1 -> 1 <= n2 ->
  bilop cls_surj cls_surj cls_surj t cvx cvy cvx (surj_cell n1 p) (surj_cell n2 q) (Pc i n2) (fun x y => surj_compose dt x y i).
Proof. intros Ht Hdt Hc Hi Hn x y Wx Tx Ax Kx Wy Ty Ay Ky. eapply surj_compose_den; eauto. Qed.
