(** * Surjections: the symmetric action and orbits.  Proof library. *)
From Coq Require Import Setoid Morphisms.
From Verif Require Import PyBase Dict FreeModule Symmetric Simplicial Utils Surjection BarrattEccles Eqm Spec SpecChain SpecOperad SpecSurj FreeModuleFacts FreeModuleLaws ListFacts
  ClassFacts LinearFacts SymmetricFacts CycleFacts SymmetricLaws RingFacts RingLaws Tensor TensorAct KoszulFacts LoopFacts ActGeneric SimplicialLaws BEFacts BEOrbit SurjFacts SurjBoundary SurjLaws.

(** ** how the sign of the caesura word changes under relabelling *)
Lemma pairsum_delta (h : Z -> Z) a l : NoDup l -> In a l -> h a = 0 ->
  pairsum (fun x y => (if x =? a then h y else 0) + (if y =? a then h x else 0)) l = sumf h l.
Proof.
  induction l as [|x l IH]; intros ND Hin Ha; [destruct Hin|]. inversion ND as [|? ? Hx ND']; subst. cbn [pairsum]. rewrite sumf_cons, sumf_add.
  destruct (Z.eqb_spec x a) as [->|N].
  - rewrite (sumf_0 (fun y => if y =? a then h a else 0)) by (intros y Hy; destruct (Z.eqb_spec y a); [congruence|reflexivity]).
    assert (E : pairsum (fun x y => (if x =? a then h y else 0) + (if y =? a then h x else 0)) l = 0).
    { clear -Hx. induction l as [|y l IH]; [reflexivity|]. cbn [pairsum]. rewrite IH by (intros H; apply Hx; now right).
      rewrite sumf_0; [reflexivity|]. intros z Hz. destruct (Z.eqb_spec y a) as [->|]; [exfalso; apply Hx; now left|]. destruct (Z.eqb_spec z a) as [->|]; [exfalso; apply Hx; now right|]. reflexivity. }
    rewrite E, Ha, !Z.add_0_r, Z.add_0_l. reflexivity.
  - destruct Hin as [->|Hin]; [congruence|]. rewrite IH by assumption. rewrite (sumf_0 (fun _ => 0)) by reflexivity.
    assert (E : sumf (fun y => if y =? a then h x else 0) l = h x).
    { clear -ND' Hin. induction l as [|y l IH]; [destruct Hin|]. inversion ND' as [|? ? Hy ND2]; subst. rewrite sumf_cons. destruct Hin as [->|Hin].
      - rewrite Z.eqb_refl. rewrite sumf_0; [ring|]. intros z Hz. destruct (Z.eqb_spec z a); [congruence|reflexivity].
      - rewrite IH by assumption. destruct (Z.eqb_spec y a); [congruence|ring]. }
    rewrite E. ring.
Qed.
Lemma sumf_count (f : Z -> Z) c n : (forall a, In a c -> 1 <= a <= n) -> sumf f c = sumf (fun y => f y * times_in y c) (zrange 1 (n + 1)).
Proof.
  induction c as [|a c IH]; intros H.
  - rewrite (sumf_0 (fun y => f y * times_in y [])) by (intros; cbn [times_in]; ring). reflexivity.
  - rewrite sumf_cons, IH by (intros; apply H; now right). cbn [times_in].
    rewrite (sumf_ext (fun y => f y * ((if a =? y then 1 else 0) + times_in y c)) (fun y => (if a =? y then f a else 0) + f y * times_in y c)).
    2:{ intros y _. destruct (Z.eqb_spec a y) as [->|]; ring. }
    rewrite sumf_add. f_equal. assert (Ha : 1 <= a <= n) by (apply H; now left).
    rewrite (zrange_app 1 a) by lia. rewrite (zrange_cons a) by lia. rewrite sumf_app, sumf_cons, Z.eqb_refl, !sumf_0; [ring| |];
      intros y Hy; apply in_zrange in Hy; destruct (Z.eqb_spec a y); lia.
Qed.
Lemma count_pairsum (f : Z -> Z -> Z) c n : (forall a b, f a b = f b a) -> (forall a, f a a = 0) -> (forall a, In a c -> 1 <= a <= n) ->
  pairsum f c = pairsum (fun x y => f x y * (times_in x c * times_in y c)) (zrange 1 (n + 1)).
Proof.
  intros Hs H0. induction c as [|a c IH]; intros H.
  - cbn [pairsum times_in]. generalize (zrange 1 (n + 1)). intros l. induction l as [|x l IHl]; [reflexivity|]. cbn [pairsum]. rewrite <- IHl. rewrite sumf_0; [reflexivity|]. intros; ring.
  - cbn [pairsum]. rewrite IH by (intros; apply H; now right). rewrite (sumf_count (f a) c n) by (intros; apply H; now right).
    rewrite <- (pairsum_delta (fun y => f a y * times_in y c) a (zrange 1 (n + 1))).
    + rewrite <- pairsum_add. apply pairsum_ext. intros x y Hx Hy. cbn [times_in]. rewrite (Z.eqb_sym a x), (Z.eqb_sym a y).
      destruct (Z.eqb_spec x a) as [->|]; destruct (Z.eqb_spec y a) as [->|]; rewrite ?H0; try (rewrite (Hs x a)); ring.
    + apply NoDup_zrange.
    + apply in_zrange. assert (1 <= a <= n) by (apply H; now left). lia.
    + rewrite H0. ring.
Qed.
Lemma invn_pairsum l : invn l = pairsum gtb l.
Proof.
  induction l as [|a l IH]; [reflexivity|]. cbn [invn pairsum]. rewrite IH. f_equal. clear. induction l as [|b l IH]; [reflexivity|]. rewrite lessn_cons, sumf_cons, IH. reflexivity.
Qed.
Lemma caes_map (f : Z -> Z) u v : (forall a b, In a (u ++ v) -> In b (u ++ v) -> f a = f b -> a = b) -> caes (map f u) (map f v) = map f (caes u v).
Proof.
  induction u as [|b u IH]; intros H; [reflexivity|]. cbn [map caes]. rewrite <- map_app, mem_map_inj.
  - rewrite IH by (intros; apply H; cbn; auto). destruct (mem b (u ++ v)); reflexivity.
  - intros c Hc E. apply H; cbn; auto.
Qed.
Definition dims (n : Z) (k : list Z) : list Z := map (fun j => times_in j k - 1) (zrange 1 (n + 1)).
Lemma zlen_dims n k : 0 <= n -> zlen (dims n k) = n.
Proof. intros. unfold dims. rewrite zlen_map, zlen_zrange. lia. Qed.
Lemma nth_dims n k j : 1 <= j <= n -> znth 0 (dims n k) (j - 1) = times_in j k - 1.
Proof.
  intros Hj. unfold dims, znth. rewrite (zrange_app 1 j (n + 1)), (zrange_cons j) by lia. rewrite map_app. cbn [map].
  rewrite app_nth2 by (rewrite map_length, zrange_length; lia). rewrite map_length, zrange_length. now replace (Z.to_nat (j - 1) - Z.to_nat (j - 1))%nat with O by lia.
Qed.
Lemma eps_move n p k : 0 <= n -> perm n p -> onto n k -> sgn (kinv p (fun j => znth 0 (dims n k) (posn p j - 1))) = eps k * eps (map (image p) k).
Proof.
  intros Hn Hp Hk. unfold eps. change (@nil Z) with (map (image p) []) at 2. rewrite caes_map.
  2:{ intros a b Ha Hb E. rewrite app_nil_r in *. apply (image_inj n p); auto; now apply Hk. }
  set (c := caes k []). assert (Hc : forall a, In a c -> 1 <= a <= n) by (intros a Ha; apply in_caes in Ha; now apply Hk).
  rewrite <- sgn_add. apply sgn_eqm. rewrite !invn_pairsum.
  transitivity (pairsum (ordx' (image p)) c).
  - rewrite (count_pairsum (ordx' (image p)) c n); auto using ordx'_sym; [|intros a; unfold ordx'; now rewrite Z.eqb_refl].
    rewrite <- (perm_map_image n p Hn Hp) at 1. unfold kinv. rewrite pairsum_map. 
    assert (R : forall m j, 1 <= j -> j + Z.of_nat m <= n + 1 -> eqm 2 
      (pairsum (fun a b => if image p b <? image p a then znth 0 (dims n k) (posn p (image p a) - 1) * znth 0 (dims n k) (posn p (image p b) - 1) else 0) (zrange j (j + Z.of_nat m)))
      (pairsum (fun x y => ordx' (image p) x y * (times_in x c * times_in y c)) (zrange j (j + Z.of_nat m)))).
    { induction m as [|m IH]; intros j Hj Hm; [rewrite zrange_nil by lia; reflexivity|]. rewrite zrange_cons by lia. cbn [pairsum].
      replace (j + Z.of_nat (S m)) with (j + 1 + Z.of_nat m) by lia. rewrite IH by lia.
      match goal with |- eqm 2 (?A + ?B) (?C + ?B) => assert (EA : eqm 2 A C); [|now rewrite EA] end. apply eqm_eq, sumf_ext. intros y Hy. apply in_zrange in Hy.
      rewrite !(posn_image n) by (auto; lia). rewrite !nth_dims by lia. unfold c. rewrite !times_caes. cbn [mem existsb].
      assert (M : forall z, 1 <= z <= n -> mem z k = true) by (intros z Hz; apply mem_in; now apply Hk). rewrite !M by lia.
      assert (image p j <> image p y) by (intros E; apply (image_inj n p) in E; auto; lia).
      unfold ordx', ordx. destruct (Z.eqb_spec j y); [lia|]. destruct (Z.eqb_spec (image p j) (image p y)); [contradiction|]. cbn [orb].
      destruct (Z.ltb_spec j y); [|lia]. destruct (Z.ltb_spec (image p y) (image p j)), (Z.ltb_spec (image p j) (image p y)); cbn [Bool.eqb]; try lia; ring. }
    specialize (R (Z.to_nat n) 1 ltac:(lia) ltac:(lia)). replace (1 + Z.of_nat (Z.to_nat n)) with (n + 1) in R by lia. exact R.
  - rewrite pairsum_map, <- pairsum_add. apply pairsum_eqm. intros a b Ha Hb. unfold gtb, ordx', ordx.
    destruct (Z.eqb_spec a b) as [->|N]; [rewrite !Z.ltb_irrefl; reflexivity|]. assert (image p a <> image p b) by (intros E; apply N, (image_inj n p); auto).
    destruct (Z.eqb_spec (image p a) (image p b)); [contradiction|]. cbn [orb].
    destruct (Z.ltb_spec b a), (Z.ltb_spec a b), (Z.ltb_spec (image p b) (image p a)), (Z.ltb_spec (image p a) (image p b)); cbn [Bool.eqb]; try lia; try reflexivity. exists (-1). lia.
Qed.
Lemma py_count_times k a : py_count k a = times_in a k.
Proof. unfold py_count. induction k as [|b k IH]; [reflexivity|]. cbn [filter times_in]. destruct (b =? a); rewrite ?zlen_cons, IH; lia. Qed.
Definition asg (cv : conv) (p k : list Z) : Z := tw cv k * tw cv (map (image p) k).
Lemma surj_act_sign_ok n cv p k : 1 <= n -> perm n p -> onto n k -> cv = BF \/ cv = MS -> surj_act_sign p k cv = Ok (asg cv p k).
Proof.
  intros Hn Hp Hk [-> | ->]; [reflexivity|]. unfold surj_act_sign. rewrite (onto_max n) by assumption. cbn [bind].
  rewrite (map_ext _ (fun j => times_in j k - 1)) by (intros; now rewrite py_count_times). fold (dims n k).
  rewrite (koszul_ok n) by (auto; try lia; apply zlen_dims; lia). f_equal. apply eps_move; auto; lia.
Qed.

(** ** the action *)
Definition PactS (cv : conv) (g : list Z -> Z) (k2 : skey) (k1 : list Z) : Z := asg cv (kval k2) k1 * g (map (image (kval k2)) k1).
Lemma onto_move n p k : 0 <= n -> perm n p -> onto n k -> onto n (map (image p) k).
Proof.
  intros Hn Hp Hk j. rewrite in_map_iff. split.
  - intros (a & <- & Ha). apply (image_range n p); auto. now apply Hk.
  - intros Hj. exists (posn p j). assert (Hin : In j p) by (apply (perm_in n p); auto). destruct (posn_index p j Hin) as (_ & H1 & H2). split; [exact H2|].
    apply Hk. rewrite (perm_len n p) in H1 by auto. lia.
Qed.
Lemma cell_move n d p k : 0 <= n -> perm n p -> surj_cell n d k -> surj_cell n d (map (image p) k).
Proof. intros Hn Hp [Hk L]. split; [now apply onto_move|]. now rewrite zlen_map. Qed.
Lemma adj_map n p k : 0 <= n -> perm n p -> (forall a, In a k -> 1 <= a <= n) -> adj (map (image p) k) = adj k.
Proof.
  intros Hn Hp. induction k as [|a k IH]; intros H; [reflexivity|]. destruct k as [|b k]; [reflexivity|]. cbn [map]. rewrite !adj_cons2. cbn [map] in IH. rewrite IH by (intros; apply H; now right).
  f_equal. destruct (Z.eqb_spec a b) as [->|N]; [apply Z.eqb_refl|]. destruct (Z.eqb_spec (image p a) (image p b)) as [E|]; [|reflexivity].
  exfalso. apply N, (image_inj n p); auto; apply H; cbn; auto.
Qed.
Lemma asg_sq cv p k : asg cv p k * asg cv p k = 1.
Proof. unfold asg. pose proof (tw_sq cv k) as E1. pose proof (tw_sq cv (map (image p) k)) as E2. transitivity ((tw cv k * tw cv k) * (tw cv (map (image p) k) * tw cv (map (image p) k))); [ring|]. rewrite E1, E2. reflexivity. Qed.
Lemma map_move n p q k : 0 <= n -> perm n q -> onto n k -> map (image (pmul p q)) k = map (image p) (map (image q) k).
Proof. intros Hn Hq Hk. rewrite map_map. apply map_ext_in. intros a Ha. apply (image_pmul n); auto. now apply Hk. Qed.
Lemma asg_mul n cv p q k : 0 <= n -> perm n q -> onto n k -> asg cv (pmul p q) k = asg cv q k * asg cv p (map (image q) k).
Proof.
  intros Hn Hq Hk. unfold asg. rewrite (map_move n) by assumption. pose proof (tw_sq cv (map (image q) k)) as E.
  transitivity (tw cv k * (tw cv (map (image q) k) * tw cv (map (image q) k)) * tw cv (map (image p) (map (image q) k))); [rewrite E; ring|ring].
Qed.
Section Act.
Variable dt : Z.
Variable cv : conv.
Hypothesis Hcv : cv = BF \/ cv = MS.
Lemma sact_den n t other (x : surj) : 1 <= n -> 0 <= t -> dt_ok dt t -> wf cls_ring other -> wf cls_surj x -> torsion other = t -> torsion x = t -> attr x = cv ->
  keys_in (pk n) other -> keys_in (onto n) x -> data other <> [] -> data x <> [] ->
  returns (surj_act dt other x) (den cls_surj t cv (fun g => ev (fun k2 => ev (fun k1 => PactS cv g k2 k1) (data x)) (data other))).
Proof.
  intros Hn Ht Hdt Wo Wx To Tx Ax Ko Kx No Nx. unfold surj_act. rewrite To, Tx, Z.eqb_refl. cbn [negb].
  rewrite (surj_arity_ok n) by auto. cbn [bind]. rewrite (ring_arity_ok n) by auto. cbn [bind opt_eqb]. rewrite Z.eqb_refl. cbn [negb].
  eapply returns_bind; [apply (zero_den cls_surj ok_surj dt t); auto|]. intros ans Hans. rewrite Ax in *.
  eapply returns_mono.
  - apply (pair_loop_den cls_surj ok_surj t cv (data x) (data other) _ (fun k1 k2 g => PactS cv g k2 k1)); [|exact Hans].
    intros k1 v1 k2 v2 F y H1 H2 Hy. apply Kx in H1. apply Ko in H2. unfold pk in *.
    rewrite (mapM_map _ (image (kval k2))).
    2:{ intros i Hi. apply H1 in Hi. rewrite (py_get_in 0) by (rewrite (perm_len n (kval k2)) by (auto; lia); lia). reflexivity. }
    cbn [bind]. rewrite (surj_act_sign_ok n) by auto. cbn [bind].
    eapply returns_mono; [eapply (add_term_den cls_surj ok_surj dt t); eauto; apply surj_okey; apply (onto_ne n); auto; apply onto_move; auto; lia|]. 
    intros z Hz. eapply den_ext; [|exact Hz]. intros g _. cbn beta. apply eqm_eq. unfold PactS. ring.
  - intros z Hz. eapply den_ext; [|exact Hz]. intros g _. cbn beta. apply eqm_eq. rewrite Z.add_0_l. apply ev_exch.
Qed.
Notation sact0 := (extended dt cls_surj (surj_act dt)).
Lemma bil_sact n t : 1 <= n -> 0 <= t -> dt_ok dt t ->
  bilop cls_ring cls_surj cls_surj t tt cv cv (pk n) (onto n) (PactS cv) sact0.
Proof.
  intros Hn Ht Hdt o x Wo To _ Ko Wx Tx Ax Kx. unfold extended.
  destruct (data o) as [|po o'] eqn:Eo; [|destruct (data x) as [|px x'] eqn:Ex].
  - cbn [dempty orb]. eapply returns_mono; [apply (zero_den cls_surj ok_surj dt t); auto|]. intros z Hz. rewrite Ax in Hz. exact Hz.
  - cbn [dempty orb]. eapply returns_mono; [apply (zero_den cls_surj ok_surj dt t); auto|]. intros z Hz. rewrite Ax in Hz.
    eapply den_ext; [|exact Hz]. intros g _. cbn beta. apply eqm_eq. symmetry. apply ev_zero. reflexivity.
  - cbn [dempty orb]. rewrite <- Eo, <- Ex. apply (sact_den n t); auto; rewrite ?Eo, ?Ex; discriminate.
Qed.
End Act.
Lemma rep_sact_on cv n (P : list Z -> Prop) : 0 <= n -> (forall p k, perm n p -> P k -> P (map (image p) k)) -> rep2 (pk n) P P (PactS cv).
Proof.
  intros Hn HP k2 k1 H2 H1. exists [(map (image (kval k2)) k1, asg cv (kval k2) k1)]. split.
  - intros k v [[= <- <-]|[]]. now apply HP.
  - intros g. rewrite ev_cons, ev_nil. unfold PactS. ring.
Qed.
Lemma rep_sact cv n : 0 <= n -> rep2 (pk n) (onto n) (onto n) (PactS cv).
Proof. intros Hn. apply rep_sact_on; auto. intros p k Hp Hk. now apply onto_move. Qed.
Lemma adm_sact cv n : 1 <= n -> adm2 cls_ring cls_surj cls_surj (pk n) (onto n) (onto n) (PactS cv).
Proof.
  intros Hn g Hg. assert (Hn0 : 0 <= n) by lia. split.
  - intros k1 H1 Hb. split; [|discriminate]. intros k k' E Hk. cbn in E. apply tup_eqb_eq in E. unfold PactS. now rewrite E.
  - intros k2 H2 _. apply admP_keyeq. intros k Hk Hb. unfold PactS. cbn [bad cls_surj] in Hb. rewrite (surj_bad_onto n) in Hb by assumption. injection Hb as Hb.
    assert (E : g (map (image (kval k2)) k) = 0); [|rewrite E; ring]. apply Hg; [now apply onto_move|]. cbn [bad cls_surj]. rewrite (surj_bad_onto n) by (auto; now apply onto_move).
    rewrite (adj_map n); auto. { now rewrite Hb. } intros a Ha. now apply Hk.
Qed.
Lemma sd_move n cv g p k : 0 <= n -> perm n p -> onto n k -> asg cv p k * sd cv g (map (image p) k) = sd cv (fun k' => asg cv p k' * g (map (image p) k')) k.
Proof.
  intros Hn Hp Hk. unfold sd. rewrite bfd_map.
  2:{ intros a b Ha Hb E. apply (image_inj n p); auto; now apply Hk. }
  unfold asg at 1. rewrite (Z.mul_comm (tw cv k)), <- !Z.mul_assoc. rewrite (Z.mul_comm (tw cv (map (image p) k))).
  rewrite (bfd_ext_all (fun u => tw cv u * (asg cv p u * g (map (image p) u))) (fun u => tw cv (map (image p) u) * g (map (image p) u))).
  - pose proof (tw_sq cv (map (image p) k)) as E. set (X := bfd _ k). transitivity (tw cv k * X * (tw cv (map (image p) k) * tw cv (map (image p) k))); [ring|]. rewrite E. ring.
  - intros u. unfold asg. pose proof (tw_sq cv u) as E. transitivity ((tw cv u * tw cv u) * (tw cv (map (image p) u) * g (map (image p) u))); [ring|]. rewrite E. ring.
Qed.
