(** * Property theorems of the surjection operad: composition. *)
From Coq Require Import Setoid Morphisms.
From Verif Require Import PyBase Dict FreeModule Symmetric Simplicial Utils Surjection Eqm Spec SpecChain SpecOperad SpecSurj FreeModuleFacts FreeModuleLaws ListFacts
  ClassFacts LinearFacts BilFacts SymmetricFacts CycleFacts SymmetricLaws RingFacts TensorAct LoopFacts AW SimplicialDiag SurjFacts SurjBoundary SurjLaws SurjAct SurjCompose SurjCompose2 SurjCompose3 SurjCompose4.

Lemma eqm_sd_bfd2 cv g k : eqm 2 (sd cv g k) (bfd g k).
Proof.
  unfold sd. rewrite !bfd_ev. unfold ev. rewrite <- sumf_scal. apply sumf_eqm. intros [w v] _. cbn [fst snd].
  assert (T : forall u, eqm 2 (tw cv u) 1) by (intros u; destruct cv; cbn; try reflexivity; apply sgn_eqm2). rewrite (T k), (T w). apply eqm_eq. ring.
Qed.
Lemma sd_BF g k : sd BF g k = bfd g k.
Proof. unfold sd. cbn [tw]. rewrite Z.mul_1_l. apply bfd_ext_all. intros u. apply Z.mul_1_l. Qed.
Lemma onto_supp r k u : onto r k -> (forall c, In c u <-> In c k) -> onto r u.
Proof. intros H S c. rewrite S. apply H. Qed.
Lemma Pc_chain n1 n2 i g k1 k2 : 1 <= i <= n1 -> 1 <= n2 -> onto n1 k1 -> onto n2 k2 ->
  Pc i n2 (bfd g) k1 k2 = bfd (fun u => Pc i n2 g u k2) k1 + sgn (nc k1) * bfd (fun u => Pc i n2 g k1 u) k2.
Proof.
  intros Hi Hn H1 H2. rewrite (Pc_Cc 0 i n2 _ k1 k2 n1) by (auto; lia). rewrite Cc_leibniz by (eapply lift_dj; eauto; lia).
  assert (I1 : forall a b, In a k1 -> In b k1 -> lift1 0 i n2 a = lift1 0 i n2 b -> a = b) by (intros a b Ha Hb; apply H1 in Ha; apply H1 in Hb; apply lift1_inj; lia).
  rewrite lift1_mem by (try lia; eapply onto_pos; eauto). rewrite (mem_onto n1) by auto.
  rewrite (nc_inj _ k1 I1), (bfd_map _ k1 I1). rewrite (bfd_map (sh i) k2) by (intros; eapply sh_inj; eauto). f_equal; [|f_equal].
  - apply bfd_ext_supp. intros u Hu. symmetry. apply (Pc_Cc 0 i n2 g u k2 n1); try lia. eapply onto_supp; eauto.
  - apply bfd_ext_all. intros u. symmetry. apply (Pc_Cc 0 i n2 g k1 u n1); try lia. exact H1.
Qed.
Lemma Pc_eqm t i s g h k1 k2 : (forall w, eqm t (g w) (h w)) -> eqm t (Pc i s g k1 k2) (Pc i s h k1 k2).
Proof. intros E. unfold Pc, ev. apply sumf_eqm. intros [w v] _. cbn [fst snd]. now rewrite E. Qed.
Lemma Pc_chain_cv t cvx cvy n1 n2 p i g k1 k2 : (cvx = BF /\ cvy = BF) \/ t = 2 -> 1 <= i <= n1 -> 1 <= n2 -> surj_cell n1 p k1 -> onto n2 k2 ->
  eqm t (Pc i n2 (sd cvx g) k1 k2) (sd cvx (fun u => Pc i n2 g u k2) k1 + sgn p * sd cvy (fun u => Pc i n2 g k1 u) k2).
Proof.
  intros Hc Hi Hn [H1 L1] H2. assert (E : p = nc k1) by (rewrite (onto_nc n1) by (auto; lia); lia). rewrite E. destruct Hc as [[-> ->]| ->].
  - apply eqm_eq. rewrite !sd_BF, <- (Pc_chain n1) by auto. unfold Pc. unfold ev. apply sumf_ext. intros [w v] _. cbn [fst snd]. now rewrite sd_BF.
  - rewrite (Pc_eqm 2 i n2 (sd cvx g) (bfd g)) by (intros; apply eqm_sd_bfd2). rewrite (Pc_chain n1) by auto. now rewrite !eqm_sd_bfd2.
Qed.
Lemma Cc_letters m g u u' y y' : u = u' -> y = y' -> Cc m g u y = Cc m g u' y'. Proof. now intros -> ->. Qed.
Lemma Pc_seq n1 n2 n3 i j g k1 k2 k3 : 1 <= i <= n1 -> 1 <= j <= n2 -> 1 <= n3 -> onto n1 k1 -> onto n2 k2 -> onto n3 k3 ->
  Pc i n2 (fun w => Pc (i - 1 + j) n3 g w k3) k1 k2 = Pc j n3 (fun v => Pc i (n2 + n3 - 1) g k1 v) k2 k3.
Proof.
  intros Hi Hj Hn H1 H2 H3. set (f := lift1 (-1) (i - 1 + j) n3).
  set (U := map (lift1 0 i (n2 + n3 - 1)) k1). set (Y := map (fun a => sh i (lift1 (- i) j n3 a)) k2). set (Z0 := map (fun a => sh (i - 1 + j) a) k3).
  assert (f0 : f 0 = 0) by (unfold f, lift1, up; destruct (Z.eqb_spec 0 (i - 1 + j)); [lia|]; destruct (Z.ltb_spec 0 (i - 1 + j)); lia).
  transitivity (Cc 0 (fun w => Cc (-1) g w Z0) U Y).
  - rewrite (Pc_Cc 0 i n2 _ k1 k2 n1) by (auto; lia).
    rewrite (Cc_ext 0 _ _ _ (fun w => Cc (-1) g (map f w) Z0)).
    2:{ intros w v Hin. apply (Pc_Cc (-1) (i - 1 + j) n3 g w k3 (n1 + n2 - 1)); try lia. eapply Cl_onto; [| | | | |exact Hin]; auto; lia. }
    pose proof (Cc_map f 0 (map (lift1 0 i n2) k1) (map (sh i) k2) (fun w => Cc (-1) g w Z0)) as CM. cbn beta in CM. rewrite f0 in CM. rewrite <- CM.
    + rewrite !map_map. apply Cc_letters; apply map_ext_in; intros a Ha.
      * apply H1 in Ha. unfold f, lift1, up. destruct (Z.eqb_spec a i); [destruct (Z.eqb_spec 0 (i - 1 + j)); [lia|destruct (Z.ltb_spec 0 (i - 1 + j)); lia]|]. destruct (Z.ltb_spec a i).
        -- destruct (Z.eqb_spec a (i - 1 + j)); [lia|]. destruct (Z.ltb_spec a (i - 1 + j)); lia.
        -- destruct (Z.eqb_spec (a + n2 - 1) (i - 1 + j)); [lia|]. destruct (Z.ltb_spec (a + n2 - 1) (i - 1 + j)); lia.
      * apply H2 in Ha. unfold f, lift1, up, sh. destruct (Z.eqb_spec (a + i - 1) (i - 1 + j)), (Z.eqb_spec a j), (Z.ltb_spec (a + i - 1) (i - 1 + j)), (Z.ltb_spec a j); lia.
    + assert (Hl : forall a, In a (0 :: map (lift1 0 i n2) k1 ++ map (sh i) k2) -> a = 0 \/ 1 <= a).
      { intros a [<-|Ha]; [now left|]. apply in_app_iff in Ha. rewrite !in_map_iff in Ha. destruct Ha as [(b & <- & Hb)|(b & <- & Hb)].
        - apply H1 in Hb. unfold lift1, up. destruct (Z.eqb_spec b i), (Z.ltb_spec b i); lia.
        - apply H2 in Hb. unfold sh. lia. }
      intros a b Ha Hb. apply Hl in Ha. apply Hl in Hb. unfold f, lift1, up.
      destruct (Z.eqb_spec a (i - 1 + j)), (Z.eqb_spec b (i - 1 + j)), (Z.ltb_spec a (i - 1 + j)), (Z.ltb_spec b (i - 1 + j)); lia.
  - rewrite (Pc_Cc (- i) j n3 _ k2 k3 n2) by (auto; lia).
    rewrite (Cc_ext_all (- i) _ _ _ (fun v => Cc 0 g U (map (sh i) v))) by (intros v; apply (Pc_Cc 0 i (n2 + n3 - 1) g k1 v n1); auto; lia).
    pose proof (Cc_map (sh i) (- i) (map (lift1 (- i) j n3) k2) (map (sh j) k3) (fun w => Cc 0 g U w)) as CM. cbn beta in CM.
    rewrite <- CM by (intros; eapply sh_inj; eauto). rewrite !map_map. replace (sh i (- i)) with (-1) by (unfold sh; lia).
    replace (map (fun x => sh i (sh j x)) k3) with Z0 by (apply map_ext; intros; unfold sh; lia). apply Cc_assoc.
    + unfold U. rewrite lift1_mem by (try lia; eapply onto_pos; eauto). eapply mem_onto; eauto.
    + split.
      * intros c Hc Nc. unfold U in Hc. apply in_map_iff in Hc. destruct Hc as (a & Ec & Ha). apply H1 in Ha. unfold lift1, up in Ec. 
        assert (Hc : (1 <= c < i) \/ i + n2 + n3 - 1 <= c) by (destruct (Z.eqb_spec a i); [congruence|]; destruct (Z.ltb_spec a i); lia).
        split; [|split; [|lia]]; intros Hin; apply in_map_iff in Hin; destruct Hin as (b & Eb & Hb).
        -- apply H2 in Hb. unfold sh, lift1, up in Eb. destruct (Z.eqb_spec b j), (Z.ltb_spec b j); lia.
        -- apply H3 in Hb. unfold sh in Eb. lia.
      * intros c Hc. unfold Y in Hc. apply in_map_iff in Hc. destruct Hc as (b & Eb & Hb). apply H2 in Hb. unfold sh, lift1, up in Eb. split.
        -- intros [Nc Hin]. apply in_map_iff in Hin. destruct Hin as (d & Ed & Hd). apply H3 in Hd. unfold sh in Ed. destruct (Z.eqb_spec b j), (Z.ltb_spec b j); lia.
        -- destruct (Z.eqb_spec b j), (Z.ltb_spec b j); lia.
      * split; intros Hin; apply in_map_iff in Hin; destruct Hin as (d & Ed & Hd); apply H3 in Hd; unfold sh in Ed; lia.
      * lia.
Qed.
Lemma Pc_par n1 n2 n3 p q r i k g k1 k2 k3 : 1 <= i -> i < k <= n1 -> 1 <= n2 -> 1 <= n3 -> surj_cell n1 p k1 -> surj_cell n2 q k2 -> surj_cell n3 r k3 ->
  Pc i n2 (fun w => Pc (k - 1 + n2) n3 g w k3) k1 k2 = sgn (q * r) * Pc k n3 (fun w => Pc i n2 g w k2) k1 k3.
Proof.
  intros Hi Hk Hn2 Hn3 [H1 L1] [H2 L2] [H3 L3]. set (f := lift1 (-1) (k - 1 + n2) n3). set (f' := lift1 0 i n2).
  set (U := map (fun a => if a =? i then 0 else if a =? k then -1 else if a <? i then a else if a <? k then a + n2 - 1 else a + n2 + n3 - 2) k1).
  set (Y := map (sh i) k2). set (Z0 := map (sh (k - 1 + n2)) k3).
  assert (f0 : f 0 = 0) by (unfold f, lift1, up; destruct (Z.eqb_spec 0 (k - 1 + n2)); [lia|]; destruct (Z.ltb_spec 0 (k - 1 + n2)); lia).
  assert (f1 : f' (-1) = -1) by (unfold f', lift1, up; destruct (Z.eqb_spec (-1) i); [lia|]; destruct (Z.ltb_spec (-1) i); lia).
  assert (EL : Pc i n2 (fun w => Pc (k - 1 + n2) n3 g w k3) k1 k2 = Cc 0 (fun w => Cc (-1) g w Z0) U Y).
  { rewrite (Pc_Cc 0 i n2 _ k1 k2 n1) by (auto; lia).
    rewrite (Cc_ext 0 _ _ _ (fun w => Cc (-1) g (map f w) Z0)).
    2:{ intros w v Hin. apply (Pc_Cc (-1) (k - 1 + n2) n3 g w k3 (n1 + n2 - 1)); try lia. eapply Cl_onto; [| | | | |exact Hin]; auto; lia. }
    pose proof (Cc_map f 0 (map (lift1 0 i n2) k1) (map (sh i) k2) (fun w => Cc (-1) g w Z0)) as CM. cbn beta in CM. rewrite f0 in CM. rewrite <- CM.
    - rewrite !map_map. apply Cc_letters; apply map_ext_in; intros a Ha.
      + apply H1 in Ha. unfold f, lift1, up. destruct (Z.eqb_spec a i); [destruct (Z.eqb_spec 0 (k - 1 + n2)); [lia|destruct (Z.ltb_spec 0 (k - 1 + n2)); lia]|]. destruct (Z.ltb_spec a i).
        * destruct (Z.eqb_spec a (k - 1 + n2)); [lia|]. destruct (Z.eqb_spec a k); [lia|]. destruct (Z.ltb_spec a (k - 1 + n2)); lia.
        * destruct (Z.eqb_spec (a + n2 - 1) (k - 1 + n2)), (Z.eqb_spec a k), (Z.ltb_spec (a + n2 - 1) (k - 1 + n2)), (Z.ltb_spec a k); lia.
      + apply H2 in Ha. unfold f, lift1, up, sh. destruct (Z.eqb_spec (a + i - 1) (k - 1 + n2)), (Z.ltb_spec (a + i - 1) (k - 1 + n2)); lia.
    - assert (Hl : forall a, In a (0 :: map (lift1 0 i n2) k1 ++ map (sh i) k2) -> a = 0 \/ 1 <= a).
      { intros a [<-|Ha]; [now left|]. apply in_app_iff in Ha. rewrite !in_map_iff in Ha. destruct Ha as [(b & <- & Hb)|(b & <- & Hb)].
        - apply H1 in Hb. unfold lift1, up. destruct (Z.eqb_spec b i), (Z.ltb_spec b i); lia.
        - apply H2 in Hb. unfold sh. lia. }
      intros a b Ha Hb. apply Hl in Ha. apply Hl in Hb. unfold f, lift1, up.
      destruct (Z.eqb_spec a (k - 1 + n2)), (Z.eqb_spec b (k - 1 + n2)), (Z.ltb_spec a (k - 1 + n2)), (Z.ltb_spec b (k - 1 + n2)); lia. }
  assert (ER : Pc k n3 (fun w => Pc i n2 g w k2) k1 k3 = Cc (-1) (fun w => Cc 0 g w Y) U Z0).
  { rewrite (Pc_Cc (-1) k n3 _ k1 k3 n1) by (auto; lia).
    rewrite (Cc_ext (-1) _ _ _ (fun w => Cc 0 g (map f' w) Y)).
    2:{ intros w v Hin. apply (Pc_Cc 0 i n2 g w k2 (n1 + n3 - 1)); try lia. eapply Cl_onto; [| | | | |exact Hin]; auto; lia. }
    pose proof (Cc_map f' (-1) (map (lift1 (-1) k n3) k1) (map (sh k) k3) (fun w => Cc 0 g w Y)) as CM. cbn beta in CM. rewrite f1 in CM. rewrite <- CM.
    - rewrite !map_map. apply Cc_letters; apply map_ext_in; intros a Ha.
      + apply H1 in Ha. unfold f', lift1, up. destruct (Z.eqb_spec a k); [destruct (Z.eqb_spec (-1) i); [lia|]; destruct (Z.eqb_spec a i); [lia|]; destruct (Z.ltb_spec (-1) i); lia|].
        destruct (Z.ltb_spec a k).
        * destruct (Z.eqb_spec a i); [lia|]. destruct (Z.ltb_spec a i); lia.
        * destruct (Z.eqb_spec (a + n3 - 1) i), (Z.eqb_spec a i), (Z.ltb_spec (a + n3 - 1) i), (Z.ltb_spec a i); lia.
      + apply H3 in Ha. unfold f', lift1, up, sh. destruct (Z.eqb_spec (a + k - 1) i), (Z.ltb_spec (a + k - 1) i); lia.
    - assert (Hl : forall a, In a (-1 :: map (lift1 (-1) k n3) k1 ++ map (sh k) k3) -> a = -1 \/ 1 <= a).
      { intros a [<-|Ha]; [now left|]. apply in_app_iff in Ha. rewrite !in_map_iff in Ha. destruct Ha as [(b & <- & Hb)|(b & <- & Hb)].
        - apply H1 in Hb. unfold lift1, up. destruct (Z.eqb_spec b k), (Z.ltb_spec b k); lia.
        - apply H3 in Hb. unfold sh. lia. }
      intros a b Ha Hb. apply Hl in Ha. apply Hl in Hb. unfold f', lift1, up.
      destruct (Z.eqb_spec a i), (Z.eqb_spec b i), (Z.ltb_spec a i), (Z.ltb_spec b i); lia. }
  rewrite EL, ER.
  assert (MU : forall c, In c U <-> exists a, In a k1 /\ c = (if a =? i then 0 else if a =? k then -1 else if a <? i then a else if a <? k then a + n2 - 1 else a + n2 + n3 - 2)).
  { intros c. unfold U. rewrite in_map_iff. split; intros (a & A & B); exists a; auto. }
  rewrite Cc_par.
  - f_equal. unfold psg. rewrite (proj2 (mem_in 0 U)), (proj2 (mem_in (-1) U)).
    + cbn [andb]. unfold Y, Z0. rewrite !nc_inj by (intros; eapply sh_inj; eauto). rewrite (onto_nc n2), (onto_nc n3) by (auto; lia). f_equal. rewrite L2, L3. ring.
    + apply MU. exists k. split; [apply H1; lia|]. destruct (Z.eqb_spec k i); [lia|]. now rewrite Z.eqb_refl.
    + apply MU. exists i. split; [apply H1; lia|]. now rewrite Z.eqb_refl.
  - split.
    + intros c Hc N0 N1. apply MU in Hc. destruct Hc as (a & Ha & Ec). apply H1 in Ha.
      assert (Hc : 1 <= c < i \/ i + n2 <= c < k + n2 - 1 \/ k + n2 + n3 - 1 <= c) by (destruct (Z.eqb_spec a i); [congruence|]; destruct (Z.eqb_spec a k); [congruence|]; destruct (Z.ltb_spec a i); [lia|]; destruct (Z.ltb_spec a k); lia).
      split; intros Hin; apply in_map_iff in Hin; destruct Hin as (b & Eb & Hb); [apply H2 in Hb|apply H3 in Hb]; unfold sh in Eb; lia.
    + intros c Hc Hin. apply in_map_iff in Hin. destruct Hin as (b & Eb & Hb). apply in_map_iff in Hc. destruct Hc as (d & Ed & Hd). apply H3 in Hb. apply H2 in Hd. unfold sh in *. lia.
    + split; intros Hin; apply in_map_iff in Hin; destruct Hin as (b & Eb & Hb); apply H2 in Hb; unfold sh in Eb; lia.
    + split; intros Hin; apply in_map_iff in Hin; destruct Hin as (b & Eb & Hb); apply H3 in Hb; unfold sh in Eb; lia.
    + lia.
Qed.
Lemma Pc_unit_l n g k : Pc 1 n g [1] k = g k.
Proof. unfold Pc. cbn [surj_composites]. rewrite Z.eqb_refl. cbn [mem existsb]. unfold ev. rewrite sumf_cons, sumf_nil. cbn [fst snd map]. rewrite app_nil_r.
  replace (map (fun c => c + 1 - 1) k) with k by (rewrite <- (map_id k) at 1; apply map_ext; intros; lia). cbn [caesuras_in mem existsb app]. rewrite Z.add_0_l, Z.mul_0_r, sgn_0. ring. Qed.
Lemma Pc_unit_r i g k r : 1 <= i <= r -> onto r k -> Pc i 1 g k [1] = g k.
Proof.
  intros Hi Ho. assert (Em : mem i k = true) by (eapply mem_onto; eauto). unfold Pc. clear Ho. revert g.
  assert (Sh : forall k g, mem i k = true -> ev g (surj_composites i 1 k [1]) = g k).
  2:{ intros g. now apply Sh. }
  clear k Em. induction k as [|a k IH]; intros g Em; [discriminate|]. cbn [surj_composites]. destruct (Z.eqb_spec a i) as [->|N].
  - destruct (mem i k) eqn:E.
    + unfold ev. cbn [cuts map flat_map app]. rewrite app_nil_r, sumf_map. transitivity (ev (fun w => g (i :: w)) (surj_composites i 1 k [1])).
      * unfold ev. apply sumf_ext. intros [w v] _. cbn [fst snd caesuras_in map app]. rewrite Z.mul_0_l, sgn_0. replace (1 + i - 1) with i by lia. ring.
      * now apply IH.
    + unfold ev. rewrite sumf_cons, sumf_nil. cbn [fst snd map app caesuras_in mem existsb]. rewrite Z.add_0_l, Z.mul_0_l, sgn_0. replace (1 + i - 1) with i by lia.
      replace (map (fun c => if c <? i then c else c + 1 - 1) k) with k; [ring|]. rewrite <- (map_id k) at 1. apply map_ext. intros c. destruct (c <? i); lia.
  - rewrite mem_other in Em by congruence. transitivity (ev (fun w => g (a :: w)) (surj_composites i 1 k [1])); [|now apply IH]. unfold ev. rewrite sumf_map. apply sumf_ext. intros [w v] _. cbn [fst snd].
    replace (if a <? i then a else a + 1 - 1) with a by (destruct (a <? i); lia). reflexivity.
Qed.

(** ** C48 *)
(** #C48_compose_formula# [x.compose(y, i)] is the bilinear extension of the
    composition of words described by [surj_composites]; the convention is
    Berger-Fresse or the coefficients are mod 2.  The words of [x] contain the
    value [i]; they may have different arities and degrees.  The words of [y]
    have arity [n2]; they may have different degrees. *)
Lemma C48_compose_formula_l (dt n2 i : Z) (x y : surj) :
  1 <= n2 -> wf cls_surj x -> wf cls_surj y -> torsion y = torsion x -> dt_ok dt (torsion x) ->
  attr x = BF \/ torsion x = 2 -> keys_in (fun k => In i k) x -> keys_in (onto n2) y ->
  gives cls_surj (surj_compose dt x y i) (torsion x) (attr x) (extend2 (surj_composites i n2) x y).
Proof.
  intros Hn Wx Wy Ty Hdt Hc Kx Ky. pose proof (proj1 Wx) as Ht.
  eapply (den_gives cls_surj ok_surj); [exact Ht|apply (surj_compose_den_o dt (torsion x) (attr x) n2 i); auto|]. intros g _. cbn beta. rewrite ev_extend2. reflexivity.
Qed.
(** #C48_mixed# When the words of [y] have different arities: at the last
    position of [x] the composition is still given by that formula (no value of
    [x] has to be shifted); at every other position [TypeError] is raised. *)
Lemma C48_mixed_l (dt n i s : Z) (x y : surj) :
  wf cls_surj x -> wf cls_surj y -> torsion y = torsion x -> dt_ok dt (torsion x) -> 1 <= n -> keys_in (onto n) x ->
  (attr x = BF \/ torsion x = 2 -> gives cls_surj (surj_compose dt x y n) (torsion x) (attr x) (extend2 (surj_composites n s) x y)) /\
  (forall k k' v v' m m', In (k, v) (data y) -> In (k', v') (data y) -> onto m k -> onto m' k' -> m <> m' ->
     ~ is_zero x -> 1 <= i < n -> surj_compose dt x y i = Err TypeError).
Proof.
  intros Wx Wy Ty Hdt Hn Kx. pose proof (proj1 Wx) as Ht.
  assert (Kn : keys_in (fun k => k <> []) y) by exact (wf_sne y Wy).
  set (mx := fun k : list Z => match k with [] => 0 | a :: l => fold_left Z.max l a end).
  assert (MX : mapM py_max (dkeys (data y)) = Ok (map mx (dkeys (data y)))).
  { apply mapM_map. intros k Hk. apply in_map_iff in Hk. destruct Hk as ([k' v] & <- & Hin). cbn [fst]. assert (Hne : k' <> []) by exact (Kn _ _ Hin). destruct k'; [congruence|reflexivity]. }
  assert (AR : exists o, surj_arity y = Ok o /\ forall a, o = Some a -> forall k v, In (k, v) (data y) -> mx k = a).
  { unfold surj_arity. destruct (dempty (data y)) eqn:E; [exists None; split; [reflexivity|discriminate]|]. rewrite MX. cbn [bind].
    destruct (zset (map mx (dkeys (data y)))) as [|m [|m' l]] eqn:Z0; [exists None; split; [reflexivity|discriminate]| |exists None; split; [reflexivity|discriminate]].
    exists (Some m). split; [reflexivity|]. intros a Ea k v Hin. injection Ea as <-. apply SimplicialLaws.zset_one in Z0. apply Z0. apply in_map, in_map_iff. exists (k, v). split; [reflexivity|exact Hin]. }
  destruct AR as (o & AR & HO). split.
  - intros Hc. eapply (den_gives cls_surj ok_surj); [exact Ht|apply (surj_compose_den_g dt (torsion x) (attr x) s n o); auto|].
    + intros k v Hin. apply (Kx _ _ Hin). lia.
    + right. right. intros k v Hin a Ha. apply (Kx _ _ Hin) in Ha. lia.
    + intros g _. cbn beta. rewrite ev_extend2. reflexivity.
  - intros k k' v v' m m' H1 H2 O1 O2 Nm Nx Hi.
    assert (PM : forall q k v, In (k, v) (data y) -> onto q k -> mx k = q).
    { intros q k0 v0 Hin Hq. assert (Hne : k0 <> []) by exact (Kn _ _ Hin). assert (Hq1 : 1 <= q). { destruct k0 as [|a k0]; [congruence|]. assert (1 <= a <= q) by (apply Hq; now left). lia. }
      pose proof (onto_max q k0 Hq1 Hq) as E. destruct k0; [discriminate|]. now injection E. }
    destruct o as [a|]; [exfalso; apply Nm; rewrite <- (PM _ _ _ H1 O1), <- (PM _ _ _ H2 O2), (HO a eq_refl _ _ H1), (HO a eq_refl _ _ H2); reflexivity|].
    unfold surj_compose. destruct (zero_den cls_surj ok_surj dt (torsion x) x) as (z0 & -> & _); [exact Ht|exact Hdt|reflexivity|]. cbn [bind]. rewrite AR. cbn [bind].
    destruct x as [[|[k1 v1] lx] tx ax]; [now exfalso; apply Nx|]. destruct y as [[|[k2 v2] ly] ty ay]; [destruct H1|].
    cbn [data list_prod map app for_]. rewrite pos_code, zlen_pos.
    assert (K1 : onto n k1) by exact (Kx k1 v1 (or_introl eq_refl)). assert (N2 : k2 <> []) by exact (Kn k2 v2 (or_introl eq_refl)).
    assert (T1 : 1 <= times_in i k1) by (apply times_in_pos, K1; lia). unfold py_cwr. destruct (Z.ltb_spec (times_in i k1 - 1) 0); [lia|]. cbn [bind].
    destruct (cwr (Z.to_nat (times_in i k1 - 1)) (zrange 0 (zlen k2))) as [|p ps] eqn:EC.
    { exfalso. destruct k2 as [|b k2]; [congruence|]. assert (Hr : In 0 (zrange 0 (zlen (b :: k2)))) by (apply in_zrange; rewrite zlen_cons; pose proof (zlen_nonneg k2); lia).
      revert EC. generalize (Z.to_nat (times_in i k1 - 1)). clear - Hr. destruct (zrange 0 (zlen (b :: k2))) as [|c l]; [destruct Hr|]. intros q. revert q.
      induction q as [|q IH]; [discriminate|]. intros E. cbn [cwr] in E. apply app_eq_nil in E. destruct E as [E _]. apply map_eq_nil in E. auto. }
    assert (Lp : zlen p = Z.of_nat (Z.to_nat (times_in i k1 - 1))) by (apply (cwr_len _ (zrange 0 (zlen k2))); rewrite EC; now left).
    cbn [for_].
    assert (CK : forall k ins, In (i + 1) k -> zlen ins = times_in i k -> compose_key k i None ins = Err TypeError).
    { clear. induction k as [|a k IH]; intros ins Hin Hl; [destruct Hin|]. cbn [compose_key]. cbn [times_in] in Hl. pose proof (times_nonneg i k).
      destruct (Z.ltb_spec a i); [rewrite IH; [reflexivity|destruct Hin; [lia|assumption]|destruct (Z.eqb_spec a i); lia]|].
      destruct (Z.eqb_spec a i); [|reflexivity]. destruct ins as [|q ins]; [change (zlen (@nil (list Z))) with 0 in Hl; lia|]. rewrite zlen_cons in Hl.
      rewrite IH; [reflexivity|destruct Hin; [lia|assumption]|lia]. }
    rewrite CK; [reflexivity|apply K1; lia|]. rewrite !zlen_map, pairwise_len. lia.
Qed.
(** #C48_compose_degree# The composite has arity n1 + n2 - 1 and degree p + q. *)
Lemma C48_compose_degree_l (dt n1 n2 p q i : Z) (x y : surj) :
  1 <= i <= n1 -> 1 <= n2 -> wf cls_surj x -> wf cls_surj y -> torsion y = torsion x -> dt_ok dt (torsion x) ->
  attr x = BF \/ torsion x = 2 -> keys_in (surj_cell n1 p) x -> keys_in (surj_cell n2 q) y ->
  exists z, surj_compose dt x y i = Ok z /\ wf cls_surj z /\ torsion z = torsion x /\ attr z = attr x /\ keys_in (surj_cell (n1 + n2 - 1) (p + q)) z.
Proof.
  intros Hi Hn Wx Wy Ty Hdt Hc Kx Ky. pose proof (proj1 Wx) as Ht.
  destruct (linop_bilR cls_surj cls_surj cls_surj ok_surj (torsion x) (attr x) (attr y) (attr x) _ _ _ _ _ Ht (kpred_cell (n1 + n2 - 1) (p + q)) (bil_surj dt (torsion x) (attr x) (attr y) n1 n2 p q i Ht Hdt Hc Hi Hn)
    (rep2_local2 _ _ _ _ (rep_Pc n1 n2 p q i Hi Hn)) (rep2_zero _ _ _ _ (rep_Pc n1 n2 p q i Hi Hn)) y Wy Ty eq_refl Ky x Wx eq_refl eq_refl Kx) as (z & E & Dz & Kz).
  exists z. split; [exact E|]. split; [eapply den_wf; eauto|]. split; [exact (proj1 Dz)|]. split; [apply Dz|exact Kz].
Qed.
(** #C48_bilinear# Composition is additive in both arguments. *)
Lemma C48_bilinear_l (dt n1 n2 i : Z) (x x' y y' : surj) :
  1 <= i <= n1 -> 1 <= n2 -> wf cls_surj x -> wf cls_surj x' -> wf cls_surj y -> wf cls_surj y' ->
  torsion x' = torsion x -> torsion y = torsion x -> torsion y' = torsion x -> dt_ok dt (torsion x) ->
  attr x = BF \/ torsion x = 2 -> attr x' = attr x -> attr y' = attr y ->
  keys_in (onto n1) x -> keys_in (onto n1) x' -> keys_in (onto n2) y -> keys_in (onto n2) y' ->
  same (let! s := add dt cls_surj x x' in surj_compose dt s y i) (let! u := surj_compose dt x y i in let! v := surj_compose dt x' y i in add dt cls_surj u v) /\
  same (let! s := add dt cls_surj y y' in surj_compose dt x s i) (let! u := surj_compose dt x y i in let! v := surj_compose dt x y' i in add dt cls_surj u v).
Proof.
  intros Hi Hn Wx Wx' Wy Wy' Tx' Ty Ty' Hdt Hc Ax' Ay' Kx Kx' Ky Ky'. pose proof (proj1 Wx) as Ht.
  pose proof (bil_surj_o dt (torsion x) (attr x) (attr y) n1 n2 i Ht Hdt Hc Hi Hn) as B. pose proof (rep_Pc_o n1 n2 i Hi Hn) as R. pose proof (adm_Pc_o n1 n2 i Hi Hn) as AD.
  split.
  - eapply (bilop_add_l cls_surj cls_surj cls_surj ok_surj ok_surj ok_surj dt (torsion x)) with (f := fun x y => surj_compose dt x y i); eauto using kpred_onto; [eapply rep2_local2; eauto|eapply rep2_zero; eauto].
  - eapply (bilop_add_r cls_surj cls_surj cls_surj ok_surj ok_surj ok_surj dt (torsion x)) with (f := fun x y => surj_compose dt x y i); eauto using kpred_onto; [eapply rep2_local2; eauto|eapply rep2_zero; eauto].
Qed.
(** #C48_chain_map# d(x o_i y) == dx o_i y + (-1)^p x o_i dy, in the
    Berger-Fresse convention or mod 2 (any convention). *)
Lemma C48_chain_map_l (dt n1 n2 p q i : Z) (x y : surj) :
  1 <= i <= n1 -> 1 <= n2 -> wf cls_surj x -> wf cls_surj y -> torsion y = torsion x -> dt_ok dt (torsion x) ->
  attr x = BF /\ attr y = BF \/ torsion x = 2 -> keys_in (surj_cell n1 p) x -> keys_in (surj_cell n2 q) y ->
  same (let! z := surj_compose dt x y i in surj_boundary dt z)
       (let! dx := surj_boundary dt x in let! u := surj_compose dt dx y i in
        let! dy := surj_boundary dt y in let! v := surj_compose dt x dy i in let! w := scale dt cls_surj (sgn p) v in add dt cls_surj u w).
Proof.
  intros Hi Hn Wx Wy Ty Hdt Hc Kx Ky. pose proof (proj1 Wx) as Ht.
  assert (Hc' : cok (attr x) (torsion x)) by (destruct Hc as [[H _]|H]; [now left|now right]).
  assert (Nx : known (attr x) (torsion x)) by (destruct Hc as [[H _]|H]; [now left|right; now right]). assert (Ny : known (attr y) (torsion x)) by (destruct Hc as [[_ H]|H]; [now left|right; now right]).
  pose proof (bil_surj dt (torsion x) (attr x) (attr y) n1 n2 p q i Ht Hdt Hc' Hi Hn) as B0. pose proof (rep_Pc n1 n2 p q i Hi Hn) as R0.
  pose proof (bil_surj dt (torsion x) (attr x) (attr y) n1 n2 (p - 1) q i Ht Hdt Hc' Hi Hn) as B1. pose proof (rep_Pc n1 n2 (p - 1) q i Hi Hn) as R1. pose proof (adm_Pc n1 n2 (p - 1) q i Hi Hn) as AD1.
  pose proof (bil_surj dt (torsion x) (attr x) (attr y) n1 n2 p (q - 1) i Ht Hdt Hc' Hi Hn) as B2. pose proof (rep_Pc n1 n2 p (q - 1) i Hi Hn) as R2. pose proof (adm_Pc n1 n2 p (q - 1) i Hi Hn) as AD2.
  replace (p - 1 + q) with (p + q - 1) in R1, AD1 by lia. replace (p + (q - 1)) with (p + q - 1) in R2, AD2 by lia.
  eapply (bil_leibniz cls_surj cls_surj cls_surj ok_surj ok_surj ok_surj dt (torsion x) (sgn p) (attr x) (attr y) (attr x) (surj_cell n1 p) (surj_cell n1 (p - 1)) (surj_cell n2 q) (surj_cell n2 (q - 1))
    (surj_cell (n1 + n2 - 1) (p + q)) (surj_cell (n1 + n2 - 1) (p + q - 1)) (surj_cell (n1 + n2 - 1) (p + q - 1)) (sd (attr x)) (sd (attr y)) (sd (attr x)) (Pc i n2)) with (f := fun x y => surj_compose dt x y i); eauto using kpred_cell.
  - apply linop_sb; auto using kpred_cell, sface_cell.
  - apply rep_sd, sface_cell.
  - apply linop_sb; auto using kpred_cell, sface_cell.
  - apply rep_sd, sface_cell.
  - apply linop_sb; auto using kpred_cell, sface_cell.
  - apply adm_sd; [apply sface_cell|]. intros k Hk. apply (onto_ne (n1 + n2 - 1)); [lia|apply Hk].
  - intros g k1 k2 _ H1 H2 _ _. apply (Pc_chain_cv _ _ _ n1); auto. apply H2.
Qed.
(** #C48_ms_not_implemented# In the McClure-Smith convention the composition of
    nonzero elements raises NotImplementedError unless the torsion is 2. *)
Lemma C48_ms_not_implemented_l (dt n1 n2 p q i : Z) (x y : surj) :
  1 <= i <= n1 -> 1 <= n2 -> wf cls_surj x -> wf cls_surj y -> dt_ok dt (torsion x) -> attr x = MS -> torsion x <> 2 ->
  keys_in (surj_cell n1 p) x -> keys_in (surj_cell n2 q) y -> ~ is_zero x -> ~ is_zero y ->
  surj_compose dt x y i = Err NotImplementedError.
Proof.
  intros Hi Hn Wx Wy Hdt Ax Tx Kx Ky Nx Ny. unfold surj_compose.
  destruct (zero_den cls_surj ok_surj dt (torsion x) x (proj1 Wx) Hdt eq_refl) as (z & -> & _). cbn [bind].
  rewrite (surj_arity_ok n2) by (try lia; try exact Ny; intros k v Hin; apply (Ky _ _ Hin)). cbn [bind].
  unfold is_zero in *. destruct (data x) as [|[k1 v1] dx] eqn:Ex; [congruence|]. destruct (data y) as [|[k2 v2] dy] eqn:Ey; [congruence|].
  assert (O1 : onto n1 k1) by (apply (Kx k1 v1); rewrite Ex; now left). assert (O2 : onto n2 k2) by (apply (Ky k2 v2); rewrite Ey; now left).
  cbn [list_prod map app for_]. rewrite pos_code, zlen_pos. assert (T1 : 1 <= times_in i k1) by (apply times_in_pos, O1; lia).
  unfold py_cwr. destruct (Z.ltb_spec (times_in i k1 - 1) 0); [lia|]. cbn [bind].
  destruct (cwr (Z.to_nat (times_in i k1 - 1)) (zrange 0 (zlen k2))) as [|p0 ps] eqn:Ec.
  - exfalso. assert (N2 : k2 <> []) by (eapply (onto_ne n2); eauto). destruct k2 as [|b k2]; [congruence|]. rewrite zlen_cons in Ec. pose proof (zlen_nonneg k2).
    rewrite (zrange_cons 0) in Ec by lia. revert Ec. generalize (Z.to_nat (times_in i k1 - 1)) as m. induction m as [|m IHm]; intros Ec; [discriminate|].
    cbn [cwr] in Ec. apply app_eq_nil in Ec. destruct Ec as [Ec _]. apply map_eq_nil in Ec. auto.
  - cbn [for_ bind]. cbn [app]. rewrite (compose_key_ck i n2).
    2:{ rewrite !zlen_map, pairwise_len. assert (Hin : In p0 (p0 :: ps)) by now left. rewrite <- Ec in Hin. apply cwr_len in Hin. lia. }
    cbn [bind]. destruct (Z.eqb_spec (torsion x) 2); [congruence|]. rewrite Ax. reflexivity.
Qed.
(** #C48_example# The hypotheses hold for x = (1,2,1), of arity 2 and degree 1;
    the composite x o_1 x has three terms. *)
Example C48_example_l : 
  exists x z, surj_new 0 BF [([1; 2; 1], 1)] None None = Ok x /\ wf cls_surj x /\ attr x = BF /\ keys_in (surj_cell 2 1) x /\ surj_compose 0 x x 1 = Ok z /\
    data z = [([1; 3; 1; 2; 1], 1); ([1; 2; 3; 2; 1], -1); ([1; 2; 1; 3; 1], -1)].
Proof.
  eexists. eexists. split; [vm_compute; reflexivity|]. split.
  - split; [cbn; lia|]. split; [split; [intros ? []|exact I]|]. intros k v [[= <- <-]|[]]. split; [split; [discriminate|cbn; lia]|reflexivity].
  - split; [reflexivity|]. split; [|split; vm_compute; reflexivity].
    intros k v [[= <- <-]|[]]. split; [|reflexivity]. intros j. cbn [In]. split; [intros [<-|[<-|[<-|[]]]]; lia|]. intros Hj. assert (j = 1 \/ j = 2) as [-> | ->] by lia; auto.
Qed.
(** ** C49 *)
(** #C48_mixed_example# [x] has words of degrees 0 and 1, [y] has words of arities 1 and 2:
    the composition at position 2 is defined, at position 1 it raises [TypeError]. *)
Example C48_mixed_example_l : let x := mkElt [([1; 2], 1); ([2; 1; 2], 3)] 0 BF : surj in let y := mkElt [([1], 5); ([2; 1], 1)] 0 BF : surj in
  wf cls_surj x /\ wf cls_surj y /\ keys_in (onto 2) x /\ onto 1 [1] /\ onto 2 [2; 1] /\ surj_compose 0 x y 1 = Err TypeError /\
  exists z, surj_compose 0 x y 2 = Ok z /\ data z = [([1; 2], 5); ([1; 3; 2], 1); ([2; 1; 2], 15); ([3; 1; 3; 2], 3); ([3; 2; 1; 2], 3)].
Proof.
  cbv zeta. split; [apply wfb_wf; reflexivity|]. split; [apply wfb_wf; reflexivity|]. split.
  { intros k v [E|[E|[]]]; injection E as <- <-; intros j; cbn [In]; lia. }
  split; [intros j; cbn [In]; lia|]. split; [intros j; cbn [In]; lia|]. split; [vm_compute; reflexivity|]. eexists. split; vm_compute; reflexivity.
Qed.
(** #C49_sequential# (x o_i y) o_{i-1+j} z == x o_i (y o_j z). *)
Lemma C49_sequential_l (dt n1 n2 n3 i j : Z) (x y z : surj) :
  1 <= i <= n1 -> 1 <= j <= n2 -> 1 <= n3 ->
  wf cls_surj x -> wf cls_surj y -> wf cls_surj z -> torsion y = torsion x -> torsion z = torsion x -> dt_ok dt (torsion x) ->
  attr x = BF /\ attr y = BF \/ torsion x = 2 ->
  keys_in (onto n1) x -> keys_in (onto n2) y -> keys_in (onto n3) z ->
  same (let! xy := surj_compose dt x y i in surj_compose dt xy z (i - 1 + j)) (let! yz := surj_compose dt y z j in surj_compose dt x yz i).
Proof.
  intros Hi Hj Hn3 Wx Wy Wz Ty Tz Hdt Hc Kx Ky Kz. pose proof (proj1 Wx) as Ht.
  assert (Hn2 : 1 <= n2) by lia. assert (Hij : 1 <= i - 1 + j <= n1 + n2 - 1) by lia. assert (Hn23 : 1 <= n2 + n3 - 1) by lia.
  assert (Hcx : cok (attr x) (torsion x)) by (destruct Hc as [[H _]|H]; [now left|now right]). assert (Hcy : cok (attr y) (torsion x)) by (destruct Hc as [[_ H]|H]; [now left|now right]).
  eapply (bilop_assoc cls_surj cls_surj cls_surj cls_surj cls_surj cls_surj ok_surj ok_surj ok_surj (torsion x) (attr x) (attr y) (attr z) (attr x) (attr y) (attr x) (onto n1) (onto n2) (onto n3) _ _ _
     (Pc i n2) (Pc (i - 1 + j) n3) (Pc j n3) (Pc i (n2 + n3 - 1)) (fun x y => surj_compose dt x y i) (fun x y => surj_compose dt x y (i - 1 + j)) (fun x y => surj_compose dt x y j) (fun x y => surj_compose dt x y i)); eauto using kpred_onto, bil_surj_o, rep_Pc_o, adm_Pc_o.
  - replace (onto (n1 + n2 - 1 + n3 - 1)) with (onto (n1 + (n2 + n3 - 1) - 1)) by (f_equal; lia). now apply adm_Pc_o.
  - intros g k1 k2 k3 _ K1 K2 K3 _ _ _. apply eqm_eq. apply (Pc_seq n1); auto.
Qed.
(** #C49_parallel# (x o_i y) o_{k-1+n2} z == (-1)^{|y||z|} (x o_k z) o_i y for i < k. *)
Lemma C49_parallel_l (dt n1 n2 n3 p q r i k : Z) (x y z : surj) :
  1 <= i -> i < k <= n1 -> 1 <= n2 -> 1 <= n3 ->
  wf cls_surj x -> wf cls_surj y -> wf cls_surj z -> torsion y = torsion x -> torsion z = torsion x -> dt_ok dt (torsion x) ->
  attr x = BF \/ torsion x = 2 ->
  keys_in (surj_cell n1 p) x -> keys_in (surj_cell n2 q) y -> keys_in (surj_cell n3 r) z ->
  same (let! xy := surj_compose dt x y i in surj_compose dt xy z (k - 1 + n2)) (let! xz := surj_compose dt x z k in let! w := surj_compose dt xz y i in scale dt cls_surj (sgn (q * r)) w).
Proof.
  intros Hi Hk Hn2 Hn3 Wx Wy Wz Ty Tz Hdt Hc Kx Ky Kz. pose proof (proj1 Wx) as Ht.
  assert (Hij : 1 <= k - 1 + n2 <= n1 + n2 - 1) by lia.
  assert (Hi' : 1 <= i <= n1) by lia. assert (Hk' : 1 <= k <= n1) by lia. assert (Hi'' : 1 <= i <= n1 + n3 - 1) by lia.
  eapply (bil_parallel cls_surj cls_surj cls_surj cls_surj cls_surj cls_surj ok_surj ok_surj ok_surj dt (torsion x) (sgn (q * r)) (attr x) (attr y) (attr z) (attr x) (attr x) (attr x) (surj_cell n1 p) (surj_cell n2 q) (surj_cell n3 r) _ _ _ _
     (Pc i n2) (Pc (k - 1 + n2) n3) (Pc k n3) (Pc i n2) (fun x y => surj_compose dt x y i) (fun x y => surj_compose dt x y (k - 1 + n2)) (fun x y => surj_compose dt x y k) (fun x y => surj_compose dt x y i)); eauto using kpred_cell, bil_surj, rep_Pc, adm_Pc.
  intros g k1 k2 k3 _ K1 K2 K3 _ _ _. apply eqm_eq. apply (Pc_par n1 n2 n3 p q r); auto.
Qed.
(** #C49_unit# The basis element (1) is a unit for composition, at every position. *)
Lemma C49_unit_l (dt : Z) (dc : conv) (n i : Z) (x : surj) : 1 <= i <= n -> wf cls_surj x -> dt_ok dt (torsion x) -> attr x = BF \/ torsion x = 2 -> keys_in (onto n) x ->
  same (let! e := surj_new dt dc [([1], 1)] (Some (torsion x)) (Some (attr x)) in surj_compose dt x e i) (Ok x) /\
  same (let! e := surj_new dt dc [([1], 1)] (Some (torsion x)) (Some (attr x)) in surj_compose dt e x 1) (Ok x).
Proof.
  intros Hi Wx Hdt Hc Kx. pose proof (proj1 Wx) as Ht. assert (H11 : 1 <= 1) by lia. assert (H111 : 1 <= 1 <= 1) by lia.
  assert (Cell : onto 1 [1]) by (intros j; cbn [In]; split; [intros [<-|[]]; lia|intros; left; lia]).
  assert (HE : returns (surj_new dt dc [([1], 1)] (Some (torsion x)) (Some (attr x))) (fun e => den cls_surj (torsion x) (attr x) (fun g => ev g [([1], 1)]) e /\ keys_in (onto 1) e)).
  { destruct (new_den cls_surj ok_surj dt (torsion x) (Some (torsion x)) (attr x) [([1], 1)] eq_refl Ht) as (e & Ee & De); [split; [intros ? []|exact I]|intros k [<-|[]]; apply surj_okey; discriminate|].
    exists e. split; [exact Ee|]. split; [exact De|]. eapply (den_keys cls_surj ok_surj); [exact Ht|apply kpred_onto|exact De|].
    intros g _ Hg. cbn beta. rewrite ev_cons, ev_nil, Hg; [apply eqm_eq; ring|exact Cell]. }
  destruct HE as (e & Ee & De & Ke). rewrite Ee. cbn [bind].
  assert (We : wf cls_surj e) by (eapply den_wf; eauto). pose proof (den_self cls_surj x Wx) as Dx. assert (Ae : attr e = attr x) by apply De. assert (Hn : 1 <= n) by lia.
  split.
  - eapply (same_den cls_surj ok_surj (torsion x) (attr x)); [exact Ht| |apply returns_ok; exact Dx|].
    + apply (surj_compose_den_o dt (torsion x) (attr x) 1 i x e); auto. intros k v Hin. apply (Kx _ _ Hin). lia.
    + intros g Hg. cbn beta. rewrite ev_exch.
      pose proof (den_ev_on cls_surj ok_surj (torsion x) (attr x) _ e (onto 1) (DBL (Pc i 1) x g) [[1]] (kpred_onto 1) De Ke) as E. cbn beta in E.
      unfold DBL in E at 1. rewrite E.
      * unfold DBL. rewrite ev_cons, ev_nil. apply eqm_eq. rewrite Z.mul_1_l, Z.add_0_r. apply ev_ext. intros k v Hin. apply (Pc_unit_r i g k n); [lia|apply (Kx _ _ Hin)].
      * apply (DBL_admop cls_surj cls_surj cls_surj _ _ _ _ (adm_Pc_o n 1 i Hi H11) x Kx Wx). now apply adm_admP.
      * intros h Hh. rewrite !ev_cons, !ev_nil, Hh; [reflexivity|exact Cell|now left].
  - eapply (same_den cls_surj ok_surj (torsion x) (attr x)); [exact Ht| |apply returns_ok; exact Dx|].
    + apply (surj_compose_den_o dt (torsion x) (attr x) n 1 e x); auto; [exact (proj1 De)|]. intros k v Hin. apply (Ke _ _ Hin). lia.
    + intros g Hg. cbn beta.
      pose proof (den_ev_on cls_surj ok_surj (torsion x) (attr x) _ e (onto 1) (DBR (Pc 1 n) x g) [[1]] (kpred_onto 1) De Ke) as E. cbn beta in E.
      unfold DBR in E at 1. rewrite E.
      * unfold DBR. rewrite ev_cons, ev_nil. apply eqm_eq. rewrite Z.mul_1_l, Z.add_0_r. apply ev_ext. intros k v Hin. apply Pc_unit_l.
      * apply (DBR_admop cls_surj cls_surj cls_surj _ _ _ _ (adm_Pc_o 1 n 1 H111 Hn) x Kx Wx). now apply adm_admP.
      * intros h Hh. rewrite !ev_cons, !ev_nil, Hh; [reflexivity|exact Cell|now left].
Qed.
