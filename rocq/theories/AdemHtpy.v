(** * Homotopies for two commuting involutions, modulo 2 (C91) *)
From Coq Require Import Setoid Morphisms.
From Verif Require Import PyBase Dict FreeModule Symmetric Simplicial Utils Surjection Eqm Spec SpecChain SpecOperad SpecSurj FreeModuleFacts FreeModuleLaws ListFacts
  ClassFacts LinearFacts BilFacts SymmetricFacts CycleFacts SymmetricLaws RingFacts Tensor TensorAct SurjFacts SurjBoundary SurjLaws SurjAct SurjLaws2 MayFacts SurjMay
  SurjCompose SurjCompose2 SurjCompose3 SurjCompose4 SurjLaws6 CompEquiv SteenrodAct SqHtpy.

Section Homotopy2.
Variables (n : Z) (r1 r2 : list Z) (F : nat -> nat -> (list Z -> Z) -> Z).
Hypothesis Hn : 1 <= n.
Hypothesis P1 : perm n r1.
Hypothesis P2 : perm n r2.
Hypothesis I1 : forall k, onto n k -> map (image r1) (map (image r1) k) = k.
Hypothesis I2 : forall k, onto n k -> map (image r2) (map (image r2) k) = k.
Hypothesis I12 : forall k, onto n k -> map (image r1) (map (image r2) k) = map (image r2) (map (image r1) k).
Hypothesis FR : forall j k, repF n (Z.of_nat (j + k)) (F j k).
Definition Fp (j k : nat) (g : list Z -> Z) : Z :=
  match j with O => 0 | S j' => F j' k g + F j' k (mv r1 g) end + match k with O => 0 | S k' => F j k' g + F j k' (mv r2 g) end.
Hypothesis FD : forall j k g, admc n (Z.of_nat (j + k) - 1) g -> eqm 2 (F j k (sd MS g)) (Fp j k g).
Hypothesis F0 : forall c, eqm 2 (F 0 0 (fun _ => c)) 0.
Let m := Z.to_nat (n - 1).
(** the homotopy in degree (j, k), by recursion on both indices *)
Fixpoint GG (j : nat) : nat -> (list Z -> Z) -> Z :=
  fix gk (k : nat) (g : list Z -> Z) : Z :=
    let h := Hh m g in
    F j k h + match j with O => 0 | S j' => GG j' k h + GG j' k (mv r1 h) end + match k with O => 0 | S k' => gk k' h + gk k' (mv r2 h) end.
Definition YY (j k : nat) (g : list Z -> Z) : Z :=
  F j k g + match j with O => 0 | S j' => GG j' k g + GG j' k (mv r1 g) end + match k with O => 0 | S k' => GG j k' g + GG j k' (mv r2 g) end.
Lemma GG_Y j k g : GG j k g = YY j k (Hh m g). Proof. destruct j, k; reflexivity. Qed.
Lemma rep_H2 d : rep (surj_cell n d) (surj_cell n (d + 1)) (Hh m).
Proof. intros k Hk. destruct (rep_Hh m n d ltac:(unfold m; lia) k Hk) as (L & L1 & L2). exists L. split; [|exact L2]. intros k' v' H'. exact (proj1 (L1 _ _ H')). Qed.
Lemma repF_0 d : repF n d (fun _ => 0). Proof. exists []. split; [intros ? ? []|reflexivity]. Qed.
Lemma Y_rep2 : forall N j k, (j + k <= N)%nat -> repF n (Z.of_nat (j + k)) (YY j k).
Proof.
  induction N as [|N IH]; intros j k L.
  - destruct j, k; try lia. unfold YY. apply repF_plus; [|apply repF_0]. apply repF_plus; [apply FR|apply repF_0].
  - assert (G : forall j' k', (j' + k' <= N)%nat -> repF n (Z.of_nat (j' + k') + 1) (GG j' k')).
    { intros j' k' L'. destruct (repF_bind n _ n (Z.of_nat (j' + k') + 1) (YY j' k') (Hh m) (IH j' k' L') (rep_H2 _)) as (T & T1 & T2). exists T. split; [exact T1|]. intros g. now rewrite GG_Y, T2. }
    unfold YY. apply repF_plus; [apply repF_plus; [apply FR|]|].
    + destruct j as [|j]; [apply repF_0|]. replace (Z.of_nat (S j + k)) with (Z.of_nat (j + k) + 1) by lia. apply repF_plus; [apply G; lia|]. apply (repF_bind n _ n _ (GG j k) (mv r1) (G j k ltac:(lia))). now apply rep_mv.
    + destruct k as [|k]; [apply repF_0|]. replace (Z.of_nat (j + S k)) with (Z.of_nat (j + k) + 1) by lia. apply repF_plus; [apply G; lia|]. apply (repF_bind n _ n _ (GG j k) (mv r2) (G j k ltac:(lia))). now apply rep_mv.
Qed.
Lemma Yr j k : repF n (Z.of_nat (j + k)) (YY j k). Proof. now apply (Y_rep2 (j + k)). Qed.
Lemma Gr j k : repF n (Z.of_nat (j + k) + 1) (GG j k).
Proof. destruct (repF_bind n _ n (Z.of_nat (j + k) + 1) (YY j k) (Hh m) (Yr j k) (rep_H2 _)) as (T & T1 & T2). exists T. split; [exact T1|]. intros g. now rewrite GG_Y, T2. Qed.
Lemma admc_mv2 p d g : perm n p -> admc n d g -> admc n d (mv p g).
Proof. intros Hp Hg k Hk A. unfold mv. apply Hg; [apply cell_move; auto; lia|]. now apply adj_map. Qed.
Lemma admc_H2 d g : admc n (d + 1) g -> admc n d (Hh m g).
Proof. intros Hg k Hk A. apply (Hh_adj m n d); auto. unfold m. lia. Qed.
Lemma const_Pr2 g k : surj_cell n 0 k -> Pr m (Ir m g) k = Ir m g [1].
Proof. intros [Ho L]. assert (E : Z.of_nat m + 1 = n) by (unfold m; lia). apply Pr_word; rewrite E; [exact Ho|lia]. Qed.
Lemma last_YY j k g : admc n (Z.of_nat (j + k)) g -> eqm 2 (YY j k (Pr m (Ir m g))) 0.
Proof.
  intros Hg. destruct (j + k)%nat as [|d] eqn:E.
  - destruct j, k; try lia. unfold YY. rewrite !Z.add_0_r. rewrite (repF_ext n 0 (F 0 0) _ (fun _ => Ir m g [1]) (FR 0 0)) by (intros; now apply const_Pr2). apply F0.
  - pose proof (Yr j k) as R. rewrite E in R. rewrite (repF_ext n (Z.of_nat (S d)) (YY j k) _ (fun _ => 0) R); [rewrite (repF_zero _ _ _ R); reflexivity|].
    intros u Hu. apply (last_term n (Z.of_nat (S d))); auto; lia.
Qed.
Lemma Y_htpy2 j k : (forall g, admc n (Z.of_nat (j + k) - 1) g -> eqm 2 (YY j k (sd MS g)) 0) -> forall g, admc n (Z.of_nat (j + k)) g -> eqm 2 (GG j k (sd MS g)) (YY j k g).
Proof.
  intros C g Hg. rewrite GG_Y. set (d := Z.of_nat (j + k)) in *.
  assert (E : YY j k (fun u => Hh m (sd MS g) u + sd MS (Hh m g) u + Pr m (Ir m g) u) = YY j k g).
  { apply (repF_ext n d _ _ _ (Yr j k)). intros u Hu. rewrite (Hh_sd MS m n) by (try apply Hu; unfold m; lia). ring. }
  rewrite (repF_add n d), (repF_add n d) in E by apply Yr. rewrite <- E, (C (Hh m g)), last_YY; [apply eqm_eq; ring|exact Hg|].
  apply admc_H2. now replace (d - 1 + 1) with d by lia.
Qed.
Lemma G_mv j k p g : perm n p -> (forall g, admc n (Z.of_nat (j + k) - 1) g -> eqm 2 (YY j k (sd MS g)) 0) -> admc n (Z.of_nat (j + k)) g ->
  eqm 2 (GG j k (mv p (sd MS g))) (YY j k (mv p g)).
Proof.
  intros Hp C Hg. rewrite (repF_eqm n (Z.of_nat (j + k) + 1) (GG j k) (mv p (sd MS g)) (sd MS (mv p g)) (Gr j k)) by (intros u Hu; apply (sd_mv n); auto; apply Hu).
  apply Y_htpy2; [exact C|]. now apply admc_mv2.
Qed.
Lemma G_ext j k g h : (forall u, onto n u -> g u = h u) -> GG j k g = GG j k h.
Proof. intros E. apply (repF_ext n _ _ _ _ (Gr j k)). intros u Hu. apply E, Hu. Qed.
Lemma Y_cycle2 : forall N j k, (j + k <= N)%nat -> forall g, admc n (Z.of_nat (j + k) - 1) g -> eqm 2 (YY j k (sd MS g)) 0.
Proof.
  induction N as [|N IH]; intros j k L g Hg.
  - destruct j, k; try lia. unfold YY. rewrite !Z.add_0_r, (repF_ext n 0 (F 0 0) _ (fun _ => 0) (FR 0 0)) by (intros; now apply (sd_low n)). apply F0.
  - unfold YY. rewrite (FD j k g Hg). unfold Fp.
    assert (A1 : forall j', j = S j' -> eqm 2 (GG j' k (sd MS g) + GG j' k (mv r1 (sd MS g))) (YY j' k g + YY j' k (mv r1 g))).
    { intros j' ->. replace (Z.of_nat (S j' + k) - 1) with (Z.of_nat (j' + k)) in Hg by lia. rewrite (Y_htpy2 j' k (IH j' k ltac:(lia)) g Hg), (G_mv j' k r1 g P1 (IH j' k ltac:(lia)) Hg). reflexivity. }
    assert (A2 : forall k', k = S k' -> eqm 2 (GG j k' (sd MS g) + GG j k' (mv r2 (sd MS g))) (YY j k' g + YY j k' (mv r2 g))).
    { intros k' ->. replace (Z.of_nat (j + S k') - 1) with (Z.of_nat (j + k')) in Hg by lia. rewrite (Y_htpy2 j k' (IH j k' ltac:(lia)) g Hg), (G_mv j k' r2 g P2 (IH j k' ltac:(lia)) Hg). reflexivity. }
    assert (E1 : forall a b, GG a b (mv r1 (mv r1 g)) = GG a b g) by (intros; apply G_ext; intros u Hu; unfold mv; now rewrite I1).
    assert (E2 : forall a b, GG a b (mv r2 (mv r2 g)) = GG a b g) by (intros; apply G_ext; intros u Hu; unfold mv; now rewrite I2).
    assert (E12 : forall a b, GG a b (mv r1 (mv r2 g)) = GG a b (mv r2 (mv r1 g))) by (intros; apply G_ext; intros u Hu; unfold mv; now rewrite I12).
    destruct j as [|j], k as [|k].
    + change (0 + 0 + 0 + 0 + 0) with 0 || idtac. apply eqm_eq. ring.
    + rewrite (A2 k eq_refl). unfold YY. destruct k as [|k]; rewrite ?E2; [exists (F 0 0 g + F 0 0 (mv r2 g))|exists (F 0%nat (S k) g + F 0%nat (S k) (mv r2 g) + GG 0 k g + GG 0 k (mv r2 g))]; ring.
    + rewrite (A1 j eq_refl). unfold YY. destruct j as [|j]; rewrite ?E1; [exists (F 0 0 g + F 0 0 (mv r1 g))|exists (F (S j) 0%nat g + F (S j) 0%nat (mv r1 g) + GG j 0 g + GG j 0 (mv r1 g))]; ring.
    + rewrite (A1 j eq_refl), (A2 k eq_refl). unfold YY.
      set (B1 := match j with O => 0 | S j' => GG j' (S k) g + GG j' (S k) (mv r1 g) end).
      replace (match j with O => 0 | S j' => GG j' (S k) (mv r1 g) + GG j' (S k) (mv r1 (mv r1 g)) end) with B1 by (unfold B1; destruct j; [reflexivity|rewrite E1; ring]).
      set (B2 := match k with O => 0 | S k' => GG (S j) k' g + GG (S j) k' (mv r2 g) end).
      replace (match k with O => 0 | S k' => GG (S j) k' (mv r2 g) + GG (S j) k' (mv r2 (mv r2 g)) end) with B2 by (unfold B2; destruct k; [reflexivity|rewrite E2; ring]).
      rewrite E12.
      exists (F j (S k) g + F j (S k) (mv r1 g) + F (S j) k g + F (S j) k (mv r2 g) + B1 + B2 + GG j k g + GG j k (mv r1 g) + GG j k (mv r2 g) + GG j k (mv r2 (mv r1 g))). ring.
Qed.
(** an invariant cocycle vanishes on [F j k] *)
Lemma invariant_cocycle2 j k g : (forall e, admc n e g) -> (forall e k, surj_cell n e k -> eqm 2 (sd MS g k) 0) ->
  (forall k, onto n k -> eqm 2 (mv r1 g k) (g k)) -> (forall k, onto n k -> eqm 2 (mv r2 g k) (g k)) -> eqm 2 (F j k g) 0.
Proof.
  intros Hg Hs H1 H2. pose proof (Y_htpy2 j k (Y_cycle2 (j + k) j k ltac:(lia)) g (Hg _)) as E.
  rewrite (repF_eqm n (Z.of_nat (j + k) + 1) (GG j k) _ (fun _ => 0) (Gr j k)) in E by (intros u Hu; now apply (Hs (Z.of_nat (j + k) + 1))).
  rewrite (repF_zero _ _ _ (Gr j k)) in E. unfold YY in E.
  assert (M1 : forall a b, eqm 2 (GG a b (mv r1 g)) (GG a b g)) by (intros; apply (repF_eqm n _ _ _ _ (Gr a b)); intros u Hu; apply H1, Hu).
  assert (M2 : forall a b, eqm 2 (GG a b (mv r2 g)) (GG a b g)) by (intros; apply (repF_eqm n _ _ _ _ (Gr a b)); intros u Hu; apply H2, Hu).
  assert (Z1 : eqm 2 (match j with O => 0 | S j' => GG j' k g + GG j' k (mv r1 g) end) 0). { destruct j; [reflexivity|]. rewrite M1. exists (GG j k g). ring. }
  assert (Z2 : eqm 2 (match k with O => 0 | S k' => GG j k' g + GG j k' (mv r2 g) end) 0). { destruct k; [reflexivity|]. rewrite M2. exists (GG j k g). ring. }
  rewrite Z1, Z2, !Z.add_0_r in E. now symmetry.
Qed.
End Homotopy2.
