(** * The symmetry behind the Adem relations, third part (C91) *)
From Coq Require Import Setoid Morphisms.
From Verif Require Import PyBase Dict FreeModule Symmetric Simplicial Utils Surjection Eqm Spec SpecChain SpecOperad SpecSurj SpecAdem FreeModuleFacts FreeModuleLaws ListFacts
  ClassFacts LinearFacts BilFacts SymmetricFacts CycleFacts SymmetricLaws RingFacts Tensor TensorAct SurjFacts SurjBoundary SurjLaws SurjAct SurjLaws2 MayFacts SurjMay
  SurjCompose SurjCompose2 SurjCompose3 SurjCompose4 SurjLaws6 CompEquiv SteenrodAct SqHtpy SqCartan AdemHtpy AdemWords AdemSum.

Lemma admc_mv4 e p g : perm 4 p -> admc 4 e g -> admc 4 e (mv p g).
Proof. intros Hp Hg k Hk Ak. unfold mv. apply Hg; [apply cell_move; auto; lia|now apply adj_map]. Qed.
Ltac four k H := rewrite !map_map; apply map_ext_in; let a := fresh in let Ha := fresh in intros a Ha; destruct (letters4 k H a Ha) as [-> | [-> | [-> | ->]]]; reflexivity.
Lemma rho2_rho2 k : onto 4 k -> map (image rho2) (map (image rho2) k) = k.
Proof. intros H. rewrite map_map. etransitivity; [|apply map_id]. apply map_ext_in. intros a Ha. destruct (letters4 k H a Ha) as [-> | [-> | [-> | ->]]]; reflexivity. Qed.
Lemma rho_rho2 k : onto 4 k -> map (image rho) (map (image rho2) k) = map (image rho2) (map (image rho) k).
Proof. intros H. four k H. Qed.
Lemma mv_rs g k : onto 4 k -> mv rho (mv sig g) k = mv sig (mv rho2 g) k.
Proof. intros H. unfold mv. f_equal. four k H. Qed.
Lemma mv_r2s g k : onto 4 k -> mv rho2 (mv sig g) k = mv sig (mv rho g) k.
Proof. intros H. unfold mv. f_equal. four k H. Qed.
Lemma FF_0 c : FF 0 0 (fun _ => c) = c.
Proof. vm_compute. destruct c; reflexivity. Qed.
Lemma adem_words j k g : (forall e, admc 4 e g) -> (forall e k, surj_cell 4 e k -> eqm 2 (sd MS g k) 0) ->
  (forall k, onto 4 k -> eqm 2 (mv rho g k) (g k)) -> (forall k, onto 4 k -> eqm 2 (mv rho2 g k) (g k)) -> (forall k, onto 4 k -> eqm 2 (mv sig g k) (g k)) ->
  eqm 2 (FF j k g) (FF k j g).
Proof.
  intros Hg Hs H1 H2 H3.
  assert (P : perm 4 rho) by plit. assert (P2 : perm 4 rho2) by plit.
  set (F := fun j k g => FF j k g + FF k j (mv sig g)).
  assert (E : eqm 2 (F j k g) 0).
  { apply (invariant_cocycle2 4 rho rho2 F); auto using rho_rho, rho2_rho2, rho_rho2; try lia.
    - intros a b. unfold F. apply repF_plus; [apply FF_rep|]. rewrite Nat.add_comm. apply (repF_bind 4 _ 4 _ (FF b a) (mv sig) (FF_rep b a)). apply rep_mv; [lia|apply perm_sig].
    - intros a b f Hf. unfold F at 1.
      rewrite (repF_eqm 4 _ _ _ (sd MS (mv sig f)) (FF_rep b a)) by (intros u Hu; apply (sd_mv 4 MS sig f u ltac:(lia) perm_sig (proj1 Hu))).
      rewrite (FF_bd a b f Hf). rewrite (FF_bd b a (mv sig f)) by (apply admc_mv4; [apply perm_sig|now rewrite Nat.add_comm]).
      unfold Fp, F. apply eqm_eq.
      assert (Q1 : forall x y, FF x y (mv rho (mv sig f)) = FF x y (mv sig (mv rho2 f))) by (intros; apply (repF_ext 4 _ _ _ _ (FF_rep x y)); intros u Hu; apply mv_rs, Hu).
      assert (Q2 : forall x y, FF x y (mv rho2 (mv sig f)) = FF x y (mv sig (mv rho f))) by (intros; apply (repF_ext 4 _ _ _ _ (FF_rep x y)); intros u Hu; apply mv_r2s, Hu).
      destruct a as [|a], b as [|b]; cbn [pre]; rewrite ?Q1, ?Q2; ring.
    - intros c. unfold F. change (mv sig (fun _ => c)) with (fun _ : list Z => c). rewrite FF_0. exists c. ring. }
  unfold F in E. rewrite (repF_eqm 4 _ _ (mv sig g) g (FF_rep k j)) in E by (intros u Hu; apply H3, Hu).
  destruct E as [z E]. exists (z - FF k j g). lia.
Qed.
