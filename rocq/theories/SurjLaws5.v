(** * Property theorems of the surjection operad: May-Steenrod structure. *)
From Coq Require Import Setoid Morphisms.
From Verif Require Import PyBase Dict FreeModule Symmetric Simplicial Utils Surjection BarrattEccles Eqm Spec SpecChain SpecOperad SpecSurj FreeModuleFacts FreeModuleLaws ListFacts
  ClassFacts LinearFacts SymmetricFacts CycleFacts SymmetricLaws RingFacts RingLaws Tensor TensorAct KoszulFacts LoopFacts ActGeneric SimplicialLaws BEFacts BEOrbit BELaws BEDiag MayFacts BELaws3
  SurjFacts SurjBoundary SurjLaws SurjAct SurjMay.

(** #C53_identity# Degree 0: the identity permutation. *)
Lemma C53_identity_l (dt n u : Z) (dc cv : conv) (ot : option Z) (ov : option conv) :
  u = match ot with Some t => if t =? 0 then dt else t | None => dt end -> cv = match ov with Some c => c | None => dc end -> cv = BF \/ cv = MS ->
  2 <= n -> 0 <= u -> u <> 1 -> dt_ok dt u ->
  gives cls_surj (surj_may_steenrod dt dc n 0 ot ov) u cv [(zrange 1 (n + 1), 1)].
Proof.
  intros Eu Ec Hcv Hn Hu N Hdt. eapply (den_gives cls_surj ok_surj); [exact Hu|exact (mayS_ok dt dc cv n 0 ot ov u Eu Ec Hcv Hn Hu N Hdt)|].
  intros g _. cbn [FpS]. apply eqm_eq. rewrite ev_cons, ev_nil. ring.
Qed.
(** #C53_degree# The element is not zero, and its basis elements have arity [n], degree [d] and start with 1. *)
Lemma C53_degree_l (dt n d u : Z) (dc cv : conv) (ot : option Z) (ov : option conv) :
  u = match ot with Some t => if t =? 0 then dt else t | None => dt end -> cv = match ov with Some c => c | None => dc end -> cv = BF \/ cv = MS ->
  2 <= n -> 0 <= d -> 0 <= u -> u <> 1 -> dt_ok dt u ->
  exists y, surj_may_steenrod dt dc n d ot ov = Ok y /\ wf cls_surj y /\ torsion y = u /\ attr y = cv /\ ~ is_zero y /\
    keys_in (fun k => surj_cell n d k /\ hd 0 k = 1) y /\
    surj_arity y = Ok (Some n) /\ surj_degree y = Ok (Some d).
Proof.
  intros Eu Ec Hcv Hn Hd Hu N Hdt. pose proof (mayS_ok dt dc cv n (Z.to_nat d) ot ov u Eu Ec Hcv Hn Hu N Hdt) as (y & Ey & Dy). rewrite Z2Nat.id in Ey by lia.
  assert (Wy : wf cls_surj y) by exact (den_wf _ _ _ _ _ Hu Dy). assert (Ny : data y <> []) by (eapply psiS_nonzero; eauto).
  pose proof (psiS_keys cv n (Z.to_nat d) u y ltac:(lia) Hu Dy) as Ky. rewrite Z2Nat.id in Ky by lia.
  exists y. split; [exact Ey|]. split; [exact Wy|]. split; [exact (proj1 Dy)|]. split; [exact (proj1 (proj2 Dy))|]. split; [exact Ny|]. split; [exact Ky|]. split.
  - apply (surj_arity_ok n); auto; [lia|]. intros k v Hin. exact (proj1 (proj1 (Ky _ _ Hin))).
  - apply (surj_degree_ok n); auto; [lia|]. intros k v Hin. exact (proj1 (Ky _ _ Hin)).
Qed.
(** #C53_boundary# The boundary of the element of degree [d] is T (odd [d]) or N (even [d]) times the element of degree [d - 1]. *)
Lemma C53_boundary_l (dt n d u : Z) (dc cv : conv) (ot : option Z) (ov : option conv) :
  u = match ot with Some t => if t =? 0 then dt else t | None => dt end -> cv = match ov with Some c => c | None => dc end -> cv = BF \/ cv = MS ->
  2 <= n -> 1 <= d -> 0 <= u -> u <> 1 -> dt_ok dt u ->
  same (let! y := surj_may_steenrod dt dc n d ot ov in surj_boundary dt y)
       (let! a := if Z.even d then norm_element dt n (Some u) else transposition_element dt n (Some u) in
        let! z := surj_may_steenrod dt dc n (d - 1) ot ov in surj_act dt a z).
Proof.
  intros Eu Ec Hcv Hn Hd Hu N Hdt. assert (exists e, d = Z.of_nat (S e)) as [e Ed] by (exists (Z.to_nat (d - 1)); lia).
  assert (Ed1 : d - 1 = Z.of_nat e) by lia. rewrite Ed1. rewrite Ed at 1.
  assert (Ev : Z.even d = Nat.even (S e)) by (rewrite Ed; apply even_of_nat). rewrite Ev.
  destruct (mayS_ok dt dc cv n (S e) ot ov u Eu Ec Hcv Hn Hu N Hdt) as (y & Ey & Dy). destruct (mayS_ok dt dc cv n e ot ov u Eu Ec Hcv Hn Hu N Hdt) as (z & Ez & Dz).
  destruct (ma_den dt n u (S e) (Some u) eq_refl Hn Hu N Hdt) as (a & Ea & Da & Ka). unfold ma in Ea. rewrite Ea, Ey, Ez. cbn [bind].
  assert (Nz : data z <> []) by (eapply psiS_nonzero; eauto).
  pose proof (psiS_keys cv n e u z ltac:(lia) Hu Dz) as Kz.
  assert (Ks : keys_in (onto n) z) by (intros k v Hin; exact (proj1 (proj1 (Kz _ _ Hin)))).
  assert (HK : known cv u) by (destruct Hcv; unfold known; auto).
  eapply (same_den cls_surj ok_surj u cv); [exact Hu|apply (surj_boundary_den dt u cv); auto; [exact (den_wf _ _ _ _ _ Hu Dy)|exact (proj1 Dy)|exact (proj1 (proj2 Dy))]|
    exact (act_maS dt cv n u (S e) a _ z Hcv Hn Hu N Hdt Da Ka Dz Ks Nz)|].
  intros g Hg. cbn beta.
  assert (SF : sface_closed (surj_cell n (Z.of_nat (S e))) (surj_cell n (Z.of_nat e))).
  { intros k k' [Hk Lk] L S. split; [|lia]. intros j. rewrite S. apply Hk. }
  rewrite (psiS_ev cv n (S e) u y (sd cv g) ltac:(lia) Hu Dy).
  - rewrite FpS_boundary; [|lia|].
    + destruct (RA_list n (S e) ltac:(lia)) as (R & R1 & R2). rewrite !R2. apply ev_eqm. intros p v Hp. symmetry. apply psiS_ev; auto; [lia|].
      apply admP_act; [lia|eauto|]. now apply adm_admP.
    + intros k Hk Ak. apply Hg. cbn [bad cls_surj]. rewrite (surj_bad_onto n) by (try lia; apply Hk). now rewrite Ak.
  - apply (adm_sd cv _ _ SF); [intros k Hk; apply (onto_ne n); [lia|apply Hk]|]. now apply adm_admP.
Qed.
(** #C53_arity_one# In arity one the structure breaks down: degree 2 raises TypeError; and negative degrees recurse forever. *)
Lemma C53_arity_one_l : surj_may_steenrod 0 BF 1 2 None None = Err TypeError /\
  forall dt dc n d ot ov, d < 0 -> 2 <= n -> 0 <= dt -> dt <> 1 -> surj_may_steenrod dt dc n d ot ov = Err RecursionError.
Proof.
  split; [vm_compute; reflexivity|]. intros dt dc n d ot ov Hd Hn Hd0 N'. unfold surj_may_steenrod.
  destruct (ma_den dt n dt 2 None eq_refl Hn Hd0 N' (dt_ok_self _ Hd0)) as (NN & EN & DN & KN). change (norm_element dt n None = Ok NN) in EN. rewrite EN. cbn [bind].
  destruct (ma_den dt n dt 1 None eq_refl Hn Hd0 N' (dt_ok_self _ Hd0)) as (TT & ET & DT & KT). change (transposition_element dt n None = Ok TT) in ET. rewrite ET. cbn [bind].
  destruct (Z.ltb_spec d 0); [reflexivity|lia].
Qed.
(** #C53_example# *)
Example C53_example_l :
  surj_may_steenrod 0 BF 3 2 None None = Ok (mkElt [([1; 2; 3; 1; 2], 1); ([1; 3; 1; 2; 3], 1); ([1; 2; 3; 2; 3], 1)] 0 BF) /\
  surj_may_steenrod 0 BF 2 3 (Some 2) (Some MS) = Ok (mkElt [([1; 2; 1; 2; 1], 1)] 2 MS) /\
  surj_boundary 0 (mkElt [([1; 2; 1; 2; 1], 1)] 2 MS) = Ok (mkElt [([2; 1; 2; 1], 1); ([1; 2; 1; 2], 1)] 2 MS).
Proof. repeat split; vm_compute; reflexivity. Qed.
