(** * Arity two: the boundary of the alternating words.  Proof library. *)
From Coq Require Import Setoid Morphisms.
From Verif Require Import PyBase Dict FreeModule Symmetric Simplicial Cubical Utils Surjection Eqm Spec SpecChain SpecOperad SpecSurj SpecAction SpecCube SpecCubAction SpecCup SpecCubCup FreeModuleFacts FreeModuleLaws ListFacts
  ClassFacts LinearFacts BilFacts SymmetricFacts CycleFacts SymmetricLaws RingFacts Tensor TensorAct KoszulFacts LoopFacts AW SimplicialFacts SimplicialDiag SimplicialLaws BELaws BEDiag MayFacts SurjFacts SurjBoundary SurjLaws SurjAct SurjLaws2 ActFacts ActSign ActCore
  SurjMay CupI CubCup CubCup2 SurjOrbit SurjLaws3.

Lemma altw_cell_any a d : a = 1 \/ a = 2 -> surj_cell 2 (Z.of_nat d) (altw a (d + 2)).
Proof.
  intros Ha. split; [|unfold zlen; rewrite altw_len; lia]. intros j. split.
  - intros Hj. apply altw_in in Hj; [|exact Ha]. lia.
  - intros Hj. rewrite Nat.add_comm. cbn [Nat.add altw In]. lia.
Qed.
Lemma cell2_alt d k : 0 <= d -> surj_cell 2 d k -> adj k = false -> k = altw 1 (Z.to_nat d + 2) \/ k = altw 2 (Z.to_nat d + 2).
Proof.
  intros Hd [Ho Hl] A. pose proof (altw_unique k ltac:(intros b Hb; apply Ho in Hb; lia) A) as E.
  assert (L : length k = (Z.to_nat d + 2)%nat) by (unfold zlen in Hl; lia). rewrite L in E.
  destruct k as [|c k]; [cbn in L; lia|]. cbn [hd] in E. assert (Hc : 1 <= c <= 2) by (apply Ho; now left). destruct (Z.eq_dec c 1) as [->|]; [now left|]. right. replace c with 2 in * by lia. exact E.
Qed.
Lemma asg_rot0 cv n : asg cv (rot 2 0) (altw 1 (n + 2)) = 1 /\ asg cv (rot 2 0) (altw 2 (n + 2)) = 1.
Proof. rewrite rot_0. split; apply (asg_id cv 2); apply altw_cell_any; auto. Qed.
Lemma asg_rot1 cv n : asg cv (rot 2 1) (altw 1 (n + 2)) * asg cv (rot 2 1) (altw 2 (n + 2)) = 1.
Proof.
  pose proof (asg_mul 2 cv (rot 2 1) (rot 2 1) (altw 1 (n + 2)) ltac:(lia) (perm_rot 2 1 ltac:(lia)) (proj1 (altw_cell_any 1 n (or_introl eq_refl)))) as E.
  rewrite rot21_altw in E. rewrite <- E. change (pmul (rot 2 1) (rot 2 1)) with (zrange 1 (2 + 1)). apply (asg_id cv 2). apply altw_cell_any. auto.
Qed.
Lemma alt_id n a : a = 1 \/ a = 2 -> map (image (rot 2 0)) (altw a n) = altw a n.
Proof. intros Ha. rewrite rot_0. etransitivity; [|apply map_id]. apply map_ext_in. intros b Hb. apply altw_in in Hb; [|exact Ha]. destruct Hb as [-> | ->]; reflexivity. Qed.
Definition zad (d : nat) (F : list Z -> Z) : Prop := forall k, surj_cell 2 (Z.of_nat d) k -> adj k = true -> F k = 0.
Lemma zad_sd cv d F : zad d F -> zad (Datatypes.S d) (sd cv F).
Proof.
  intros HF.
  assert (SF : sface_closed (surj_cell 2 (Z.of_nat (Datatypes.S d))) (surj_cell 2 (Z.of_nat d))) by (intros k k' [Hk Lk] L Sk; split; [intros j; rewrite Sk; apply Hk|lia]).
  assert (A0 : admP cls_surj (surj_cell 2 (Z.of_nat d)) F).
  { apply admP_keyeq. intros k Hk Hb. change (bad cls_surj k) with (surj_bad k) in Hb. rewrite (surj_bad_onto 2) in Hb by (lia || apply Hk). injection Hb as Hb. now apply HF. }
  assert (N2 : forall k, surj_cell 2 (Z.of_nat (Datatypes.S d)) k -> k <> []) by (intros k Hk; apply (onto_ne 2); [lia|apply Hk]).
  pose proof (adm_sd cv _ _ SF N2 F A0) as A1.
  intros k Hk Ha. apply (proj2 A1 k Hk). change (bad cls_surj k) with (surj_bad k). rewrite (surj_bad_onto 2) by (lia || apply Hk). now rewrite Ha.
Qed.
Lemma zad_move cv d F : zad d F -> zad d (fun k => asg cv (rot 2 1) k * F (map (image (rot 2 1)) k)).
Proof.
  intros HF k Hk Ha. rewrite HF; [ring|apply cell_move; auto; try lia; apply perm_rot; lia|]. rewrite (SurjAct.adj_map 2); [exact Ha|lia|apply perm_rot; lia|]. intros a Ha'. now apply Hk.
Qed.
Lemma sgn_S d : sgn (Z.of_nat (Datatypes.S d)) = if Nat.even (Datatypes.S d) then 1 else -1.
Proof.
  assert (E : forall n, Z.even (Z.of_nat n) = Nat.even n).
  { induction n as [|n IH]; [reflexivity|]. rewrite Nat2Z.inj_succ, Z.even_succ, Nat.even_succ, <- Z.negb_even, <- Nat.negb_even. now rewrite IH. }
  unfold sgn. now rewrite E.
Qed.
Lemma alt_sd_signed cv d F : cv = BF \/ cv = MS -> zad d F ->
  two_sign cv (Z.of_nat (Datatypes.S d)) * sd cv F (altw 1 (Datatypes.S d + 2)) =
  two_sign cv (Z.of_nat d) * (asg cv (rot 2 1) (altw 1 (d + 2)) * F (altw 2 (d + 2)) + sgn (Z.of_nat (Datatypes.S d)) * F (altw 1 (d + 2))).
Proof.
  intros Hcv HF. rewrite <- (FpS_alt' cv (Datatypes.S d) (sd cv F) Hcv (zad_sd cv d F HF)).
  rewrite (FpS_boundary cv 2 d ltac:(lia) F HF).
  assert (P : forall j, 0 <= j -> FpS cv 2 d (fun k => asg cv (rot 2 j) k * F (map (image (rot 2 j)) k)) = two_sign cv (Z.of_nat d) * (asg cv (rot 2 j) (altw 1 (d + 2)) * F (map (image (rot 2 j)) (altw 1 (d + 2))))).
  { intros j Hj. apply FpS_alt'; auto. intros k Hk Ha. rewrite HF; [ring|apply cell_move; auto; try lia; apply perm_rot; lia|].
    rewrite (SurjAct.adj_map 2); [exact Ha|lia|apply perm_rot; lia|]. intros a Ha'. now apply Hk. }
  pose proof (P 0 ltac:(lia)) as P0. pose proof (P 1 ltac:(lia)) as P1. rewrite (alt_id _ 1) in P0 by auto. rewrite rot21_altw in P1. rewrite (proj1 (asg_rot0 cv d)) in P0.
  rewrite sgn_S. unfold RA. destruct (Nat.even (Datatypes.S d)).
  - change (zrange 0 2) with [0; 1]. rewrite !sumf_cons, sumf_nil. rewrite P0, P1. ring.
  - rewrite P0, P1. ring.
Qed.
Lemma two_sign_sq cv d : two_sign cv d * two_sign cv d = 1.
Proof. unfold two_sign. destruct cv; try reflexivity. apply sgn_sq. Qed.
Lemma alt_sd_other cv d F : cv = BF \/ cv = MS -> zad d F ->
  sd cv F (altw 2 (Datatypes.S d + 2)) = sgn (Z.of_nat (Datatypes.S d)) * asg cv (rot 2 1) (altw 1 (Datatypes.S d + 2)) * sd cv F (altw 1 (Datatypes.S d + 2)).
Proof.
  intros Hcv HF. pose proof (sd_move 2 cv F (rot 2 1) (altw 1 (Datatypes.S d + 2)) ltac:(lia) (perm_rot 2 1 ltac:(lia)) (proj1 (altw_cell_any 1 (Datatypes.S d) (or_introl eq_refl)))) as M.
  rewrite rot21_altw in M. set (G := fun k' => asg cv (rot 2 1) k' * F (map (image (rot 2 1)) k')) in *.
  pose proof (alt_sd_signed cv d F Hcv HF) as E1. pose proof (alt_sd_signed cv d G Hcv (zad_move cv d F HF)) as E2.
  assert (G1 : G (altw 1 (d + 2)) = asg cv (rot 2 1) (altw 1 (d + 2)) * F (altw 2 (d + 2))) by (unfold G; now rewrite rot21_altw).
  assert (G2 : asg cv (rot 2 1) (altw 1 (d + 2)) * G (altw 2 (d + 2)) = F (altw 1 (d + 2))).
  { unfold G. rewrite rot21 by auto. change (3 - 2) with 1. rewrite Z.mul_assoc, asg_rot1. ring. }
  rewrite G1, G2 in E2. set (A := asg cv (rot 2 1) (altw 1 (Datatypes.S d + 2))) in *. set (s := sgn (Z.of_nat (Datatypes.S d))) in *. set (E := two_sign cv (Z.of_nat (Datatypes.S d))) in *.
  assert (Hs : s * s = 1) by apply sgn_sq. assert (HA : A * A = 1) by apply asg_sq. assert (HE : E * E = 1) by apply two_sign_sq.
  set (u := sd cv F (altw 1 (Datatypes.S d + 2))) in *. set (w := sd cv F (altw 2 (Datatypes.S d + 2))) in *. set (v := sd cv G (altw 1 (Datatypes.S d + 2))) in *.
  set (f1 := F (altw 1 (d + 2))) in *. set (f2 := F (altw 2 (d + 2))) in *. set (a := asg cv (rot 2 1) (altw 1 (d + 2))) in *. set (e := two_sign cv (Z.of_nat d)) in *.
  assert (Ev : E * v = s * (E * u)). { rewrite E1, E2. transitivity (e * (s * s * f1 + s * (a * f2))); [rewrite Hs; ring|ring]. }
  assert (Ev' : v = s * u). { transitivity (E * E * v); [rewrite HE; ring|]. rewrite <- Z.mul_assoc, Ev. transitivity (E * E * (s * u)); [ring|rewrite HE; ring]. }
  transitivity (A * A * w); [rewrite HA; ring|]. rewrite <- Z.mul_assoc, M, Ev'. ring.
Qed.
(** the boundary of an element of arity 2 is a multiple of the boundary of the alternating word *)
Lemma ev_alt (G : list Z -> Z) c d (y : surj) : 0 <= d -> wf cls_surj y -> keys_in (surj_cell 2 d) y -> G (altw 2 (Z.to_nat d + 2)) = c * G (altw 1 (Z.to_nat d + 2)) ->
  ev G (data y) = ev (fun k => if hd 0 k =? 1 then 1 else c) (data y) * G (altw 1 (Z.to_nat d + 2)).
Proof.
  intros Hd Wy Ky Hc. rewrite Z.mul_comm, <- ev_scal. apply ev_ext. intros k v Hin.
  assert (A : adj k = false) by (destruct (wf_onto y k v Wy Hin) as (r & _ & _ & A); exact A). pose proof (cell2_alt d k Hd (Ky _ _ Hin) A) as E. rewrite Nat.add_comm in *. cbn [Nat.add altw] in *.
  destruct E as [-> | ->]; cbn [hd]; [change (1 =? 1) with true|change (2 =? 1) with false]; cbn iota; [ring|rewrite Hc; ring].
Qed.
