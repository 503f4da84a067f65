(** * The coboundary formula for cubical cup-i products.  Proof library. *)
From Coq Require Import Setoid Morphisms.
From Verif Require Import PyBase Dict FreeModule Symmetric Simplicial Cubical Utils Surjection Eqm Spec SpecChain SpecOperad SpecSurj SpecAction SpecCube SpecCubAction SpecCup SpecCubCup FreeModuleFacts FreeModuleLaws ListFacts
  ClassFacts LinearFacts BilFacts SymmetricFacts CycleFacts SymmetricLaws RingFacts Tensor TensorAct KoszulFacts LoopFacts AW SimplicialFacts SimplicialDiag SimplicialLaws MayFacts SurjFacts SurjBoundary SurjLaws SurjAct ActFacts ActSign ActCore
  CubicalFacts CubicalDiag CubicalJoin CubicalSerre CubicalLaws CubActFacts CubActCore CubActCode CubActLaws CartanSerre SurjMay SteenrodAct CupI EquivAct CubCup.

Lemma FpS_alt' cv d g : cv = BF \/ cv = MS -> (forall k, surj_cell 2 (Z.of_nat d) k -> adj k = true -> g k = 0) -> FpS cv 2 d g = two_sign cv (Z.of_nat d) * g (altw 1 (d + 2)).
Proof.
  intros Hcv Hg. rewrite (FpS_ext cv 2 d g (fun k => g (altw 1 (d + 2)) * ind (kaS 2 d) k)); [|lia|].
  - rewrite FpS_scal by lia. rewrite two_sign_ok by exact Hcv. ring.
  - intros k [Hk Hh]. rewrite ind_eq. destruct (list_eq_dec Z.eq_dec k (kaS 2 d)) as [->|N]; [rewrite kaS_alt; ring|]. rewrite Z.mul_0_r. apply Hg; [exact Hk|]. destruct Hk as [Ho Hl].
    destruct (adj k) eqn:A; [reflexivity|]. exfalso. apply N. rewrite kaS_alt, (altw_unique k); [|intros b Hb; apply Ho in Hb; lia|exact A]. rewrite Hh. f_equal. unfold zlen in Hl. lia.
Qed.
Lemma two_sign_odd cv d : eqm 2 (two_sign cv d) 1.
Proof. unfold two_sign. destruct cv; try reflexivity. apply sgn_eqm2. Qed.
Lemma rot21_altw d : map (image (rot 2 1)) (altw 1 d) = altw 2 d. Proof. now rewrite rot21 by lia. Qed.
Lemma asg_odd cv p k : eqm 2 (asg cv p k) 1.
Proof. unfold asg, tw. destruct cv; try reflexivity. unfold eps. rewrite (sgn_eqm2 _), (sgn_eqm2 _). reflexivity. Qed.
Lemma alt_sd d F : (forall k d', surj_cell 2 d' k -> adj k = true -> F k = 0) -> eqm 2 (sd MS F (altw 1 (Datatypes.S d + 2))) (F (altw 1 (d + 2)) + F (altw 2 (d + 2))).
Proof.
  intros HF.
  assert (SF : sface_closed (surj_cell 2 (Z.of_nat (Datatypes.S d))) (surj_cell 2 (Z.of_nat d))).
  { intros k k' [Hk Lk] L Sk. split; [|lia]. intros j. rewrite Sk. apply Hk. }
  assert (A0 : admP cls_surj (surj_cell 2 (Z.of_nat d)) F).
  { apply admP_keyeq. intros k Hk Hb. change (bad cls_surj k) with (surj_bad k) in Hb. rewrite (surj_bad_onto 2) in Hb by (lia || apply Hk). injection Hb as Hb. eapply HF; eauto. }
  assert (N2 : forall k, surj_cell 2 (Z.of_nat (Datatypes.S d)) k -> k <> []) by (intros k Hk; apply (onto_ne 2); [lia|apply Hk]).
  pose proof (adm_sd MS _ _ SF N2 F A0) as A1.
  assert (HS : forall k, surj_cell 2 (Z.of_nat (Datatypes.S d)) k -> adj k = true -> sd MS F k = 0).
  { intros k Hk Ha. apply (proj2 A1 k Hk). change (bad cls_surj k) with (surj_bad k). rewrite (surj_bad_onto 2) by (lia || apply Hk). now rewrite Ha. }
  pose proof (FpS_boundary MS 2 d ltac:(lia) F (fun k Hk Ha => HF k _ Hk Ha)) as E. rewrite FpS_alt' in E by (auto; apply HS).
  rewrite (two_sign_odd MS (Z.of_nat (Datatypes.S d))) in E || idtac.
  transitivity (two_sign MS (Z.of_nat (Datatypes.S d)) * sd MS F (altw 1 (Datatypes.S d + 2))); [rewrite two_sign_odd, Z.mul_1_l; reflexivity|]. rewrite E. clear E.
  assert (P : forall j, 0 <= j -> FpS MS 2 d (fun k => asg MS (rot 2 j) k * F (map (image (rot 2 j)) k)) = two_sign MS (Z.of_nat d) * (asg MS (rot 2 j) (altw 1 (d + 2)) * F (map (image (rot 2 j)) (altw 1 (d + 2))))).
  { intros j Hj. apply FpS_alt'; auto. intros k Hk Ha. rewrite (HF _ (Z.of_nat d)); [ring|apply cell_move; auto; try lia; apply perm_rot; lia|].
    rewrite (SurjAct.adj_map 2); [exact Ha|lia|apply perm_rot; lia|]. intros a Ha'. now apply Hk. }
  assert (I0 : map (image (rot 2 0)) (altw 1 (d + 2)) = altw 1 (d + 2)).
  { rewrite rot_0. etransitivity; [|apply map_id]. apply map_ext_in. intros a Ha. apply altw_in in Ha; [|auto]. destruct Ha as [-> | ->]; reflexivity. }
  pose proof (P 0 ltac:(lia)) as P0. pose proof (P 1 ltac:(lia)) as P1. rewrite I0 in P0. rewrite rot21_altw in P1.
  assert (Q0 : eqm 2 (FpS MS 2 d (fun k => asg MS (rot 2 0) k * F (map (image (rot 2 0)) k))) (F (altw 1 (d + 2)))) by (rewrite P0, two_sign_odd, asg_odd, !Z.mul_1_l; reflexivity).
  assert (Q1 : eqm 2 (FpS MS 2 d (fun k => asg MS (rot 2 1) k * F (map (image (rot 2 1)) k))) (F (altw 2 (d + 2)))) by (rewrite P1, two_sign_odd, asg_odd, !Z.mul_1_l; reflexivity).
  unfold RA. destruct (Nat.even (Datatypes.S d)).
  - change (zrange 0 2) with [0; 1]. rewrite !sumf_cons, sumf_nil. rewrite Q0, Q1. apply eqm_eq. ring.
  - rewrite Q0, Q1. exists (- F (altw 1 (d + 2))). ring.
Qed.
Lemma alt_sd0 F : sd MS F (altw 1 2) = 0.
Proof.
  destruct (rep_sd MS _ _ (sface_cell 2 0) (altw 1 2) (altw_cell 0)) as (L & L1 & L2). rewrite L2. apply ev_zero. intros k' v' Hk'. exfalso. destruct (L1 _ _ Hk') as [Ho Lk]. apply (onto_long 2) in Ho; lia.
Qed.
(** ** the formula on cubes *)
Notation W d := (altw 1 (d + 2)).
Definition PP (d : nat) (a b : list Z -> Z) (K : list (list Z)) : Z := PhiC 2 1 (on_pair a b) (W d) K.
Lemma cob_fd a c : cub_coboundary a c = fdC a c.
Proof.
  unfold cub_coboundary. rewrite fdC_splits. change (zsum (map (fun f => snd f * a (fst f)) (cube_faces c))) with (sumf (fun f => snd f * a (fst f)) (cube_faces c)).
  unfold cube_faces. rewrite cuts_splits, sumf_flat_map. apply sumf_ext. intros [[m1 x] m2] _. rewrite <- (cube_dim_dim m1). destruct (x =? 2); rewrite ?sumf_cons, ?sumf_nil; cbn [fst snd]; ring.
Qed.
Lemma on_pair_tD a b w : eqm 2 (tDC (on_pair a b) w) (on_pair (cub_coboundary a) b w + on_pair a (cub_coboundary b) w).
Proof.
  destruct w as [|u [|v [|x w]]].
  - reflexivity.
  - rewrite tD_cons, tD_nil. cbn [on_pair]. unfold fd. rewrite ev_zero by reflexivity. apply eqm_eq. ring.
  - rewrite !tD_cons, tD_nil. cbn [on_pair]. rewrite !cob_fd. rewrite (fd_ext_all fbC (fun u' => a u' * b v) (fun u' => b v * a u')) by (intros; ring). rewrite !fd_scal, (sgn_eqm2 (cube_dim u)). apply eqm_eq. ring.
  - apply eqm_eq. cbn [on_pair]. unfold tD. apply ev_zero. intros w' e Hin. apply (tdeg_tb fbC cube_dim dim_fbC) in Hin. destruct Hin as [_ L]. destruct w' as [|? [|? [|? ?]]]; cbn in L; try discriminate; reflexivity.
Qed.
Lemma PP_swap d a b s : eqm 2 (PhiC 2 1 (on_pair a b) (altw 2 (d + 2)) [s]) (PP d b a [s]).
Proof.
  unfold PP. rewrite <- rot21_altw. etransitivity; [apply (PhiC_mod2 2 1 (on_pair a b) _ [] s []); reflexivity|]. symmetry. etransitivity; [apply (PhiC_mod2 2 1 (on_pair b a) _ [] s []); reflexivity|].
  apply eqm_eq. rewrite PsiC_move; [|lia|apply perm_rot; lia|apply (proj1 (altw_cell d))]. unfold PsiC. rewrite !SC_sum. apply ev_ext. intros u e Hu. unfold TC. rewrite !MJ_tensor. apply ev_ext. intros w e' Hw.
  cbn [app]. rewrite !app_nil_r. destruct (tensor_in (zlen s) (zrange 1 (2 + 1)) (combine (W d) u)) with (w := w) (e := e') as (Lw & _ & _); [|exact Hw|].
  - intros [b' c'] Hp. cbn [snd]. apply in_combine_r in Hp. apply (serre_eqc _ _ _ _ (zlen s) eq_refl Hu c' Hp).
  - change (zlen (zrange 1 (2 + 1))) with 2 in Lw. destruct w as [|x [|y [|z w]]]; rewrite ?zlen_cons, ?zlen_nil in Lw; try (pose proof (zlen_nonneg w)); try lia.
    change (placef (rot 2 1) [x; y]) with [y; x]. cbn [on_pair]. ring.
Qed.
Lemma PP_adj d a b s k : surj_cell 2 d k -> adj k = true -> PhiC 2 1 (on_pair a b) k [s] = 0.
Proof. intros [Ho _] Ak. apply PhiC_adj; auto. apply (onto_ne 2); [lia|exact Ho]. Qed.
Lemma PhiC_lin2 g h k K : PhiC 2 1 (fun w => g w + h w) k K = PhiC 2 1 g k K + PhiC 2 1 h k K. Proof. apply ev_lin2. Qed.
Lemma PhiC_eqm_all g h k K : (forall w, eqm 2 (g w) (h w)) -> eqm 2 (PhiC 2 1 g k K) (PhiC 2 1 h k K). Proof. intros E. apply ev_eqm. intros; apply E. Qed.
Lemma cob_formula d a b s : is_cube s ->
  eqm 2 (tDC (PP (Datatypes.S d) a b) [s]) (PP (Datatypes.S d) (cub_coboundary a) b [s] + PP (Datatypes.S d) a (cub_coboundary b) [s] + PP d a b [s] + PP d b a [s]).
Proof.
  intros Cs. pose proof (PhiC_chain 2 MS 1 (on_pair a b) (W (Datatypes.S d)) [] s [] ltac:(lia) (proj1 (altw_cell _)) Cs eq_refl) as E. cbn [app] in E.
  rewrite (alt_sd d (fun k' => PhiC 2 1 (on_pair a b) k' [s])) in E by (intros; eapply PP_adj; eauto). rewrite PP_swap in E. fold (PP d a b [s]) in E. rewrite (PhiC_eqm_all _ _ _ _ (on_pair_tD a b)), PhiC_lin2 in E.
  fold (PP (Datatypes.S d) (cub_coboundary a) b [s]) in E. fold (PP (Datatypes.S d) a (cub_coboundary b) [s]) in E. change (fun K' => PhiC 2 1 (on_pair a b) (W (Datatypes.S d)) K') with (PP (Datatypes.S d) a b) in E.
  set (T := tDC _ _) in *. set (A := PP _ _ b _ + _) in *. set (B := PP d a b _ + _) in *. destruct E as [z Ez]. exists (- z - B). clearbody T. unfold A, B in *. lia.
Qed.
Lemma cob_formula0 a b s : is_cube s -> eqm 2 (tDC (PP 0 a b) [s]) (PP 0 (cub_coboundary a) b [s] + PP 0 a (cub_coboundary b) [s]).
Proof.
  intros Cs. pose proof (PhiC_chain 2 MS 1 (on_pair a b) (W 0) [] s [] ltac:(lia) (proj1 (altw_cell _)) Cs eq_refl) as E. cbn [app] in E. change (0 + 2)%nat with 2%nat in *. rewrite alt_sd0 in E.
  rewrite (PhiC_eqm_all _ _ _ _ (on_pair_tD a b)), PhiC_lin2 in E. symmetry. rewrite Z.add_0_l in E. exact E.
Qed.
Lemma PP_X X d a b a' b' s : cubical_set X -> X s -> is_cube s -> (forall c, X c -> eqm 2 (a c) (a' c)) -> (forall c, X c -> eqm 2 (b c) (b' c)) -> eqm 2 (PP d a b [s]) (PP d a' b' [s]).
Proof.
  intros HX Xs Cs Ea Eb. unfold PP, PhiC. apply ev_eqm. intros w v Hin. assert (Q : kdegC 1 (cube_dim s) [s]) by (split; [reflexivity|]; rewrite tdeg_cons; change (tdeg cube_dim []) with 0; ring).
  destruct (actsC_deg 2 (Z.of_nat d) 1 (cube_dim s) 1 (W d) [s] w v ltac:(lia) (altw_cell d) Q Hin) as [_ Cw].
  assert (HXw : forall x, In x w -> X x). { intros x Hx. apply (X_sub X s x HX (actsC_sub _ _ _ _ _ _ Hin x Hx)) with (l := []); [|exact Xs]. apply Cw; [intros c [<-|[]]; exact Cs|exact Hx]. }
  destruct w as [|x [|y [|z w]]]; cbn [on_pair]; try reflexivity. rewrite (Ea x), (Eb y) by (apply HXw; cbn; auto). reflexivity.
Qed.
Lemma PP_bilin d a a' b b' K : PP d (fun c => a c + a' c) (fun c => b c + b' c) K = PP d a b K + PP d a b' K + PP d a' b K + PP d a' b' K.
Proof. unfold PP, PhiC. rewrite <- !ev_lin2. apply ev_ext_all. intros [|x [|y [|z w]]]; cbn [on_pair]; ring. Qed.
Lemma PP_0l X d b s a : cubical_set X -> X s -> is_cube s -> (forall c, X c -> eqm 2 (a c) 0) -> eqm 2 (PP d a b [s]) 0.
Proof.
  intros HX Xs Cs Ea. rewrite (PP_X X d a b (fun _ => 0) b s HX Xs Cs Ea) by reflexivity. apply eqm_eq. unfold PP, PhiC. apply ev_zero. intros [|x [|y [|z w]]] v _; reflexivity.
Qed.
Lemma PP_0r X d b s a : cubical_set X -> X s -> is_cube s -> (forall c, X c -> eqm 2 (b c) 0) -> eqm 2 (PP d a b [s]) 0.
Proof.
  intros HX Xs Cs Ea. rewrite (PP_X X d a b a (fun _ => 0) s HX Xs Cs) by (reflexivity || exact Ea). apply eqm_eq. unfold PP, PhiC. apply ev_zero. intros [|x [|y [|z w]]] v _; cbn [on_pair]; ring.
Qed.
