(** * The action of the surjection operad on cubical chains (C51) *)
From Coq Require Import Setoid Morphisms.
From Verif Require Import PyBase Dict FreeModule Symmetric Simplicial Cubical Utils Surjection Eqm Spec SpecChain SpecOperad SpecSurj SpecAction SpecCube SpecCubAction FreeModuleFacts FreeModuleLaws ListFacts
  ClassFacts LinearFacts BilFacts SymmetricFacts CycleFacts SymmetricLaws RingFacts Tensor TensorAct KoszulFacts LoopFacts SimplicialFacts SimplicialDiag SimplicialLaws CubicalFacts CubicalDiag CubicalJoin CubicalSerre CubicalLaws
  SurjFacts SurjBoundary SurjLaws ActFacts ActSign ActCore ActCode CubActFacts CubActCore CubActCode SpecCube.

Lemma kdegC_of n e (y : cubc) : keys_in (fun k => zlen k = n /\ cube_degree k = e) y -> keys_in (kdegC n e) y.
Proof. intros Ky k v Hin. unfold kdeg. rewrite <- cdeg. exact (Ky _ _ Hin). Qed.
Lemma kcub_of n e (y : cubc) : keys_in (fun k => zlen k = n /\ cube_degree k = e /\ forall c, In c k -> is_cube c) y -> keys_in (kcub n e) y.
Proof. intros Ky k v Hin. unfold kcub, kdeg. rewrite <- cdeg. destruct (Ky _ _ Hin) as (? & ? & ?). tauto. Qed.
Lemma kpred_kcub n e : kpred (kcub n e).
Proof.
  apply kpred_eq. intros K. unfold kcub. pose proof (kpred_kdegC n e) as [D _]. destruct (D K); [|right; tauto]. destruct (forall_in_dec is_cube is_cube_dec K); tauto.
Qed.
Lemma tb_kcub n e K K' v : kcub n e K -> In (K', v) (tb fbC cube_dim K) -> kcub n (e - 1) K'.
Proof.
  intros [HK CK] Hin. split; [eapply (tb_kdeg fbC cube_dim dim_fbC); eauto|]. revert K' v CK Hin. clear HK. induction K as [|c K IH]; intros K' v CK; cbn [tb]; [intros []|].
  rewrite in_app_iff, !in_map_iff. intros [([c' v'] & [= <- _] & Hin)|([k' v'] & [= <- _] & Hin)] x [<-|Hx].
  - apply (len_fbC _ _ _ Hin). apply CK. now left.
  - apply CK. now right.
  - apply CK. now left.
  - revert x Hx. eapply IH; [|exact Hin]. intros; apply CK; now right.
Qed.
Lemma bil_actC' dt t r d n e coord cv : 0 <= t -> dt_ok dt t -> 1 <= r -> 1 <= coord <= n ->
  bilop cls_surj cls_cubical cls_cubical t cv tt tt (surj_cell r d) (kcub n e) (PhiC r coord) (fun x y => surj_call_cubical dt x y coord).
Proof. intros Ht Hdt Hr Hc x y Wx Tx Ax Kx Wy Ty Ay Ky. apply (bil_actC dt t r d n e coord cv); auto. intros k v Hin. exact (proj1 (Ky _ _ Hin)). Qed.

(** #C51_action_formula# In every convention [x(y, coord)] is the bilinear
    extension of the action of a word on a tensor product of cubes described by
    [cub_acts]: apply the iterated Serre diagonal, one piece for each letter, and
    join the pieces with equal letters. *)
Lemma C51_action_formula_l (dt r d n e coord : Z) (x : surj) (y : cubc) :
  1 <= r -> 1 <= coord <= n -> wf cls_surj x -> wf cls_cubical y -> torsion y = torsion x -> dt_ok dt (torsion x) ->
  keys_in (surj_cell r d) x -> keys_in (fun k => zlen k = n /\ cube_degree k = e) y ->
  gives cls_cubical (surj_call_cubical dt x y coord) (torsion x) tt (extend2 (cub_acts r d coord) x y).
Proof.
  intros Hr Hc Wx Wy Ty Hdt Kx Ky. apply kdegC_of in Ky. pose proof (proj1 Wx) as Ht.
  eapply (den_gives cls_cubical ok_cubical); [exact Ht|apply (bil_actC dt (torsion x) r d n e coord (attr x) Ht Hdt Hr Hc); auto using cub_attr|]. intros g _. cbn beta. rewrite ev_extend2.
  apply eqm_eq. apply ev_ext. intros k v Hk. apply ev_ext. intros K w HK. unfold PhiC. destruct (Kx _ _ Hk) as [_ L]. replace (zlen k - r) with d by lia. reflexivity.
Qed.
(** #C51_action_degree# The result has arity n + r - 1 and degree e + d. *)
Lemma C51_action_degree_l (dt r d n e coord : Z) (x : surj) (y : cubc) :
  1 <= r -> 1 <= coord <= n -> wf cls_surj x -> wf cls_cubical y -> torsion y = torsion x -> dt_ok dt (torsion x) ->
  keys_in (surj_cell r d) x -> keys_in (fun k => zlen k = n /\ cube_degree k = e) y ->
  exists z, surj_call_cubical dt x y coord = Ok z /\ wf cls_cubical z /\ torsion z = torsion x /\ keys_in (fun k => zlen k = n + r - 1 /\ cube_degree k = e + d) z.
Proof.
  intros Hr Hc Wx Wy Ty Hdt Kx Ky. apply kdegC_of in Ky. pose proof (proj1 Wx) as Ht.
  destruct (linop_bilR cls_surj cls_cubical cls_cubical ok_cubical (torsion x) (attr x) tt tt _ _ _ _ _ Ht (kpred_kdegC (n + r - 1) (e + d)) (bil_actC dt (torsion x) r d n e coord (attr x) Ht Hdt Hr Hc)
    (rep2_local2 _ _ _ _ (rep_PhiC r d n e coord Hr)) (rep2_zero _ _ _ _ (rep_PhiC r d n e coord Hr)) y Wy Ty (cub_attr y) Ky x Wx eq_refl eq_refl Kx) as (z & E & Dz & Kz).
  exists z. split; [exact E|]. split; [eapply den_wf; eauto|]. split; [exact (proj1 Dz)|]. intros k v Hin. rewrite cdeg. exact (Kz _ _ Hin).
Qed.
(** #C51_bilinear# The action is additive in both arguments. *)
Lemma C51_bilinear_l (dt r d n e coord : Z) (x x' : surj) (y y' : cubc) :
  1 <= r -> 1 <= coord <= n -> wf cls_surj x -> wf cls_surj x' -> wf cls_cubical y -> wf cls_cubical y' ->
  torsion x' = torsion x -> torsion y = torsion x -> torsion y' = torsion x -> dt_ok dt (torsion x) -> attr x' = attr x ->
  keys_in (surj_cell r d) x -> keys_in (surj_cell r d) x' ->
  keys_in (fun k => zlen k = n /\ cube_degree k = e) y -> keys_in (fun k => zlen k = n /\ cube_degree k = e) y' ->
  same (let! s := add dt cls_surj x x' in surj_call_cubical dt s y coord)
       (let! u := surj_call_cubical dt x y coord in let! v := surj_call_cubical dt x' y coord in add dt cls_cubical u v) /\
  same (let! s := add dt cls_cubical y y' in surj_call_cubical dt x s coord)
       (let! u := surj_call_cubical dt x y coord in let! v := surj_call_cubical dt x y' coord in add dt cls_cubical u v).
Proof.
  intros Hr Hc Wx Wx' Wy Wy' Tx' Ty Ty' Hdt Ax Kx Kx' Ky Ky'. apply kdegC_of in Ky. apply kdegC_of in Ky'. pose proof (proj1 Wx) as Ht.
  pose proof (bil_actC dt (torsion x) r d n e coord (attr x) Ht Hdt Hr Hc) as B. pose proof (rep_PhiC r d n e coord Hr) as R. pose proof (adm_PhiC r d (kdegC n e) (kdegC (n + r - 1) (e + d)) coord Hr) as AD.
  split.
  - eapply (bilop_add_l cls_surj cls_cubical cls_cubical ok_surj ok_cubical ok_cubical dt (torsion x)) with (f := fun x y => surj_call_cubical dt x y coord); eauto using kpred_cell, kpred_kdegC, cub_attr; [eapply rep2_local2; eauto|eapply rep2_zero; eauto].
  - eapply (bilop_add_r cls_surj cls_cubical cls_cubical ok_surj ok_cubical ok_cubical dt (torsion x)) with (f := fun x y => surj_call_cubical dt x y coord); eauto using kpred_cell, kpred_kdegC, cub_attr; [eapply rep2_local2; eauto|eapply rep2_zero; eauto].
Qed.
(** #C51_mod2_chain_map# With coefficients mod 2, d(x(y)) == (dx)(y) + x(dy) for
    every convention, every arity and every degree. *)
Lemma C51_mod2_chain_map_l (dt r d n e coord : Z) (x : surj) (y : cubc) :
  1 <= r -> 1 <= coord <= n -> wf cls_surj x -> wf cls_cubical y -> torsion x = 2 -> torsion y = 2 -> dt_ok dt 2 ->
  keys_in (surj_cell r d) x -> keys_in (fun k => zlen k = n /\ cube_degree k = e /\ forall c, In c k -> is_cube c) y ->
  same (let! z := surj_call_cubical dt x y coord in cub_boundary dt z)
       (let! dx := surj_boundary dt x in let! u := surj_call_cubical dt dx y coord in
        let! dy := cub_boundary dt y in let! v := surj_call_cubical dt x dy coord in let! w := scale dt cls_cubical (sgn d) v in add dt cls_cubical u w).
Proof.
  intros Hr Hc Wx Wy Tx Ty Hdt Kx Ky. apply kcub_of in Ky. assert (Ht : 0 <= 2) by lia. set (cv := attr x).
  assert (Nx : known cv 2) by (right; right; reflexivity).
  assert (bd : forall n d, linop cls_cubical cls_cubical 2 tt tt (kcub n d) (kcub n (d - 1)) tDC (cub_boundary dt)).
  { intros n' d'. exact (linop_bnd cls_cubical cck fbC cube_dim dt (cub_boundary dt) (fun t x => cub_boundary_den dt t x) 2 _ _ Ht Hdt (kpred_kcub _ _) (tb_kcub n' d')). }
  pose proof (bil_actC' dt 2 r d n e coord cv Ht Hdt Hr Hc) as B0. pose proof (rep_PhiC' r d n e coord Hr) as R0.
  pose proof (bil_actC' dt 2 r (d - 1) n e coord cv Ht Hdt Hr Hc) as B1. pose proof (rep_PhiC' r (d - 1) n e coord Hr) as R1. pose proof (adm_PhiC r (d - 1) (kcub n e) (kcub (n + r - 1) (e + d - 1)) coord Hr) as AD1.
  pose proof (bil_actC' dt 2 r d n (e - 1) coord cv Ht Hdt Hr Hc) as B2. pose proof (rep_PhiC' r d n (e - 1) coord Hr) as R2. pose proof (adm_PhiC r d (kcub n (e - 1)) (kcub (n + r - 1) (e + d - 1)) coord Hr) as AD2.
  replace (e + (d - 1)) with (e + d - 1) in R1 by lia. replace (e - 1 + d) with (e + d - 1) in R2 by lia.
  eapply (bil_leibniz cls_surj cls_cubical cls_cubical ok_surj ok_cubical ok_cubical dt 2 (sgn d) cv tt tt (surj_cell r d) (surj_cell r (d - 1)) (kcub n e) (kcub n (e - 1))
    (kcub (n + r - 1) (e + d)) (kcub (n + r - 1) (e + d - 1)) (kcub (n + r - 1) (e + d - 1)) (sd cv) tDC tDC (PhiC r coord)) with (f := fun x y => surj_call_cubical dt x y coord); eauto using kpred_cell, kpred_kcub, cub_attr.
  - apply linop_sb; auto using kpred_cell, sface_cell.
  - apply rep_sd, sface_cell.
  - apply (rep_tD fbC cube_dim), tb_kcub.
  - apply cub_admop.
  - intros g k K Hg Hk [[Ln De] CK] _ _. destruct (split_at K (coord - 1)) as (l1 & s & l2 & -> & E1); [lia|].
    rewrite (sgn_eqm2 d), Z.mul_1_l. apply PhiC_chain; auto; [apply Hk|]. apply CK. rewrite in_app_iff. right. now left.
Qed.
(** #C51_refuted# Over the integers the naive chain map identity
    d(x(y)) == (dx)(y) + (-1)^d x(dy) is FALSE for the code: it fails for
    (1,2,1,2,1) in the Berger-Fresse convention on the 3-cube, for (2,1,2,1) in the
    McClure-Smith convention on the square, and for arity 3 already on the interval. *)
Lemma C51_refuted_l :
  chain_map_fails BF [1; 2; 1; 2; 1] 2 3 [[2; 2; 2]] /\ chain_map_fails MS [2; 1; 2; 1] 2 2 [[2; 2]] /\
  chain_map_fails BF [1; 2; 1; 3] 3 1 [[2]].
Proof.
  assert (SC : forall r d k v (x : surj), data x = [(k, v)] -> onto r k -> zlen k = r + d -> keys_in (surj_cell r d) x) by (intros r d k v x Ex Ho Lk k' v'; rewrite Ex; intros [[= <- _]|[]]; now split).
  assert (O2 : forall k, (forall j, In j k -> j = 1 \/ j = 2) -> In 1 k -> In 2 k -> onto 2 k) by (intros k Hk I1 I2 j; split; [intros Hj; destruct (Hk j Hj); lia|intros Hj; assert (j = 1 \/ j = 2) as [-> | ->] by lia; assumption]).
  split; [|split]; do 10 eexists; (split; [vm_compute; reflexivity|]); (split; [vm_compute; reflexivity|]);
    (split; [eapply SC; [reflexivity| |reflexivity]|]).
  1, 3: apply O2; [intros j Hj; cbn [In] in Hj; lia|cbn [In]; auto|cbn [In]; auto].
  1, 2: do 8 (split; [vm_compute; reflexivity|]).
  - exists [[1; 2; 2]; [2; 2; 2]]. vm_compute. discriminate.
  - exists [[1; 2]; [2; 2]]. vm_compute. discriminate.
  - intros j. cbn [In]. split; [lia|]. intros Hj. assert (j = 1 \/ j = 2 \/ j = 3) as [-> | [-> | ->]] by lia; auto 6.
  - do 8 (split; [vm_compute; reflexivity|]). exists [[1]; [2]; [1]]. vm_compute. discriminate.
Qed.
(** #C51_zero# When one of the two elements is zero the result is zero, without any check. *)
Lemma C51_zero_l (dt coord : Z) (x : surj) (y : cubc) : is_zero x \/ is_zero y ->
  exists z, surj_call_cubical dt x y coord = Ok z /\ is_zero z /\ torsion z = torsion y.
Proof.
  intros H0. unfold surj_call_cubical. assert (E : dempty (data x) || dempty (data y) = true).
  { unfold is_zero in H0. destruct H0 as [-> | ->]; [reflexivity|apply orb_true_r]. }
  rewrite E, zero_data. eexists. split; [reflexivity|]. split; reflexivity.
Qed.
(** #C51_errors# Nonzero elements: TypeError when the factor [coord] does not
    exist or the torsions differ. *)
Lemma C51_errors_l (dt r d n coord : Z) (x : surj) (y : cubc) :
  1 <= r -> keys_in (surj_cell r d) x -> keys_in (fun k => zlen k = n) y -> ~ is_zero x -> ~ is_zero y ->
  n < coord \/ torsion x <> torsion y -> surj_call_cubical dt x y coord = Err TypeError.
Proof.
  intros Hr Kx Ky Nx Ny H. unfold is_zero in *. unfold surj_call_cubical.
  assert (E1 : dempty (data x) = false) by (destruct (data x); [congruence|reflexivity]). assert (E2 : dempty (data y) = false) by (destruct (data y); [congruence|reflexivity]).
  rewrite E1, E2. cbn [orb]. unfold call_check. rewrite (surj_degree_ok r d) by assumption. rewrite (surj_arity_ok r) by (try assumption; intros k v Hin; apply (Kx _ _ Hin)). cbn [bind].
  unfold cub_arity. rewrite (tensor_arity_ok n) by assumption.
  destruct (Z.ltb_spec n coord); [reflexivity|]. destruct (Z.eqb_spec (torsion x) (torsion y)) as [E|N]; [destruct H; [lia|contradiction]|reflexivity].
Qed.
(** #C51_example# The hypotheses hold for x = (1,2,1) mod 2 and the square; the
    result has four terms. *)
Example C51_example_l :
  exists x y z, surj_new 0 BF [([1; 2; 1], 1)] (Some 2) None = Ok x /\ cub_new 0 [([[2; 2]], 1)] (Some 2) = Ok y /\ wf cls_surj x /\ wf cls_cubical y /\ torsion x = 2 /\ keys_in (surj_cell 2 1) x /\
    keys_in (fun k => zlen k = 1 /\ cube_degree k = 2 /\ forall c, In c k -> is_cube c) y /\ surj_call_cubical 0 x y 1 = Ok z /\
    data z = [([[2; 2]; [1; 2]], 1); ([[2; 1]; [2; 2]], 1); ([[0; 2]; [2; 2]], 1); ([[2; 2]; [2; 0]], 1)].
Proof.
  eexists. eexists. eexists. split; [vm_compute; reflexivity|]. split; [vm_compute; reflexivity|]. split; [|split; [|split; [reflexivity|]]].
  - split; [cbn; lia|]. split; [split; [intros ? []|exact I]|]. intros k v [[= <- <-]|[]]. split; [split; [discriminate|cbn; lia]|reflexivity].
  - split; [cbn; lia|]. split; [split; [intros ? []|exact I]|]. intros k v [[= <- <-]|[]]. split; [split; [discriminate|cbn; lia]|reflexivity].
  - split; [|split; [|split; vm_compute; reflexivity]].
    + intros k v [[= <- <-]|[]]. split; [|reflexivity]. intros j. cbn [In]. split; [intros [<-|[<-|[<-|[]]]]; lia|]. intros Hj. assert (j = 1 \/ j = 2) as [-> | ->] by lia; auto.
    + intros k v [[= <- <-]|[]]. split; [reflexivity|]. split; [reflexivity|]. intros c [<-|[]] a [<-|[<-|[]]]; auto.
Qed.
