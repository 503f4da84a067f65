(** * The action of the surjection operad on simplicial chains (C50) *)
From Coq Require Import Setoid Morphisms.
From Verif Require Import PyBase Dict FreeModule Symmetric Simplicial Utils Surjection Eqm Spec SpecChain SpecOperad SpecSurj SpecAction FreeModuleFacts FreeModuleLaws ListFacts
  ClassFacts LinearFacts BilFacts SymmetricFacts CycleFacts SymmetricLaws RingFacts Tensor TensorAct LoopFacts AW SimplicialFacts SimplicialDiag SimplicialLaws SurjFacts SurjBoundary SurjLaws ActFacts ActSign ActCore ActCode.

Lemma s_attr' (x : simp) : attr x = tt. Proof. now destruct (attr x). Qed.
(** #C50_action_formula# In the McClure-Smith convention [x(y, coord)] is the
    bilinear extension of the action of a word on a tensor product of simplices
    described by [simp_acts]: cut the simplex in overlapping consecutive pieces,
    one for each letter, and join the pieces with equal letters. *)
Lemma C50_action_formula_l (dt r d n e coord : Z) (x : surj) (y : simp) :
  1 <= r -> 1 <= coord <= n -> wf cls_surj x -> wf cls_simplicial y -> torsion y = torsion x -> dt_ok dt (torsion x) -> attr x = MS ->
  keys_in (surj_cell r d) x -> keys_in (fun k => zlen k = n /\ total_degree k = e) y ->
  gives cls_simplicial (surj_call_simplicial dt x y coord) (torsion x) tt (extend2 (simp_acts r d coord) x y).
Proof.
  intros Hr Hc Wx Wy Ty Hdt Ax Kx Ky. pose proof (proj1 Wx) as Ht.
  eapply (den_gives cls_simplicial ok_simplicial); [exact Ht|apply (bil_act dt (torsion x) r d n e coord Ht Hdt Hr Hc); auto using s_attr'|]. intros g _. cbn beta. rewrite ev_extend2.
  apply eqm_eq. apply ev_ext. intros k v Hk. apply ev_ext. intros K w HK. unfold Phi. destruct (Kx _ _ Hk) as [_ L]. replace (zlen k - r) with d by lia. reflexivity.
Qed.
(** #C50_action_degree# The result has arity n + r - 1 and degree e + d. *)
Lemma C50_action_degree_l (dt r d n e coord : Z) (x : surj) (y : simp) :
  1 <= r -> 1 <= coord <= n -> wf cls_surj x -> wf cls_simplicial y -> torsion y = torsion x -> dt_ok dt (torsion x) -> attr x = MS ->
  keys_in (surj_cell r d) x -> keys_in (fun k => zlen k = n /\ total_degree k = e) y ->
  exists z, surj_call_simplicial dt x y coord = Ok z /\ wf cls_simplicial z /\ torsion z = torsion x /\ keys_in (fun k => zlen k = n + r - 1 /\ total_degree k = e + d) z.
Proof.
  intros Hr Hc Wx Wy Ty Hdt Ax Kx Ky. pose proof (proj1 Wx) as Ht.
  destruct (linop_bilR cls_surj cls_simplicial cls_simplicial ok_simplicial (torsion x) MS tt tt _ _ _ _ _ Ht (kpred_kdegS (n + r - 1) (e + d)) (bil_act dt (torsion x) r d n e coord Ht Hdt Hr Hc)
    (rep2_local2 _ _ _ _ (rep_Phi r d n e coord Hr)) (rep2_zero _ _ _ _ (rep_Phi r d n e coord Hr)) y Wy Ty (s_attr' y) Ky x Wx eq_refl Ax Kx) as (z & E & Dz & Kz).
  exists z. split; [exact E|]. split; [eapply den_wf; eauto|]. split; [exact (proj1 Dz)|exact Kz].
Qed.
(** #C50_bilinear# The action is additive in both arguments. *)
Lemma C50_bilinear_l (dt r d n e coord : Z) (x x' : surj) (y y' : simp) :
  1 <= r -> 1 <= coord <= n -> wf cls_surj x -> wf cls_surj x' -> wf cls_simplicial y -> wf cls_simplicial y' ->
  torsion x' = torsion x -> torsion y = torsion x -> torsion y' = torsion x -> dt_ok dt (torsion x) -> attr x = MS -> attr x' = MS ->
  keys_in (surj_cell r d) x -> keys_in (surj_cell r d) x' ->
  keys_in (fun k => zlen k = n /\ total_degree k = e) y -> keys_in (fun k => zlen k = n /\ total_degree k = e) y' ->
  same (let! s := add dt cls_surj x x' in surj_call_simplicial dt s y coord)
       (let! u := surj_call_simplicial dt x y coord in let! v := surj_call_simplicial dt x' y coord in add dt cls_simplicial u v) /\
  same (let! s := add dt cls_simplicial y y' in surj_call_simplicial dt x s coord)
       (let! u := surj_call_simplicial dt x y coord in let! v := surj_call_simplicial dt x y' coord in add dt cls_simplicial u v).
Proof.
  intros Hr Hc Wx Wx' Wy Wy' Tx' Ty Ty' Hdt Ax Ax' Kx Kx' Ky Ky'. pose proof (proj1 Wx) as Ht.
  pose proof (bil_act dt (torsion x) r d n e coord Ht Hdt Hr Hc) as B. pose proof (rep_Phi r d n e coord Hr) as R. pose proof (adm_Phi r d n e coord Hr) as AD.
  split.
  - eapply (bilop_add_l cls_surj cls_simplicial cls_simplicial ok_surj ok_simplicial ok_simplicial dt (torsion x)) with (f := fun x y => surj_call_simplicial dt x y coord); eauto using kpred_cell, kpred_kdegS, s_attr'; [eapply rep2_local2; eauto|eapply rep2_zero; eauto].
  - eapply (bilop_add_r cls_surj cls_simplicial cls_simplicial ok_surj ok_simplicial ok_simplicial dt (torsion x)) with (f := fun x y => surj_call_simplicial dt x y coord); eauto using kpred_cell, kpred_kdegS, s_attr'; [eapply rep2_local2; eauto|eapply rep2_zero; eauto].
Qed.
(** #C50_chain_map# d(x(y)) == (dx)(y) + (-1)^d x(dy), for every coefficient
    ring, in the McClure-Smith convention. *)
Lemma C50_chain_map_l (dt r d n e coord : Z) (x : surj) (y : simp) :
  1 <= r -> 1 <= coord <= n -> wf cls_surj x -> wf cls_simplicial y -> torsion y = torsion x -> dt_ok dt (torsion x) -> attr x = MS ->
  keys_in (surj_cell r d) x -> keys_in (fun k => zlen k = n /\ total_degree k = e) y ->
  same (let! z := surj_call_simplicial dt x y coord in simp_boundary dt z)
       (let! dx := surj_boundary dt x in let! u := surj_call_simplicial dt dx y coord in
        let! dy := simp_boundary dt y in let! v := surj_call_simplicial dt x dy coord in let! w := scale dt cls_simplicial (sgn d) v in add dt cls_simplicial u w).
Proof.
  intros Hr Hc Wx Wy Ty Hdt Ax Kx Ky. pose proof (proj1 Wx) as Ht.
  assert (Nx : known MS (torsion x)) by (right; now left).
  assert (bd : forall n d, linop cls_simplicial cls_simplicial (torsion x) tt tt (kdegS n d) (kdegS n (d - 1)) tDS (simp_boundary dt)).
  { intros n' d'. exact (linop_bnd cls_simplicial sck fbS spx_dim dt (simp_boundary dt) (fun t x => simp_boundary_den dt t x) (torsion x) _ _ Ht Hdt (kpred_kdegS _ _) (tb_kdeg fbS spx_dim dim_fbS n' d')). }
  pose proof (bil_act dt (torsion x) r d n e coord Ht Hdt Hr Hc) as B0. pose proof (rep_Phi r d n e coord Hr) as R0.
  pose proof (bil_act dt (torsion x) r (d - 1) n e coord Ht Hdt Hr Hc) as B1. pose proof (rep_Phi r (d - 1) n e coord Hr) as R1. pose proof (adm_Phi r (d - 1) n e coord Hr) as AD1.
  pose proof (bil_act dt (torsion x) r d n (e - 1) coord Ht Hdt Hr Hc) as B2. pose proof (rep_Phi r d n (e - 1) coord Hr) as R2. pose proof (adm_Phi r d n (e - 1) coord Hr) as AD2.
  replace (e + (d - 1)) with (e + d - 1) in R1, AD1 by lia. replace (e - 1 + d) with (e + d - 1) in R2, AD2 by lia.
  eapply (bil_leibniz cls_surj cls_simplicial cls_simplicial ok_surj ok_simplicial ok_simplicial dt (torsion x) (sgn d) MS tt tt (surj_cell r d) (surj_cell r (d - 1)) (kdegS n e) (kdegS n (e - 1))
    (kdegS (n + r - 1) (e + d)) (kdegS (n + r - 1) (e + d - 1)) (kdegS (n + r - 1) (e + d - 1)) (sd MS) tDS tDS (Phi r coord)) with (f := fun x y => surj_call_simplicial dt x y coord); eauto using kpred_cell, kpred_kdegS, s_attr'.
  - apply linop_sb; auto using kpred_cell, sface_cell.
  - apply rep_sd, sface_cell.
  - apply (rep_tD fbS spx_dim), (tb_kdeg fbS spx_dim dim_fbS).
  - apply (adm_tD cls_simplicial spx_is_degenerate sbad fbS spx_dim fdS_bad), (tb_kdeg fbS spx_dim dim_fbS).
  - intros g k K Hg Hk [Ln De] _ Hb. apply eqm_eq. injection Hb as Hb. destruct (split_at K (coord - 1)) as (l1 & s & l2 & -> & E1); [lia|].
    apply Phi_chain; auto. intros ->. rewrite existsb_app in Hb. cbn [existsb] in Hb. rewrite orb_true_r in Hb. discriminate.
Qed.
(** #C50_zero# When one of the two elements is zero the result is zero, without any check. *)
Lemma C50_zero_l (dt coord : Z) (x : surj) (y : simp) : is_zero x \/ is_zero y ->
  exists z, surj_call_simplicial dt x y coord = Ok z /\ is_zero z /\ torsion z = torsion y.
Proof.
  intros H0. unfold surj_call_simplicial. assert (E : dempty (data x) || dempty (data y) = true).
  { unfold is_zero in H0. destruct H0 as [-> | ->]; [reflexivity|apply orb_true_r]. }
  rewrite E, zero_data. eexists. split; [reflexivity|]. split; reflexivity.
Qed.
(** #C50_errors# Nonzero elements: TypeError when the factor [coord] does not
    exist or the torsions differ, NotImplementedError in another convention. *)
Lemma C50_errors_l (dt r d n coord : Z) (x : surj) (y : simp) :
  1 <= r -> keys_in (surj_cell r d) x -> keys_in (fun k => zlen k = n) y -> ~ is_zero x -> ~ is_zero y ->
  (n < coord \/ torsion x <> torsion y -> surj_call_simplicial dt x y coord = Err TypeError) /\
  (coord <= n -> torsion x = torsion y -> attr x <> MS -> surj_call_simplicial dt x y coord = Err NotImplementedError).
Proof.
  intros Hr Kx Ky Nx Ny. unfold is_zero in *. unfold surj_call_simplicial.
  assert (E1 : dempty (data x) = false) by (destruct (data x); [congruence|reflexivity]). assert (E2 : dempty (data y) = false) by (destruct (data y); [congruence|reflexivity]).
  rewrite E1, E2. cbn [orb]. unfold call_check. rewrite (surj_degree_ok r d) by assumption. rewrite (surj_arity_ok r) by (try assumption; intros k v Hin; apply (Kx _ _ Hin)). cbn [bind].
  unfold simp_arity. rewrite (tensor_arity_ok n) by assumption. split.
  - intros H. destruct (Z.ltb_spec n coord); [reflexivity|]. destruct (Z.eqb_spec (torsion x) (torsion y)) as [E|N]; [destruct H; [lia|contradiction]|reflexivity].
  - intros Hc Et Ax. destruct (Z.ltb_spec n coord); [lia|]. rewrite Et, Z.eqb_refl. cbn [negb bind]. destruct (attr x); [congruence| |]; try reflexivity; congruence.
Qed.
(** #C50_example# The hypotheses hold for x = (1,2,1) and the standard
    2-simplex; the result has three terms. *)
Example C50_example_l :
  exists x y z, surj_new 0 BF [([1; 2; 1], 1)] None (Some MS) = Ok x /\ simp_new 0 [([[0; 1; 2]], 1)] None = Ok y /\ wf cls_surj x /\ wf cls_simplicial y /\ attr x = MS /\ keys_in (surj_cell 2 1) x /\
    keys_in (fun k => zlen k = 1 /\ total_degree k = 2) y /\ surj_call_simplicial 0 x y 1 = Ok z /\
    data z = [([[0; 1; 2]; [0; 1]], -1); ([[0; 2]; [0; 1; 2]], 1); ([[0; 1; 2]; [1; 2]], -1)].
Proof.
  eexists. eexists. eexists. split; [vm_compute; reflexivity|]. split; [vm_compute; reflexivity|]. split; [|split; [|split; [reflexivity|]]].
  - split; [cbn; lia|]. split; [split; [intros ? []|exact I]|]. intros k v [[= <- <-]|[]]. split; [split; [discriminate|cbn; lia]|reflexivity].
  - split; [cbn; lia|]. split; [split; [intros ? []|exact I]|]. intros k v [[= <- <-]|[]]. split; [split; [discriminate|cbn; lia]|reflexivity].
  - split; [|split; [|split; vm_compute; reflexivity]].
    + intros k v [[= <- <-]|[]]. split; [|reflexivity]. intros j. cbn [In]. split; [intros [<-|[<-|[<-|[]]]]; lia|]. intros Hj. assert (j = 1 \/ j = 2) as [-> | ->] by lia; auto.
    + intros k v [[= <- <-]|[]]. split; reflexivity.
Qed.
