(** * The Cartan-Serre map is compatible with diagonals and with the action (C76) *)
From Coq Require Import Setoid Morphisms.
From Verif Require Import PyBase Dict FreeModule Symmetric Simplicial Cubical Utils Surjection Eqm Spec SpecChain SpecOperad SpecSurj SpecAction SpecCube SpecCubAction FreeModuleFacts FreeModuleLaws ListFacts
  ClassFacts LinearFacts BilFacts SymmetricFacts CycleFacts SymmetricLaws RingFacts Tensor TensorAct KoszulFacts LoopFacts AW SimplicialFacts SimplicialDiag SimplicialLaws CubicalFacts CubicalDiag CubicalJoin CubicalSerre CubicalLaws
  SurjFacts SurjBoundary SurjLaws ActFacts ActSign ActCore ActCode CubActFacts CubActCore CubActCode CubActLaws SpecCube SpecCartan CartanSerre.

Lemma collapse_kdeg n d k k' v : kdegC n d k -> In (k', v) (cub_collapse k) -> kdegS n d k'.
Proof.
  intros [L D] Hin. unfold cub_collapse in Hin. destruct (collapses k) as [r|] eqn:E; [|destruct Hin]. destruct Hin as [[= <- _]|[]].
  split; [unfold zlen in *; now rewrite (collapses_len k r E)|]. now rewrite (collapses_tdeg k r E).
Qed.
Lemma rep_DCd n d : rep (kdegC n d) (kdegS n d) DC.
Proof. intros k Hk. exists (cub_collapse k). split; [intros k' v Hin; now apply (collapse_kdeg n d k k' v)|]. intros g. symmetry. apply DC_ev. Qed.
Lemma rep_DCc n d : rep (kcub n d) (kdegS n d) DC.
Proof. intros k Hk. apply rep_DCd. apply Hk. Qed.
Lemma linop_serred dt t n d : 0 <= t -> dt_ok dt t -> linop cls_cubical cls_simplicial t tt tt (kdegC n d) (kdegS n d) DC (cub_cartan_serre dt).
Proof.
  intros Ht Hdt. apply (linop_intro cls_cubical cls_simplicial ok_simplicial); auto using kpred_kdegS.
  - apply rep_local, rep_DCd.
  - apply (rep_zero _ _ _ (rep_DCd n d)).
  - intros x Wx Tx _ _. now apply serre_den.
Qed.
Lemma linop_serrec dt t n d : 0 <= t -> dt_ok dt t -> linop cls_cubical cls_simplicial t tt tt (kcub n d) (kdegS n d) DC (cub_cartan_serre dt).
Proof.
  intros Ht Hdt x Wx Tx Ax Kx. apply (linop_serred dt t n d Ht Hdt); auto. intros k v Hin. apply (Kx _ _ Hin).
Qed.

(** #C76_diagonal# The Cartan-Serre map commutes with the iterated diagonals:
    for every number of times, every factor, every torsion, with the exact
    signs (both diagonals extended by zero to the zero element, where the code
    raises TypeError). *)
Lemma C76_diagonal_l (dt n d times coord : Z) (x : cubc) :
  wf cls_cubical x -> dt_ok dt (torsion x) -> keys_in (fun k => zlen k = n /\ cube_degree k = d) x -> 1 <= coord <= n -> 0 <= times ->
  same (let! y := extended1 dt cls_cubical (fun z => cub_iterated_diagonal dt z times coord) x in cub_cartan_serre dt y)
       (let! y := cub_cartan_serre dt x in extended1 dt cls_simplicial (fun z => simp_iterated_diagonal dt z times coord) y).
Proof.
  intros Wx Hdt Kx Hc Htm. apply kdegC_of in Kx. pose proof (proj1 Wx) as Ht.
  assert (Hnt : Z.of_nat (Z.to_nat times) = times) by lia.
  pose proof (rep_SdC n d (Z.to_nat times) coord Hc) as R1. pose proof (adm_Sd n d (Z.to_nat times) coord Hc) as A2. rewrite Hnt in *.
  fold (ext_diagC dt times coord). fold (ext_diag dt times coord).
  refine (linop_same cls_cubical cls_simplicial ok_simplicial (torsion x) tt tt (kdegC n d) _ _ _ _ _ _ x Ht
    (linop_comp _ _ _ ok_cubical ok_cubical ok_simplicial (torsion x) tt tt tt _ _ _ _ _ _ _ Ht (kpred_kdegC _ _) (linop_diagC dt (torsion x) n d times coord Ht Hdt Hc Htm) (linop_serred dt (torsion x) (n + times) d Ht Hdt) (rep_local _ _ _ R1) (cub_admop _ _ _ _))
    (linop_comp _ _ _ ok_cubical ok_simplicial ok_simplicial (torsion x) tt tt tt _ _ _ _ _ _ _ Ht (kpred_kdegS _ _) (linop_serred dt (torsion x) n d Ht Hdt) (linop_diag dt (torsion x) n d times coord Ht Hdt Hc Htm) (rep_local _ _ _ (rep_DCd n d)) A2)
    Wx eq_refl (cub_attr x) Kx _).
  intros g k Hg [Lk Dk] _. cbn beta. apply eqm_eq. destruct (split_at k (coord - 1)) as (l1 & s & l2 & -> & E1); [lia|]. now apply SdC_DC.
Qed.
Lemma Phi_admall r d n e coord g K : 1 <= r -> adm cls_simplicial g -> kdegS n e K -> admP cls_surj (surj_cell r d) (fun k => Phi r coord g k K).
Proof.
  intros Hr [_ Hg] HK. apply admP_keyeq. intros k Hk Hb. change (bad cls_surj k) with (surj_bad k) in Hb. rewrite (surj_bad_onto r) in Hb by (lia || apply Hk). injection Hb as Hb.
  unfold Phi. apply ev_zero. intros w v Hin. apply Hg. cbn. f_equal. eapply (acts_bad r coord k K); eauto; [apply Hk|apply (onto_ne r); [exact Hr|apply Hk]].
Qed.
Definition cell_eps (r d eps : Z) (k : list Z) : Prop := surj_cell r d k /\ comparable r k /\ comparison_sign r k = eps.
Lemma linop_scaleS dt t (P Q : list Z -> Prop) n : 0 <= t -> dt_ok dt t -> kpred Q -> (forall k, P k -> Q k) ->
  linop cls_surj cls_surj t MS MS P Q (fun g k => n * g k) (fun x => scale dt cls_surj n x).
Proof.
  intros Ht Hdt KQ HPQ. apply (linop_intro cls_surj cls_surj ok_surj); auto.
  - intros k Hk. exists [k]. split; [intros k' [<-|[]]; auto|]. intros g h E. f_equal. apply E. now left.
  - intros k _. ring.
  - intros x Wx Tx Ax Kx. eapply returns_mono; [apply (scale_den cls_surj ok_surj dt t Ht Hdt MS (fun g => ev g (data x)) n x)|].
    + rewrite <- Tx, <- Ax. now apply den_self.
    + intros y Hy. eapply den_ext; [|exact Hy]. intros g _. apply eqm_eq. cbn beta. now rewrite ev_scal.
Qed.
(** #C76_action_sign# The Cartan-Serre map takes the action on cubes to the
    action on simplices, for every torsion, with the exact sign: if the words of x
    have arity at least three (or no letter three times) and the comparison
    sign eps, then the image of x(y) is (eps x)(image of y).  *)
Lemma C76_action_sign_l (dt r d n e coord eps : Z) (x : surj) (y : cubc) :
  1 <= r -> 1 <= coord <= n -> wf cls_surj x -> attr x = MS -> wf cls_cubical y -> torsion y = torsion x -> dt_ok dt (torsion x) ->
  keys_in (fun k => surj_cell r d k /\ comparable r k /\ comparison_sign r k = eps) x ->
  keys_in (fun k => zlen k = n /\ cube_degree k = e /\ forall c, In c k -> is_cube c) y ->
  same (let! z := surj_call_cubical dt x y coord in cub_cartan_serre dt z)
       (let! x' := scale dt cls_surj eps x in let! y' := cub_cartan_serre dt y in surj_call_simplicial dt x' y' coord).
Proof.
  intros Hr Hc Wx Ax Wy Ty Hdt Kx Ky. apply kcub_of in Ky. pose proof (proj1 Wx) as Ht. set (t := torsion x) in *.
  refine (bil_morphism cls_surj cls_cubical cls_cubical cls_surj cls_simplicial cls_simplicial ok_surj ok_cubical ok_surj ok_simplicial ok_simplicial t MS tt tt MS tt tt
    (cell_eps r d eps) (kcub n e) (kcub (n + r - 1) (e + d)) (surj_cell r d) (kdegS n e) (kdegS (n + r - 1) (e + d)) (kdegS (n + r - 1) (e + d)) (fun g k => eps * g k) DC DC (PhiC r coord) (Phi r coord)
    (scale dt cls_surj eps) (cub_cartan_serre dt) (cub_cartan_serre dt) (fun x y => surj_call_cubical dt x y coord) (fun x y => surj_call_simplicial dt x y coord) x y
    Ht (kpred_kcub _ _) (kpred_cell r d) (kpred_kdegS _ _) _ _ _ _ _ _ _ _ _ _ _ _ Wx eq_refl Ax Kx Wy Ty (cub_attr y) Ky).
  - apply linop_scaleS; auto using kpred_cell. intros k Hk. apply Hk.
  - intros k Hk. exists [(k, eps)]. split; [intros k' v [[= <- _]|[]]; apply Hk|]. intros g. rewrite ev_cons, ev_nil. ring.
  - now apply linop_serrec.
  - apply rep_DCc.
  - intros x' y' Wx' Tx' Ax' Kx' Wy' Ty' Ay' Ky'. apply (bil_actC' dt t r d n e coord MS Ht Hdt Hr Hc); auto. intros k v Hin. apply (Kx' _ _ Hin).
  - intros k K Hk HK. apply (rep_PhiC' r d n e coord Hr k K); [apply Hk|exact HK].
  - now apply linop_serrec.
  - apply cub_admop.
  - apply (bil_act dt t r d n e coord Ht Hdt Hr Hc).
  - apply (adm_Phi r d n e coord Hr).
  - intros g K Hg HK. now apply (Phi_admall r d n e).
  - intros g k K Hg (Hk & Cp & Es) [[LK DK] CK] _ _. destruct (split_at K (coord - 1)) as (l1 & s & l2 & -> & E1); [lia|].
    change (fun v => Phi r coord g k v) with (Phi r coord g k). assert (Nk : k <> []) by (apply (onto_ne r); [exact Hr|apply Hk]). assert (Cs : is_cube s) by (apply CK; rewrite in_app_iff; right; now left).
    rewrite (PhiC_DC r k t eps coord g l1 s l2 E1 (proj1 Hk) Nk Cs (adm_dup g Hg)); [reflexivity|].
    intros u v Hu. apply eqm_eq. rewrite <- Es. apply sign_ok; auto; [apply Hk|]. eapply len_sf; eauto.
Qed.
(** #C76_action_mod2# With coefficients mod 2 the Cartan-Serre map commutes with
    the action of every element x of the surjection operad, of every arity and
    degree. *)
Lemma C76_action_mod2_l (dt r d n e coord : Z) (x : surj) (y : cubc) :
  1 <= r -> 1 <= coord <= n -> wf cls_surj x -> attr x = MS -> torsion x = 2 -> wf cls_cubical y -> torsion y = 2 -> dt_ok dt 2 ->
  keys_in (surj_cell r d) x -> keys_in (fun k => zlen k = n /\ cube_degree k = e /\ forall c, In c k -> is_cube c) y ->
  same (let! z := surj_call_cubical dt x y coord in cub_cartan_serre dt z)
       (let! y' := cub_cartan_serre dt y in surj_call_simplicial dt x y' coord).
Proof.
  intros Hr Hc Wx Ax Tx Wy Ty Hdt Kx Ky. apply kcub_of in Ky. assert (Ht : 0 <= 2) by lia.
  change (same (let! z := surj_call_cubical dt x y coord in cub_cartan_serre dt z)
       (let! x' := Ok x in let! y' := cub_cartan_serre dt y in surj_call_simplicial dt x' y' coord)).
  refine (bil_morphism cls_surj cls_cubical cls_cubical cls_surj cls_simplicial cls_simplicial ok_surj ok_cubical ok_surj ok_simplicial ok_simplicial 2 MS tt tt MS tt tt
    (surj_cell r d) (kcub n e) (kcub (n + r - 1) (e + d)) (surj_cell r d) (kdegS n e) (kdegS (n + r - 1) (e + d)) (kdegS (n + r - 1) (e + d)) (fun g k => g k) DC DC (PhiC r coord) (Phi r coord)
    (fun x => Ok x) (cub_cartan_serre dt) (cub_cartan_serre dt) (fun x y => surj_call_cubical dt x y coord) (fun x y => surj_call_simplicial dt x y coord) x y
    Ht (kpred_kcub _ _) (kpred_cell r d) (kpred_kdegS _ _) _ _ _ _ _ _ _ _ _ _ _ _ Wx Tx Ax Kx Wy Ty (cub_attr y) Ky).
  - intros x' Wx' Tx' Ax' Kx'. apply returns_ok. split; [|exact Kx']. rewrite <- Tx', <- Ax'. now apply den_self.
  - intros k Hk. exists [(k, 1)]. split; [intros k' v [[= <- _]|[]]; apply Hk|]. intros g. rewrite ev_cons, ev_nil. ring.
  - now apply linop_serrec.
  - apply rep_DCc.
  - apply (bil_actC' dt 2 r d n e coord MS Ht Hdt Hr Hc).
  - apply (rep_PhiC' r d n e coord Hr).
  - now apply linop_serrec.
  - apply cub_admop.
  - apply (bil_act dt 2 r d n e coord Ht Hdt Hr Hc).
  - apply (adm_Phi r d n e coord Hr).
  - intros g K Hg HK. now apply (Phi_admall r d n e).
  - intros g k K Hg Hk [[LK DK] CK] _ _. destruct (split_at K (coord - 1)) as (l1 & s & l2 & -> & E1); [lia|].
    change (fun v => Phi r coord g k v) with (Phi r coord g k). assert (Nk : k <> []) by (apply (onto_ne r); [exact Hr|apply Hk]). assert (Cs : is_cube s) by (apply CK; rewrite in_app_iff; right; now left).
    rewrite (PhiC_DC r k 2 1 coord g l1 s l2 E1 (proj1 Hk) Nk Cs (adm_dup g Hg)); [rewrite Z.mul_1_l; reflexivity|].
    intros u v Hu. apply sgn_eqm2.
Qed.
(** #C76_refuted# The restriction on letters in arity two is necessary: for
    (1,2,1,2,1) and the 4-cube the image of x(y) is neither x(image of y) nor
    its negative. *)
Lemma C76_refuted_l :
  exists x y z u v y' w, surj_new 0 MS [([1; 2; 1; 2; 1], 1)] None (Some MS) = Ok x /\ cub_new 0 [([[2; 2; 2; 2]], 1)] None = Ok y /\
    surj_call_cubical 0 x y 1 = Ok z /\ cub_cartan_serre 0 z = Ok u /\ cub_cartan_serre 0 y = Ok y' /\ surj_call_simplicial 0 x y' 1 = Ok v /\ neg 0 cls_simplicial v = Ok w /\
    dget (data u) [[0; 1; 2; 3; 4]; [1; 2; 3; 4]] <> dget (data w) [[0; 1; 2; 3; 4]; [1; 2; 3; 4]] /\
    dget (data u) [[0; 1; 2; 3; 4]; [0; 1; 3; 4]] <> dget (data v) [[0; 1; 2; 3; 4]; [0; 1; 3; 4]].
Proof.
  do 7 eexists. do 7 (split; [vm_compute; reflexivity|]). split; vm_compute; discriminate.
Qed.
(** #C76_example# The hypotheses hold for x = (1,2,3,1) and the square, with
    comparison sign -1; the image of x(y) has seven terms. *)
Example C76_example_l :
  exists x y u, surj_new 0 MS [([1; 2; 3; 1], 1)] None (Some MS) = Ok x /\ cub_new 0 [([[2; 2]], 1)] None = Ok y /\ wf cls_surj x /\ wf cls_cubical y /\ attr x = MS /\
    keys_in (fun k => surj_cell 3 1 k /\ comparable 3 k /\ comparison_sign 3 k = -1) x /\ keys_in (fun k => zlen k = 1 /\ cube_degree k = 2 /\ forall c, In c k -> is_cube c) y /\
    (let! z := surj_call_cubical 0 x y 1 in cub_cartan_serre 0 z) = Ok u /\
    data u = [([[0; 1; 2]; [1; 2]; [2]], 1); ([[0; 1; 2]; [1]; [1; 2]], 1); ([[0; 2]; [0; 1; 2]; [2]], -1); ([[0; 2]; [0; 1]; [1; 2]], -1);
              ([[0; 1; 2]; [0; 1]; [1]], 1); ([[0; 2]; [0]; [0; 1; 2]], -1); ([[0; 1; 2]; [0]; [0; 1]], 1)].
Proof.
  do 3 eexists. split; [vm_compute; reflexivity|]. split; [vm_compute; reflexivity|]. split; [apply wfb_wf; reflexivity|]. split; [apply wfb_wf; reflexivity|]. split; [reflexivity|]. split; [|split; [|split; vm_compute; reflexivity]].
  - intros k v [[= <- <-]|[]]. split; [|split; [left; lia|reflexivity]]. split; [|reflexivity]. intros j. cbn [In]. split; [lia|]. intros Hj. assert (j = 1 \/ j = 2 \/ j = 3) as E0 by lia. destruct E0 as [E0|[E0|E0]]; subst j; auto 6.
  - intros k v [[= <- <-]|[]]. split; [reflexivity|]. split; [reflexivity|]. intros c [<-|[]] a [<-|[<-|[]]]; auto.
Qed.
