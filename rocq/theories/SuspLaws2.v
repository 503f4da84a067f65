(** * Property theorems: suspension and boundary. *)
From Coq Require Import Setoid Morphisms.
From Verif Require Import PyBase Dict FreeModule Symmetric Simplicial Utils Surjection Eqm Spec SpecOperad SpecSurj SpecSusp FreeModuleFacts FreeModuleLaws ListFacts
  ClassFacts LinearFacts SymmetricFacts CycleFacts SymmetricLaws RingFacts RingLaws TensorAct LoopFacts ActGeneric SimplicialLaws BEFacts SurjFacts SurjBoundary SurjLaws SurjLaws3 SuspLaws SuspFacts.

Lemma dget_notin {K} `{KO : KeyOk K} (d : dict K) k : (forall k' v, In (k', v) d -> keqb k' k = false) -> dget d k = 0.
Proof.
  induction d as [|[k0 v0] d IH]; intros Hd; [reflexivity|]. cbn [dget]. rewrite (Hd k0 v0) by now left. apply IH. intros k' v' Hin. apply (Hd k' v'). now right.
Qed.
Lemma agree_den {K A} `{KO : KeyOk K} (c : pycls K) (Hc : cls_ok c) t (a : A) F G (P : K -> Prop) (r r' : res (elt K A)) : 0 <= t ->
  returns r (den c t a F) -> returns r' (den c t a G) ->
  (forall g, adm c g -> (forall k, (forall k', P k' -> keqb k k' = false) -> g k = 0) -> eqm t (F g) (G g)) -> agree_on P r r'.
Proof.
  intros Ht (x & Ex & Dx) (y & Ey & Dy) HFG. exists x, y. split; [exact Ex|]. split; [exact Ey|].
  destruct Dx as (Tx & Ax & Cx & Vx). destruct Dy as (Ty & Ay & Cy & Vy). split; [congruence|]. split; [congruence|]. intros k Pk.
  assert (Z0 : forall d : dict K, canonical c t d -> bad c k <> Ok false -> dget d k = 0).
  { intros d [_ C2] Hb. apply dget_notin. intros k' v Hin. destruct (keqb k' k) eqn:E; [|reflexivity]. exfalso. apply Hb. rewrite <- (proj1 Hc _ _ E). apply (C2 _ _ Hin). }
  destruct (bad c k) as [[]|] eqn:Eb.
  - rewrite !Z0; congruence.
  - assert (Ai : adm c (ind k)) by now apply adm_ind.
    assert (E : eqm t (dget (data x) k) (dget (data y) k)).
    { rewrite <- !dget_ind by (apply Cx || apply Cy). rewrite Vx, Vy by assumption. apply HFG; [assumption|]. intros k' Hk'. unfold ind. now rewrite (Hk' k Pk). }
    assert (B : forall d : dict K, canonical c t d -> t <> 0 -> 0 <= dget d k < t).
    { intros d [C1 C2] Nt. destruct (existsb (fun p => keqb (fst p) k) d) eqn:Ex2.
      - apply existsb_exists in Ex2. destruct Ex2 as ([k' v] & Hin & Ek). cbn [fst] in Ek.
        assert (Ev : dget d k = v). { rewrite <- (dget_in d k' v C1 Hin). apply dget_cong. now apply keqb_sym. }
        rewrite Ev. destruct (C2 _ _ Hin) as [[V1 V2] _]. specialize (V2 ltac:(lia)). lia.
      - rewrite dget_notin; [lia|]. intros k' v Hin. destruct (keqb k' k) eqn:Ek; [|reflexivity]. assert (existsb (fun p => keqb (fst p) k) d = true) by (apply existsb_exists; exists (k', v); auto). congruence. }
    destruct (Z.eq_dec t 0) as [->|Nt]; [now apply eqm_0 in E|]. apply eqm_small in E; auto; lia.
  - rewrite !Z0; congruence.
Qed.
Lemma onto_supp r g w : (forall k, (forall k', onto r k' -> keqb k k' = false) -> g k = 0) -> ~ onto r w -> (g w : Z) = 0.
Proof. intros Hg N. apply Hg. intros k' Hk'. destruct (keqb w k') eqn:E; [|reflexivity]. apply keqb_eq in E. subst. contradiction. Qed.
(** #C52_boundary# Suspension and boundary, on the terms of the right arity:
    for an element of arity r, d(suspension(x)) and (-1)^(r-1) suspension(dx)
    have the same coefficients at all the surjections of arity r. *)
Lemma C52_boundary_l (dt r d : Z) (x : surj) : 1 <= r -> wf cls_surj x -> dt_ok dt (torsion x) -> attr x = BF -> keys_in (surj_cell r d) x ->
  agree_on (onto r) (let! y := surj_suspension dt x in surj_boundary dt y)
    (let! y := surj_boundary dt x in let! z := surj_suspension dt y in scale dt cls_surj (sgn (r - 1)) z).
Proof.
  intros Hr Wx Hdt Ax Kx. pose proof (proj1 Wx) as Ht. set (t := torsion x) in *.
  assert (L1 : linop cls_surj cls_surj t BF BF (surj_cell r d) sne (fun g => Dsusp r (sd BF g)) (fun x => let! y := surj_suspension dt x in surj_boundary dt y)).
  { eapply (linop_comp cls_surj cls_surj cls_surj ok_surj ok_surj ok_surj); [exact Ht|exact kpred_sne| | | |].
    - apply (linop_susp dt t r d sne); auto using kpred_sne.
    - apply (linop_sb dt t BF sne sne); auto using kpred_sne, sface_sne. now left.
    - apply rep_local, (rep_susp r d); auto.
    - apply (adm_sd BF sne sne); auto using sface_sne. }
  assert (L2 : linop cls_surj cls_surj t BF BF (surj_cell r d) sne (fun g => sd BF (Dsusp r g)) (fun x => let! y := surj_boundary dt x in surj_suspension dt y)).
  { eapply (linop_comp cls_surj cls_surj cls_surj ok_surj ok_surj ok_surj); [exact Ht|exact (kpred_cell r (d - 1))| | | |].
    - apply linop_sb; auto using kpred_cell, sface_cell. now left.
    - apply (linop_susp dt t r (d - 1) sne); auto using kpred_sne.
    - apply rep_local, rep_sd, sface_cell.
    - apply (adm_susp r (d - 1) sne); auto. }
  destruct (L1 x Wx eq_refl Ax Kx) as (y1 & E1 & D1 & _). destruct (L2 x Wx eq_refl Ax Kx) as (y2 & E2 & D2 & _).
  eapply (agree_den cls_surj ok_surj t BF); [exact Ht|apply (ex_intro _ y1); split; [exact E1|exact D1]| |].
  - destruct (surj_boundary dt x) as [b|] eqn:Eb; cbn [bind] in *; [|discriminate]. rewrite E2. cbn [bind]. eapply (scale_den cls_surj ok_surj dt t); eauto.
  - intros g Hg Hs. cbn beta. rewrite <- ev_scal. apply ev_eqm. intros k v Hin. apply eqm_eq. destruct (Kx _ _ Hin) as [Ho _].
    unfold sd. cbn [tw]. rewrite !Z.mul_1_l.
    rewrite (bfd_ext_all (fun u => 1 * Dsusp r g u) (Dsusp r g)) by (intros; ring). rewrite (susp_bfd r g k Hr Ho).
    + rewrite Z.mul_assoc, sgn_sq, Z.mul_1_l. rewrite !Dsusp_alt. rewrite Z.mul_1_l, (bfd_ext_all (fun u => 1 * g u) g) by (intros; ring). reflexivity.
    + intros w Nw. now apply (onto_supp r).
Qed.
(** #C52_arity_refuted# The suspension does not preserve the arity: the
    suspension of (2,1), of arity 2, is - (1), of arity 1, and that of
    (1,2,1) is (2,1), so that d(suspension(x)) and suspension(dx) are not
    equal up to sign, over the integers and mod 2. *)
Lemma C52_arity_refuted_l (t : Z) : t = 0 \/ t = 2 ->
  (let! x := surj_new 0 BF [([2; 1], 1)] (Some t) None in surj_suspension 0 x) = Ok (mkElt [([1], if t =? 0 then -1 else 1)] t BF) /\
  (let! x := surj_new 0 BF [([1; 2; 1], 1)] (Some t) None in let! y := surj_suspension 0 x in surj_boundary 0 y) = Ok (mkElt [] t BF) /\
  (let! x := surj_new 0 BF [([1; 2; 1], 1)] (Some t) None in let! y := surj_boundary 0 x in surj_suspension 0 y) = Ok (mkElt [([1], if t =? 0 then -1 else 1)] t BF).
Proof. intros [-> | ->]; vm_compute; auto. Qed.
(** #C52_compose_refuted# Suspension does not commute with composition: with x
    = (1,2,1) the suspension of x o_1 x is minus suspension(x) o_1
    suspension(x); with x = (1,2,1) and y = (2,1) the suspension of x o_1 y is
    zero but suspension(x) o_1 suspension(y) is not, even mod 2. *)
Lemma C52_compose_refuted_l :
  (exists x z, surj_new 0 BF [([1; 2; 1], 1)] None None = Ok x /\ (let! w := surj_compose 0 x x 1 in surj_suspension 0 w) = Ok z /\ ~ is_zero z /\
     same (let! s := surj_suspension 0 x in let! w := surj_compose 0 s s 1 in neg 0 cls_surj w) (Ok z)) /\
  (forall t, t = 0 \/ t = 2 -> exists x y z w, surj_new 0 BF [([1; 2; 1], 1)] (Some t) None = Ok x /\ surj_new 0 BF [([2; 1], 1)] (Some t) None = Ok y /\
     (let! u := surj_compose 0 x y 1 in surj_suspension 0 u) = Ok z /\ is_zero z /\
     (let! p := surj_suspension 0 x in let! q := surj_suspension 0 y in surj_compose 0 p q 1) = Ok w /\ ~ is_zero w).
Proof.
  split.
  - eexists. eexists. split; [vm_compute; reflexivity|]. split; [vm_compute; reflexivity|]. split; [intros N; vm_compute in N; discriminate|]. eexists. eexists. split; [vm_compute; reflexivity|]. split; [vm_compute; reflexivity|]. vm_compute. auto.
  - intros t [-> | ->]; eexists; eexists; eexists; eexists; (split; [vm_compute; reflexivity|]; split; [vm_compute; reflexivity|]; split; [vm_compute; reflexivity|]; split; [reflexivity|]; split; [vm_compute; reflexivity|]; intros N; vm_compute in N; discriminate).
Qed.
(** #C52_example# The hypotheses of the theorems hold for x = (1,3,2,1,2), of
    arity 3 and degree 2; its suspension is - (2,1,2), of arity 2. *)
Example C52_example_l : exists x, surj_new 0 BF [([1; 3; 2; 1; 2], 1)] None None = Ok x /\ wf cls_surj x /\ attr x = BF /\ keys_in (surj_cell 3 2) x /\
  surj_suspension 0 x = Ok (mkElt [([2; 1; 2], -1)] 0 BF).
Proof.
  eexists. split; [vm_compute; reflexivity|]. split.
  - split; [cbn; lia|]. split; [split; [intros ? []|exact I]|]. intros k v [[= <- <-]|[]]. split; [split; [discriminate|cbn; lia]|reflexivity].
  - split; [reflexivity|]. split; [|vm_compute; reflexivity]. intros k v [[= <- <-]|[]]. split; [|reflexivity]. intros j. cbn [In]. lia.
Qed.
