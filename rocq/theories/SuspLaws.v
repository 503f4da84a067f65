(** * Property theorems: suspension of surjections. *)
From Coq Require Import Setoid Morphisms.
From Verif Require Import PyBase Dict FreeModule Symmetric Simplicial Utils Surjection Eqm Spec SpecOperad SpecSurj SpecSusp FreeModuleFacts FreeModuleLaws ListFacts
  ClassFacts LinearFacts SymmetricFacts CycleFacts SymmetricLaws RingFacts RingLaws TensorAct LoopFacts ActGeneric SimplicialLaws BEFacts SurjFacts SurjBoundary SurjLaws SurjLaws3.

Lemma onto_long r k : 0 <= r -> onto r k -> r <= zlen k.
Proof.
  intros Hr Ho. assert (H : (length (zrange 1 (r + 1)) <= length k)%nat).
  { apply NoDup_incl_length; [apply NoDup_zrange|]. intros j Hj. apply in_zrange in Hj. apply Ho. lia. }
  rewrite zrange_length in H. unfold zlen. lia.
Qed.
Lemma zlen_firstn {B} (l : list B) n : 0 <= n <= zlen l -> zlen (firstn (Z.to_nat n) l) = n.
Proof. intros Hn. unfold zlen in *. rewrite firstn_length. lia. Qed.
Lemma covers_perm r u : 0 <= r -> zlen u = r -> covers r u = true <-> perm r u.
Proof.
  intros Hr L. unfold covers. rewrite forallb_forall. split.
  - intros Hc. apply perm_of_incl; auto. intros i Hi. apply mem_in, Hc, in_zrange. lia.
  - intros Hp j Hj. apply in_zrange in Hj. apply mem_in, (perm_in r u j Hp). lia.
Qed.
Lemma sg_sign_not_perm r u : 0 <= r -> zlen u = r -> ~ perm r u -> sg_sign u = Err TypeError.
Proof.
  intros Hr L N. unfold sg_sign. destruct (set_eqb u (zrange 1 (zlen u + 1))) eqn:E; [|reflexivity]. exfalso. apply N.
  rewrite L in E. rewrite set_eqb_in in E. apply perm_of_incl; auto. intros i Hi. apply E, in_zrange. lia.
Qed.
Definition Dsusp (r : Z) (g : list Z -> Z) (k : list Z) : Z := ev g (surj_suspended r k).
Definition dropped (d : Z) (k : list Z) : Prop := zlen k = d + 1.
Lemma skip_ne r d k : 1 <= r -> surj_cell r d k -> dropped d (skipn (Z.to_nat (r - 1)) k) /\ skipn (Z.to_nat (r - 1)) k <> [].
Proof.
  intros Hr [Ho L]. assert (H0 : r <= zlen k) by (apply onto_long; auto; lia).
  assert (L' : dropped d (skipn (Z.to_nat (r - 1)) k)). { unfold dropped, zlen in *. rewrite skipn_length. lia. }
  split; [exact L'|]. intros E. rewrite E in L'. unfold dropped in L'. change (zlen (@nil Z)) with 0 in L'. lia.
Qed.
Lemma susp_den dt t r d (x : surj) : 1 <= r -> wf cls_surj x -> torsion x = t -> dt_ok dt t -> attr x = BF -> keys_in (surj_cell r d) x ->
  returns (surj_suspension dt x) (den cls_surj t BF (fun g => ev (Dsusp r g) (data x))).
Proof.
  intros Hr Wx Tx Hdt Ax Kx. pose proof (proj1 Wx) as Ht. rewrite Tx in Ht. unfold surj_suspension.
  assert (Hz : forall F y, den cls_surj t (attr x) F y -> den cls_surj t BF F y) by (intros F y; now rewrite Ax).
  destruct (data x) as [|kv dx] eqn:Ed.
  - cbn [dempty]. apply returns_ok, Hz. pose proof (den_self cls_surj x Wx) as D. rewrite Tx, Ed in D. exact D.
  - destruct (dempty (kv :: dx)) eqn:Ee; [discriminate|]. assert (Nx : data x <> []) by (rewrite Ed; discriminate).
    rewrite (surj_arity_ok r) by (auto; intros k v Hin; apply (Kx _ _ Hin)). cbn [bind]. rewrite (surj_degree_ok r d) by auto. cbn [bind]. rewrite Ax.
    eapply returns_bind; [apply (zero_den cls_surj ok_surj dt t x); auto|]. intros z Dz. rewrite Ax in Dz. rewrite <- Ed in *.
    eapply returns_mono; [apply (loop_den cls_surj ok_surj t BF (data x) _ (fun k g => Dsusp r g k)); [|exact Dz]|].
    + intros k v F y Hin Dy. destruct (Kx _ _ Hin) as [Ho L]. assert (H0 : r <= zlen k) by (apply onto_long; auto; lia).
      rewrite slice_to_firstn, slice_from_skipn by lia. assert (Lu : zlen (firstn (Z.to_nat r) k) = r) by (apply zlen_firstn; lia).
      unfold Dsusp, surj_suspended. destruct (covers r (firstn (Z.to_nat r) k)) eqn:Ec.
      * apply covers_perm in Ec; [|lia|exact Lu]. rewrite (sg_sign_ok r) by (auto; lia). cbn [bind].
        eapply returns_mono; [eapply (add_term_den cls_surj ok_surj dt t Ht Hdt); [exact Tx|exact Dy|apply surj_okey; apply (skip_ne r d); [lia|now split]]|].
        intros y' Dy'. eapply den_ext; [|exact Dy']. intros g _. cbn beta. apply eqm_eq. rewrite ev_cons, ev_nil. unfold psgn. ring.
      * rewrite (sg_sign_not_perm r); [|lia|exact Lu|]. 2:{ rewrite <- covers_perm by (auto; lia). congruence. }
        apply returns_ok. eapply den_ext; [|exact Dy]. intros g _. cbn beta. apply eqm_eq. rewrite ev_nil. ring.
    + intros y Dy. eapply den_ext; [|exact Dy]. intros g _. apply eqm_eq. cbn beta. now rewrite Z.add_0_l.
Qed.
Lemma kpred_dropped d : kpred (dropped d).
Proof. apply kpred_eq. intros k. unfold dropped. destruct (Z.eq_dec (zlen k) (d + 1)); tauto. Qed.
Lemma rep_susp r d (Q : list Z -> Prop) : 1 <= r -> (forall k, dropped d k -> k <> [] -> Q k) -> rep (surj_cell r d) Q (Dsusp r).
Proof.
  intros Hr HQ k Hk. exists (surj_suspended r k). split; [|intros g; reflexivity]. intros u s Hin. unfold surj_suspended in Hin. destruct (covers r _); [|destruct Hin]. destruct Hin as [[= <- <-]|[]].
  apply HQ; now apply (skip_ne r d).
Qed.
Lemma adj_split u a v : adj (u ++ a :: v) = adj (u ++ [a]) || adj (a :: v).
Proof.
  induction u as [|b u IH]; cbn [app]; [reflexivity|]. destruct u as [|c u]; cbn [app] in *; rewrite !adj_cons2; [|rewrite IH; now rewrite orb_assoc]. change (adj [a]) with false. now rewrite orb_false_r.
Qed.
Lemma adj_nodup u : NoDup u -> adj u = false.
Proof.
  induction u as [|a u IH]; intros ND; [reflexivity|]. inversion ND as [|? ? N ND']; subst. destruct u as [|b u]; [reflexivity|]. rewrite adj_cons2, IH by assumption.
  destruct (Z.eqb_spec a b); [|reflexivity]. subst. destruct N. now left.
Qed.
(** the last of the first [r] letters *)
Lemma first_last r (k : list Z) : 1 <= r <= zlen k -> exists (u : list Z) (a : Z) (v : list Z), k = u ++ a :: v /\ zlen u = r - 1 /\ firstn (Z.to_nat r) k = u ++ [a] /\ skipn (Z.to_nat (r - 1)) k = a :: v.
Proof.
  intros Hr. destruct (split_at k (r - 1) ltac:(lia)) as (u & a & v & E & L). exists u, a, v. split; [exact E|]. split; [exact L|]. subst k. split.
  - rewrite <- slice_to_firstn by lia. replace r with (zlen u + 1) by lia. apply slice_to_app_S.
  - rewrite <- slice_from_skipn by lia. rewrite <- L. apply slice_from_app.
Qed.
Lemma adm_susp r d (Q : list Z -> Prop) : 1 <= r -> (forall k, dropped d k -> k <> [] -> Q k) -> admop cls_surj cls_surj (surj_cell r d) Q (Dsusp r).
Proof.
  intros Hr HQ g Hg. apply admP_keyeq. intros k Hk Hb. pose proof Hk as [Ho L]. assert (H0 : r <= zlen k) by (apply onto_long; auto; lia).
  change (bad cls_surj k) with (surj_bad k) in Hb. rewrite (surj_bad_onto r) in Hb by auto. assert (Hadj : adj k = true) by congruence.
  unfold Dsusp, surj_suspended. destruct (covers r (firstn (Z.to_nat r) k)) eqn:Ec; [|reflexivity].
  apply covers_perm in Ec; [|lia|apply zlen_firstn; lia]. destruct (first_last r k ltac:(lia)) as (u & a & v & E & Lu & E1 & E2). rewrite E1 in Ec. rewrite ev_cons, ev_nil.
  rewrite (proj2 Hg (skipn (Z.to_nat (r - 1)) k)); [ring| |].
  - apply HQ; apply (skip_ne r d); auto.
  - rewrite E2. change (bad cls_surj (a :: v)) with (surj_bad (a :: v)). assert (Ha : adj (a :: v) = true).
    { rewrite E, adj_split in Hadj. rewrite (adj_nodup (u ++ [a])) in Hadj; [exact Hadj|]. eapply perm_nodup; eauto. }
    destruct (py_max (a :: v)) as [m|] eqn:Em; [|cbn in Em; discriminate]. rewrite (surj_bad_spec _ m Em), Ha. now rewrite orb_true_r.
Qed.
Lemma linop_susp dt t r d (Q : list Z -> Prop) : 0 <= t -> dt_ok dt t -> 1 <= r -> kpred Q -> (forall k, dropped d k -> k <> [] -> Q k) -> linop cls_surj cls_surj t BF BF (surj_cell r d) Q (Dsusp r) (surj_suspension dt).
Proof.
  intros Ht Hdt Hr KQ HQ. apply (linop_intro cls_surj cls_surj ok_surj); auto.
  - apply rep_local. now apply (rep_susp r d).
  - apply (rep_zero _ _ _ (rep_susp r d Q Hr HQ)).
  - intros x Wx Tx Ax Kx. now apply (susp_den dt t r d).
Qed.

(** #C52_formula# On homogeneous elements in the Berger-Fresse convention the
    suspension is the linear extension of [surj_suspended]; in particular on
    the zero element it is zero. *)
Lemma C52_formula_l (dt r d : Z) (x : surj) : 1 <= r -> wf cls_surj x -> dt_ok dt (torsion x) -> attr x = BF -> keys_in (surj_cell r d) x ->
  gives cls_surj (surj_suspension dt x) (torsion x) BF (extend (surj_suspended r) x).
Proof.
  intros Hr Wx Hdt Ax Kx. eapply (den_gives cls_surj ok_surj); [exact (proj1 Wx)|apply (susp_den dt (torsion x) r d); auto|]. intros g _. cbn beta. rewrite ev_extend. reflexivity.
Qed.
(** #C52_linear# The suspension is linear. *)
Lemma C52_linear_l (dt r d n : Z) (x y : surj) : 1 <= r -> wf cls_surj x -> wf cls_surj y -> torsion y = torsion x -> dt_ok dt (torsion x) ->
  attr x = BF -> attr y = BF -> keys_in (surj_cell r d) x -> keys_in (surj_cell r d) y ->
  same (let! s := add dt cls_surj x y in surj_suspension dt s)
       (let! p := surj_suspension dt x in let! q := surj_suspension dt y in add dt cls_surj p q) /\
  same (let! s := scale dt cls_surj n x in surj_suspension dt s)
       (let! p := surj_suspension dt x in scale dt cls_surj n p).
Proof.
  intros Hr Wx Wy Ty Hdt Ax Ay Kx Ky. pose proof (proj1 Wx) as Ht. split.
  - exact (linop_add cls_surj cls_surj ok_surj ok_surj dt (torsion x) _ _ _ _ _ (surj_suspension dt) x y Ht Hdt (kpred_cell r d) (linop_susp dt (torsion x) r d sne Ht Hdt Hr kpred_sne (fun _ _ H => H)) (adm_susp r d sne Hr (fun _ _ H => H)) Wx eq_refl Ax Kx Wy Ty Ay Ky).
  - exact (linop_scale cls_surj cls_surj ok_surj ok_surj dt (torsion x) _ _ _ _ _ (surj_suspension dt) x n Ht Hdt (kpred_cell r d) (linop_susp dt (torsion x) r d sne Ht Hdt Hr kpred_sne (fun _ _ H => H)) (adm_susp r d sne Hr (fun _ _ H => H)) Wx eq_refl Ax Kx).
Qed.
(** #C52_length# Every word of the suspension of an element of arity r and
    degree d has d + 1 letters among 1..r: when it has arity r its degree is
    d - (r - 1).  (It may have a smaller arity: C52_arity_refuted.) *)
Lemma C52_length_l (dt r d : Z) (x : surj) : 1 <= r -> wf cls_surj x -> dt_ok dt (torsion x) -> attr x = BF -> keys_in (surj_cell r d) x ->
  exists y, surj_suspension dt x = Ok y /\ wf cls_surj y /\ torsion y = torsion x /\ attr y = BF /\
    forall k v, In (k, v) (data y) -> zlen k = d + 1 /\ (onto r k -> surj_cell r (d - (r - 1)) k).
Proof.
  intros Hr Wx Hdt Ax Kx. pose proof (proj1 Wx) as Ht. destruct (linop_susp dt (torsion x) r d (dropped d) Ht Hdt Hr (kpred_dropped d) (fun _ H _ => H) x Wx eq_refl Ax Kx) as (y & E & Dy & Ky).
  exists y. split; [exact E|]. split; [eapply den_wf; eauto|]. split; [apply Dy|]. split; [apply Dy|]. intros k v Hin. pose proof (Ky _ _ Hin) as L. unfold dropped in L. split; [exact L|].
  intros Ho. split; [exact Ho|]. lia.
Qed.
(** #C52_errors# The zero element is returned as it is; a nonhomogeneous
    element raises TypeError; a nonzero homogeneous element in another
    convention raises NotImplementedError. *)
Lemma C52_errors_l (dt : Z) (x : surj) :
  (is_zero x -> surj_suspension dt x = Ok x) /\
  (forall oa od, ~ is_zero x -> surj_arity x = Ok oa -> surj_degree x = Ok od -> oa = None \/ od = None -> surj_suspension dt x = Err TypeError) /\
  (forall a d, ~ is_zero x -> surj_arity x = Ok (Some a) -> surj_degree x = Ok (Some d) -> attr x <> BF -> surj_suspension dt x = Err NotImplementedError).
Proof.
  unfold is_zero, surj_suspension. split; [intros ->; reflexivity|]. split.
  - intros oa od N -> -> Hn. destruct (data x) eqn:E; [congruence|]. cbn [dempty bind]. destruct oa; [|reflexivity]. destruct od; [|reflexivity]. destruct Hn; discriminate.
  - intros a d N -> -> Hn. destruct (data x) eqn:E; [congruence|]. cbn [dempty bind]. destruct (attr x); [congruence|reflexivity|reflexivity].
Qed.
