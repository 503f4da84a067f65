(** * Property theorems of the surjection operad: boundary. *)
From Coq Require Import Setoid Morphisms.
From Verif Require Import PyBase Dict FreeModule Symmetric Simplicial Utils Surjection Eqm Spec SpecOperad SpecSurj FreeModuleFacts FreeModuleLaws ListFacts
  ClassFacts LinearFacts SymmetricFacts CycleFacts SymmetricLaws RingFacts RingLaws TensorAct LoopFacts ActGeneric SimplicialLaws BEFacts SurjFacts SurjBoundary.

(** ** predicates *)
Definition sne (k : list Z) : Prop := k <> [].
Lemma kpred_sne : kpred sne.
Proof. apply kpred_eq. intros [|a k]; [right|left]; unfold sne; [intros N; now apply N|discriminate]. Qed.
Lemma sface_sne : sface_closed sne sne.
Proof. intros k u Hk _ S ->. destruct k as [|a k]; [now apply Hk|]. destruct (proj2 (S a)). now left. Qed.
Lemma onto_dec r k : onto r k \/ ~ onto r k.
Proof. rewrite onto_set. destruct (set_eqb k (zrange 1 (r + 1))); [left|right]; congruence. Qed.
Lemma kpred_onto r : kpred (onto r). Proof. apply kpred_eq. apply onto_dec. Qed.
Lemma kpred_cell r d : kpred (surj_cell r d).
Proof. apply kpred_eq. intros k. unfold surj_cell. destruct (onto_dec r k); [|tauto]. destruct (Z.eq_dec (zlen k) (r + d)); tauto. Qed.
Lemma sface_onto r : sface_closed (onto r) (onto r).
Proof. intros k u Hk _ S c. rewrite S. apply Hk. Qed.
Lemma sface_cell r d : sface_closed (surj_cell r d) (surj_cell r (d - 1)).
Proof. intros k u [Hk L] L' S. split; [now apply (sface_onto r k u)|lia]. Qed.
Lemma wf_sne (x : surj) : wf cls_surj x -> keys_in sne x.
Proof. intros W k v Hin. destruct (wf_onto x k v W Hin) as (r & Hr & Ho & _). now apply (onto_ne r). Qed.
Lemma onto_sne r k : 1 <= r -> onto r k -> sne k. Proof. apply onto_ne. Qed.
Lemma surj_arity_ok r (x : surj) : 1 <= r -> keys_in (onto r) x -> data x <> [] -> surj_arity x = Ok (Some r).
Proof.
  intros Hr Kx N. unfold surj_arity. destruct (dempty (data x)) eqn:E; [destruct (data x); [congruence|discriminate]|].
  rewrite (mapM_map _ (fun _ => r)).
  - cbn [bind]. rewrite (zset_const _ r); [reflexivity| |].
    + unfold dkeys. rewrite map_map. now destruct (data x).
    + intros m Hm. apply in_map_iff in Hm. now destruct Hm as (? & <- & _).
  - intros k Hk. apply in_map_iff in Hk. destruct Hk as ([k' v] & <- & Hin). apply onto_max; auto. exact (Kx _ _ Hin).
Qed.
Lemma surj_degree_ok r d (x : surj) : 1 <= r -> keys_in (surj_cell r d) x -> data x <> [] -> surj_degree x = Ok (Some d).
Proof.
  intros Hr Kx N. unfold surj_degree. destruct (dempty (data x)) eqn:E; [destruct (data x); [congruence|discriminate]|].
  rewrite (mapM_map _ (fun _ => d)).
  - cbn [bind]. rewrite (zset_const _ d); [reflexivity| |].
    + unfold dkeys. rewrite map_map. now destruct (data x).
    + intros m Hm. apply in_map_iff in Hm. now destruct Hm as (? & <- & _).
  - intros k Hk. apply in_map_iff in Hk. destruct Hk as ([k' v] & <- & Hin). destruct (Kx _ _ Hin) as [Ho L]. cbn [fst]. rewrite (onto_max r) by assumption. cbn [bind]. f_equal. lia.
Qed.

(** ** Boundary *)
(** #C45_degenerate# The basis elements that are declared zero: the words that
    are not onto {1..max} and those with two equal consecutive values.  The
    empty tuple is rejected. *)
Lemma C45_degenerate_l (k : list Z) : 
  (k = [] -> bad cls_surj k = Err ValueError) /\
  (k <> [] -> bad cls_surj k = Ok true <-> (~ exists r, onto r k) \/ repeats k) /\
  (k <> [] -> bad cls_surj k = Ok false \/ bad cls_surj k = Ok true).
Proof.
  split; [intros ->; reflexivity|]. split.
  - intros N. destruct k as [|a k]; [contradiction|]. set (w := a :: k) in *.
    assert (exists m, py_max w = Ok m) as [m Em] by (cbn; eauto). cbn [bad cls_surj]. rewrite (surj_bad_spec w m Em).
    assert (RA : repeats w <-> adj w = true).
    { generalize w. clear. intros w. unfold repeats. split.
      - intros (l1 & a & l2 & ->). induction l1 as [|b l1 IH]; cbn [app]; [rewrite adj_cons2, Z.eqb_refl; reflexivity|now apply adj_tl].
      - induction w as [|a w IH]; [discriminate|]. destruct w as [|b w]; [discriminate|]. rewrite adj_cons2. intros H. apply orb_true_iff in H. destruct H as [H|H].
        + apply Z.eqb_eq in H. subst b. exists [], a, w. reflexivity.
        + destruct (IH H) as (l1 & c & l2 & ->). exists (a :: l1), c, l2. reflexivity. }
    rewrite RA. split.
    + intros [= H]. apply orb_true_iff in H. destruct H as [H|H]; [|now right]. left. intros [r Hr]. apply negb_true_iff in H.
      assert (m = r). { apply py_max_spec in Em. destruct Em as [M1 M2]. apply Hr in M1. assert (1 <= r) by lia. apply onto_max in Hr; [|lia]. apply py_max_spec in Hr. destruct Hr as [R1 R2]. apply M2 in R1. lia. }
      subst m. apply onto_set in Hr. congruence.
    + intros [H|H]; f_equal; apply orb_true_iff; [left|now right]. apply negb_true_iff. rewrite <- not_true_iff_false. intros H1. apply H. exists m. now apply onto_set.
  - intros N. destruct (surj_okey k N) as [[] E]; auto.
Qed.
Lemma faces_sd cv g k r : onto r k -> cv = BF \/ cv = MS -> sd cv g k = ev g (surj_faces cv k).
Proof.
  intros Ho Hcv. rewrite (sd_faces cv g k r Ho). unfold faceval, surj_faces. rewrite cuts_splits. unfold ev. rewrite sumf_flat_map. apply sumf_ext.
  intros [[l1 a] l2] _. destruct (mem a (l1 ++ l2)); [|reflexivity]. destruct Hcv as [-> | ->]; cbn; ring.
Qed.
(** #C45_boundary_formula# The boundary is the signed sum of the words with one
    entry deleted whose value occurs elsewhere, with the Berger-Fresse or the
    McClure-Smith sign, extended linearly.  With torsion 2 the convention does
    not matter. *)
Lemma C45_boundary_formula_l (dt : Z) (cv : conv) (x : surj) : wf cls_surj x -> dt_ok dt (torsion x) ->
  cv = BF \/ cv = MS -> attr x = cv \/ torsion x = 2 ->
  gives cls_surj (surj_boundary dt x) (torsion x) (attr x) (extend (surj_faces cv) x).
Proof.
  intros Wx Hdt Hcv Ha. pose proof (proj1 Wx) as Ht.
  eapply (den_gives cls_surj ok_surj); [exact Ht|apply (surj_boundary_den dt (torsion x) (attr x)); auto|].
  - destruct Ha as [-> | ->]; [unfold known; tauto|right; now right].
  - intros g _. cbn beta. rewrite ev_extend. destruct (Z.eq_dec (torsion x) 2) as [E2|N2].
    + rewrite E2. apply ev_eqm. intros k v Hin. destruct (wf_onto x k v Wx Hin) as (r & Hr & Ho & _).
      rewrite <- (eqm_sd_mod2 (attr x) g k r Ho), <- (faces_sd cv g k r Ho Hcv). now apply eqm_sd_mod2 with r.
    + apply eqm_eq. destruct Ha as [E|]; [|contradiction]. apply ev_ext. intros k v Hin. destruct (wf_onto x k v Wx Hin) as (r & Hr & Ho & _). rewrite E. now apply faces_sd with r.
Qed.
(** #C45_boundary_unknown_convention# With any other convention string and
    torsion different from 2, the boundary is silently zero. *)
Lemma C45_boundary_unknown_convention_l (dt : Z) (x : surj) : attr x = OtherConv -> torsion x <> 2 -> surj_boundary dt x = zero dt cls_surj x.
Proof.
  intros Ha Ht. unfold surj_boundary. rewrite (proj2 (Z.eqb_neq _ _) Ht), Ha. destruct (zero dt cls_surj x); reflexivity.
Qed.
(** #C45_boundary_squared# In both conventions, and for torsion 2 in any. *)
Lemma C45_boundary_squared_l (dt : Z) (x : surj) : wf cls_surj x -> dt_ok dt (torsion x) ->
  attr x = BF \/ attr x = MS \/ torsion x = 2 ->
  same (let! y := surj_boundary dt x in surj_boundary dt y) (zero dt cls_surj x).
Proof.
  intros Wx Hdt HK. pose proof (proj1 Wx) as Ht.
  pose proof (linop_sb dt (torsion x) (attr x) sne sne Ht Hdt HK kpred_sne sface_sne) as L.
  refine (sq_zero cls_surj ok_surj (attr x) dt (torsion x) sne sne sne (sd (attr x)) (surj_boundary dt) x Ht Hdt kpred_sne L (rep_sd _ _ _ sface_sne) L
    (adm_sd _ _ _ sface_sne (fun k H => H)) _ Wx eq_refl eq_refl (wf_sne x Wx)).
  intros g k _ _ _. now rewrite sd_sd.
Qed.
(** #C45_boundary_linear# *)
Lemma C45_boundary_linear_l (dt n : Z) (x y : surj) : wf cls_surj x -> wf cls_surj y -> torsion y = torsion x -> attr y = attr x -> dt_ok dt (torsion x) ->
  attr x = BF \/ attr x = MS \/ torsion x = 2 ->
  same (let! s := add dt cls_surj x y in surj_boundary dt s)
       (let! p := surj_boundary dt x in let! q := surj_boundary dt y in add dt cls_surj p q) /\
  same (let! s := scale dt cls_surj n x in surj_boundary dt s)
       (let! p := surj_boundary dt x in scale dt cls_surj n p).
Proof.
  intros Wx Wy Ty Ay Hdt HK. pose proof (proj1 Wx) as Ht.
  pose proof (linop_sb dt (torsion x) (attr x) sne sne Ht Hdt HK kpred_sne sface_sne) as L.
  pose proof (adm_sd (attr x) _ _ sface_sne (fun k H => H)) as AD. split.
  - exact (linop_add cls_surj cls_surj ok_surj ok_surj dt (torsion x) _ _ sne sne _ (surj_boundary dt) x y Ht Hdt kpred_sne L AD
      Wx eq_refl eq_refl (wf_sne x Wx) Wy Ty Ay (wf_sne y Wy)).
  - exact (linop_scale cls_surj cls_surj ok_surj ok_surj dt (torsion x) _ _ sne sne _ (surj_boundary dt) x n Ht Hdt kpred_sne L AD
      Wx eq_refl eq_refl (wf_sne x Wx)).
Qed.
(** #C45_boundary_degree# The boundary keeps the arity and lowers the degree by one. *)
Lemma C45_boundary_degree_l (dt r d : Z) (x : surj) : 1 <= r -> wf cls_surj x -> dt_ok dt (torsion x) ->
  attr x = BF \/ attr x = MS \/ torsion x = 2 -> keys_in (surj_cell r d) x ->
  exists y, surj_boundary dt x = Ok y /\ wf cls_surj y /\ torsion y = torsion x /\ attr y = attr x /\
    keys_in (surj_cell r (d - 1)) y /\
    (~ is_zero y -> surj_arity y = Ok (Some r) /\ surj_degree y = Ok (Some (d - 1))).
Proof.
  intros Hr Wx Hdt HK Kx. pose proof (proj1 Wx) as Ht.
  destruct (linop_sb dt (torsion x) (attr x) (surj_cell r d) (surj_cell r (d - 1)) Ht Hdt HK (kpred_cell r (d - 1)) (sface_cell r d) x Wx eq_refl eq_refl Kx) as (y & E & Dy & Ky).
  exists y. split; [exact E|]. split; [eapply den_wf; eauto|]. split; [exact (proj1 Dy)|]. split; [exact (proj1 (proj2 Dy))|]. split; [exact Ky|].
  intros N. split; [|now apply (surj_degree_ok r)]. apply surj_arity_ok; auto. intros k v Hin. exact (proj1 (Ky _ _ Hin)).
Qed.
Ltac ontotac := intros ?; cbn [In]; lia.
(** #C45_example# *)
Example C45_example_l :
  let x cv t := mkElt (A := conv) [([1; 2; 1; 3; 1], 1); ([2; 1; 2; 3; 1], 1)] t cv in
  wf cls_surj (x BF 0) /\ wf cls_surj (x MS 0) /\ wf cls_surj (x OtherConv 2) /\ keys_in (surj_cell 3 2) (x MS 0) /\
  surj_boundary 0 (x BF 0) = Ok (mkElt [([1; 2; 1; 3], 1); ([2; 1; 2; 3], 1)] 0 BF) /\
  surj_boundary 0 (x MS 0) = Ok (mkElt [([2; 1; 3; 1], 2); ([1; 2; 3; 1], -2); ([1; 2; 1; 3], 1); ([2; 1; 2; 3], -1)] 0 MS) /\
  surj_boundary 0 (x OtherConv 2) = Ok (mkElt [([1; 2; 1; 3], 1); ([2; 1; 2; 3], 1)] 2 OtherConv).
Proof.
  cbn zeta. split; [apply wfb_wf; reflexivity|]. split; [apply wfb_wf; reflexivity|]. split; [apply wfb_wf; reflexivity|]. split; [|repeat split; reflexivity].
  intros ? ? [[= <- <-]|[[= <- <-]|[]]]; (split; [ontotac|reflexivity]).
Qed.
