(** * Property theorems: the two complexes are acyclic and free (the package's
    claim that they are models of the E-infinity operad). *)
From Coq Require Import Setoid Morphisms.
From Verif Require Import PyBase Dict FreeModule Symmetric Simplicial Utils Surjection BarrattEccles Eqm Spec SpecChain SpecOperad SpecSurj FreeModuleFacts FreeModuleLaws ListFacts
  ClassFacts LinearFacts SymmetricFacts CycleFacts SymmetricLaws RingFacts RingLaws Tensor TensorAct KoszulFacts LoopFacts ActGeneric SimplicialLaws BEFacts BEOrbit BELaws BEDiag MayFacts BELaws3
  SurjFacts SurjBoundary SurjLaws SurjAct SurjMay AcyclicFacts.

Lemma total_zsum {K A} (x : elt K A) : total x = zsum (map snd (data x)).
Proof. unfold total, ev, sumf. f_equal. apply map_ext. intros [k v]. cbn [fst snd]. ring. Qed.

(** #C69_barratt_eccles# Every cycle of positive degree is a boundary. *)
Lemma C69_barratt_eccles_l (dt n d : Z) (x : bee) : 0 <= n -> 1 <= d -> wf cls_be x -> dt_ok dt (torsion x) -> keys_in (be_cell n d) x ->
  (exists z, be_boundary dt x = Ok z /\ is_zero z) ->
  exists y, wf cls_be y /\ torsion y = torsion x /\ keys_in (be_cell n (d + 1)) y /\ same (be_boundary dt y) (Ok x).
Proof. intros. now apply be_cycle_bounds. Qed.
(** #C69_barratt_eccles_zero# An element of degree 0 is a boundary if and only if the sum of its coefficients is 0 modulo the torsion. *)
Lemma C69_barratt_eccles_zero_l (dt n : Z) (x : bee) : 0 <= n -> wf cls_be x -> dt_ok dt (torsion x) -> keys_in (be_cell n 0) x ->
  (exists y, wf cls_be y /\ torsion y = torsion x /\ keys_in (be_cell n 1) y /\ same (be_boundary dt y) (Ok x)) <->
  (torsion x | zsum (map snd (data x))).
Proof. intros. rewrite <- total_zsum. now apply be_zero_bounds. Qed.
(** #C69_surjection# *)
Lemma C69_surjection_l (dt n d : Z) (x : surj) : 1 <= n -> 1 <= d -> wf cls_surj x -> dt_ok dt (torsion x) -> attr x = BF \/ attr x = MS \/ torsion x = 2 -> keys_in (surj_cell n d) x ->
  (exists z, surj_boundary dt x = Ok z /\ is_zero z) ->
  exists y, wf cls_surj y /\ torsion y = torsion x /\ attr y = attr x /\ keys_in (surj_cell n (d + 1)) y /\ same (surj_boundary dt y) (Ok x).
Proof. intros. now apply surj_cycle_bounds. Qed.
(** #C69_surjection_zero# *)
Lemma C69_surjection_zero_l (dt n : Z) (x : surj) : 1 <= n -> wf cls_surj x -> dt_ok dt (torsion x) -> attr x = BF \/ attr x = MS \/ torsion x = 2 -> keys_in (surj_cell n 0) x ->
  (exists y, wf cls_surj y /\ torsion y = torsion x /\ attr y = attr x /\ keys_in (surj_cell n 1) y /\ same (surj_boundary dt y) (Ok x)) <->
  (torsion x | zsum (map snd (data x))).
Proof. intros. rewrite <- total_zsum. now apply surj_zero_bounds. Qed.
(** #C69_example# A cycle of degree 1 that is not obviously a boundary, and an element of degree 0 that bounds modulo 3 only. *)
Example C69_example_l :
  let x : surj := mkElt [([1; 2; 1; 3], 1); ([2; 1; 2; 3], 1)] 0 BF in
  let u : surj := mkElt [([2; 1], 1); ([1; 2], 2)] 3 MS in
  let b : bee := mkElt [([[1; 2]; [2; 1]], 1); ([[2; 1]; [1; 2]], 1)] 0 tt in
  (wf cls_surj x /\ keys_in (surj_cell 3 1) x /\ exists z, surj_boundary 0 x = Ok z /\ is_zero z) /\
  (wf cls_surj u /\ keys_in (surj_cell 2 0) u /\ (torsion u | zsum (map snd (data u)))) /\
  (wf cls_be b /\ keys_in (be_cell 2 1) b /\ exists z, be_boundary 0 b = Ok z /\ is_zero z).
Proof.
  cbn zeta. split; [|split].
  - split; [apply wfb_wf; reflexivity|]. split; [|exists (mkElt [] 0 BF); split; [vm_compute; reflexivity|reflexivity]].
    intros k v [[= <- <-]|[[= <- <-]|[]]]; (split; [|reflexivity]); intros j; cbn [In]; lia.
  - split; [apply wfb_wf; reflexivity|]. split; [|now exists 1].
    intros k v [[= <- <-]|[[= <- <-]|[]]]; (split; [|reflexivity]); intros j; cbn [In]; lia.
  - split; [apply wfb_wf; reflexivity|]. split; [|exists (mkElt [] 0 tt); split; [vm_compute; reflexivity|reflexivity]].
    intros k v [[= <- <-]|[[= <- <-]|[]]]; (split; [|reflexivity]); intros p Hp; cbn in Hp; decompose [or] Hp; subst; try tauto; permtac.
Qed.

(** ** freeness *)
Section Free.
Context {K A : Type} `{KO : KeyOk K} `{KEq : KeyEq K}.
Variable c : pycls K.
Hypothesis Hc : cls_ok c.
Variables (t n : Z) (at_ : A) (k : K) (s : list Z -> Z) (mv : list Z -> K).
Hypothesis (Ht : 0 <= t) (Hn : 0 <= n).
Hypothesis mv_inj : forall p q, perm n p -> perm n q -> mv p = mv q -> p = q.
Hypothesis mv_ok : forall p, perm n p -> bad c (mv p) = Ok false.
Hypothesis s_sq : forall p, perm n p -> s p * s p = 1.
Definition Fa (a : ring) (g : K -> Z) : Z := ev (fun k2 => s (kval k2) * g (mv (kval k2))) (data a).
Lemma Fa_ind a p : keys_in (pk n) a -> wf cls_ring a -> perm n p -> Fa a (ind (mv p)) = s p * dget (data a) (SGE p).
Proof.
  intros Ka Wa Hp. rewrite <- dget_ind by apply Wa. unfold Fa. rewrite <- ev_scal. apply ev_ext. intros k2 v Hin. unfold ind.
  change (keqb k2 (SGE p)) with (tup_eqb (kval k2) p). pose proof (Ka _ _ Hin) as Hk2.
  destruct (keqb (mv (kval k2)) (mv p)) eqn:E.
  - apply keqb_eq in E. apply mv_inj in E; auto. rewrite E, (proj2 (tup_eqb_eq p p) eq_refl). ring.
  - destruct (tup_eqb (kval k2) p) eqn:E'; [|ring]. apply tup_eqb_eq in E'. rewrite E', keqb_refl in E. discriminate.
Qed.
Lemma free_eq (a b : ring) (ra rb : res (elt K A)) : wf cls_ring a -> wf cls_ring b -> torsion a = t -> torsion b = t -> keys_in (pk n) a -> keys_in (pk n) b ->
  returns ra (den c t at_ (Fa a)) -> returns rb (den c t at_ (Fa b)) -> same ra rb -> elt_eqb a b = true.
Proof.
  intros Wa Wb Ta Tb Ka Kb (ya & Ea & Da) (yb & Eb & Db) (u & v & Eu & Ev & E & _).
  rewrite Ea in Eu. rewrite Eb in Ev. injection Eu as <-. injection Ev as <-.
  apply dict_eqb_dget. intros k0.
  assert (G : forall p, perm n p -> dget (data a) (SGE p) = dget (data b) (SGE p)).
  { intros p Hp. assert (Hadm : adm c (ind (mv p))) by (apply (adm_ind c Hc); auto).
    assert (E1 : eqm t (Fa a (ind (mv p))) (Fa b (ind (mv p)))).
    { rewrite <- (proj2 (proj2 (proj2 Da))) by exact Hadm. rewrite <- (proj2 (proj2 (proj2 Db))) by exact Hadm. apply eqm_eq. apply dict_eqb_ev; [apply Hadm|apply Da|apply Db|exact E]. }
    rewrite !Fa_ind in E1 by assumption.
    assert (E2 : eqm t (dget (data a) (SGE p)) (dget (data b) (SGE p))).
    { destruct E1 as [q E1]. exists (s p * q). pose proof (s_sq p Hp) as Es. transitivity ((s p * s p) * (dget (data a) (SGE p) - dget (data b) (SGE p))); [rewrite Es; ring|].
      transitivity (s p * (s p * dget (data a) (SGE p) - s p * dget (data b) (SGE p))); [ring|]. rewrite E1. ring. }
    destruct (Z.eq_dec t 0) as [->|Nt]; [now apply eqm_0 in E2|].
    destruct Wa as [_ Wa]. destruct Wb as [_ Wb]. rewrite Ta in Wa. rewrite Tb in Wb.
    apply (eqm_small t); [lia|apply (dget_range cls_ring); [lia|exact Wa]|apply (dget_range cls_ring); [lia|exact Wb]|exact E2]. }
  destruct (existsb (fun k' => keqb k' k0) (dkeys (data a) ++ dkeys (data b))) eqn:Ex.
  - apply existsb_exists in Ex. destruct Ex as (k' & Hin & Ek). rewrite <- !(dget_cong _ _ _ Ek).
    assert (Hp : perm n (kval k')).
    { apply in_app_or in Hin. unfold dkeys in Hin. destruct Hin as [Hin|Hin]; apply in_map_iff in Hin; destruct Hin as ([k1 v1] & <- & Hin); [exact (Ka _ _ Hin)|exact (Kb _ _ Hin)]. }
    assert (Ek' : keqb k' (SGE (kval k')) = true) by (cbn; apply tup_eqb_eq; reflexivity).
    rewrite !(dget_cong _ _ _ Ek'). now apply G.
  - assert (Hnk : forall k', In k' (dkeys (data a) ++ dkeys (data b)) -> keqb k' k0 = false).
    { intros k' Hin. destruct (keqb k' k0) eqn:E'; [|reflexivity]. assert (existsb (fun k' => keqb k' k0) (dkeys (data a) ++ dkeys (data b)) = true); [|congruence]. apply existsb_exists. eauto. }
    rewrite !dget_notin; [reflexivity| |]; intros k' Hin; apply Hnk, in_or_app; auto.
Qed.
End Free.
Lemma map_image_inj2 n p q k : 0 <= n -> perm n p -> perm n q -> onto n k -> map (image p) k = map (image q) k -> p = q.
Proof.
  intros Hn Hp Hq Hk E. rewrite <- (map_image_id n p) by assumption. rewrite <- (map_image_id n q) by assumption. apply map_ext_in. intros j Hj. apply in_zrange in Hj.
  assert (Hj' : In j k) by (apply Hk; lia). clear -E Hj'. induction k as [|a k IH]; [destruct Hj'|]. cbn [map] in E. injection E as E1 E2. destruct Hj' as [<-|Hj']; auto.
Qed.
(** #C70_surjection# The action of the group ring on a basis element is injective: the complexes are free over the group ring. *)
Lemma C70_surjection_l (dt n : Z) (a b : ring) (x : surj) (k : list Z) :
  1 <= n -> wf cls_ring a -> wf cls_ring b -> wf cls_surj x -> torsion a = torsion x -> torsion b = torsion x -> dt_ok dt (torsion x) -> attr x = BF \/ attr x = MS ->
  keys_in (fun k => perm n (kval k)) a -> keys_in (fun k => perm n (kval k)) b -> onto n k -> data x = [(k, 1)] ->
  same (extended dt cls_surj (surj_act dt) a x) (extended dt cls_surj (surj_act dt) b x) -> elt_eqb a b = true.
Proof.
  intros Hn Wa Wb Wx Ta Tb Hdt Hcv Ka Kb Hk Ex E. pose proof (proj1 Wx) as Ht.
  assert (Kx : keys_in (onto n) x) by (intros k' v; rewrite Ex; intros [[= <- <-]|[]]; exact Hk).
  assert (Bk : bad cls_surj k = Ok false) by (apply (proj2 (proj2 Wx) k 1); rewrite Ex; now left).
  assert (H : forall o : ring, wf cls_ring o -> torsion o = torsion x -> keys_in (pk n) o -> returns (extended dt cls_surj (surj_act dt) o x) (den cls_surj (torsion x) (attr x) (Fa (fun p => asg (attr x) p k) (fun p => map (image p) k) o))).
  { intros o Wo To Ko. eapply returns_mono; [apply (bil_sact dt (attr x) Hcv n (torsion x) Hn Ht Hdt o x); auto; apply ring_attr0|].
    intros y Dy. eapply den_ext; [|exact Dy]. intros g _. cbn beta. apply eqm_eq. unfold Fa, DBL. apply ev_ext_all. intros k2. rewrite Ex, ev_cons, ev_nil. unfold PactS. ring. }
  refine (free_eq cls_surj ok_surj (torsion x) n (attr x) (fun p => asg (attr x) p k) (fun p => map (image p) k) Ht _ _ _ a b _ _ Wa Wb Ta Tb Ka Kb (H a Wa Ta Ka) (H b Wb Tb Kb) E).
  - intros p q Hp Hq. apply (map_image_inj2 n); auto; lia.
  - intros p Hp. change (bad cls_surj (map (image p) k)) with (surj_bad (map (image p) k)). change (bad cls_surj k) with (surj_bad k) in Bk.
    rewrite (surj_bad_onto n) by (try lia; try assumption; apply onto_move; auto; lia). rewrite (surj_bad_onto n) in Bk by (try lia; assumption). rewrite <- Bk. f_equal.
    apply (SurjAct.adj_map n); auto; [lia|]. intros j Hj. now apply Hk.
  - intros p Hp. apply asg_sq.
Qed.
(** #C70_barratt_eccles# *)
Lemma C70_barratt_eccles_l (dt n : Z) (a b : ring) (x : bee) (k : list (list Z)) :
  1 <= n -> wf cls_ring a -> wf cls_ring b -> wf cls_be x -> torsion a = torsion x -> torsion b = torsion x -> dt_ok dt (torsion x) ->
  keys_in (fun k => is_sge k = true /\ perm n (kval k)) a -> keys_in (fun k => is_sge k = true /\ perm n (kval k)) b -> be_simplex n k -> data x = [(k, 1)] ->
  same (extended dt cls_be (be_act dt) a x) (extended dt cls_be (be_act dt) b x) -> elt_eqb a b = true.
Proof.
  intros Hn Wa Wb Wx Ta Tb Hdt Ka Kb Hk Ex. pose proof (proj1 Wx) as Ht.
  assert (Kx : keys_in (be_simplex n) x) by (intros k' v; unfold bee, bkey in *; rewrite Ex; intros [[= <- <-]|[]]; exact Hk).
  assert (Bk : bad cls_be k = Ok false) by (apply (proj2 (proj2 Wx) k 1); rewrite Ex; now left).
  rewrite !be_act0_bact0 by (eapply rpk_sge; eassumption). intros E. apply rpk_pk in Ka, Kb.
  assert (H : forall o : ring, wf cls_ring o -> torsion o = torsion x -> keys_in (pk n) o -> returns (extended dt cls_be (bact dt) o x) (den cls_be (torsion x) tt (Fa (fun _ => 1) (fun p => map (pmul p) k) o))).
  { intros o Wo To Ko. eapply returns_mono; [apply (bil_bact dt n (torsion x) Hn Ht Hdt o x); auto; first [apply be_attr|apply ring_attr0]|].
    intros y Dy. eapply den_ext; [|exact Dy]. intros g _. cbn beta. apply eqm_eq. unfold Fa, DBL. apply ev_ext_all. intros k2. rewrite Ex, ev_cons, ev_nil. unfold PactB. ring. }
  destruct k as [|p0 k]; [rewrite be_bad in Bk; discriminate|]. assert (Hp0 : perm n p0) by (apply Hk; now left).
  refine (free_eq cls_be ok_be (torsion x) n tt (fun _ => 1) (fun p => map (pmul p) (p0 :: k)) Ht _ _ _ a b _ _ Wa Wb Ta Tb Ka Kb (H a Wa Ta Ka) (H b Wb Tb Kb) E).
  - intros p q Hp Hq E0. cbn [map] in E0. injection E0 as E0 _. rewrite <- (pmul_id_r n p), <- (pmul_id_r n q), <- (pinv_r n p0) by (try lia; assumption).
    rewrite <- !(pmul_assoc n) by (auto; apply perm_pinv; auto; lia). now rewrite E0.
  - intros p Hp. rewrite be_bad in *. rewrite <- Bk. cbn [map] in *. f_equal. change (bdup (map (pmul p) (p0 :: k)) = bdup (p0 :: k)). apply (bdup_map n); auto; lia.
  - reflexivity.
Qed.
(** #C70_example# The hypotheses are met by the basis element (1,2,1,3) and the element 2*(2,3,1) - (1,2,3); acting gives two terms. *)
Example C70_example_l :
  let x : surj := mkElt [([1; 2; 1; 3], 1)] 0 BF in
  let a : ring := mkElt [(SGE [2; 3; 1], 2); (SGE [1; 2; 3], -1)] 0 tt in
  let b : bee := mkElt [([[1; 2; 3]; [1; 3; 2]], 1)] 0 tt in
  wf cls_surj x /\ wf cls_be b /\ wf cls_ring a /\ keys_in (fun k => is_sge k = true /\ perm 3 (kval k)) a /\ onto 3 [1; 2; 1; 3] /\ be_simplex 3 [[1; 2; 3]; [1; 3; 2]] /\
  surj_act 0 a x = Ok (mkElt [([2; 3; 2; 1], 2); ([1; 2; 1; 3], -1)] 0 BF) /\
  be_act 0 a b = Ok (mkElt [([[2; 3; 1]; [2; 1; 3]], 2); ([[1; 2; 3]; [1; 3; 2]], -1)] 0 tt).
Proof.
  cbn zeta. split; [apply wfb_wf; reflexivity|]. split; [apply wfb_wf; reflexivity|]. split; [apply wfb_wf; reflexivity|]. split; [|split; [|split; [|split; vm_compute; reflexivity]]].
  - intros k v [[= <- <-]|[[= <- <-]|[]]]; (split; [reflexivity|]); cbn [kval SGE]; permtac.
  - intros j. cbn [In]. lia.
  - intros p [<-|[<-|[]]]; permtac.
Qed.
