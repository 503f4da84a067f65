(** * Surjections: orbits.  Proof library. *)
From Coq Require Import Setoid Morphisms.
From Verif Require Import PyBase Dict FreeModule Symmetric Simplicial Utils Surjection BarrattEccles Eqm Spec SpecChain SpecOperad SpecSurj FreeModuleFacts FreeModuleLaws ListFacts
  ClassFacts LinearFacts SymmetricFacts CycleFacts SymmetricLaws RingFacts RingLaws Tensor TensorAct KoszulFacts LoopFacts ActGeneric SimplicialLaws BEFacts BEOrbit SurjFacts SurjBoundary SurjLaws SurjAct.

Lemma filter_comm {B} (f h : B -> bool) l : filter f (filter h l) = filter h (filter f l).
Proof. induction l as [|a l IH]; [reflexivity|]. cbn [filter]. destruct (h a) eqn:Eh, (f a) eqn:Ef; cbn [filter]; rewrite ?Ef, ?Eh, ?IH; reflexivity. Qed.
Lemma filter_and {B} (f h : B -> bool) l : filter f (filter h l) = filter (fun a => f a && h a) l.
Proof. induction l as [|a l IH]; [reflexivity|]. cbn [filter]. destruct (h a) eqn:Eh; cbn [filter]; rewrite ?andb_true_r, ?andb_false_r, IH; reflexivity. Qed.
Lemma firsts_in k a : In a (firsts k) <-> In a k.
Proof.
  induction k as [|b k IH]; [reflexivity|]. cbn [firsts In]. rewrite filter_In, IH, negb_true_iff, Z.eqb_neq. split; [tauto|]. intros [->|Ha]; [now left|].
  destruct (Z.eq_dec b a); [now left|right; split; [exact Ha|congruence]].
Qed.
Lemma firsts_nodup k : NoDup (firsts k).
Proof.
  induction k as [|b k IH]; cbn [firsts]; constructor.
  - rewrite filter_In, negb_true_iff, Z.eqb_refl. intros [_ C]. discriminate.
  - now apply NoDup_filter.
Qed.
Lemma first_seen_firsts k : first_seen k = firsts k.
Proof.
  assert (G : forall k s, fold_left (fun seen i => if mem i seen then seen else seen ++ [i]) k s = s ++ filter (fun a => negb (mem a s)) (firsts k)).
  { clear k. induction k as [|b k IH]; intros s; cbn [fold_left firsts filter]; [now rewrite app_nil_r|]. destruct (mem b s) eqn:E; cbn [negb].
    - rewrite IH. f_equal. rewrite filter_and. apply filter_ext_in. intros a _. destruct (Z.eqb_spec a b) as [->|]; [now rewrite E|now rewrite andb_true_r].
    - rewrite IH, <- app_assoc. cbn [app]. f_equal. f_equal. rewrite filter_and. apply filter_ext_in. intros a _. rewrite mem_app. cbn [mem existsb].
      destruct (mem a s), (a =? b); reflexivity. }
  unfold first_seen. rewrite (G k []). cbn [app]. rewrite (filter_ext_in _ (fun _ => true)) by reflexivity. induction (firsts k) as [|a l IH]; [reflexivity|]. cbn. now rewrite IH.
Qed.
Lemma firsts_perm n k : onto n k -> perm n (firsts k).
Proof. intros Hk. apply NoDup_Permutation; [apply firsts_nodup|apply NoDup_zrange|]. intros a. rewrite firsts_in, in_zrange, (Hk a). lia. Qed.
Lemma firsts_map (f : Z -> Z) k : (forall a b, In a k -> In b k -> f a = f b -> a = b) -> firsts (map f k) = map f (firsts k).
Proof.
  induction k as [|b k IH]; intros H; [reflexivity|]. cbn [map firsts]. rewrite IH by (intros; apply H; cbn; auto). f_equal.
  assert (G : forall l, incl l k -> filter (fun c => negb (c =? f b)) (map f l) = map f (filter (fun c => negb (c =? b)) l)).
  { induction l as [|c l IHl]; intros Hl; [reflexivity|]. cbn [map filter]. rewrite IHl by (intros x Hx; apply Hl; now right).
    assert (Hc : In c k) by (apply Hl; now left). destruct (Z.eqb_spec c b) as [->|N]; [now rewrite Z.eqb_refl|].
    destruct (Z.eqb_spec (f c) (f b)) as [E|]; [|reflexivity]. exfalso. apply N, H; cbn; auto. }
  apply G. intros c Hc. now apply firsts_in.
Qed.
Lemma firsts_id n k : 0 <= n -> onto n k -> firsts (map (image (pinv (firsts k))) k) = zrange 1 (n + 1).
Proof.
  intros Hn Hk. pose proof (firsts_perm n k Hk) as Hf. rewrite firsts_map.
  - exact (pinv_l n (firsts k) Hn Hf).
  - intros a b Ha Hb E. apply (image_inj n (pinv (firsts k))); auto; [now apply perm_pinv|now apply Hk|now apply Hk].
Qed.

Definition DorbS (cv : conv) (r : repr) (g : list Z -> Z) (k : list Z) : Z :=
  chi r (firsts k) * (asg cv (pinv (firsts k)) k * g (map (image (pinv (firsts k))) k)).
Definition sorb (n : Z) (k : list Z) : Prop := onto n k /\ firsts k = zrange 1 (n + 1).
Lemma kpred_sorb n : kpred (sorb n).
Proof. apply kpred_eq. intros k. unfold sorb. destruct (onto_dec n k); [|tauto]. destruct (list_eq_dec Z.eq_dec (firsts k) (zrange 1 (n + 1))); tauto. Qed.
Lemma sorb_onto n k : sorb n k -> onto n k. Proof. now intros [H _]. Qed.
Lemma sorb_move n k : 0 <= n -> onto n k -> sorb n (map (image (pinv (firsts k))) k).
Proof. intros Hn Hk. split; [apply onto_move; auto; apply perm_pinv; auto; now apply firsts_perm|now apply firsts_id]. Qed.
Lemma rep_DorbS cv r n : 0 <= n -> rep (onto n) (sorb n) (DorbS cv r).
Proof.
  intros Hn k Hk. exists [(map (image (pinv (firsts k))) k, chi r (firsts k) * asg cv (pinv (firsts k)) k)]. split.
  - intros k' v [[= <- <-]|[]]. now apply sorb_move.
  - intros g. rewrite ev_cons, ev_nil. unfold DorbS. ring.
Qed.
Lemma adm_DorbS cv r n : 1 <= n -> admop cls_surj cls_surj (onto n) (sorb n) (DorbS cv r).
Proof.
  intros Hn g Hg. assert (Hn0 : 0 <= n) by lia. apply admP_keyeq. intros k Hk Hb. unfold DorbS.
  assert (E : g (map (image (pinv (firsts k))) k) = 0); [|rewrite E; ring]. apply Hg; [now apply sorb_move|].
  cbn [bad cls_surj] in *. rewrite (surj_bad_onto n) in Hb by assumption. injection Hb as Hb. pose proof (firsts_perm n k Hk) as Hf.
  rewrite (surj_bad_onto n) by (auto; apply onto_move; auto; now apply perm_pinv). rewrite (adj_map n); auto; [now rewrite Hb|now apply perm_pinv|]. intros a Ha. now apply Hk.
Qed.
Lemma DorbS_move cv r n g p k : 0 <= n -> perm n p -> onto n k -> DorbS cv r g (map (image p) k) = chi r p * (asg cv p k * DorbS cv r g k).
Proof.
  intros Hn Hp Hk. pose proof (firsts_perm n k Hk) as Hf. unfold DorbS.
  assert (E1 : firsts (map (image p) k) = pmul p (firsts k)).
  { apply firsts_map. intros a b Ha Hb E. apply (image_inj n p); auto; now apply Hk. }
  rewrite E1. rewrite (chi_pmul r n) by auto. rewrite (perm_pinv_pmul n) by auto. set (q := pinv (firsts k)).
  assert (Hq : perm n q) by now apply perm_pinv. assert (Hpi : perm n (pinv p)) by now apply perm_pinv.
  assert (Hpk : onto n (map (image p) k)) by now apply onto_move.
  rewrite (map_move n q (pinv p)) by auto. rewrite (asg_mul n cv q (pinv p)) by auto.
  assert (E2 : map (image (pinv p)) (map (image p) k) = k).
  { rewrite <- (map_move n) by auto. rewrite (pinv_l n) by auto. rewrite <- (map_id k) at 2. apply map_ext_in. intros a Ha. apply image_zrange. now apply Hk. }
  rewrite E2. unfold asg at 1. rewrite E2. unfold asg at 2. ring.
Qed.
Lemma asg_id cv n k : onto n k -> asg cv (zrange 1 (n + 1)) k = 1.
Proof.
  intros Hk. unfold asg. replace (map (image (zrange 1 (n + 1))) k) with k; [apply tw_sq|].
  rewrite <- (map_id k) at 1. apply map_ext_in. intros a Ha. symmetry. apply image_zrange. now apply Hk.
Qed.

Lemma sorbit_den dt cv r n t (x : surj) : cv = BF \/ cv = MS -> r <> OtherRep -> 1 <= n -> 0 <= t -> dt_ok dt t -> wf cls_surj x -> torsion x = t -> attr x = cv -> keys_in (onto n) x ->
  returns (surj_orbit dt x r) (den cls_surj t cv (fun g => ev (DorbS cv r g) (data x))).
Proof.
  intros Hcv Nr Hn Ht Hdt Wx Tx Ax Kx. assert (Hn0 : 0 <= n) by lia. unfold surj_orbit.
  eapply returns_bind; [apply (zero_den cls_surj ok_surj dt t); auto|]. intros ans Hans. rewrite Ax in Hans.
  eapply returns_mono.
  - apply (loop_den cls_surj ok_surj t cv (data x) _ (fun k g => DorbS cv r g k)); [|exact Hans].
    intros k v F y Hin Hy. pose proof (Kx _ _ Hin) as Hk. pose proof (proj2 (proj2 Wx) _ _ Hin) as [Hv Hb].
    assert (N1 : t <> 1).
    { intros ->. destruct Hv as [Hv1 Hv2]. rewrite Tx in Hv2. lia. }
    assert (Nv : ~ eqm t v 0).
    { intros C. destruct Hv as [Hv1 Hv2]. rewrite Tx in Hv2. destruct (Z.eq_dec t 0) as [->|Nt]; [apply eqm_0 in C; lia|]. apply eqm_small in C; lia. }
    pose proof (firsts_perm n k Hk) as Hf. rewrite first_seen_firsts. set (q := pinv (firsts k)). assert (Hq : perm n q) by now apply perm_pinv.
    rewrite (sg_inverse_ok n) by auto. fold q. cbn [bind].
    assert (Es : match r with Trivial => Ok 1 | SignRep => sg_sign q | OtherRep => Err TypeError end = Ok (chi r (firsts k))).
    { destruct r; [reflexivity| |congruence]. cbn [chi]. rewrite (sg_sign_ok n) by auto. f_equal. exact (chi_pinv SignRep n (firsts k) Hn0 Hf). }
    rewrite Es. cbn [bind]. set (s := chi r (firsts k)). assert (Ss : s * s = 1) by apply chi_sq.
    eapply returns_bind.
    { apply (create_den cls_surj ok_surj dt t x [(k, s * v)]); auto.
      - cbn. split; [intros ? []|exact I].
      - intros k1 [<-|[]]. apply surj_okey. now apply (onto_ne n). }
    intros e De. rewrite Ax in De.
    assert (Ke : keys_in (onto n) e).
    { eapply (den_keys cls_surj ok_surj t cv _ e (onto n) Ht (kpred_onto n) De). intros g _ Hg. apply eqm_eq. apply ev_zero. intros k1 v1 [[= <- <-]|[]]. now apply Hg. }
    assert (Ne : data e <> []).
    { apply (den_nonzero cls_surj t cv _ e (ind k) De); [now apply (adm_ind cls_surj ok_surj)|]. intros C. apply Nv. rewrite ev_cons, ev_nil in C.
      unfold ind in C. rewrite (keqb_refl k) in C. rewrite Z.mul_1_r, Z.add_0_r in C. transitivity (s * (s * v)); [apply eqm_eq; rewrite Z.mul_assoc, Ss; ring|]. rewrite C. apply eqm_eq. ring. }
    unfold group_mul_surj. replace (torsion e) with t by (symmetry; exact (proj1 De)).
    rewrite (new_basis dt (Some t) t) by auto. cbn [bind].
    eapply returns_bind.
    { apply (sact_den dt cv Hcv n t (mkElt [(SGE q, 1)] t tt) e Hn Ht Hdt); auto.
      - now apply wf_basis.
      - exact (den_wf _ _ _ _ _ Ht De).
      - exact (proj1 De).
      - exact (proj1 (proj2 De)).
      - intros k1 v1 [[= <- <-]|[]]. exact Hq.
      - discriminate. }
    intros w Dw. eapply returns_mono; [exact (iadd_den cls_surj t cv cv _ _ y w Ht Hy Dw)|]. intros z Hz. eapply den_ext; [|exact Hz]. intros g Hg. cbn beta.
    match goal with |- eqm t (?A + ?B) (?A' + ?B') => assert (EB : eqm t B B'); [|now rewrite EB] end.
    cbn [data]. rewrite ev_cons, ev_nil, Z.mul_1_l, Z.add_0_r.
    set (G' := fun k1 => PactS cv g (SGE q) k1).
    assert (HG' : admP cls_surj (onto n) G').
    { apply (proj2 (adm_sact cv n Hn g (adm_admP cls_surj _ g Hg)) (SGE q)); [exact Hq|reflexivity]. }
    assert (EG : eqm t (ev G' (data e)) (ev G' [(k, s * v)])).
    { apply (den_ev_on cls_surj ok_surj t cv _ e (onto n) G' [k] (kpred_onto n) De Ke HG'). intros h Hh. rewrite !ev_cons, !ev_nil.
      rewrite Hh; [reflexivity|exact Hk|now left]. }
    rewrite EG, ev_cons, ev_nil. unfold G', PactS, DorbS. cbn [kval SGE]. fold q s. apply eqm_eq. ring.
  - intros z Hz. eapply den_ext; [|exact Hz]. intros g _. cbn beta. apply eqm_eq. change (0 + ev (DorbS cv r g) (data x) = ev (DorbS cv r g) (data x)). ring.
Qed.
Lemma linop_sorbit dt cv r n t : cv = BF \/ cv = MS -> r <> OtherRep -> 1 <= n -> 0 <= t -> dt_ok dt t -> linop cls_surj cls_surj t cv cv (onto n) (sorb n) (DorbS cv r) (fun x => surj_orbit dt x r).
Proof.
  intros Hcv Nr Hn Ht Hdt. assert (Hn0 : 0 <= n) by lia. apply (linop_intro cls_surj cls_surj ok_surj); auto using kpred_sorb.
  - apply rep_local. now apply rep_DorbS.
  - apply (rep_zero _ _ _ (rep_DorbS cv r n Hn0)).
  - intros x Wx Tx Ax Kx. now apply (sorbit_den dt cv r n).
Qed.
