(** * Barratt-Eccles: boundary and action.  Proof library. *)
From Coq Require Import Setoid Morphisms.
From Verif Require Import PyBase Dict FreeModule Symmetric Simplicial Utils Surjection BarrattEccles Eqm Spec SpecOperad FreeModuleFacts FreeModuleLaws ListFacts
  ClassFacts LinearFacts SymmetricFacts CycleFacts SymmetricLaws RingFacts TensorAct LoopFacts ActGeneric.

(** ** faces *)
Definition fbB (s : bkey) : dict bkey := map (fun '(l1, a, l2) => (l1 ++ l2, sgn (zlen l1))) (splits s).
Definition fdB (g : bkey -> Z) (s : bkey) : Z := ev g (fbB s).
Lemma fdB_nil g : fdB g [] = 0. Proof. reflexivity. Qed.
Lemma fdB_cons g v w : fdB g (v :: w) = g w - fdB (fun u => g (v :: u)) w.
Proof.
  unfold fdB, fbB. rewrite splits_cons. cbn [map]. rewrite ev_cons, zlen_nil, sgn_0. cbn [app]. rewrite map_map.
  unfold ev. rewrite !sumf_map. rewrite <- Z.add_opp_r, <- sumf_opp. f_equal; [ring|]. apply sumf_ext. intros [[l1 a] l2] _. cbn [fst snd app].
  rewrite zlen_cons, sgn_S. ring.
Qed.
Lemma fdB_ext g h s : (forall u, g u = h u) -> fdB g s = fdB h s. Proof. intros. apply ev_ext_all. auto. Qed.
Lemma fdB_add g h s : fdB (fun u => g u + h u) s = fdB g s + fdB h s. Proof. apply ev_add. Qed.
Lemma fdB_scal n g s : fdB (fun u => n * g u) s = n * fdB g s.
Proof. unfold fdB, ev. rewrite <- sumf_scal. apply sumf_ext. intros; ring. Qed.
Lemma fdB_sub g h s : fdB (fun u => g u - h u) s = fdB g s - fdB h s.
Proof. rewrite (fdB_ext _ (fun u => g u + (-1) * h u)) by (intros; ring). rewrite fdB_add, fdB_scal. ring. Qed.
Lemma fdB_0 s : fdB (fun _ => 0) s = 0.
Proof. now apply ev_zero. Qed.
Lemma fdB_fdB g s : fdB (fdB g) s = 0.
Proof.
  revert g. induction s as [|v w IH]; intros g; [reflexivity|]. rewrite fdB_cons.
  rewrite (fdB_ext (fun u => fdB g (v :: u)) (fun u => g u - fdB (fun u' => g (v :: u')) u)) by (intros; apply fdB_cons).
  rewrite fdB_sub, IH. ring.
Qed.
Lemma in_fbB s s' v : In (s', v) (fbB s) -> exists l1 p l2, s = l1 ++ p :: l2 /\ s' = l1 ++ l2.
Proof. unfold fbB. rewrite in_map_iff. intros ([[l1 a] l2] & [= <- <-] & Hin). apply splits_in in Hin. eauto. Qed.

(** ** degenerate keys *)
Definition bdup (k : bkey) : bool := existsb (fun p => tup_eqb (fst p) (snd p)) (pairwise k).
Definition bbad (k : bkey) : bool := match k with [] => true | _ => bdup k end.
Lemma be_bad k : bad cls_be k = Ok (bbad k).
Proof. cbn. f_equal. now destruct k. Qed.
Lemma be_okey k : okey cls_be k. Proof. eexists. apply be_bad. Qed.
Lemma be_ckey k : ckey cls_be k = k. Proof. reflexivity. Qed.
Lemma bdup_cons2 v w s : bdup (v :: w :: s) = tup_eqb v w || bdup (w :: s).
Proof. unfold bdup. rewrite pairwise_cons. reflexivity. Qed.
Lemma bdup_tl v s : bdup s = true -> bdup (v :: s) = true.
Proof. destruct s as [|w s]; [discriminate|]. rewrite bdup_cons2. intros ->. apply orb_true_r. Qed.
Lemma bdup_bad s : bdup s = true -> bbad s = true.
Proof. now destruct s. Qed.
Lemma tup_refl v : tup_eqb v v = true. Proof. now apply tup_eqb_eq. Qed.
Lemma bdup_repeats s : bdup s = true <-> repeats s.
Proof.
  induction s as [|v s IH].
  - split; [discriminate|]. intros (l1 & p & l2 & E). now destruct l1.
  - destruct s as [|w s].
    + split; [discriminate|]. intros (l1 & p & l2 & E). destruct l1 as [|? [|? ?]]; discriminate.
    + rewrite bdup_cons2, orb_true_iff, tup_eqb_eq, IH. split.
      * intros [->|(l1 & p & l2 & ->)]; [exists [], w, s; reflexivity|exists (v :: l1), p, l2; reflexivity].
      * intros (l1 & p & l2 & E). destruct l1 as [|v' l1]; cbn in E; injection E; intros.
        -- left. congruence.
        -- right. exists l1, p, l2. assumption.
Qed.
Lemma fdB_dup_on g s : bdup s = true -> (forall k' v, In (k', v) (fbB s) -> bdup k' = true -> g k' = 0) -> fdB g s = 0.
Proof.
  revert g. induction s as [|v w IH]; intros g Hs Hg; [discriminate|]. destruct w as [|v' w]; [discriminate|].
  assert (G1 : bdup (v' :: w) = true -> g (v' :: w) = 0).
  { intros Hd. apply (Hg _ 1); [|exact Hd]. unfold fbB. rewrite splits_cons. left. reflexivity. }
  assert (G2 : forall k' c, In (k', c) (fbB (v' :: w)) -> bdup (v :: k') = true -> g (v :: k') = 0).
  { intros k' c Hin Hd. apply (Hg _ (- c)); [|exact Hd]. unfold fbB in *. rewrite splits_cons. right. rewrite map_map.
    apply in_map_iff in Hin. destruct Hin as ([[l1 a] l2] & [= <- <-] & Hin). apply in_map_iff. exists ((l1, a), l2). split; [|exact Hin].
    cbn. f_equal. rewrite zlen_cons, sgn_S. ring. }
  clear Hg. rewrite bdup_cons2 in Hs. destruct (bdup (v' :: w)) eqn:E.
  - rewrite fdB_cons, G1, IH; [ring|reflexivity| |reflexivity]. intros k' c Hin Hd. apply (G2 _ _ Hin). now apply bdup_tl.
  - rewrite orb_false_r in Hs. apply tup_eqb_eq in Hs. subst v'. rewrite !fdB_cons.
    assert (Z0 : fdB (fun u => g (v :: v :: u)) w = 0).
    { apply ev_zero. intros u c Hin. eapply (G2 _ (- c)); [|rewrite bdup_cons2, tup_refl; reflexivity].
      unfold fbB in *. rewrite splits_cons. right. rewrite map_map.
      apply in_map_iff in Hin. destruct Hin as ([[l1 a] l2] & [= <- <-] & Hin). apply in_map_iff. exists ((l1, a), l2). split; [|exact Hin].
      cbn. f_equal. rewrite zlen_cons, sgn_S. ring. }
    rewrite Z0. ring.
Qed.
Lemma fdB_bad g s : (forall u, bbad u = true -> g u = 0) -> bbad s = true -> fdB g s = 0.
Proof.
  intros Hg Hs. destruct s as [|v s]; [reflexivity|]. apply fdB_dup_on; [exact Hs|]. intros u ? _ Hu. apply Hg. now apply bdup_bad.
Qed.

(** ** boundary *)
Lemma final_pref {K A} `{KO : KeyOk K} (c : pycls K) (Hc : cls_ok c) t (a : A) F y : 0 <= t -> (forall k, okey c k) -> den c t a F y ->
  returns (let! d := pref c (torsion y) (data y) in Ok (mkElt d (torsion y) (attr y))) (den c t a F).
Proof.
  intros Ht Hok Hy. pose proof Hy as (H1 & H2 & H3 & H4). rewrite pref_ok by (intros; apply Hok). cbn [bind].
  rewrite H1. rewrite (prefd_id c t (data y)) by assumption. apply returns_ok. split; [reflexivity|]. split; [exact H2|]. split; [exact H3|exact H4].
Qed.
Lemma be_attr (x : bee) : attr x = tt. Proof. now destruct (attr x). Qed.
Section BE.
Variable dt : Z.

Lemma be_boundary_den t (x : bee) : 0 <= t -> dt_ok dt t -> wf cls_be x -> torsion x = t ->
  returns (be_boundary dt x) (den cls_be t tt (fun g => ev (fdB g) (data x))).
Proof.
  intros Ht Hdt Wx Tx. unfold be_boundary.
  eapply returns_bind; [apply (zero_den cls_be ok_be dt t); auto|]. intros y0 Hy0. rewrite be_attr in Hy0.
  eapply returns_bind.
  - apply (loop_den cls_be ok_be t tt (data x) _ (fun k g => fdB g k)); [|exact Hy0].
    intros k v F y Hin Hy. eapply returns_mono.
    + apply (for_range_den cls_be t tt [] k _ (fun m1 _ m2 g => v * (sgn (zlen m1) * g (m1 ++ m2)))); [reflexivity| |exact Hy].
      intros m1 b m2 F2 y2 -> Hy2. rewrite slice_to_app, slice_from_app_S.
      eapply returns_mono; [eapply (add_term_den cls_be ok_be dt t); eauto; [exact (proj1 Hy2)|apply be_okey]|].
      intros z Hz. eapply den_ext; [|exact Hz]. intros g _. cbn beta. apply eqm_eq. rewrite sgn_mod2. ring.
    + intros z Hz. eapply den_ext; [|exact Hz]. intros g _. cbn beta. apply eqm_eq. f_equal. unfold fdB, fbB, ev. rewrite sumf_map, <- sumf_scal.
      apply sumf_ext. intros [[l1 s] l2] _. cbn. ring.
  - intros y Hy. cbn beta. eapply returns_mono; [apply (final_pref cls_be ok_be t tt); [exact Ht|apply be_okey|exact Hy]|].
    intros z Hz. eapply den_ext; [|exact Hz]. intros g _. cbn beta. apply eqm_eq. now rewrite Z.add_0_l.
Qed.
Definition face_closed (P Q : bkey -> Prop) : Prop := forall l1 p l2, P (l1 ++ p :: l2) -> Q (l1 ++ l2).
Lemma rep_fdB P Q : face_closed P Q -> rep P Q fdB.
Proof.
  intros H k Hk. exists (fbB k). split; [|reflexivity]. intros k' v Hin. destruct (in_fbB _ _ _ Hin) as (l1 & p & l2 & -> & ->). eapply H; eauto.
Qed.
Lemma adm_fdB P Q : face_closed P Q -> admop cls_be cls_be P Q fdB.
Proof.
  intros H g Hg. apply admP_keyeq. intros k Pk Hb. rewrite be_bad in Hb. injection Hb as Hb. destruct k as [|v k]; [reflexivity|].
  apply fdB_dup_on; [exact Hb|]. intros k' c Hin Hd. destruct Hg as [_ Hg]. apply Hg.
  - destruct (in_fbB _ _ _ Hin) as (l1 & p & l2 & E & ->). rewrite E in Pk. eapply H; eauto.
  - rewrite be_bad. f_equal. now apply bdup_bad.
Qed.
Lemma linop_beb t P Q : 0 <= t -> dt_ok dt t -> kpred Q -> face_closed P Q -> linop cls_be cls_be t tt tt P Q fdB (be_boundary dt).
Proof.
  intros Ht Hdt HQ HPQ. apply (linop_intro cls_be cls_be ok_be); auto.
  - apply rep_local. now apply rep_fdB.
  - apply (rep_zero _ _ _ (rep_fdB P Q HPQ)).
  - intros x Wx Tx _ _. now apply be_boundary_den.
Qed.

(** ** predicates *)
Definition bany : bkey -> Prop := fun _ => True.
Lemma kpred_bany : kpred bany. Proof. apply kpred_eq. intros. left. exact I. Qed.
Lemma be_simplex_dec n k : be_simplex n k \/ ~ be_simplex n k.
Proof.
  induction k as [|p k [IH|IH]].
  - left. intros q [].
  - destruct (perm_dec n p) as [H|H].
    + left. intros q [<-|Hq]; auto.
    + right. intros C. apply H, C. now left.
  - right. intros C. apply IH. intros q Hq. apply C. now right.
Qed.
Lemma kpred_bsim n : kpred (be_simplex n). Proof. apply kpred_eq. intros. apply be_simplex_dec. Qed.
Lemma kpred_bdeg n d : kpred (be_cell n d).
Proof. apply kpred_eq. intros k. unfold be_cell. destruct (be_simplex_dec n k); [|tauto]. destruct (Z.eq_dec (zlen k) (d + 1)); tauto. Qed.
Lemma face_any : face_closed bany bany. Proof. intros ? ? ? _. exact I. Qed.
Lemma face_sim n : face_closed (be_simplex n) (be_simplex n).
Proof. intros l1 p l2 H q Hq. apply H. apply in_app_iff. apply in_app_iff in Hq. cbn. tauto. Qed.
Lemma face_deg n d : face_closed (be_cell n d) (be_cell n (d - 1)).
Proof.
  intros l1 p l2 [H L]. split; [now apply face_sim in H|]. rewrite zlen_app, ?zlen_cons in L. rewrite zlen_app. lia.
Qed.
Lemma bdeg_bsim n d (x : bee) : keys_in (be_cell n d) x -> keys_in (be_simplex n) x.
Proof. intros H k v Hin. exact (proj1 (H _ _ Hin)). Qed.

(** ** arity and degree *)
Lemma be_arity_ok n (x : bee) : 1 <= n -> wf cls_be x -> keys_in (be_simplex n) x -> data x <> [] -> be_arity x = Ok (Some n).
Proof.
  intros Hn Wx Kx N. unfold be_arity. destruct (dempty (data x)) eqn:E; [destruct (data x); [congruence|discriminate]|].
  rewrite (mapM_map _ (fun k => map (fun _ => n) k)).
  - cbn [bind]. rewrite (zset_const _ n).
    + reflexivity.
    + destruct (data x) as [|[k v] d] eqn:Ed; [congruence|]. cbn [dkeys map fst concat].
      assert (Hb := proj2 (proj2 (proj2 Wx) k v ltac:(rewrite Ed; now left))). rewrite be_bad in Hb. now destruct k.
    + intros m Hm. apply in_concat in Hm. destruct Hm as (l & Hl & Hm). apply in_map_iff in Hl. destruct Hl as (k & <- & _).
      apply in_map_iff in Hm. now destruct Hm as (? & <- & _).
  - intros k Hk. apply in_map_iff in Hk. destruct Hk as ([k' v] & <- & Hin). cbn [fst]. apply mapM_map. intros p Hp. apply perm_max; auto. exact (Kx _ _ Hin _ Hp).
Qed.
Lemma be_degree_ok n d (x : bee) : keys_in (be_cell n d) x -> data x <> [] -> be_degree x = Some d.
Proof.
  intros Kx N. unfold be_degree. destruct (dempty (data x)) eqn:E; [destruct (data x); [congruence|discriminate]|].
  rewrite (zset_const _ d).
  - reflexivity.
  - unfold dkeys. rewrite map_map. now destruct (data x).
  - intros m Hm. apply in_map_iff in Hm. destruct Hm as (k & <- & Hk). apply in_map_iff in Hk. destruct Hk as ([k' v] & <- & Hin).
    destruct (Kx _ _ Hin) as [_ L]. cbn [fst]. lia.
Qed.

(** ** action *)
Definition bact (other : ring) (x : bee) : res bee :=
  if negb (torsion x =? torsion other) then Err TypeError else
  let! xa := be_arity x in
  let! oa := ring_arity other in
  if negb (opt_eqb xa oa) then Err TypeError else
  let! answer := zero dt cls_be x in
  for_ (list_prod (data x) (data other)) answer (fun answer '((k1, v1), (k2, v2)) =>
    let! new_k := mapM (fun pi => sg_mul (kval k2) pi) k1 in
    add_term dt cls_be x answer new_k (v1 * v2)).
Lemma be_act_bact o x : keys_in sge o -> be_act dt o x = bact o x.
Proof.
  intros Ho. unfold be_act, bact. destruct (negb _); [reflexivity|]. destruct (be_arity x); cbn [bind]; [|reflexivity].
  destruct (ring_arity o); cbn [bind]; [|reflexivity]. destruct (negb _); [reflexivity|].
  destruct (zero dt cls_be x); cbn [bind]; [|reflexivity]. apply for_ext. intros s [[k1 v1] [k2 v2]] Hin. apply in_prod_iff in Hin.
  destruct Hin as [_ Hin]. apply Ho in Hin. unfold sge in Hin. now rewrite Hin.
Qed.
Notation bact0 := (extended dt cls_be bact).
Lemma be_act0_bact0 o x : keys_in sge o -> extended dt cls_be (be_act dt) o x = bact0 o x.
Proof. intros H. unfold extended. destruct (_ || _); [reflexivity|]. now apply be_act_bact. Qed.

Definition PactB (g : bkey -> Z) (k2 : skey) (k1 : bkey) : Z := g (map (pmul (kval k2)) k1).
Lemma bsim_move n p k : 0 <= n -> perm n p -> be_simplex n k -> be_simplex n (map (pmul p) k).
Proof. intros Hn Hp Hk q Hq. apply in_map_iff in Hq. destruct Hq as (q' & <- & Hq). apply perm_pmul; auto. Qed.
Lemma bdup_map n p k : 0 <= n -> perm n p -> be_simplex n k -> bdup (map (pmul p) k) = bdup k.
Proof.
  intros Hn Hp. induction k as [|v k IH]; intros Hk; [reflexivity|]. destruct k as [|w k]; [reflexivity|]. cbn [map]. rewrite !bdup_cons2.
  cbn [map] in IH. rewrite IH by (intros q Hq; apply Hk; now right). f_equal.
  assert (perm n v /\ perm n w) as [Hv Hw] by (split; apply Hk; cbn; tauto).
  destruct (tup_eqb v w) eqn:E; [apply tup_eqb_eq in E; subst; apply tup_refl|].
  destruct (tup_eqb (pmul p v) (pmul p w)) eqn:E'; [|reflexivity]. apply tup_eqb_eq in E'. apply (pmul_cancel_l n) in E'; auto. subst.
  now rewrite tup_refl in E.
Qed.
Lemma bact_den n t other x : 1 <= n -> 0 <= t -> dt_ok dt t -> wf cls_ring other -> wf cls_be x -> torsion other = t -> torsion x = t ->
  keys_in (pk n) other -> keys_in (be_simplex n) x -> ((data other <> [] /\ data x <> []) \/ (data other = [] /\ data x = [])) ->
  returns (bact other x) (den cls_be t tt (fun g => ev (fun k2 => ev (fun k1 => PactB g k2 k1) (data x)) (data other))).
Proof.
  intros Hn Ht Hdt Wo Wx To Tx Ko Kx NZ. unfold bact. rewrite To, Tx, Z.eqb_refl. cbn [negb].
  assert (E : exists xa, be_arity x = Ok xa /\ exists oa, ring_arity other = Ok oa /\ opt_eqb xa oa = true).
  { destruct NZ as [[No Nx]|[Zo Zx]].
    - exists (Some n). split; [apply (be_arity_ok n); auto|]. exists (Some n). split; [apply (ring_arity_ok n); auto|]. apply Z.eqb_refl.
    - exists None. unfold ring_arity, be_arity. rewrite Zo, Zx. split; [reflexivity|]. exists None. auto. }
  destruct E as (xa & -> & oa & E1 & E2). cbn [bind]. rewrite E1. cbn [bind]. rewrite E2. cbn [negb].
  eapply returns_bind; [apply (zero_den cls_be ok_be dt t); auto|]. intros ans Hans. rewrite be_attr in Hans.
  eapply returns_mono.
  - apply (pair_loop_den cls_be ok_be t tt (data x) (data other) _ (fun k1 k2 g => PactB g k2 k1)); [|exact Hans].
    intros k1 v1 k2 v2 F y H1 H2 Hy. apply Kx in H1. apply Ko in H2. unfold pk in *.
    rewrite (mapM_map _ (pmul (kval k2))) by (intros p Hp; apply (sg_mul_ok n); auto). cbn [bind].
    eapply returns_mono; [eapply (add_term_den cls_be ok_be dt t); eauto; apply be_okey|]. intros z Hz. exact Hz.
  - intros z Hz. eapply den_ext; [|exact Hz]. intros g _. cbn beta. apply eqm_eq. rewrite Z.add_0_l. apply ev_exch.
Qed.
Lemma bil_bact n t : 1 <= n -> 0 <= t -> dt_ok dt t ->
  bilop cls_ring cls_be cls_be t tt tt tt (pk n) (be_simplex n) PactB bact0.
Proof.
  intros Hn Ht Hdt o x Wo To _ Ko Wx Tx _ Kx. unfold extended.
  destruct (data o) as [|po o'] eqn:Eo; [|destruct (data x) as [|px x'] eqn:Ex].
  - cbn [dempty orb]. eapply returns_mono; [apply (zero_den cls_be ok_be dt t); auto|]. intros z Hz. rewrite be_attr in Hz. exact Hz.
  - cbn [dempty orb]. eapply returns_mono; [apply (zero_den cls_be ok_be dt t); auto|]. intros z Hz. rewrite be_attr in Hz.
    eapply den_ext; [|exact Hz]. intros g _. cbn beta. apply eqm_eq. symmetry. apply ev_zero. reflexivity.
  - cbn [dempty orb]. rewrite <- Eo, <- Ex. apply (bact_den n t); auto. left. rewrite Eo, Ex. split; discriminate.
Qed.
Lemma rep_bact_on n (P : bkey -> Prop) : 0 <= n -> (forall p k, perm n p -> P k -> P (map (pmul p) k)) -> rep2 (pk n) P P PactB.
Proof.
  intros Hn HP k2 k1 H2 H1. exists [(map (pmul (kval k2)) k1, 1)]. split.
  - intros k v [[= <- <-]|[]]. now apply HP.
  - intros g. rewrite ev_cons, ev_nil. unfold PactB. ring.
Qed.
Lemma rep_bact n : 0 <= n -> rep2 (pk n) (be_simplex n) (be_simplex n) PactB.
Proof. intros Hn. apply rep_bact_on; auto. intros p k Hp Hk. now apply bsim_move. Qed.
Lemma adm_bact n : 0 <= n -> adm2 cls_ring cls_be cls_be (pk n) (be_simplex n) (be_simplex n) PactB.
Proof.
  intros Hn g Hg. split.
  - intros k1 H1 Hb. split; [|discriminate]. intros k k' E Hk. cbn in E. apply tup_eqb_eq in E. unfold PactB. now rewrite E.
  - intros k2 H2 _. apply admP_keyeq. intros k Hk Hb. unfold PactB. apply Hg; [now apply bsim_move|]. rewrite be_bad in *. injection Hb as Hb.
    f_equal. destruct k as [|q k]; [reflexivity|]. cbn [map bbad]. change (pmul (kval k2) q :: map (pmul (kval k2)) k) with (map (pmul (kval k2)) (q :: k)).
    rewrite (bdup_map n); auto.
Qed.
Lemma fdB_map f g k : fdB g (map f k) = fdB (fun k' => g (map f k')) k.
Proof.
  revert g. induction k as [|v k IH]; intros g; [reflexivity|]. cbn [map]. rewrite !fdB_cons, IH. reflexivity.
Qed.
End BE.
