(** * The Cartan-Serre map is onto and a quasi-isomorphism on all tensor powers (C101) *)
From Coq Require Import Setoid Morphisms Sorting.Sorted.
From Verif Require Import PyBase Dict FreeModule Symmetric Simplicial Cubical Eqm Spec SpecChain SpecCube SpecCone FreeModuleFacts FreeModuleLaws ListFacts ClassFacts LinearFacts SymmetricFacts
  CycleFacts SymmetricLaws RingFacts Tensor TensorAct KoszulFacts LoopFacts SimplicialFacts SimplicialLaws CubicalFacts CubicalSerre CubicalLaws AcyclicFacts AcyclicLaws ConeFacts ConeLaws CongFacts.

(** the face of the cube of dimension [n] over a face of the simplex, the positions starting at [o] *)
Fixpoint unc (n : nat) (o : Z) (s : list Z) : list Z :=
  match n with
  | O => []
  | S n' => match s with
            | [] => 0 :: unc n' (o + 1) []
            | v :: s' => if v =? o then (match s' with [] => 0 | _ => 2 end) :: unc n' (o + 1) s' else 1 :: unc n' (o + 1) s
            end
  end.
Lemma unc_len n : forall o s, length (unc n o s) = n.
Proof. induction n; intros o s; [reflexivity|]. cbn [unc]. destruct s as [|v s]; [cbn; now rewrite IHn|]. destruct (v =? o); cbn; now rewrite IHn. Qed.
Lemma unc_cube n : forall o s, is_cube (unc n o s).
Proof.
  induction n as [|n IH]; intros o s a Ha; [destruct Ha|]. cbn [unc] in Ha. destruct s as [|v s]; [destruct Ha as [<-|Ha]; [tauto|]; now apply IH in Ha|].
  destruct (v =? o); (destruct Ha as [<-|Ha]; [|now apply IH in Ha]); [destruct s; tauto|tauto].
Qed.
Lemma unc_nil_dim n : forall o, dim (unc n o []) = 0.
Proof. induction n as [|n IH]; intros o; [reflexivity|]. cbn [unc dim]. change (0 =? 2) with false. cbn iota. rewrite IH. reflexivity. Qed.
Lemma unc_collapse n : forall o s, s <> [] -> StronglySorted Z.lt s -> (forall a, In a s -> o <= a <= o + Z.of_nat n) -> collapse o (unc n o s) = Some s.
Proof.
  induction n as [|n IH]; intros o s Ns Ss Hs.
  - destruct s as [|v s]; [congruence|]. cbn [unc collapse]. assert (v = o) by (specialize (Hs v (or_introl eq_refl)); lia). subst v. destruct s as [|w s]; [reflexivity|]. exfalso.
    inversion Ss as [|? ? _ F]; subst. inversion F; subst. specialize (Hs w ltac:(cbn; tauto)). lia.
  - destruct s as [|v s]; [congruence|]. cbn [unc]. inversion Ss as [|? ? Ss' F]; subst. destruct (Z.eqb_spec v o) as [->|Nv].
    + destruct s as [|w s].
      * cbn [collapse]. change (0 =? 0) with true. cbn iota. rewrite unc_nil_dim. reflexivity.
      * cbn [collapse]. change (2 =? 0) with false. change (2 =? 2) with true. cbn iota. rewrite IH; [reflexivity|congruence|exact Ss'|]. intros a Ha. rewrite Forall_forall in F. specialize (F a Ha). specialize (Hs a (or_intror Ha)). lia.
    + cbn [collapse]. change (1 =? 0) with false. change (1 =? 2) with false. cbn iota. rewrite IH; [reflexivity|congruence|exact Ss|]. intros a Ha. assert (o < v) by (specialize (Hs v (or_introl eq_refl)); lia).
      specialize (Hs a Ha). destruct Ha as [<-|Ha]; [lia|]. rewrite Forall_forall in F. specialize (F a Ha). lia.
Qed.
Lemma collapse_face c : forall o s, is_cube c -> collapse o c = Some s -> s <> [] /\ StronglySorted Z.lt s /\ (forall a, In a s -> o <= a <= o + zlen c) /\ zlen s - 1 = dim c.
Proof.
  induction c as [|b c IH]; intros o s Hc E.
  - injection E as <-. split; [congruence|]. split; [repeat constructor|]. split; [|reflexivity]. intros a [<-|[]]. change (zlen (@nil Z)) with 0. lia.
  - cbn [collapse] in E. assert (Hc' : is_cube c) by (intros a Ha; apply Hc; now right). pose proof (zlen_nonneg c) as Hl. rewrite zlen_cons. cbn [dim]. destruct (Z.eqb_spec b 0) as [->|Nb].
    + destruct (dim c =? 0) eqn:D; [|discriminate]. injection E as <-. apply Z.eqb_eq in D. change (0 =? 2) with false. cbn iota. split; [congruence|]. split; [repeat constructor|]. split; [|rewrite D; reflexivity]. intros a [<-|[]]. lia.
    + destruct (collapse (o + 1) c) as [u|] eqn:Eu; [|discriminate]. injection E as <-. destruct (IH (o + 1) u Hc' Eu) as (N & Su & Hu & Du). destruct (b =? 2).
      * split; [congruence|]. split; [constructor; [exact Su|apply Forall_forall; intros a Ha; specialize (Hu a Ha); lia]|]. split; [intros a [<-|Ha]; [lia|specialize (Hu a Ha); lia]|]. rewrite zlen_cons. lia.
      * split; [exact N|]. split; [exact Su|]. split; [intros a Ha; specialize (Hu a Ha); lia|]. lia.
Qed.
Lemma unc_face m s : 0 <= m -> simplex_face m s -> collapse 0 (unc (Z.to_nat m) 0 s) = Some s.
Proof. intros Hm (N & Ss & Hs). apply unc_collapse; auto. intros a Ha. specialize (Hs a Ha). lia. Qed.
Definition uncs (m : Z) (k : list (list Z)) : list (list Z) := map (unc (Z.to_nat m) 0) k.
Lemma uncs_collapses m k : 0 <= m -> (forall s, In s k -> simplex_face m s) -> collapses (uncs m k) = Some k.
Proof.
  intros Hm. induction k as [|s k IH]; intros H; [reflexivity|]. unfold uncs. cbn [map collapses]. rewrite unc_face by (auto; apply H; now left). fold (uncs m k). rewrite IH by (intros; apply H; now right). reflexivity.
Qed.
Lemma collapses_cell m r d k u : cub_cell m r d k -> collapses k = Some u -> simp_cell (simplex_face m) r d u.
Proof.
  intros (H1 & H2 & H3). revert r d u H1 H2. induction k as [|c k IH]; intros r d u H1 H2 E.
  - injection E as <-. split; [exact H1|]. split; [exact H2|]. intros ? [].
  - cbn [collapses] in E. destruct (collapse 0 c) as [s|] eqn:Es; [|discriminate]. destruct (collapses k) as [w|] eqn:Ew; [|discriminate]. injection E as <-.
    destruct (H3 c (or_introl eq_refl)) as [Ic Lc]. destruct (collapse_face c 0 s Ic Es) as (N & Ss & Hs & Ds).
    destruct (IH (fun c' Hc' => H3 c' (or_intror Hc')) (zlen k) (cube_degree k) w eq_refl eq_refl eq_refl) as (A1 & A2 & A3).
    split; [rewrite !zlen_cons in *; lia|]. split.
    + change (total_degree (s :: w)) with (zlen s - 1 + total_degree w). change (cube_degree (c :: k)) with (dim c + cube_degree k) in H2. lia.
    + intros x [<-|Hx]; [|now apply A3]. split; [exact N|]. split; [exact Ss|]. intros a Ha. specialize (Hs a Ha). lia.
Qed.
Lemma uncs_cell m r d k : 0 <= m -> simp_cell (simplex_face m) r d k -> cub_cell m r d (uncs m k).
Proof.
  intros Hm (H1 & H2 & H3). unfold uncs. split; [unfold zlen; rewrite map_length; exact H1|]. split.
  - rewrite <- H2. unfold cube_degree, total_degree. rewrite map_map. f_equal. apply map_ext_in. intros s Hs.
    destruct (collapse_face _ 0 s (unc_cube (Z.to_nat m) 0 s) (unc_face m s Hm (H3 s Hs))) as (_ & _ & _ & E). lia.
  - intros c Hc. apply in_map_iff in Hc. destruct Hc as (s & <- & _). split; [apply unc_cube|]. unfold zlen. rewrite unc_len. lia.
Qed.
Lemma face_dec m s : simplex_face m s \/ ~ simplex_face m s.
Proof.
  unfold simplex_face. destruct s as [|a s]; [right; intros [N _]; congruence|]. destruct (sorted_dec Z.lt ltac:(intros; lia) (a :: s)) as [S1|S1]; [|tauto].
  assert (A : forall l : list Z, (forall b, In b l -> 0 <= b <= m) \/ ~ (forall b, In b l -> 0 <= b <= m)).
  { induction l as [|b l [IH|IH]]; [left; intros ? []| |right; intros G; apply IH; intros; apply G; now right]. assert (0 <= b <= m \/ ~ 0 <= b <= m) as [B|B] by lia; [left; intros c [<-|Hc]; auto|right; intros G; apply B, G; now left]. }
  destruct (A (a :: s)); [left|right]; [|tauto]. split; [congruence|]. now split.
Qed.
Lemma kpred_simp m r d : kpred (simp_cell (simplex_face m) r d).
Proof. exact (kpred_ccell spx_dim (simplex_face m) (face_dec m) r d). Qed.
Lemma kpred_cub m r d : kpred (cub_cell m r d).
Proof.
  destruct (kpred_ccell cube_dim (mcube m) (mcube_dec m) r d) as [A B]. split; [intros k; destruct (A k) as [H|H]; rewrite ccell_cub in H; tauto|].
  intros k k' E H. apply ccell_cub. apply (B k k' E). now apply ccell_cub.
Qed.
Lemma rep_serre m r d : rep (cub_cell m r d) (simp_cell (simplex_face m) r d) DC.
Proof.
  intros k Hk. exists (cub_collapse k). split; [|intros g; symmetry; apply DC_ev]. intros u v Hin. unfold cub_collapse in Hin. destruct (collapses k) as [w|] eqn:E; [|destruct Hin]. destruct Hin as [[= <- _]|[]]. eapply collapses_cell; eauto.
Qed.
Lemma linop_serre_cell dt t m r d : 0 <= t -> dt_ok dt t -> linop cls_cubical cls_simplicial t tt tt (cub_cell m r d) (simp_cell (simplex_face m) r d) DC (cub_cartan_serre dt).
Proof.
  intros Ht Hdt. apply (linop_intro cls_cubical cls_simplicial ok_simplicial); [exact Ht|apply kpred_simp|apply rep_local, rep_serre|intros; apply DC_zero|]. intros x Wx Tx _ _. now apply serre_den.
Qed.
(** ** the lift *)
Definition lift (m : Z) (y : simp) : cubc := mkElt (map (fun kv => (uncs m (fst kv), snd kv)) (data y)) (torsion y) tt.
Lemma lift_wf m r d (y : simp) : 0 <= m -> wf cls_simplicial y -> keys_in (simp_cell (simplex_face m) r d) y -> wf cls_cubical (lift m y).
Proof.
  intros Hm (Ht & Kd & Cv) K. split; [exact Ht|]. cbn [lift data torsion]. assert (K' : forall (k : skey2) v, In (k, v) (data y) -> simp_cell (simplex_face m) r d k) by exact K. clear K. rename K' into K. split.
  - clear Cv. revert Kd K. induction (data y) as [|[w v] l IH]; intros Kd K; [exact I|]. cbn [dkeys map fst snd kdistinct] in *. destruct Kd as [K1 K2]. split; [|apply IH; [exact K2|intros k0 v0 H0; exact (K k0 v0 (or_intror H0))]].
    intros k Hk. apply in_map_iff in Hk. destruct Hk as ([k' v'] & <- & Hk). apply in_map_iff in Hk. destruct Hk as ([w' v''] & [= <- <-] & Hk). cbn [fst].
    destruct (keqb (uncs m w) (uncs m w')) eqn:E; [|exact E]. exfalso. apply keqb_eq in E. apply (f_equal collapses) in E.
    destruct (K w v (or_introl eq_refl)) as (_ & _ & F1). destruct (K w' v'' (or_intror Hk)) as (_ & _ & F2). rewrite !uncs_collapses in E by auto. injection E as <-.
    specialize (K1 w (in_map fst _ _ Hk)). rewrite keqb_refl in K1. discriminate.
  - intros k v Hin. apply in_map_iff in Hin. destruct Hin as ([w v'] & [= <- <-] & Hin). destruct (Cv w v' Hin) as [C _]. split; [exact C|reflexivity].
Qed.
Lemma lift_keys m r d (y : simp) : 0 <= m -> keys_in (simp_cell (simplex_face m) r d) y -> keys_in (cub_cell m r d) (lift m y).
Proof. intros Hm K k v Hin. apply in_map_iff in Hin. destruct Hin as ([w v'] & [= <- <-] & Hin). apply (uncs_cell m r d w Hm). eapply K; eauto. Qed.
Lemma lift_serre dt m r d (y : simp) : 0 <= m -> wf cls_simplicial y -> dt_ok dt (torsion y) -> keys_in (simp_cell (simplex_face m) r d) y -> same (cub_cartan_serre dt (lift m y)) (Ok y).
Proof.
  intros Hm W Hdt K. eapply (same_den cls_simplicial ok_simplicial (torsion y) tt); [exact (proj1 W)| | |].
  - apply (serre_den dt (torsion y)); [exact (proj1 W)|exact Hdt|exact (lift_wf m r d y Hm W K)|reflexivity].
  - exists y. split; [reflexivity|]. pose proof (den_self cls_simplicial y W) as D. destruct y as [ly ty []]. exact D.
  - intros g _. apply eqm_eq. cbn [lift data]. unfold ev. rewrite sumf_map. apply sumf_ext. intros [w v] Hin. cbn [fst snd]. f_equal. unfold DC. destruct (K w v Hin) as (_ & _ & F). now rewrite uncs_collapses.
Qed.
