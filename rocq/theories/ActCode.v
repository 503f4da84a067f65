(** * The code of the simplicial action computes [simp_acts].  Proof library. *)
From Coq Require Import Setoid Morphisms.
From Verif Require Import PyBase Dict FreeModule Symmetric Simplicial Utils Surjection Eqm Spec SpecChain SpecOperad SpecSurj SpecAction FreeModuleFacts FreeModuleLaws ListFacts
  ClassFacts LinearFacts BilFacts SymmetricFacts CycleFacts SymmetricLaws RingFacts Tensor TensorAct LoopFacts AW SimplicialFacts SimplicialDiag SurjFacts SurjBoundary SurjLaws ActFacts ActSign ActCore.

Lemma parts_ok i : forall (k : list Z) (u : list (list Z)), length u = length k ->
  mapM (fun '(idx, spx) => let! v := py_get k idx in Ok (v =? i, spx)) (enumerate u) = Ok (map (fun p => (fst p =? i, snd p)) (combine k u)).
Proof.
  intros k u L.
  rewrite (mapM_map _ (fun '(idx, spx) => (znth 0 k idx =? i, spx))).
  - f_equal. revert k L. induction u as [|b u IH]; intros [|a k] L; try discriminate; [reflexivity|]. rewrite enumerate_cons. cbn [map combine fst snd]. f_equal.
    rewrite <- IH by (cbn in L; lia). rewrite map_map. apply map_ext_in. intros [idx c] Hin. cbn [fst snd]. f_equal. f_equal.
    apply (in_map fst) in Hin. rewrite enumerate_fst, in_zrange in Hin. cbn [fst] in Hin. unfold znth. replace (Z.to_nat (idx + 1)) with (Datatypes.S (Z.to_nat idx)) by lia. reflexivity.
  - intros [idx b] Hin. apply (in_map fst) in Hin. rewrite enumerate_fst, in_zrange in Hin. cbn [fst] in Hin. rewrite (py_get_in 0) by (unfold zlen in *; lia). reflexivity.
Qed.
Lemma simp_joins_ok (k : list Z) (u : list (list Z)) is : length u = length k -> (forall i, In i is -> In i k) ->
  simp_joins is k u = Ok (if existsb spx_is_degenerate (map (fun i => joined i (combine k u)) is) then None else Some (map (fun i => joined i (combine k u)) is)).
Proof.
  intros L. induction is as [|i is IH]; intros Hi; [reflexivity|]. cbn [simp_joins]. rewrite parts_ok by exact L. cbn [bind].
  assert (EF : filter (fun p : bool * list Z => fst p) (map (fun p => (fst p =? i, snd p)) (combine k u)) = map (fun p => (true, snd p)) (filter (fun p => fst p =? i) (combine k u))).
  { clear. induction (combine k u) as [|[a b] l IHl]; [reflexivity|]. cbn [map filter fst snd]. destruct (a =? i); cbn [map filter fst snd]; rewrite IHl; reflexivity. }
  rewrite EF. assert (EC : concat (map snd (map (fun p : Z * list Z => (true, snd p)) (filter (fun p => fst p =? i) (combine k u)))) = joined i (combine k u)) by (unfold joined; rewrite map_map; reflexivity).
  destruct (map (fun p => (true, snd p)) (filter (fun p => fst p =? i) (combine k u))) as [|q l] eqn:EM.
  - exfalso. apply map_eq_nil in EM. assert (Hk : In i k) by (apply Hi; now left). rewrite <- (map_fst_combine k u L) in Hk. apply in_map_iff in Hk. destruct Hk as ([a b] & E & Hp). cbn in E. subst.
    assert (H : In (i, b) (filter (fun p => fst p =? i) (combine k u))) by (apply filter_In; cbn; rewrite Z.eqb_refl; auto). rewrite EM in H. destruct H.
  - rewrite EC. cbn [map existsb]. destruct (spx_is_degenerate (joined i (combine k u))); [reflexivity|]. rewrite IH by (intros; apply Hi; now right). cbn [bind orb].
    now destruct (existsb _ _).
Qed.
Definition HH (r coord d : Z) (g : list (list Z) -> Z) (k : list Z) (w : list (list Z)) : Z :=
  sgn (tdeg spx_dim (slice_to w (coord - 1)) * d) * J r k (fun v => g (slice_to w (coord - 1) ++ v ++ slice_from w (coord + zlen k - 1))) (slice w (coord - 1) (coord + zlen k - 1)).
Lemma cut3 {B} (w : list B) i n : 0 <= i -> 0 <= n -> i + n <= zlen w -> exists l1 u l2, w = l1 ++ u ++ l2 /\ zlen l1 = i /\ zlen u = n.
Proof.
  intros Hi Hn Hw. exists (firstn (Z.to_nat i) w), (firstn (Z.to_nat n) (skipn (Z.to_nat i) w)), (skipn (Z.to_nat n) (skipn (Z.to_nat i) w)). rewrite !firstn_skipn. split; [reflexivity|].
  unfold zlen in *. rewrite !firstn_length, skipn_length. lia.
Qed.
Lemma slice_mid {B} (l1 u l2 : list B) i j : i = zlen l1 -> j = i + zlen u -> slice (l1 ++ u ++ l2) i j = u.
Proof.
  intros -> ->. unfold slice, clamp. rewrite !zlen_app. pose proof (zlen_nonneg l1). pose proof (zlen_nonneg u). pose proof (zlen_nonneg l2).
  destruct (Z.ltb_spec (zlen l1) 0); [lia|]. destruct (Z.ltb_spec (zlen l1 + zlen u) 0); [lia|]. rewrite !Z.min_l by lia. rewrite zlen_length, skipn_app, skipn_all, Nat.sub_diag. cbn [skipn app].
  replace (Z.to_nat (zlen l1 + zlen u - zlen l1)) with (length u) by (unfold zlen; lia). rewrite firstn_app, Nat.sub_diag, firstn_all. cbn [firstn]. apply app_nil_r.
Qed.
Lemma HH_app r coord d g k l1 u l2 : zlen l1 = coord - 1 -> length u = length k -> HH r coord d g k (l1 ++ u ++ l2) = sgn (tdeg spx_dim l1 * d) * J r k (fun v => g (l1 ++ v ++ l2)) u.
Proof.
  intros E L. unfold HH. rewrite <- E. rewrite slice_to_app. rewrite (slice_mid l1 u l2) by (unfold zlen in *; lia). f_equal. f_equal.
  replace (slice_from (l1 ++ u ++ l2) (coord + zlen k - 1)) with l2; [reflexivity|]. symmetry. rewrite app_assoc. replace (coord + zlen k - 1) with (zlen (l1 ++ u)) by (rewrite zlen_app; unfold zlen in *; lia). apply slice_from_app.
Qed.
Lemma HH_adm r d coord n e k g : 1 <= r -> 1 <= coord <= n -> surj_cell r d k -> adm cls_simplicial g -> admP cls_simplicial (kdegS (n + (r + d - 1)) e) (HH r coord d g k).
Proof.
  intros Hr Hc [Ho Lk] Hg. apply admP_keyeq. intros w [Lw _] Hb. injection Hb as Hb. assert (0 < zlen k). { assert (k <> []) by now apply (onto_ne r). destruct k; [congruence|]. rewrite zlen_cons. pose proof (zlen_nonneg k). lia. }
  destruct (cut3 w (coord - 1) (zlen k)) as (l1 & u & l2 & -> & E1 & E2); try lia. assert (L : length u = length k) by (unfold zlen in *; lia).
  rewrite HH_app by assumption. rewrite !existsb_app in Hb. unfold J.
  assert (Z0 : hasnil u = false -> g (l1 ++ joins r (combine k u) ++ l2) = 0).
  { intros Hn. apply (proj2 Hg). cbn. f_equal. rewrite !existsb_app. destruct (existsb spx_is_degenerate l1); [reflexivity|]. destruct (existsb spx_is_degenerate l2); [now rewrite !orb_true_r|].
    rewrite orb_false_r. cbn [orb] in Hb. rewrite orb_false_r in Hb. apply existsb_exists in Hb. destruct Hb as (b & Hb1 & Hb2). rewrite deg_dupb in Hb2. destruct b as [|x b].
    - exfalso. assert (hasnil u = true) by (apply existsb_exists; exists []; auto). congruence.
    - destruct (in_combine_ex k u (x :: b) L Hb1) as (a & Ha & Hin). rewrite (joins_dup r _ a (x :: b)); auto. now apply Ho. }
  destruct (hasnil u); [ring|]. rewrite Z0 by reflexivity. ring.
Qed.
Lemma HH_Sd r d coord n e k K g : 1 <= r -> 1 <= coord <= n -> surj_cell r d k -> adm cls_simplicial g -> kdegS n e K -> Sd (Z.to_nat (r + d - 1)) coord (HH r coord d g k) K = Phi r coord g k K.
Proof.
  intros Hr Hc [Ho Lk] Hg [Ln _]. assert (Nk : k <> []) by now apply (onto_ne r). destruct (split_at K (coord - 1)) as (l1 & s & l2 & -> & E1); [lia|].
  rewrite Sd_app by exact E1. rewrite Phi_app by exact E1. replace (zlen k - r) with d by lia.
  rewrite T1_Psi_nil; [|exact Ho|exact Nk|intros v Hv; apply (adm_nil g); [exact Hg|apply in_or_app; right; apply in_or_app; now left]].
  unfold Psi. rewrite <- S_scal. replace (Z.to_nat (r + d - 1)) with (length k - 1)%nat by (unfold zlen in *; lia).
  apply S_ext_in. intros u Hu. apply (fb_len k) in Hu; [|exact Nk]. now apply HH_app.
Qed.
Lemma nondeg_nonnil u : existsb spx_is_degenerate u = false -> hasnil u = false.
Proof. intros H. destruct (hasnil u) eqn:E; [|reflexivity]. apply existsb_exists in E. destruct E as (b & H1 & H2). destruct b; [|discriminate]. rewrite (proj2 (existsb_exists _ u)) in H; [discriminate|]. exists []. auto. Qed.
Lemma body_den dt t r d n e coord (x : surj) (y : simp) : 0 <= t -> dt_ok dt t -> 1 <= r -> 1 <= coord <= n ->
  wf cls_surj x -> torsion x = t -> keys_in (surj_cell r d) x -> data x <> [] -> wf cls_simplicial y -> torsion y = t -> keys_in (kdegS n e) y -> data y <> [] ->
  returns (surj_call_simplicial_body dt x y coord r d) (den cls_simplicial t tt (fun g => ev (fun k => ev (fun K => Phi r coord g k K) (data y)) (data x))).
Proof.
  intros Ht Hdt Hr Hc Wx Tx Kx Nx Wy Ty Ky Ny. unfold surj_call_simplicial_body.
  assert (Hd : 0 <= r + d - 1).
  { destruct (data x) as [|[k v] l] eqn:E; [congruence|]. assert (Hk : surj_cell r d k) by (apply (Kx k v); rewrite E; now left). destruct Hk as [Ho Lk]. apply onto_ne in Ho; [|exact Hr].
    destruct k; [congruence|]. rewrite zlen_cons in Lk. pose proof (zlen_nonneg k). lia. }
  eapply returns_bind; [apply (zero_den cls_simplicial ok_simplicial dt t); auto|]. intros ans Hans. replace (attr y) with tt in Hans by now destruct (attr y).
  destruct (linop_diag dt t n e (r + d - 1) coord Ht Hdt Hc Hd y Wy Ty ltac:(now destruct (attr y)) Ky) as (pre & Ep & Dp & Kp).
  assert (Ep' : simp_iterated_diagonal dt y (r + d - 1) coord = Ok pre). { unfold ext_diag, extended1 in Ep. destruct (data y) eqn:E; [congruence|]. exact Ep. }
  rewrite Ep'. cbn [bind]. clear Ep.
  eapply returns_mono.
  - apply (pair_loop_den cls_simplicial ok_simplicial t tt (data x) (data pre) _ (fun k w g => HH r coord d g k w)); [|exact Hans].
    intros k v1 w v2 F z H1 H2 Hz. destruct (Kx _ _ H1) as [Ho Lk]. destruct (Kp _ _ H2) as [Lw _]. assert (Nk : k <> []) by now apply (onto_ne r).
    assert (0 < zlen k) by (destruct k; [congruence|]; rewrite zlen_cons; pose proof (zlen_nonneg k); lia).
    destruct (cut3 w (coord - 1) (zlen k)) as (l1 & u & l2 & -> & E1 & E2); try lia. assert (L : length u = length k) by (unfold zlen in *; lia).
    assert (Gw : existsb spx_is_degenerate (l1 ++ u ++ l2) = false). { pose proof (proj1 (proj2 (proj2 Dp))) as [_ Hcan]. destruct (Hcan _ _ H2) as [_ Hb]. cbn in Hb. now injection Hb as Hb. }
    assert (Gu : hasnil u = false). { apply nondeg_nonnil. rewrite !existsb_app in Gw. apply orb_false_iff in Gw. destruct Gw as [_ Gw]. apply orb_false_iff in Gw. apply Gw. }
    rewrite <- E1. rewrite slice_to_app.
    replace (slice (l1 ++ u ++ l2) (zlen l1) (coord + zlen k - 1)) with u by (symmetry; apply slice_mid; lia).
    replace (slice_from (l1 ++ u ++ l2) (coord + zlen k - 1)) with l2 by (symmetry; rewrite app_assoc; replace (coord + zlen k - 1) with (zlen (l1 ++ u)) by (rewrite zlen_app; lia); apply slice_from_app).
    rewrite (onto_max r k Hr Ho). cbn [bind]. rewrite (simp_joins_ok k u) by (exact L || (intros i Hi; apply in_zrange in Hi; apply Ho; lia)). cbn [bind].
    change (map (fun i => joined i (combine k u)) (zrange 1 (r + 1))) with (joins r (combine k u)).
    destruct (existsb spx_is_degenerate (joins r (combine k u))) eqn:EJ.
    + eapply returns_ok, den_ext; [|exact Hz]. intros g Hg. cbn beta. rewrite HH_app by assumption. unfold J. rewrite Gu.
      assert (Z0 : g (l1 ++ joins r (combine k u) ++ l2) = 0) by (apply (proj2 Hg); cbn; f_equal; rewrite !existsb_app, EJ, orb_true_r; reflexivity). rewrite Z0. apply eqm_eq. ring.
    + assert (ES : (if torsion x =? 2 then Ok 1 else let! s := compute_sign k (map (fun e0 => spx_dim e0 mod 2) u) in Ok (s * sgn (zsum (map (fun spx => zlen spx - 1) l1) mod 2 * d)))
          = Ok (if t =? 2 then 1 else sgn (action_exponent r (wt (combine k u))) * sgn (tdeg spx_dim l1 * d))).
      { rewrite Tx. destruct (t =? 2); [reflexivity|]. rewrite (compute_sign_ok r) by (exact Ho || (rewrite zlen_map; exact E2)). cbn [bind]. f_equal. f_equal.
        - apply aex_par.
          + clear -L. revert u L. induction k as [|a k IH]; intros [|b u] L; try discriminate; [reflexivity|]. cbn [map combine]. rewrite wt_cons. cbn [map fst]. f_equal. apply IH. cbn in L. lia.
          + clear -L. revert u L. induction k as [|a k IH]; intros [|b u] L; try discriminate; [reflexivity|]. cbn [map combine]. rewrite wt_cons. cbn [map snd]. f_equal; [apply Zmod_mod|]. apply IH. cbn in L. lia.
        - change (zsum (map (fun spx : list Z => zlen spx - 1) l1)) with (tdeg spx_dim l1). apply sgn_eqm. now rewrite eqm_mod by lia. }
      cbn zeta. match goal with |- context [compute_sign] => idtac end. rewrite ES. cbn [bind].
      eapply returns_mono; [eapply (add_term_den cls_simplicial ok_simplicial dt t); eauto; [exact (proj1 Hz)|eexists; reflexivity]|].
      intros z2 Hz2. eapply den_ext; [|exact Hz2]. intros g Hg. cbn beta. rewrite HH_app by assumption. unfold J. rewrite Gu.
      set (G := g _). set (A := action_exponent _ _). destruct (Z.eqb_spec t 2) as [->|].
      * rewrite (sgn_eqm2 A), (sgn_eqm2 (tdeg spx_dim l1 * d)). apply eqm_eq. ring.
      * apply eqm_eq. ring.
  - intros z Hz. eapply den_ext; [|exact Hz]. intros g Hg. cbn beta. rewrite Z.add_0_l.
    apply ev_eqm. intros k v Hk. pose proof (Kx _ _ Hk) as Ck. 
    rewrite <- (ev_ext (Sd (Z.to_nat (r + d - 1)) coord (HH r coord d g k)) (fun K => Phi r coord g k K)) by (intros K v' HK; apply (HH_Sd r d coord n e); auto; apply (Ky _ _ HK)).
    assert (R := rep_Sd n e (Z.to_nat (r + d - 1)) coord Hc). rewrite Z2Nat.id in R by lia.
    destruct (local_list _ _ _ (data y) (rep_local _ _ _ R) Ky) as (l & Hl1 & Hl2).
    apply (den_ev_on cls_simplicial ok_simplicial t tt _ pre (kdegS (n + (r + d - 1)) e) (HH r coord d g k) l (kpred_kdegS _ _) Dp Kp).
    + now apply HH_adm.
    + intros h Hh. apply eqm_eq. apply Hl2. intros k' Hk'. apply Hh; auto.
Qed.
Lemma bil_act dt t r d n e coord : 0 <= t -> dt_ok dt t -> 1 <= r -> 1 <= coord <= n ->
  bilop cls_surj cls_simplicial cls_simplicial t MS tt tt (surj_cell r d) (kdegS n e) (Phi r coord) (fun x y => surj_call_simplicial dt x y coord).
Proof.
  intros Ht Hdt Hr Hc x y Wx Tx Ax Kx Wy Ty Ay Ky. unfold surj_call_simplicial.
  destruct (dempty (data x) || dempty (data y)) eqn:E0.
  - eapply returns_mono; [apply (zero_den cls_simplicial ok_simplicial dt t); auto|]. intros z Hz. rewrite Ay in Hz. eapply den_ext; [|exact Hz]. intros g _. apply eqm_eq.
    apply orb_true_iff in E0. destruct E0 as [E0|E0].
    + destruct (data x); [reflexivity|discriminate].
    + destruct (data y); [|discriminate]. symmetry. apply ev_zero. reflexivity.
  - apply orb_false_iff in E0. destruct E0 as [E1 E2]. assert (Nx : data x <> []) by (destruct (data x); [discriminate|congruence]). assert (Ny : data y <> []) by (destruct (data y); [discriminate|congruence]).
    unfold call_check. rewrite (surj_degree_ok r d) by assumption. rewrite (surj_arity_ok r) by (try assumption; intros k v Hin; apply (Kx _ _ Hin)). cbn [bind].
    unfold simp_arity. rewrite (tensor_arity_ok n) by (assumption || (intros k v Hin; exact (proj1 (Ky _ _ Hin)))).
    destruct (Z.ltb_spec n coord); [lia|]. rewrite Tx, Ty, Z.eqb_refl. cbn [negb bind]. rewrite Ax. cbn [fst snd]. now apply (body_den dt t r d n e).
Qed.
