(** * Cubical cup-i products and Steenrod squares (C77, C78) *)
From Coq Require Import Setoid Morphisms.
From Verif Require Import PyBase Dict FreeModule Symmetric Simplicial Cubical Utils Surjection Eqm Spec SpecChain SpecOperad SpecSurj SpecAction SpecCube SpecCubAction SpecCup SpecCubCup FreeModuleFacts FreeModuleLaws ListFacts
  ClassFacts LinearFacts BilFacts SymmetricFacts CycleFacts SymmetricLaws RingFacts Tensor TensorAct KoszulFacts LoopFacts AW SimplicialFacts SimplicialDiag SimplicialLaws BELaws BEDiag MayFacts SurjFacts SurjBoundary SurjLaws SurjAct SurjLaws2 ActFacts ActSign ActCore
  CubicalFacts CubicalDiag CubicalJoin CubicalSerre CubicalLaws CubActFacts CubActCore CubActCode CubActLaws CartanSerre SurjMay SteenrodAct StnLaws SteenrodClass CupI CupILaws EquivAct EquivLaws CubCup CubCup2.

Lemma word_callC dt t cv r d n e coord s0 w (S : surj) (y : cubc) : 0 <= t -> dt_ok dt t -> 1 <= r -> 1 <= coord <= n -> surj_cell r d w ->
  den cls_surj t cv (fun g => s0 * g w) S -> wf cls_cubical y -> torsion y = t -> keys_in (kdegC n e) y ->
  returns (surj_call_cubical dt S y coord) (den cls_cubical t tt (fun g => s0 * ev (fun K => PhiC r coord g w K) (data y))).
Proof.
  intros Ht Hdt Hr Hc Cw DS Wy Ty Ky.
  assert (KS : keys_in (surj_cell r d) S).
  { apply (den_keys cls_surj ok_surj t cv _ S _ Ht (kpred_cell r d) DS). intros g _ H0. apply eqm_eq. rewrite H0 by exact Cw. ring. }
  eapply returns_mono; [exact (bil_actC dt t r d n e coord cv Ht Hdt Hr Hc S y (den_wf _ _ _ _ _ Ht DS) (proj1 DS) (proj1 (proj2 DS)) KS Wy Ty (cub_attr y) Ky)|].
  intros z Dz. eapply den_ext; [|exact Dz]. intros g Hg. cbn beta.
  apply (den_ev_on cls_surj ok_surj t cv (fun h => s0 * h w) S (surj_cell r d) (fun k => ev (fun K => PhiC r coord g k K) (data y)) [w] (kpred_cell r d) DS KS).
  - apply admP_keyeq. intros k Hk Hb. apply ev_zero. intros K v HK. destruct (adm_PhiC r d (kdegC n e) (kdegC (n + r - 1) (e + d)) coord Hr g (adm_admP _ _ _ Hg)) as [A1 _].
    apply (A1 K (Ky _ _ HK)); [reflexivity|exact Hk|exact Hb].
  - intros h Hh. apply eqm_eq. now rewrite (Hh w Cw (or_introl eq_refl)).
Qed.
Lemma word_newC dt dc t cv w S : 0 <= t -> dt_ok dt t -> okey cls_surj w -> surj_new dt dc [(w, 1)] (Some t) (Some cv) = Ok S -> den cls_surj t cv (fun g => 1 * g w) S.
Proof.
  intros Ht Hdt Ho E. destruct (new_den cls_surj ok_surj dt t (Some t) cv [(w, 1)] eq_refl Ht) as (S' & E' & D).
  - split; [intros k' []|exact I].
  - intros k [<-|[]]. exact Ho.
  - unfold surj_new in E. cbn [dict_of fold_left dset fst snd] in E. rewrite E' in E. injection E as <-. eapply den_ext; [|exact D]. intros g _. apply eqm_eq. rewrite ev_cons, ev_nil. ring.
Qed.
Lemma cell_deg X e (y : cubc) : keys_in (cub_cell X e) y -> keys_in (kdegC 1 e) y.
Proof. intros Ky k v Hk. destruct (Ky _ _ Hk) as (s & -> & _ & _ & Es). split; [reflexivity|]. rewrite tdeg_cons. change (tdeg cube_dim []) with 0. rewrite cube_dim_dim. lia. Qed.
Lemma cell_cub X e (y : cubc) : keys_in (cub_cell X e) y -> keys_in (kcub 1 e) y.
Proof. intros Ky k v Hk. split; [eapply cell_deg; eauto|]. destruct (Ky _ _ Hk) as (s & -> & _ & Cs & _). intros c [<-|[]]. exact Cs. Qed.
Lemma grouped_range a b u i : a <= i < b -> zlen u = b - a -> grouped i (combine (zrange a b) u) = [znth [] u (i - a)] :> list (list Z).
Proof.
  intros Hi Lu. revert a Hi Lu. induction u as [|c u IH]; intros a Hi Lu; [rewrite zlen_nil in Lu; lia|]. rewrite zlen_cons in Lu. rewrite zrange_cons by lia. cbn [combine]. rewrite grouped_cons. destruct (Z.eqb_spec a i) as [->|N].
  - cbn [app]. replace (i - i) with 0 by ring. cbn. f_equal.
    assert (E : forall (u : list (list Z)) a', i < a' -> grouped i (combine (zrange a' b) u) = []).
    { clear. intros u. induction u as [|c u IH]; intros a' Ha'; [now rewrite combine_nil|]. destruct (Z.lt_ge_cases a' b); [|rewrite zrange_nil by lia; reflexivity]. rewrite zrange_cons by lia. cbn [combine]. rewrite grouped_cons.
      destruct (Z.eqb_spec a' i); [lia|]. cbn [app]. apply IH. lia. }
    apply E. lia.
  - cbn [app]. rewrite IH by lia. f_equal. unfold znth. replace (Z.to_nat (i - a)) with (Datatypes.S (Z.to_nat (i - (a + 1)))) by lia. reflexivity.
Qed.
Lemma TC_id r g u : 1 <= r -> zlen u = r -> TC r (zrange 1 (r + 1)) g u = g u.
Proof.
  intros Hr Lu. unfold TC. 
  assert (G : forall m g, 0 <= m <= r -> MJ (zrange (m + 1) (r + 1)) g (combine (zrange 1 (r + 1)) u) = g (skipn (Z.to_nat m) u)).
  { intros m g' Hm. remember (Z.to_nat (r - m)) as n eqn:En. revert m g' Hm En. induction n as [|n IH]; intros m g' Hm En.
    - rewrite zrange_nil by lia. cbn [MJ]. rewrite skipn_all2 by (unfold zlen in Lu; lia). reflexivity.
    - rewrite zrange_cons by lia. cbn [MJ]. rewrite grouped_range by lia. rewrite Jg_1, IH by lia. f_equal.
      replace (Z.to_nat (m + 1)) with (Datatypes.S (Z.to_nat m)) by lia. replace (m + 1 - 1) with m by ring.
      assert (L : (Z.to_nat m < length u)%nat) by (unfold zlen in Lu; lia). unfold znth. clear -L. revert u L. induction (Z.to_nat m) as [|q IH]; intros [|c u] L; cbn [length] in L; try lia; [reflexivity|]. cbn [nth skipn]. apply IH. lia. }
  exact (G 0 g ltac:(lia)).
Qed.
Lemma csg_id r u : 1 <= r -> zlen u = r -> csg r (combine (zrange 1 (r + 1)) u) = 1.
Proof.
  intros Hr Lu. unfold csg. rewrite sgn_add. rewrite <- cwt_combine.
  assert (E1 : sgn (action_exponent r (combine (zrange 1 (r + 1)) (map dim u))) = 1) by (unfold sgn; rewrite exp_range by (rewrite zlen_map; lia); reflexivity). rewrite E1, Z.mul_1_l.
  assert (Gl : forall i, 1 <= i < r + 1 -> zlen (grouped i (combine (zrange 1 (r + 1)) (map dim u))) = 1 /\ exists x, grouped i (combine (zrange 1 (r + 1)) (map dim u)) = [x]).
  { intros i Hi. rewrite combine_map_r, grouped_map. rewrite grouped_range by lia. cbn [map]. split; [reflexivity|eexists; reflexivity]. }
  assert (E : join_exponent r (combine (zrange 1 (r + 1)) (map dim u)) = 0); [|rewrite E; apply sgn_0]. unfold join_exponent. destruct (Z.leb_spec r 2).
  - change (zsum (map ?f ?l)) with (sumf f l). rewrite sumf_0.
    + assert (Eh : (r =? 2) && (hd 0 (map fst (combine (zrange 1 (r + 1)) (map dim u))) =? 2) = false); [|rewrite Eh; reflexivity]. rewrite (zrange_cons 1) by lia. destruct u as [|c u]; [rewrite zlen_nil in Lu; lia|]. cbn. apply andb_false_r.
    + intros i Hi. apply in_zrange in Hi. destruct (Gl i ltac:(lia)) as [-> _]. ring.
  - change (zsum (map ?f (zrange 1 (r + 1)))) with (sumf f (zrange 1 (r + 1))). apply sumf_0. intros i Hi. apply in_zrange in Hi. destruct (Gl i ltac:(lia)) as [_ [x ->]]. reflexivity.
Qed.
Lemma PhiC_id r coord g K : 1 <= r -> PhiC r coord g (zrange 1 (r + 1)) K = SdC (Z.to_nat (r - 1)) coord g K.
Proof.
  intros Hr. rewrite PhiC_at. unfold SdC. rewrite zlen_zrange. replace (Z.max 0 (r + 1 - 1) - r) with 0 by lia. rewrite zrange_length. replace (Z.to_nat (r + 1 - 1) - 1)%nat with (Z.to_nat (r - 1)) by lia.
  unfold at_pos. apply sumf_ext. intros [[l1 s] l2] _. destruct (zlen l1 =? coord - 1); [|reflexivity]. rewrite Z.mul_0_r, sgn_0, Z.mul_1_l. apply SC_ext. intros u _ Lu. assert (Lu' : zlen u = r) by lia. unfold T1C. rewrite csg_id, TC_id by assumption. ring.
Qed.

(** #C77_diagonal# The word (1, 2, ..., r) acts on cubical chains as the iterated
    Serre diagonal, in every convention and with every torsion:
    [w(y, coord) == y.iterated_diagonal(r - 1, coord)]. *)
Lemma C77_diagonal_l (dt r n e coord : Z) (dc cv : conv) (w : surj) (y : cubc) :
  1 <= r -> 1 <= coord <= n -> wf cls_cubical y -> data y <> [] -> dt_ok dt (torsion y) ->
  keys_in (fun k => zlen k = n /\ cube_degree k = e) y ->
  surj_new dt dc [(zrange 1 (r + 1), 1)] (Some (torsion y)) (Some cv) = Ok w ->
  same (surj_call_cubical dt w y coord) (cub_iterated_diagonal dt y (r - 1) coord).
Proof.
  intros Hr Hc Wy Ny Hdt Ky Ew. apply kdegC_of in Ky. pose proof (proj1 Wy) as Ht.
  eapply (same_den cls_cubical ok_cubical (torsion y) tt); [exact Ht| | |].
  - apply (word_callC dt (torsion y) cv r 0 n e coord 1 (zrange 1 (r + 1)) w y); auto using id_cell. apply (word_newC dt dc); auto. apply (okey_cell r 0); auto using id_cell.
  - apply (diagC_den dt (torsion y) n e (r - 1) coord y); auto. lia.
  - intros g _. cbn beta. apply eqm_eq. rewrite Z.mul_1_l. apply ev_ext. intros K v _. now apply PhiC_id.
Qed.
(** #C77_faces# The action never leaves a subcomplex: if the factors of y lie in
    a set X of cubes that is closed under faces, so do all factors of x(y, coord). *)
Lemma C77_faces_l (dt r d n e coord : Z) (X : list Z -> Prop) (x : surj) (y : cubc) :
  cubical_set X -> 1 <= r -> 1 <= coord <= n -> wf cls_surj x -> wf cls_cubical y -> torsion y = torsion x -> dt_ok dt (torsion x) ->
  keys_in (surj_cell r d) x -> keys_in (fun k => zlen k = n /\ cube_degree k = e /\ forall c, In c k -> X c /\ is_cube c) y ->
  exists z, surj_call_cubical dt x y coord = Ok z /\ keys_in (fun k => zlen k = n + r - 1 /\ cube_degree k = e + d /\ forall c, In c k -> X c /\ is_cube c) z.
Proof.
  intros HX Hr Hc Wx Wy Ty Hdt Kx Ky. pose proof (proj1 Wx) as Ht.
  assert (Ky' : keys_in (kdegC n e) y) by (intros k v Hk; destruct (Ky _ _ Hk) as (? & ? & _); unfold kdeg; rewrite <- cdeg; tauto).
  set (Q := fun k : list (list Z) => kcub (n + r - 1) (e + d) k /\ forall c, In c k -> exists s, In s (concat (dkeys (data y))) /\ subc s c).
  assert (HQ : kpred Q).
  { apply kpred_eq. intros k. unfold Q. destruct (proj1 (kpred_kcub (n + r - 1) (e + d)) k); [|right; tauto]. destruct (forall_in_dec (fun c => exists s, In s (concat (dkeys (data y))) /\ subc s c)) with (l := k); [|tauto|tauto].
    intros c. generalize (concat (dkeys (data y))). intros l. induction l as [|s l [IH|IH]]; [right; intros (s & [] & _)|left; destruct IH as (s' & H1 & H2); exists s'; split; [now right|exact H2]|].
    assert (D : subc s c \/ ~ subc s c); [|destruct D as [D|D]; [left; exists s; split; [now left|exact D]|right; intros (s' & [<-|H1] & H2); [contradiction|]; apply IH; eauto]].
    clear. revert c. induction s as [|a s IH]; intros [|b c]; [left; constructor|right; intros Q; inversion Q|right; intros Q; inversion Q|].
    destruct (IH c) as [H|H]; [|right; intros Q; inversion Q; auto]. destruct (Z.eq_dec a 2) as [->|N]; [left; constructor; auto|]. destruct (Z.eq_dec a b) as [->|N']; [left; constructor; auto|right; intros Q; inversion Q; subst; tauto]. }
  destruct (bil_actC dt (torsion x) r d n e coord (attr x) Ht Hdt Hr Hc x y Wx eq_refl eq_refl Kx Wy Ty (cub_attr y) Ky') as (z & Ez & Dz).
  exists z. split; [exact Ez|]. assert (Kz : keys_in Q z).
  { apply (den_keys cls_cubical ok_cubical (torsion x) tt _ z Q Ht HQ Dz). intros g _ H0. apply eqm_eq. apply ev_zero. intros k v Hk. apply ev_zero. intros K u HK. unfold PhiC. apply ev_zero. intros w v' Hw. apply H0.
    destruct (Ky _ _ HK) as (LK & DK & CK).
    destruct (actsC_deg r d n e coord k K w v' Hr (Kx _ _ Hk) (Ky' _ _ HK) Hw) as [K1 K2]. assert (Cw : forall c, In c w -> is_cube c) by (apply K2; intros c Hc'; now apply CK).
    split; [split; [exact K1|exact Cw]|]. intros c Hcw. pose proof (Cw c Hcw) as Cc. apply actsC_in in Hw. destruct Hw as (l1 & s & l2 & u' & e1 & w' & e2 & -> & E1 & Hu & Hw & ->).
    assert (IK : forall c', In c' (l1 ++ s :: l2) -> In c' (concat (dkeys (data y)))) by (intros c' Hc'; apply in_concat; exists (l1 ++ s :: l2); split; [now apply (in_map fst) in HK|exact Hc']).
    apply in_app_or in Hcw. destruct Hcw as [Hcw|Hcw]; [exists c; split; [apply IK; apply in_or_app; now left|apply subc_refl]|]. apply in_app_or in Hcw. destruct Hcw as [Hcw|Hcw]; [|exists c; split; [apply IK; apply in_or_app; right; now right|apply subc_refl]].
    exists s. split; [apply IK; apply in_or_app; right; now left|]. eapply tensor_sub; [|exact Hw|exact Hcw]. intros [a b] Hp. cbn [snd]. apply in_combine_r in Hp. eapply serre_sub; eauto. }
  intros k v Hk. destruct (Kz _ _ Hk) as [[[L D] C] HXk]. rewrite cdeg. split; [exact L|]. split; [exact D|]. intros c Hcin. split; [|auto]. destruct (HXk c Hcin) as (s & Hs & Sc).
  apply (X_sub X s c HX Sc (C c Hcin)) with (l := []). apply in_concat in Hs. destruct Hs as (K & HK & Hs). apply in_map_iff in HK. destruct HK as ([K' u] & <- & HK). now apply (Ky _ _ HK).
Qed.
(** #C77_equivariant# (a * s)(x) == a * s(x) with coefficients mod 2, in the
    Berger-Fresse and in the McClure-Smith convention. *)
Lemma C77_equivariant_l (dt r d e : Z) (a : ring) (s : surj) (x : cubc) :
  1 <= r -> wf cls_ring a -> wf cls_surj s -> wf cls_cubical x -> torsion a = 2 -> torsion s = 2 -> torsion x = 2 -> dt_ok dt 2 -> attr s = BF \/ attr s = MS ->
  keys_in (fun k => perm r (kval k)) a -> keys_in (surj_cell r d) s -> keys_in (fun k => zlen k = 1 /\ cube_degree k = e) x ->
  same (let! u := extended dt cls_surj (surj_act dt) a s in surj_call_cubical dt u x 1)
       (let! v := surj_call_cubical dt s x 1 in extended dt cls_cubical (cub_act dt) a v).
Proof.
  intros Hr Wa Ws Wx Ta Ts Tx Hdt As Ka Ks Kx. apply kdegC_of in Kx. assert (Ht : 0 <= 2) by lia. assert (Hr0 : 0 <= r) by lia. set (cv := attr s) in *.
  assert (B1 : bilop cls_ring cls_surj cls_surj 2 tt cv cv (pk r) (surj_cell r d) (PactS cv) (extended dt cls_surj (surj_act dt))).
  { eapply bilop_weaken; [| |apply (bil_sact dt cv As r 2 Hr Ht Hdt)]; [auto|]. now intros k [Hk _]. }
  assert (R1 : rep2 (pk r) (surj_cell r d) (surj_cell r d) (PactS cv)) by (apply rep_sact_on; auto; intros p k Hp Hk; now apply cell_move).
  pose proof (bil_actC dt 2 r d 1 e 1 cv Ht Hdt Hr ltac:(lia)) as B2.
  pose proof (rep_PhiC r d 1 e 1 Hr) as R3.
  pose proof (bilop_act cls_cubical noc cbad cck cube_dim dt r 2 Hr Ht Hdt) as B4.
  pose proof (adm_act cls_cubical noc cbad cube_dim r Hr0) as AD4.
  rewrite cub_act_tact.
  refine (bilop_assoc cls_ring cls_surj cls_cubical cls_surj cls_cubical cls_cubical ok_surj ok_cubical ok_cubical 2 tt cv tt cv tt tt
    (pk r) (surj_cell r d) (kdegC 1 e) (surj_cell r d) (kdegC (1 + r - 1) (e + d)) (kar r) (PactS cv) (PhiC r 1) (PhiC r 1) (Pact cube_dim)
    (extended dt cls_surj (surj_act dt)) (fun x y => surj_call_cubical dt x y 1) (fun x y => surj_call_cubical dt x y 1) (extended dt cls_cubical (tact cls_cubical cube_dim dt))
    a s x Ht (kpred_cell r d) (kpred_kdegC _ _) B1 R1 B2 _ B2 R3 _ _ _ Wa Ta _ Ka Ws Ts eq_refl Ks Wx Tx (cub_attr x) Kx); try (match goal with |- attr ?u = _ => now destruct (attr u) end).
  - apply adm_PhiC. exact Hr.
  - eapply bilop_weaken; [| |exact B4]; auto. intros k [Hk _]. unfold kar. lia.
  - eapply adm2_weaken; [| | |exact AD4]; auto. intros k [Hk _]. unfold kar. lia.
  - intros g k1 k2 k3 _ H1 [H2 _] [H3 _] _ _ _. unfold PactS, Pact. destruct k3 as [|u [|u' k3]]; [discriminate H3| |exfalso; rewrite !zlen_cons in H3; pose proof (zlen_nonneg k3); lia].
    rewrite asg_odd, Z.mul_1_l. transitivity (PsiC r (map (image (kval k1)) k2) (fun v => g ([] ++ v ++ [])) u); [apply (PhiC_mod2 r 1 g _ [] u []); reflexivity|]. rewrite PsiC_move by assumption. symmetry.
    etransitivity; [apply (PhiC_mod2 r 1 (fun K => kact cube_dim g (kval k1) K) k2 [] u []); reflexivity|]. apply PsiC_eqm. intros w. cbn [app]. rewrite !app_nil_r. unfold kact. rewrite (sgn_eqm2 _), Z.mul_1_l. reflexivity.
Qed.
Lemma may2_den dt dc d ot ov u cv S : u = match ot with Some t => if t =? 0 then dt else t | None => dt end -> cv = match ov with Some c => c | None => dc end -> cv = BF \/ cv = MS ->
  0 <= d -> 0 <= u -> u <> 1 -> dt_ok dt u -> surj_may_steenrod dt dc 2 d ot ov = Ok S -> den cls_surj u cv (fun g => two_sign cv d * g (altw 1 (Z.to_nat d + 2))) S.
Proof.
  intros Eu Ec Hcv Hd Hu N Hdt ES. destruct (mayS_ok dt dc cv 2 (Z.to_nat d) ot ov u Eu Ec Hcv ltac:(lia) Hu N Hdt) as (y & Ey & Dy). rewrite Z2Nat.id in Ey by lia. rewrite ES in Ey. injection Ey as <-.
  eapply den_ext; [|exact Dy]. intros g Hg. apply eqm_eq. rewrite FpS_alt by exact Hg. rewrite two_sign_ok by exact Hcv. now rewrite Z2Nat.id by lia.
Qed.
(** #C77_unstable# [may_steenrod_structure(2, d)] sends cubes of dimension less
    than d to zero, for every torsion and in both conventions. *)
Lemma C77_unstable_l (dt d e : Z) (dc cv : conv) (ot : option Z) (ov : option conv) (X : list Z -> Prop) (S : surj) (c : cubc) :
  torsion c = match ot with Some t => if t =? 0 then dt else t | None => dt end -> cv = match ov with Some c => c | None => dc end -> cv = BF \/ cv = MS ->
  e < d -> wf cls_cubical c -> torsion c <> 1 -> dt_ok dt (torsion c) -> keys_in (cub_cell X e) c ->
  0 <= d -> surj_may_steenrod dt dc 2 d ot ov = Ok S -> gives cls_cubical (surj_call_cubical dt S c 1) (torsion c) tt [].
Proof.
  intros Et Ec Hcv He Wc N Hdt Kc Hd ES. pose proof (proj1 Wc) as Ht. pose proof (may2_den dt dc d ot ov _ cv S Et Ec Hcv Hd Ht N Hdt ES) as DS.
  eapply (den_gives cls_cubical ok_cubical); [exact Ht|apply (word_callC dt (torsion c) cv 2 (Z.of_nat (Z.to_nat d)) 1 e 1 _ _ S c Ht Hdt ltac:(lia) ltac:(lia) (altw_cell _) DS Wc eq_refl (cell_deg X e c Kc))|].
  intros g _. cbn beta. apply eqm_eq. rewrite ev_zero; [rewrite ev_nil; ring|]. intros K v HK. destruct (Kc _ _ HK) as (s & -> & _ & _ & Ds). apply PhiC_low. rewrite cube_dim_dim. lia.
Qed.
(** #C77_square# Mod 2 it sends every cube s of dimension d to s times s. *)
Lemma C77_square_l (dt d : Z) (dc cv : conv) (ov : option conv) (X : list Z -> Prop) (S : surj) (c : cubc) :
  cv = match ov with Some c => c | None => dc end -> cv = BF \/ cv = MS -> wf cls_cubical c -> torsion c = 2 -> dt_ok dt 2 -> keys_in (cub_cell X d) c ->
  0 <= d -> surj_may_steenrod dt dc 2 d (Some 2) ov = Ok S ->
  gives cls_cubical (surj_call_cubical dt S c 1) 2 tt (extend (fun k => [(k ++ k, 1)]) c).
Proof.
  intros Ec Hcv Wc Tc Hdt Kc Hd ES. assert (Ht : 0 <= 2) by lia. pose proof (may2_den dt dc d (Some 2) ov 2 cv S eq_refl Ec Hcv Hd Ht ltac:(lia) Hdt ES) as DS.
  eapply (den_gives cls_cubical ok_cubical); [exact Ht|apply (word_callC dt 2 cv 2 (Z.of_nat (Z.to_nat d)) 1 d 1 _ _ S c Ht Hdt ltac:(lia) ltac:(lia) (altw_cell _) DS Wc Tc (cell_deg X d c Kc))|].
  intros g _. cbn beta. rewrite ev_extend. rewrite two_sign_odd, Z.mul_1_l. apply ev_eqm. intros K v HK. destruct (Kc _ _ HK) as (s & -> & _ & Cs & Ds). rewrite PhiC_square by (rewrite ?cube_dim_dim; (assumption || lia)).
  apply eqm_eq. rewrite ev_cons, ev_nil. cbn [app]. ring.
Qed.
Lemma value_ev g (z : cubc) : cub_value g z = ev g (data z). Proof. reflexivity. Qed.
Lemma adm_all (g : list (list Z) -> Z) : adm cls_cubical g.
Proof. split; [intros k k' E; apply keqb_eq in E; now subst|discriminate]. Qed.
Lemma mod2_eqm a b : eqm 2 a b -> a mod 2 = b mod 2. Proof. apply mod_eqm. lia. Qed.
Lemma eqm_mod2 a b : a mod 2 = b mod 2 -> eqm 2 a b.
Proof. intros E. exists (a / 2 - b / 2). pose proof (Z.div_mod a 2 ltac:(lia)). pose proof (Z.div_mod b 2 ltac:(lia)). lia. Qed.
Section Chain.
Variables (dt e : Z) (X : list Z -> Prop) (c : cubc).
Hypothesis Hdt : dt_ok dt 2.
Hypothesis Wc : wf cls_cubical c.
Hypothesis Tc : torsion c = 2.
Hypothesis Kc : keys_in (cub_cell X e) c.
Definition alt_el (cv : conv) (d : nat) (S : surj) : Prop := exists c0, eqm 2 c0 1 /\ den cls_surj 2 cv (fun g => c0 * g (altw 1 (d + 2))) S.
Lemma value_c cv d S : alt_el cv d S -> exists z, surj_call_cubical dt S c 1 = Ok z /\ forall a b, eqm 2 (cub_value (on_pair a b) z) (ev (PP d a b) (data c)).
Proof.
  intros (c0 & E0 & DS). destruct (word_callC dt 2 cv 2 (Z.of_nat d) 1 e 1 _ _ S c ltac:(lia) Hdt ltac:(lia) ltac:(lia) (altw_cell _) DS Wc Tc (cell_deg X e c Kc)) as (z & Ez & Dz).
  exists z. split; [exact Ez|]. intros a b. rewrite value_ev, (den_ev cls_cubical 2 tt _ z _ Dz (adm_all _)), E0, Z.mul_1_l. reflexivity.
Qed.
Lemma bnd_c : exists bc, cub_boundary dt c = Ok bc /\ den cls_cubical 2 tt (fun g => ev (tDC g) (data c)) bc /\ keys_in (kcub 1 (e - 1)) bc.
Proof.
  exact (linop_bnd cls_cubical cck fbC cube_dim dt (cub_boundary dt) (fun t x => cub_boundary_den dt t x) 2 _ _ ltac:(lia) Hdt (kpred_kcub _ _) (tb_kcub 1 e) c Wc Tc (cub_attr c) (cell_cub X e c Kc)).
Qed.
Lemma value_bc cv d S : alt_el cv d S -> exists bc z, cub_boundary dt c = Ok bc /\ surj_call_cubical dt S bc 1 = Ok z /\ forall a b, eqm 2 (cub_value (on_pair a b) z) (ev (tDC (PP d a b)) (data c)).
Proof.
  intros (c0 & E0 & DS). destruct bnd_c as (bc & Eb & Db & Kb). assert (Kb' : keys_in (kdegC 1 (e - 1)) bc) by (intros k v Hk; exact (proj1 (Kb _ _ Hk))).
  destruct (word_callC dt 2 cv 2 (Z.of_nat d) 1 (e - 1) 1 _ _ S bc ltac:(lia) Hdt ltac:(lia) ltac:(lia) (altw_cell _) DS (den_wf cls_cubical 2 tt _ bc ltac:(lia) Db) (proj1 Db) Kb') as (z & Ez & Dz).
  exists bc, z. split; [exact Eb|]. split; [exact Ez|]. intros a b. rewrite value_ev, (den_ev cls_cubical 2 tt _ z _ Dz (adm_all _)), E0, Z.mul_1_l. 
  exact (den_ev cls_cubical 2 tt _ bc (PP d a b) Db (adm_all _)).
Qed.
Lemma cycle_c bc : cub_boundary dt c = Ok bc -> data bc = [] -> forall g, eqm 2 (ev (tDC g) (data c)) 0.
Proof.
  intros Eb Zb g. destruct bnd_c as (bc' & Eb' & Db & _). rewrite Eb in Eb'. injection Eb' as <-. rewrite <- (den_ev cls_cubical 2 tt _ bc g Db (adm_all _)), Zb. reflexivity.
Qed.
Lemma sum_formula d a b : eqm 2 (ev (tDC (PP (Datatypes.S d) a b)) (data c))
  (ev (PP (Datatypes.S d) (cub_coboundary a) b) (data c) + ev (PP (Datatypes.S d) a (cub_coboundary b)) (data c) + ev (PP d a b) (data c) + ev (PP d b a) (data c)).
Proof. rewrite <- !ev_lin2. apply ev_eqm. intros K v HK. destruct (Kc _ _ HK) as (s & -> & _ & Cs & _). now apply cob_formula. Qed.
Lemma sum_formula0 a b : eqm 2 (ev (tDC (PP 0 a b)) (data c)) (ev (PP 0 (cub_coboundary a) b) (data c) + ev (PP 0 a (cub_coboundary b)) (data c)).
Proof. rewrite <- !ev_lin2. apply ev_eqm. intros K v HK. destruct (Kc _ _ HK) as (s & -> & _ & Cs & _). now apply cob_formula0. Qed.
End Chain.
Lemma may2_alt dt dc d ov cv S : cv = match ov with Some c => c | None => dc end -> cv = BF \/ cv = MS -> 0 <= d -> dt_ok dt 2 -> surj_may_steenrod dt dc 2 d (Some 2) ov = Ok S -> alt_el cv (Z.to_nat d) S.
Proof. intros Ec Hcv Hd Hdt ES. exists (two_sign cv d). split; [apply two_sign_odd|]. apply (may2_den dt dc d (Some 2) ov 2 cv S); auto; lia. Qed.
(** #C77_coboundary# Steenrod's coboundary formula.  Write (a u_d b)(c) for the
    value of a times b on S_d(c), where S_d = may_steenrod_structure(2, d).
    Mod 2, for all cochains a, b and every chain c of cubes, and d >= 1:
    (a u_d b)(dc) = (da u_d b)(c) + (a u_d db)(c) + (a u_(d-1) b)(c) + (b u_(d-1) a)(c). *)
Lemma C77_coboundary_l (dt d e : Z) (dc cv cv' : conv) (ov ov' : option conv) (X : list Z -> Prop) (S S' : surj) (c : cubc) (a b : list Z -> Z) :
  cv = match ov with Some c => c | None => dc end -> cv = BF \/ cv = MS -> cv' = match ov' with Some c => c | None => dc end -> cv' = BF \/ cv' = MS ->
  1 <= d -> dt_ok dt 2 -> wf cls_cubical c -> torsion c = 2 -> keys_in (cub_cell X e) c ->
  surj_may_steenrod dt dc 2 d (Some 2) ov = Ok S -> surj_may_steenrod dt dc 2 (d - 1) (Some 2) ov' = Ok S' ->
  exists bc z y y', cub_boundary dt c = Ok bc /\ surj_call_cubical dt S bc 1 = Ok z /\ surj_call_cubical dt S c 1 = Ok y /\ surj_call_cubical dt S' c 1 = Ok y' /\
    cub_value (on_pair a b) z mod 2 =
    (cub_value (on_pair (cub_coboundary a) b) y + cub_value (on_pair a (cub_coboundary b)) y + cub_value (on_pair a b) y' + cub_value (on_pair b a) y') mod 2.
Proof.
  intros Ec Hcv Ec' Hcv' Hd Hdt Wc Tc Kc ES ES'. apply (may2_alt dt dc d ov cv) in ES; auto; [|lia]. apply (may2_alt dt dc (d - 1) ov' cv') in ES'; auto; [|lia].
  replace (Z.to_nat d) with (Datatypes.S (Z.to_nat (d - 1))) in ES by lia.
  destruct (value_bc dt e X c Hdt Wc Tc Kc _ _ _ ES) as (bc & z & Eb & Ez & V1). destruct (value_c dt e X c Hdt Wc Tc Kc _ _ _ ES) as (y & Ey & V2). destruct (value_c dt e X c Hdt Wc Tc Kc _ _ _ ES') as (y' & Ey' & V3).
  exists bc, z, y, y'. split; [exact Eb|]. split; [exact Ez|]. split; [exact Ey|]. split; [exact Ey'|]. apply mod2_eqm. rewrite V1, !V2, !V3. eapply sum_formula; eauto.
Qed.
(** #C77_leibniz# For d = 0 the last two terms are absent: the cup product
    satisfies the Leibniz rule. *)
Lemma C77_leibniz_l (dt e : Z) (dc cv : conv) (ov : option conv) (X : list Z -> Prop) (S : surj) (c : cubc) (a b : list Z -> Z) :
  cv = match ov with Some c => c | None => dc end -> cv = BF \/ cv = MS ->
  dt_ok dt 2 -> wf cls_cubical c -> torsion c = 2 -> keys_in (cub_cell X e) c -> surj_may_steenrod dt dc 2 0 (Some 2) ov = Ok S ->
  exists bc z y, cub_boundary dt c = Ok bc /\ surj_call_cubical dt S bc 1 = Ok z /\ surj_call_cubical dt S c 1 = Ok y /\
    cub_value (on_pair a b) z mod 2 = (cub_value (on_pair (cub_coboundary a) b) y + cub_value (on_pair a (cub_coboundary b)) y) mod 2.
Proof.
  intros Ec Hcv Hdt Wc Tc Kc ES. apply (may2_alt dt dc 0 ov cv) in ES; auto; [|lia]. change (Z.to_nat 0) with 0%nat in ES.
  destruct (value_bc dt e X c Hdt Wc Tc Kc _ _ _ ES) as (bc & z & Eb & Ez & V1). destruct (value_c dt e X c Hdt Wc Tc Kc _ _ _ ES) as (y & Ey & V2).
  exists bc, z, y. split; [exact Eb|]. split; [exact Ez|]. split; [exact Ey|]. apply mod2_eqm. rewrite V1, !V2. eapply sum_formula0; eauto.
Qed.
(** #C77_operad_refuted# The action on cubical chains is not an operad action, not
    even mod 2: for x = (1,2,1), w = (1,2) and the square, (x o_1 w)(y) differs from
    w acting on the first factor of x(y). *)
Lemma C77_operad_refuted_l :
  exists x w y xw u xy v, surj_new 0 MS [([1; 2; 1], 1)] (Some 2) (Some MS) = Ok x /\ surj_new 0 MS [([1; 2], 1)] (Some 2) (Some MS) = Ok w /\ cub_new 0 [([[2; 2]], 1)] (Some 2) = Ok y /\
    surj_compose 0 x w 1 = Ok xw /\ surj_call_cubical 0 xw y 1 = Ok u /\ surj_call_cubical 0 x y 1 = Ok xy /\ surj_call_cubical 0 w xy 1 = Ok v /\
    exists k, dget (data u) k <> dget (data v) k.
Proof.
  do 7 eexists. do 7 (split; [vm_compute; reflexivity|]). exists [[0; 2]; [2; 1]; [0; 2]]. vm_compute. discriminate.
Qed.
Lemma op2_alt dt dc s q S : dt_ok dt 2 -> 0 <= s - q -> surj_steenrod_operation dt dc 2 s q false (Some MS) = Ok S -> alt_el MS (Z.to_nat (s - q)) S.
Proof. intros Hdt Hd ES. exists (two_sign MS (s - q)). split; [apply two_sign_odd|]. now apply op2 in ES. Qed.
Lemma cob_cob f x : cub_coboundary (cub_coboundary f) x = 0.
Proof. rewrite cob_fd. rewrite <- (fdC_fdC f x). unfold fdC, fd. apply ev_ext. intros k v _. apply cob_fd. Qed.
Section Cycle.
Variables (dt e : Z) (X : list Z -> Prop) (c : cubc).
Hypothesis HX : cubical_set X.
Hypothesis Hdt : dt_ok dt 2.
Hypothesis Wc : wf cls_cubical c.
Hypothesis Tc : torsion c = 2.
Hypothesis Kc : keys_in (cub_cell X e) c.
Definition PS (d : nat) (a b : list Z -> Z) : Z := ev (PP d a b) (data c).
Lemma PS_0l d a b : cub_cocycle X a -> eqm 2 (PS d (cub_coboundary a) b) 0.
Proof.
  intros Ha. unfold PS. transitivity (ev (fun _ => 0) (data c)); [|rewrite ev_zero by reflexivity; reflexivity]. apply ev_eqm. intros K v HK. destruct (Kc _ _ HK) as (s & -> & Xs & Cs & _).
  apply (PP_0l X); auto. intros x Hx. apply eqm_mod2. now rewrite (Ha x Hx).
Qed.
Lemma PS_0r d a b : cub_cocycle X b -> eqm 2 (PS d a (cub_coboundary b)) 0.
Proof.
  intros Ha. unfold PS. transitivity (ev (fun _ => 0) (data c)); [|rewrite ev_zero by reflexivity; reflexivity]. apply ev_eqm. intros K v HK. destruct (Kc _ _ HK) as (s & -> & Xs & Cs & _).
  apply (PP_0r X); auto. intros x Hx. apply eqm_mod2. now rewrite (Ha x Hx).
Qed.
Lemma PS_X d a b a' b' : (forall x, X x -> a x mod 2 = a' x mod 2) -> (forall x, X x -> b x mod 2 = b' x mod 2) -> eqm 2 (PS d a b) (PS d a' b').
Proof.
  intros Ea Eb. unfold PS. apply ev_eqm. intros K v HK. destruct (Kc _ _ HK) as (s & -> & Xs & Cs & _). apply (PP_X X); auto; intros x Hx; apply eqm_mod2; auto.
Qed.
Lemma PS_bilin d a a' b b' : PS d (fun c => a c + a' c) (fun c => b c + b' c) = PS d a b + PS d a b' + PS d a' b + PS d a' b'.
Proof. unfold PS. rewrite <- !ev_lin2. apply ev_ext_all. intros K. apply PP_bilin. Qed.
Lemma PS_scal d m n a b : PS d (fun c => m * a c) (fun c => n * b c) = m * n * PS d a b.
Proof. unfold PS. rewrite <- ev_scal. apply ev_ext_all. intros K. unfold PP, PhiC. rewrite <- ev_scal. apply ev_ext_all. intros [|x [|y [|z w]]]; cbn [on_pair]; ring. Qed.
Lemma cocycle_cob f : cub_cocycle X (cub_coboundary f).
Proof. intros x _. now rewrite cob_cob. Qed.
Lemma twice_0 z : eqm 2 (z + z) 0. Proof. exists z. ring. Qed.
Lemma PS_cocycle d a : cub_cocycle X a -> eqm 2 (ev (tDC (PP d a a)) (data c)) 0.
Proof.
  intros Ha. destruct d as [|d].
  - rewrite (sum_formula0 e X c Kc). fold (PS 0 (cub_coboundary a) a) (PS 0 a (cub_coboundary a)). rewrite PS_0l, PS_0r by exact Ha. reflexivity.
  - rewrite (sum_formula e X c Kc). fold (PS (Datatypes.S d) (cub_coboundary a) a) (PS (Datatypes.S d) a (cub_coboundary a)) (PS d a a). rewrite PS_0l, PS_0r by exact Ha. rewrite !Z.add_0_l. apply twice_0.
Qed.
Hypothesis Zc : forall g, eqm 2 (ev (tDC g) (data c)) 0.
Lemma PS_comm d a b : cub_cocycle X a -> cub_cocycle X b -> eqm 2 (PS d a b + PS d b a) 0.
Proof.
  intros Ha Hb. pose proof (Zc (PP (Datatypes.S d) a b)) as E. rewrite (sum_formula e X c Kc) in E. fold (PS (Datatypes.S d) (cub_coboundary a) b) (PS (Datatypes.S d) a (cub_coboundary b)) (PS d a b) (PS d b a) in E.
  rewrite (PS_0l _ a) in E by exact Ha. rewrite (PS_0r _ _ b) in E by exact Hb. rewrite !Z.add_0_l in E. exact E.
Qed.
Lemma PS_cob d f : eqm 2 (PS d (cub_coboundary f) (cub_coboundary f)) 0.
Proof.
  destruct d as [|d].
  - pose proof (Zc (PP 0 f (cub_coboundary f))) as E. rewrite (sum_formula0 e X c Kc) in E. fold (PS 0 (cub_coboundary f) (cub_coboundary f)) (PS 0 f (cub_coboundary (cub_coboundary f))) in E.
    rewrite (PS_0r 0 f (cub_coboundary f)) in E by apply cocycle_cob. rewrite Z.add_0_r in E. exact E.
  - pose proof (Zc (PP (Datatypes.S d) f (cub_coboundary f))) as E. rewrite (sum_formula e X c Kc) in E.
    fold (PS (Datatypes.S d) (cub_coboundary f) (cub_coboundary f)) (PS (Datatypes.S d) f (cub_coboundary (cub_coboundary f))) (PS d f (cub_coboundary f)) (PS d (cub_coboundary f) f) in E.
    rewrite (PS_0r _ f (cub_coboundary f)) in E by apply cocycle_cob. rewrite Z.add_0_r in E.
    assert (E2 : eqm 2 (PS d f (cub_coboundary f) + PS d (cub_coboundary f) f) 0).
    { pose proof (Zc (PP d f f)) as F. destruct d as [|d].
      - rewrite (sum_formula0 e X c Kc) in F. fold (PS 0 (cub_coboundary f) f) (PS 0 f (cub_coboundary f)) in F. rewrite Z.add_comm. exact F.
      - rewrite (sum_formula e X c Kc) in F. fold (PS (Datatypes.S d) (cub_coboundary f) f) (PS (Datatypes.S d) f (cub_coboundary f)) (PS d f f) in F. rewrite <- Z.add_assoc, twice_0, Z.add_0_r in F. rewrite Z.add_comm. exact F. }
    rewrite <- Z.add_assoc, E2, Z.add_0_r in E. exact E.
Qed.
Lemma PS_class d a a' f : cub_cocycle X a -> (forall x, X x -> a' x mod 2 = (a x + cub_coboundary f x) mod 2) -> eqm 2 (PS d a' a') (PS d a a).
Proof.
  intros Ha Ea. rewrite (PS_X d a' a' _ _ Ea Ea), PS_bilin. rewrite PS_cob, Z.add_0_r. rewrite <- Z.add_assoc, (PS_comm d a) by (exact Ha || apply cocycle_cob). now rewrite Z.add_0_r.
Qed.
Lemma PS_cup_l b f : cub_cocycle X b -> eqm 2 (PS 0 (cub_coboundary f) b) 0.
Proof.
  intros Hb. pose proof (Zc (PP 0 f b)) as E. rewrite (sum_formula0 e X c Kc) in E. fold (PS 0 (cub_coboundary f) b) (PS 0 f (cub_coboundary b)) in E. rewrite PS_0r in E by exact Hb. rewrite Z.add_0_r in E. exact E.
Qed.
Lemma PS_cup_r a f : cub_cocycle X a -> eqm 2 (PS 0 a (cub_coboundary f)) 0.
Proof.
  intros Hb. pose proof (Zc (PP 0 a f)) as E. rewrite (sum_formula0 e X c Kc) in E. fold (PS 0 (cub_coboundary a) f) (PS 0 a (cub_coboundary f)) in E. rewrite PS_0l in E by exact Hb. rewrite Z.add_0_l in E. exact E.
Qed.
End Cycle.
(** #C77_example# A chain of two squares in the 3-cube meets the hypotheses, with a non-zero cup-1 product. *)
Example C77_example_l : exists (S1 S0 : surj) (x y : cubc), surj_may_steenrod 0 MS 2 1 (Some 2) None = Ok S1 /\ surj_may_steenrod 0 MS 2 0 (Some 2) None = Ok S0 /\
  cub_new 0 [([[2; 0; 2]], 1); ([[2; 2; 1]], 1)] (Some 2) = Ok x /\ wf cls_cubical x /\ torsion x = 2 /\ keys_in (cub_cell (fun c => zlen c = 3) 2) x /\ cubical_set (fun c => zlen c = 3) /\
  surj_call_cubical 0 S1 x 1 = Ok y /\ cub_value (on_pair (fun _ => 1) (fun c => match c with [u; _; w] => u * (w + 1) | _ => 0 end)) y mod 2 = 1.
Proof.
  do 4 eexists. split; [vm_compute; reflexivity|]. split; [vm_compute; reflexivity|]. split; [vm_compute; reflexivity|]. split; [apply wfb_wf; reflexivity|]. split; [reflexivity|].
  split; [intros k v [E|[E|[]]]; injection E as <- _; (eexists; split; [reflexivity|]; split; [reflexivity|]; split; [intros z Hz; cbn in Hz; lia|reflexivity])|].
  split; [intros l1 z l2 _; rewrite !zlen_app, !zlen_cons; auto|]. split; [vm_compute; reflexivity|]. vm_compute. reflexivity.
Qed.
(** #C78_cocycle# Squares of cocycles are cocycles.  For a cochain a with values
    mod 2 that is a cocycle on the cubical complex X, and S = steenrod_operation(2, s, q):
    the value of a times a on S(bc) is 0 when bc is the boundary of a chain c in X. *)
Lemma C78_cocycle_l (dt s q e : Z) (dc : conv) (X : list Z -> Prop) (S : surj) (c : cubc) (a : list Z -> Z) :
  0 <= s - q -> dt_ok dt 2 -> cubical_set X -> cub_cocycle X a -> wf cls_cubical c -> torsion c = 2 -> keys_in (cub_cell X e) c ->
  surj_steenrod_operation dt dc 2 s q false (Some MS) = Ok S ->
  exists bc z, cub_boundary dt c = Ok bc /\ surj_call_cubical dt S bc 1 = Ok z /\ cub_value (on_pair a a) z mod 2 = 0.
Proof.
  intros Hd Hdt HX Ha Wc Tc Kc ES. apply op2_alt in ES; auto. destruct (value_bc dt e X c Hdt Wc Tc Kc _ _ _ ES) as (bc & z & Eb & Ez & V). exists bc, z. split; [exact Eb|]. split; [exact Ez|].
  change 0 with (0 mod 2). apply mod2_eqm. rewrite V. now apply (PS_cocycle e X c).
Qed.
(** #C78_additive# On cycles the operation is additive: Sq(a + b) = Sq(a) + Sq(b). *)
Lemma C78_additive_l (dt s q e : Z) (dc : conv) (X : list Z -> Prop) (S : surj) (c bc : cubc) (a b : list Z -> Z) :
  0 <= s - q -> dt_ok dt 2 -> cubical_set X -> cub_cocycle X a -> cub_cocycle X b -> wf cls_cubical c -> torsion c = 2 -> keys_in (cub_cell X e) c ->
  cub_boundary dt c = Ok bc -> data bc = [] -> surj_steenrod_operation dt dc 2 s q false (Some MS) = Ok S ->
  exists z, surj_call_cubical dt S c 1 = Ok z /\
    cub_value (on_pair (fun u => a u + b u) (fun u => a u + b u)) z mod 2 = (cub_value (on_pair a a) z + cub_value (on_pair b b) z) mod 2.
Proof.
  intros Hd Hdt HX Ha Hb Wc Tc Kc Eb Zb ES. apply op2_alt in ES; auto. pose proof (cycle_c dt e X c Hdt Wc Tc Kc bc Eb Zb) as Zc.
  destruct (value_c dt e X c Hdt Wc Tc Kc _ _ _ ES) as (z & Ez & V). exists z. split; [exact Ez|]. apply mod2_eqm. rewrite !V. rewrite <- (Z.add_0_r (ev (PP _ a a) (data c) + _)).
  rewrite <- (PS_comm e X c HX Kc Zc (Z.to_nat (s - q)) a b Ha Hb). apply eqm_eq. rewrite (PS_bilin c (Z.to_nat (s - q)) a b a b : ev (PP _ (fun u => a u + b u) (fun u => a u + b u)) (data c) = _). unfold PS. ring.
Qed.
(** #C78_class# The value of the operation on a cycle depends only on the class of
    the cocycle: replacing a by a' = a + coboundary of f (mod 2, on X) does not change it. *)
Lemma C78_class_l (dt s q e : Z) (dc : conv) (X : list Z -> Prop) (S : surj) (c bc : cubc) (a a' f : list Z -> Z) :
  0 <= s - q -> dt_ok dt 2 -> cubical_set X -> cub_cocycle X a -> (forall x, X x -> a' x mod 2 = (a x + cub_coboundary f x) mod 2) ->
  wf cls_cubical c -> torsion c = 2 -> keys_in (cub_cell X e) c ->
  cub_boundary dt c = Ok bc -> data bc = [] -> surj_steenrod_operation dt dc 2 s q false (Some MS) = Ok S ->
  exists z, surj_call_cubical dt S c 1 = Ok z /\ cub_value (on_pair a' a') z mod 2 = cub_value (on_pair a a) z mod 2.
Proof.
  intros Hd Hdt HX Ha Ea Wc Tc Kc Eb Zb ES. apply op2_alt in ES; auto. pose proof (cycle_c dt e X c Hdt Wc Tc Kc bc Eb Zb) as Zc.
  destruct (value_c dt e X c Hdt Wc Tc Kc _ _ _ ES) as (z & Ez & V). exists z. split; [exact Ez|]. apply mod2_eqm. rewrite !V. now apply (PS_class e X c HX Kc Zc _ _ _ f).
Qed.
(** #C78_sq0# Sq^0 is the identity: on chains of cubes of dimension m the operation
    steenrod_operation(2, 0, -m) does not change the value of any cochain mod 2. *)
Lemma C78_sq0_l (dt m : Z) (dc : conv) (X : list Z -> Prop) (S : surj) (c : cubc) (a : list Z -> Z) :
  0 <= m -> dt_ok dt 2 -> wf cls_cubical c -> torsion c = 2 -> keys_in (cub_cell X m) c ->
  surj_steenrod_operation dt dc 2 0 (- m) false (Some MS) = Ok S ->
  exists z, surj_call_cubical dt S c 1 = Ok z /\ cub_value (on_pair a a) z mod 2 = cub_value (on_single a) c mod 2.
Proof.
  intros Hm Hdt Wc Tc Kc ES. apply op2_alt in ES; [|exact Hdt|lia]. destruct (value_c dt m X c Hdt Wc Tc Kc _ _ _ ES) as (z & Ez & V). exists z. split; [exact Ez|]. apply mod2_eqm. rewrite V. rewrite value_ev.
  apply ev_eqm. intros K v HK. destruct (Kc _ _ HK) as (u & -> & _ & Cu & Du). unfold PP. rewrite PhiC_square by (rewrite ?cube_dim_dim; (assumption || lia)). cbn [on_pair on_single app].
  destruct (Z.Even_or_Odd (a u)) as [[z0 E]|[z0 E]]; rewrite E; [exists (2 * z0 * z0 - z0)|exists (2 * z0 * z0 + z0)]; ring.
Qed.
(** #C78_unstable# Operations with s - q larger than the dimension vanish. *)
Lemma C78_unstable_l (dt s q e : Z) (dc : conv) (X : list Z -> Prop) (S : surj) (c : cubc) :
  0 <= s - q -> e < s - q -> dt_ok dt 2 -> wf cls_cubical c -> torsion c = 2 -> keys_in (cub_cell X e) c ->
  surj_steenrod_operation dt dc 2 s q false (Some MS) = Ok S -> gives cls_cubical (surj_call_cubical dt S c 1) 2 tt [].
Proof.
  intros Hd He Hdt Wc Tc Kc ES. apply op2 in ES; [|exact Hdt|exact Hd]. assert (Ht : 0 <= 2) by lia.
  eapply (den_gives cls_cubical ok_cubical); [exact Ht|apply (word_callC dt 2 MS 2 (Z.of_nat (Z.to_nat (s - q))) 1 e 1 _ _ S c Ht Hdt ltac:(lia) ltac:(lia) (altw_cell _) ES Wc Tc (cell_deg X e c Kc))|].
  intros g _. cbn beta. apply eqm_eq. rewrite ev_zero; [rewrite ev_nil; ring|]. intros K v HK. destruct (Kc _ _ HK) as (u & -> & _ & _ & Ds). apply PhiC_low. rewrite cube_dim_dim. lia.
Qed.
Lemma cup_PS dt e X (c z : cubc) a b : dt_ok dt 2 -> wf cls_cubical c -> torsion c = 2 -> data c <> [] -> keys_in (cub_cell X e) c -> cub_iterated_diagonal dt c 1 1 = Ok z -> eqm 2 (cub_value (on_pair a b) z) (PS c 0 a b).
Proof.
  intros Hdt Wc Tc Nc Kc E. destruct (diagC_den dt 2 1 e 1 1 c ltac:(lia) Hdt Wc Tc (cell_deg X e c Kc) Nc ltac:(lia) ltac:(lia)) as (z' & E' & D). rewrite E in E'. injection E' as <-.
  rewrite value_ev, (den_ev cls_cubical 2 tt _ z _ D (adm_all _)). apply eqm_eq. unfold PS. apply ev_ext. intros K v _. unfold PP. change (altw 1 (0 + 2)) with (zrange 1 (2 + 1)). rewrite PhiC_id by lia. reflexivity.
Qed.
(** #C78_top# The operation with s = q is the cup square, the value of a times a on the diagonal. *)
Lemma C78_top_l (dt q e : Z) (dc : conv) (X : list Z -> Prop) (S : surj) (c z : cubc) (a : list Z -> Z) :
  dt_ok dt 2 -> wf cls_cubical c -> torsion c = 2 -> data c <> [] -> keys_in (cub_cell X e) c ->
  surj_steenrod_operation dt dc 2 q q false (Some MS) = Ok S -> cub_iterated_diagonal dt c 1 1 = Ok z ->
  exists y, surj_call_cubical dt S c 1 = Ok y /\ cub_value (on_pair a a) y mod 2 = cub_value (on_pair a a) z mod 2.
Proof.
  intros Hdt Wc Tc Nc Kc ES Ez. apply op2_alt in ES; [|exact Hdt|lia]. destruct (value_c dt e X c Hdt Wc Tc Kc _ _ _ ES) as (y & Ey & V). exists y. split; [exact Ey|]. apply mod2_eqm. rewrite V. rewrite (cup_PS dt e X c z a a) by assumption.
  replace (Z.to_nat (q - q)) with 0%nat by lia. reflexivity.
Qed.
(** #C78_cup# Cup products (values on the diagonal) of cocycles mod 2 on a cycle: the
    value depends only on the classes and does not depend on the order of the factors. *)
Lemma C78_cup_l (dt e : Z) (X : list Z -> Prop) (c bc z : cubc) (a b f h : list Z -> Z) :
  dt_ok dt 2 -> cubical_set X -> cub_cocycle X a -> cub_cocycle X b -> wf cls_cubical c -> torsion c = 2 -> data c <> [] -> keys_in (cub_cell X e) c ->
  cub_boundary dt c = Ok bc -> data bc = [] -> cub_iterated_diagonal dt c 1 1 = Ok z ->
  cub_value (on_pair (fun u => a u + cub_coboundary f u) (fun u => b u + cub_coboundary h u)) z mod 2 = cub_value (on_pair a b) z mod 2 /\
  cub_value (on_pair b a) z mod 2 = cub_value (on_pair a b) z mod 2.
Proof.
  intros Hdt HX Ha Hb Wc Tc Nc Kc Eb Zb Ez. pose proof (cycle_c dt e X c Hdt Wc Tc Kc bc Eb Zb) as Zc. split; apply mod2_eqm; rewrite !(cup_PS dt e X c z) by assumption.
  - rewrite PS_bilin. rewrite (PS_cup_r e X c HX Kc Zc a h Ha), (PS_cup_l e X c HX Kc Zc b f Hb), (PS_cup_l e X c HX Kc Zc (cub_coboundary h) f (cocycle_cob X h)). apply eqm_eq. ring.
  - pose proof (PS_comm e X c HX Kc Zc 0 b a Hb Ha) as [w Ew]. exists (w - PS c 0 a b). lia.
Qed.
(** #C78_example# A non-trivial case: on the boundary of the 3-cube, a sphere, the
    cochain dual to one square is a cocycle, the sum of the six squares is a cycle, and
    the value of the operation Sq^0 is 1. *)
Example C78_example_l :
  let X := fun c => zlen c = 3 /\ is_cube c /\ c <> [2; 2; 2] in let a := fun u => match u with [2; 2; 0] => 1 | _ => 0 end in
  exists (S : surj) (c bc z : cubc), surj_steenrod_operation 0 MS 2 0 (-2) false (Some MS) = Ok S /\
  cub_new 0 [([[1; 2; 2]], 1); ([[0; 2; 2]], 1); ([[2; 1; 2]], 1); ([[2; 0; 2]], 1); ([[2; 2; 1]], 1); ([[2; 2; 0]], 1)] (Some 2) = Ok c /\
  cubical_set X /\ cub_cocycle X a /\ wf cls_cubical c /\ torsion c = 2 /\ keys_in (cub_cell X 2) c /\ cub_boundary 0 c = Ok bc /\ data bc = [] /\
  surj_call_cubical 0 S c 1 = Ok z /\ cub_value (on_pair a a) z mod 2 = 1.
Proof.
  intros X a. do 4 eexists. split; [vm_compute; reflexivity|]. split; [vm_compute; reflexivity|].
  split. { intros l1 x l2 Hx (L & C & N). rewrite zlen_app, zlen_cons in L. split; [rewrite zlen_app, zlen_cons; exact L|]. split; [intros y Hy; apply in_app_or in Hy; destruct Hy as [Hy|[<-|Hy]]; [apply C; apply in_or_app; now left|lia|apply C; apply in_or_app; right; now right]|].
    intros E. assert (I2 : In x [2; 2; 2]) by (rewrite <- E; apply in_or_app; right; now left). destruct I2 as [I2|[I2|[I2|[]]]]; lia. }
  split. { intros c (L & C & N). destruct c as [|x [|y [|z [|w c]]]]; try (exfalso; rewrite ?zlen_cons, ?zlen_nil in L; pose proof (zlen_nonneg c); lia); try discriminate L.
    assert (Hx : x = 0 \/ x = 1 \/ x = 2) by (apply C; now left). assert (Hy : y = 0 \/ y = 1 \/ y = 2) by (apply C; right; now left). assert (Hz : z = 0 \/ z = 1 \/ z = 2) by (apply C; right; right; now left).
    destruct Hx as [E0|[E0|E0]], Hy as [E1|[E1|E1]], Hz as [E2|[E2|E2]]; subst; try (now elim N); vm_compute; reflexivity. }
  split; [apply wfb_wf; reflexivity|]. split; [reflexivity|].
  split. { intros k v Hk. repeat (destruct Hk as [E|Hk]; [injection E as <- _; (eexists; split; [reflexivity|]; split; [split; [reflexivity|]; split; [intros z Hz; cbn in Hz; lia|discriminate]|]; split; [intros z Hz; cbn in Hz; lia|reflexivity])|]). destruct Hk. }
  split; [vm_compute; reflexivity|]. split; [reflexivity|]. split; [vm_compute; reflexivity|]. vm_compute. reflexivity.
Qed.
