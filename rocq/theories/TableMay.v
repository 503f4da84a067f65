(** * Table reduction and the May-Steenrod structures (C81) *)
From Coq Require Import Setoid Morphisms.
From Verif Require Import PyBase Dict FreeModule Symmetric Simplicial Utils Surjection BarrattEccles Eqm Spec SpecChain SpecOperad SpecSurj SpecSteenrod FreeModuleFacts FreeModuleLaws ListFacts
  ClassFacts LinearFacts SymmetricFacts CycleFacts SymmetricLaws RingFacts RingLaws Tensor TensorAct KoszulFacts LoopFacts ActGeneric SimplicialLaws BEFacts BEOrbit BELaws BEDiag MayFacts BELaws3
  SurjFacts SurjBoundary SurjLaws SurjAct SurjMay TableFacts TableFacts3 TableLaws SteenrodLaws.

Lemma Hh_left m : forall g k, Hh (Datatypes.S m) g k = Ss g k + Pp (Hh m (Ii g)) k.
Proof.
  induction m as [|m IH]; intros g k.
  - change (0 + Ss g k = Ss g k + Pp (fun _ => 0) k). unfold Pp, U. destruct (uniq 1 k); ring.
  - change (Hh (Datatypes.S m) g k + Pr (Datatypes.S m) (Ss (Ir (Datatypes.S m) g)) k = Ss g k + Pp (Hh (Datatypes.S m) (Ii g)) k).
    rewrite IH, Ir_r. change (Pp (Hh (Datatypes.S m) (Ii g)) k) with (Pp (fun u => Hh m (Ii g) u + Pr m (Ss (Ir m (Ii g))) u) k). rewrite Pp_add. cbn [Pr]. ring.
Qed.
Lemma killadj_Ii g : killadj g -> killadj (Ii g).
Proof. intros Hg. apply (killadj_cons g 1) in Hg. intros w Hw. apply (Hg (map suc w)). now apply adj_mono. Qed.
(** prepending the identity corresponds to the homotopy *)
Lemma TT_homotopy m : forall rows g, rows <> [] -> rws (fun c => 1 <= c <= Z.of_nat m + 1) rows -> killadj g ->
  TT g (idp (Z.of_nat m + 1) :: rows) = TT (Hh m g) rows.
Proof.
  induction m as [|m IH]; intros rows g NE R Hg.
  - rewrite (TT_ext_all (Hh 0 g) (fun _ => 0)) by reflexivity. rewrite TT_0. apply (TT_rep (fun c => 1 <= c <= Z.of_nat 0 + 1)); [|destruct rows as [|r rows]; [congruence|]|exact Hg].
    + intros r [<-|Hr]; [|now apply R]. split; [apply NoDup_zrange|]. intros c. rewrite in_zrange. lia.
    + left. destruct (R r (or_introl eq_refl)) as [ND HS]. assert (H1 : In 1 r) by (apply HS; lia).
      destruct r as [|a [|b r]]; [destruct H1|destruct H1 as [->|[]]; reflexivity|]. exfalso. pose proof (proj1 (HS a) (or_introl eq_refl)) as Qa. pose proof (proj1 (HS b) (or_intror (or_introl eq_refl))) as Qb. assert (a = 1) by lia.
      assert (b = 1) by lia. subst a b. inversion ND as [|? ? Na _]; subst. apply Na. now left.
  - assert (E : idp (Z.of_nat (Datatypes.S m) + 1) = 1 :: map suc (idp (Z.of_nat m + 1))).
    { rewrite (zrange_cons 1) by lia. f_equal. rewrite <- (zrange_shift 1 (Z.of_nat m + 1 + 1) 1). f_equal; lia. }
    rewrite E. destruct rows as [|r rows]; [congruence|]. rewrite TT_cons, (TT_ext_all (Hh (Datatypes.S m) g) (fun k => Ss g k + Pp (Hh m (Ii g)) k)) by (intros; apply Hh_left). rewrite TT_add. f_equal.
    unfold Pp. rewrite (TT_U _ 1 _ R) by lia.
    assert (Q : map suc (idp (Z.of_nat m + 1)) :: map (del 1) (r :: rows) = map (map suc) (idp (Z.of_nat m + 1) :: map (map prd) (map (del 1) (r :: rows)))).
    { cbn [map]. f_equal. f_equal; [symmetry; apply suc_prd|]. rewrite !map_map. apply map_ext. intros l. symmetry. apply suc_prd. }
    rewrite Q. assert (R' : rws (fun c => 1 <= c <= Z.of_nat m + 1) (map (map prd) (map (del 1) (r :: rows)))).
    { intros l Hl. apply in_map_iff in Hl. destruct Hl as (l1 & <- & Hl). apply (rws_del 1 _ _ R) in Hl. destruct Hl as [ND HS]. split.
      - apply (map_NoDup_inj prd); [exact ND|]. intros a b _ _ Hab. lia.
      - intros c. rewrite in_map_iff. split.
        + intros (a & <- & Ha). apply HS in Ha. unfold sdel in Ha. lia.
        + intros Hc. exists (c + 1). split; [lia|]. apply HS. unfold sdel. lia. }
    rewrite (TT_map (fun c => 1 <= c <= Z.of_nat m + 1) suc); [| |intros; lia].
    + change (fun w : list Z => g (1 :: map suc w)) with (Ii g). rewrite (IH (map (map prd) (map (del 1) (r :: rows))) (Ii g)); [|discriminate|exact R'|now apply killadj_Ii].
      rewrite (TT_map (sdel 1 (fun c => 1 <= c <= Z.of_nat (Datatypes.S m) + 1)) prd); [reflexivity|now apply rws_del|intros; lia].
    + intros l [<-|Hl]; [|now apply R']. split; [apply NoDup_zrange|]. intros c. rewrite in_zrange. lia.
Qed.
Lemma FpS_TT n d : 2 <= n -> forall g, killadj g -> FpS BF n d g = Fpsi n d (TT g).
Proof.
  intros Hn. induction d as [|d IH]; intros g Hg; [cbn [FpS Fpsi]; now rewrite TT_one|]. cbn [FpS Fpsi]. apply RA_ext; [lia|]. intros p Hp.
  assert (E : Z.of_nat (Z.to_nat (n - 1)) + 1 = n) by lia.
  set (h := fun k => if adj k then 0 else asg BF p k * Hh (Z.to_nat (n - 1)) g (map (image p) k)).
  assert (A1 : forall k, surj_cell n (Z.of_nat d) k -> asg BF p k * Hh (Z.to_nat (n - 1)) g (map (image p) k) = h k).
  { intros k Hk. unfold h. destruct (adj k) eqn:Ea; [|reflexivity]. rewrite (Hh_adj (Z.to_nat (n - 1)) n (Z.of_nat d) g (map (image p) k)); [ring|lia|apply cell_move; auto; lia| |now apply adj_mono]. intros u _ Hu. now apply Hg. }
  rewrite (FpS_ext BF n d _ h) by (try lia; intros k Hk; apply A1; apply Hk). rewrite IH by (intros w Hw; unfold h; now rewrite Hw).
  apply Fpsi_ext; [lia|]. intros k [Hk _]. rewrite (TT_ext h (fun w => Hh (Z.to_nat (n - 1)) g (map (image p) w)) k).
  - change (pmul p) with (map (image p)). rewrite <- (TT_map _ (image p) k (rws_sim n k (proj1 Hk))) by (intros b c Hb Hc; now apply (image_inj n)).
    pose proof (TT_homotopy (Z.to_nat (n - 1)) (map (map (image p)) k) g) as T. rewrite E in T. symmetry. apply T; [|apply rws_sim|exact Hg].
    + destruct k; [|discriminate]. destruct Hk as [_ Hk]. change (zlen (@nil (list Z))) with 0 in Hk. lia.
    + intros r Hr. apply in_map_iff in Hr. destruct Hr as (r' & <- & Hr). apply perm_pmul; [lia|exact Hp|]. now apply Hk.
  - intros w Hw. rewrite <- A1 by (apply (TL_cell n (Z.of_nat d) k); [lia|exact Hk|exact Hw]). unfold asg. cbn [tw]. ring.
Qed.
Lemma may_reduction dt n d t c (x : bee) : 2 <= n -> 0 <= t -> dt_ok dt t -> den cls_be t tt (fun g => c * Fpsi n d g) x -> keys_in (bpsi n d) x ->
  returns (be_table_reduction dt x) (den cls_surj t BF (fun g => c * FpS BF n d g)).
Proof.
  intros Hn Ht Hdt Dx Kx. pose proof (den_wf cls_be t tt _ x Ht Dx) as Wx.
  assert (Ks : keys_in (be_simplex n) x) by (intros k v Hk; apply (Kx _ _ Hk)).
  eapply returns_mono; [apply (table_den dt t n x); auto; [lia|apply Dx]|].
  intros y Dy. eapply den_ext; [|exact Dy]. intros g Hg. cbn beta. rewrite (FpS_TT n d Hn g (killadj_adm g Hg)).
  destruct (Fpsi_list n d ltac:(lia)) as (L & L1 & L2).
  refine (den_ev_on cls_be ok_be t tt _ x (bpsi n d) (TT g) (dkeys L) (kpred_bpsi n d) Dx Kx _ _).
  - apply (adm_TT n (bpsi n d) (onto n)); [lia|intros k Hk; apply Hk|intros k w Hk; apply TL_onto, Hk|]. split; [intros u v E _; f_equal; now apply keqb_eq|intros w _ Hb; now apply Hg].
  - intros h Hh. apply eqm_eq. f_equal. rewrite !L2. apply ev_ext. intros k v Hin. apply Hh; [eauto|]. now apply (in_map fst) in Hin.
Qed.
(** #C81_structure# Table reduction carries the May-Steenrod structure of the
    Barratt-Eccles operad to the one of the surjection operad, in every arity,
    degree and torsion. *)
Lemma C81_structure_l (dt n d u : Z) (dc : conv) (ot : option Z) :
  u = match ot with Some t => if t =? 0 then dt else t | None => dt end -> 2 <= n -> 0 <= d -> 0 <= u -> u <> 1 -> dt_ok dt u ->
  same (let! x := be_may_steenrod dt n d ot in be_table_reduction dt x) (surj_may_steenrod dt dc n d ot (Some BF)).
Proof.
  intros Eu Hn Hd Hu N Hdt. replace d with (Z.of_nat (Z.to_nat d)) by lia. destruct (may_ok dt n (Z.to_nat d) ot u Eu Hn Hu N Hdt) as (x & Ex & Dx & Kx). rewrite Ex. cbn [bind].
  eapply (same_den cls_surj ok_surj u BF); [exact Hu|apply (may_reduction dt n (Z.to_nat d) u 1 x Hn Hu Hdt); [|exact Kx]|apply (mayS_ok dt dc BF n (Z.to_nat d) ot (Some BF) u Eu eq_refl (or_introl eq_refl) Hn Hu N Hdt)|].
  - eapply den_ext; [|exact Dx]. intros g _. apply eqm_eq. ring.
  - intros g _. apply eqm_eq. ring.
Qed.
(** #C81_operation# Table reduction carries each Steenrod operation of the
    Barratt-Eccles operad to the one of the surjection operad; when one of them
    raises an exception the other raises the same one. *)
Lemma C81_operation_l (dt p s q : Z) (dc : conv) (bockstein : bool) : 2 <= p -> dt_ok dt p ->
  let x := be_steenrod_operation dt p s q bockstein in
  let y := surj_steenrod_operation dt dc p s q bockstein (Some BF) in
  let d := if p =? 2 then s - q else (2 * s - q) * (p - 1) - (if bockstein then 1 else 0) in
  match x with
  | Err e => y = Err e
  | Ok x => if d <? 0 then is_zero x /\ exists z, y = Ok z /\ is_zero z else same (be_table_reduction dt x) y
  end.
Proof.
  intros Hp Hdt x y d. assert (Ep : p = match Some p with Some t => if t =? 0 then dt else t | None => dt end) by (cbv beta iota; destruct (Z.eqb_spec p 0); [lia|reflexivity]).
  assert (Q : forall c e, 0 <= e -> exists x0 z y0 , be_may_steenrod dt p e (Some p) = Ok x0 /\ scale dt cls_be c x0 = Ok z /\ surj_may_steenrod dt dc p e (Some p) (Some BF) = Ok y0 /\ same (be_table_reduction dt z) (scale dt cls_surj c y0)).
  { intros c e He. destruct (may_ok dt p (Z.to_nat e) (Some p) p Ep Hp ltac:(lia) ltac:(lia) Hdt) as (x0 & Ex & Dx & Kx).
    destruct (mayS_ok dt dc BF p (Z.to_nat e) (Some p) (Some BF) p Ep eq_refl (or_introl eq_refl) Hp ltac:(lia) ltac:(lia) Hdt) as (y0 & Ey & Dy). rewrite Z2Nat.id in Ex, Ey by lia.
    destruct (scale_den cls_be ok_be dt p ltac:(lia) Hdt tt _ c x0 Dx) as (z & Ez & Dz). exists x0, z, y0. split; [exact Ex|]. split; [exact Ez|]. split; [exact Ey|].
    pose proof (keys_in_scale cls_be ok_be p tt _ c x0 z _ ltac:(lia) (kpred_bpsi p (Z.to_nat e)) Dx Kx Dz) as Kz.
    eapply (same_den cls_surj ok_surj p BF); [lia|apply (may_reduction dt p (Z.to_nat e) p c z Hp ltac:(lia) Hdt Dz Kz)|exact (scale_den cls_surj ok_surj dt p ltac:(lia) Hdt BF _ c y0 Dy)|]. intros g _. reflexivity. }
  subst x y d. unfold be_steenrod_operation, surj_steenrod_operation. destruct (Z.eqb_spec p 2) as [P2|P2].
  - destruct bockstein; cbn [andb]; [reflexivity|]. destruct (Z.ltb_spec (s - q) 0).
    + cbn. destruct (Z.ltb_spec (s - q) 0); [|lia]. split; [reflexivity|]. eexists. split; reflexivity.
    + destruct (Q 1 (s - q) ltac:(lia)) as (x0 & z & y0 & E1 & E2 & E3 & E4). rewrite E1, E3. cbn [bind]. rewrite E2. destruct (Z.ltb_spec (s - q) 0); [lia|]. exact E4.
  - cbn [andb]. destruct (steenrod_coeff p s q) as [c|e]; cbn [bind]; [|reflexivity]. set (d := (2 * s - q) * (p - 1) - (if bockstein then 1 else 0)). destruct (Z.ltb_spec d 0).
    + cbn. destruct (Z.ltb_spec d 0); [|lia]. assert (R : strip (reduce p (@nil (bkey * Z))) = [] /\ strip (reduce p (@nil (list Z * Z))) = []) by (unfold reduce; destruct (p =? 0); split; reflexivity). split; [exact (proj1 R)|]. eexists. split; [reflexivity|exact (proj2 R)].
    + destruct (Q c d ltac:(lia)) as (x0 & z & y0 & E1 & E2 & E3 & E4). rewrite E1, E3. cbn [bind]. rewrite E2. destruct (Z.ltb_spec d 0); [lia|]. exact E4.
Qed.
(** #C81_example# Arity 3, degree 2: three terms on both sides. *)
Example C81_example_l :
  exists x y z, be_may_steenrod 0 3 2 None = Ok x /\ be_table_reduction 0 x = Ok y /\ surj_may_steenrod 0 MS 3 2 None (Some BF) = Ok z /\
    zlen (data x) = 2 /\ zlen (data y) = 3 /\ elt_eqb y z = true /\ torsion y = torsion z.
Proof. do 3 eexists. split; [vm_compute; reflexivity|]. split; [vm_compute; reflexivity|]. split; [vm_compute; reflexivity|]. repeat apply conj; vm_compute; reflexivity. Qed.
