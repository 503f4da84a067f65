(** * Property theorems of the Barratt-Eccles operad: May-Steenrod structure. *)
From Coq Require Import Setoid Morphisms.
From Verif Require Import PyBase Dict FreeModule Symmetric Simplicial Utils Surjection BarrattEccles Eqm Spec SpecOperad FreeModuleFacts FreeModuleLaws ListFacts
  ClassFacts LinearFacts SymmetricFacts CycleFacts SymmetricLaws RingFacts RingLaws TensorAct LoopFacts ActGeneric BEFacts BEOrbit BELaws BEDiag MayFacts.

Lemma dt_ok_self dt : 0 <= dt -> dt_ok dt dt.
Proof. intros H. split; [exact H|]. destruct (Z.eq_dec dt 0); [now left|right; split; [assumption|apply Z.divide_refl]]. Qed.
Lemma dt_ok_eqm dt t a b : dt_ok dt t -> eqm dt a b -> eqm t a b.
Proof. intros [_ [-> | [_ H]]] E; [apply eqm_0 in E; now apply eqm_eq|]. eapply eqm_trans_div; eauto. Qed.
Lemma dt_ok_1 dt t : dt_ok dt t -> 0 <= t -> t <> 1 -> dt <> 1.
Proof. intros [_ [-> | [_ H]]] Ht N E; [discriminate|]. subst. apply Z.divide_1_r_nonneg in H; auto. Qed.
Lemma may_ok dt n d ot u : u = match ot with Some t => if t =? 0 then dt else t | None => dt end -> 2 <= n -> 0 <= u -> u <> 1 -> dt_ok dt u ->
  returns (be_may_steenrod dt n (Z.of_nat d) ot) (fun y => den cls_be u tt (Fpsi n d) y /\ keys_in (bpsi n d) y).
Proof.
  intros Eu Hn Hu N Hdt. pose proof (dt_ok_1 _ _ Hdt Hu N) as N'. pose proof (proj1 Hdt) as Hd0. unfold be_may_steenrod.
  destruct (ma_den dt n dt 2 None eq_refl Hn Hd0 N' (dt_ok_self _ Hd0)) as (NN & EN & DN & KN). change (norm_element dt n None = Ok NN) in EN. rewrite EN. cbn [bind].
  destruct (ma_den dt n dt 1 None eq_refl Hn Hd0 N' (dt_ok_self _ Hd0)) as (TT & ET & DT & KT). change (transposition_element dt n None = Ok TT) in ET. rewrite ET. cbn [bind].
  destruct (Z.ltb_spec (Z.of_nat d) 0); [lia|]. rewrite Nat2Z.id.
  destruct (psi_ok dt n TT NN Hn Hd0 N' DT KT DN KN d) as (y & Ey & Dy & Ky). rewrite Ey. cbn [bind].
  assert (G : forall t, t = u -> t <> 0 -> returns (set_torsion cls_be y t) (fun y => den cls_be u tt (Fpsi n d) y /\ keys_in (bpsi n d) y)).
  { intros t -> Nz. eapply returns_mono; [apply (set_torsion_den cls_be y u (den_wf _ _ _ _ _ Hd0 Dy) Hu)|]. intros z Dz. rewrite be_attr in Dz.
    assert (Dz' : den cls_be u tt (Fpsi n d) z).
    { eapply den_ext; [|exact Dz]. intros g Hg. cbn beta. apply (dt_ok_eqm dt); [exact Hdt|]. exact (den_ev _ _ _ _ _ _ Dy Hg). }
    split; [exact Dz'|]. apply (den_keys cls_be ok_be u tt _ z _ Hu (kpred_bpsi n d) Dz'). intros g _ H0. apply eqm_eq.
    destruct (Fpsi_list n d ltac:(lia)) as (L & L1 & L2). rewrite L2. apply ev_zero. intros k v Hin. apply H0. eauto. }
  destruct ot as [t|]; [|apply returns_ok; subst u; now split]. destruct (Z.eqb_spec t 0) as [->|Nz]; [apply returns_ok; subst u; now split|].
  apply G; auto.
Qed.
Lemma even_of_nat m : Z.even (Z.of_nat m) = Nat.even m.
Proof.
  induction m as [|m IH]; [reflexivity|]. rewrite Nat2Z.inj_succ, Z.even_succ, Nat.even_succ, <- Z.negb_even, <- Nat.negb_even. now rewrite IH.
Qed.
(** #C44_identity# Degree 0: the identity permutation. *)
Lemma C44_identity_l (dt n u : Z) (ot : option Z) :
  u = match ot with Some t => if t =? 0 then dt else t | None => dt end -> 2 <= n -> 0 <= u -> u <> 1 -> dt_ok dt u ->
  gives cls_be (be_may_steenrod dt n 0 ot) u tt [([zrange 1 (n + 1)], 1)].
Proof.
  intros Eu Hn Hu N Hdt. eapply (den_gives cls_be ok_be); [exact Hu| |].
  - eapply returns_mono; [exact (may_ok dt n 0 ot u Eu Hn Hu N Hdt)|]. intros y [Dy _]. exact Dy.
  - intros g _. cbn [Fpsi]. apply eqm_eq. rewrite ev_cons, ev_nil. ring.
Qed.
(** #C44_degree# The element is not zero, its basis elements have arity [n], degree [d] and start with the identity. *)
Lemma C44_degree_l (dt n d u : Z) (ot : option Z) :
  u = match ot with Some t => if t =? 0 then dt else t | None => dt end -> 2 <= n -> 0 <= d -> 0 <= u -> u <> 1 -> dt_ok dt u ->
  exists y, be_may_steenrod dt n d ot = Ok y /\ wf cls_be y /\ torsion y = u /\ ~ is_zero y /\
    keys_in (fun k => be_simplex n k /\ zlen k = d + 1 /\ hd [] k = zrange 1 (n + 1)) y /\
    be_arity y = Ok (Some n) /\ be_degree y = Some d.
Proof.
  intros Eu Hn Hd Hu N Hdt. pose proof (may_ok dt n (Z.to_nat d) ot u Eu Hn Hu N Hdt) as (y & Ey & Dy & Ky). rewrite Z2Nat.id in Ey by lia.
  assert (Wy : wf cls_be y) by exact (den_wf _ _ _ _ _ Hu Dy). assert (Ny : data y <> []) by (eapply psi_nonzero; eauto).
  exists y. split; [exact Ey|]. split; [exact Wy|]. split; [exact (proj1 Dy)|]. split; [exact Ny|].
  assert (K1 : keys_in (be_cell n d) y). { intros k v Hin. destruct (Ky _ _ Hin) as [[B1 B2] _]. split; [exact B1|lia]. }
  split; [|split].
  - intros k v Hin. destruct (Ky _ _ Hin) as [[B1 B2] [k' ->]]. repeat split; [exact B1|lia].
  - apply be_arity_ok; auto; [lia|]. now apply (bdeg_bsim n d).
  - now apply (be_degree_ok n).
Qed.
(** #C44_boundary# The boundary of the element of degree [d] is T (odd [d]) or N (even [d]) times the element of degree [d - 1]. *)
Lemma C44_boundary_l (dt n d u : Z) (ot : option Z) :
  u = match ot with Some t => if t =? 0 then dt else t | None => dt end -> 2 <= n -> 1 <= d -> 0 <= u -> u <> 1 -> dt_ok dt u ->
  same (let! y := be_may_steenrod dt n d ot in be_boundary dt y)
       (let! a := if Z.even d then norm_element dt n (Some u) else transposition_element dt n (Some u) in
        let! z := be_may_steenrod dt n (d - 1) ot in be_act dt a z).
Proof.
  intros Eu Hn Hd Hu N Hdt. assert (exists e, d = Z.of_nat (S e)) as [e Ed] by (exists (Z.to_nat (d - 1)); lia).
  assert (Ed1 : d - 1 = Z.of_nat e) by lia. rewrite Ed1. rewrite Ed at 1.
  assert (Ev : Z.even d = Nat.even (S e)) by (rewrite Ed; apply even_of_nat).
  rewrite Ev.
  destruct (may_ok dt n (S e) ot u Eu Hn Hu N Hdt) as (y & Ey & Dy & Ky). destruct (may_ok dt n e ot u Eu Hn Hu N Hdt) as (z & Ez & Dz & Kz).
  destruct (ma_den dt n u (S e) (Some u) eq_refl Hn Hu N Hdt) as (a & Ea & Da & Ka). unfold ma in Ea. rewrite Ea, Ey, Ez. cbn [bind].
  assert (Nz : data z <> []) by (eapply psi_nonzero; eauto).
  assert (Ks : keys_in (be_simplex n) z) by (intros k v Hin; exact (proj1 (proj1 (Kz _ _ Hin)))).
  eapply (same_den cls_be ok_be u tt); [exact Hu|apply (be_boundary_den dt u); auto; [exact (den_wf _ _ _ _ _ Hu Dy)|exact (proj1 Dy)]|
    exact (act_ma dt n u (S e) a _ z Hn Hu N Hdt Da Ka Dz Ks Nz)|].
  intros g Hg. cbn beta. rewrite (den_ev _ _ _ _ _ (fdB g) Dy).
  - rewrite Fpsi_boundary by lia. destruct (RA_list n (S e) ltac:(lia)) as (R & R1 & R2). rewrite !R2. apply ev_eqm. intros p v Hp. symmetry.
    destruct (Fpsi_list n e ltac:(lia)) as (L & L1 & L2).
    apply (den_ev_on cls_be ok_be u tt _ z (bpsi n e) (fun k => g (map (pmul p) k)) (dkeys L) (kpred_bpsi n e) Dz Kz).
    + apply admP_keyeq. intros k Hk Hb. rewrite be_bad in Hb. injection Hb as Hb. rewrite (nonbad_bpsi n e) in Hb by exact Hk. apply Hg. rewrite be_bad. f_equal.
      apply bdup_bad. rewrite (bdup_map n); [exact Hb|lia|eauto|apply Hk].
    + intros h Hh. apply eqm_eq. rewrite !L2. apply ev_ext. intros k v' Hin. apply Hh; [eauto|]. now apply (in_map fst) in Hin.
  - split; [intros k k' E; apply keqb_eq in E; now subst|]. intros k Hb. rewrite be_bad in Hb. injection Hb as Hb. apply fdB_bad; [|exact Hb].
    intros k' Hb'. apply Hg. now rewrite be_bad, Hb'.
Qed.
(** #C44_arity_one# In arity one the structure breaks down: degree 2 raises TypeError; and negative degrees recurse forever. *)
Lemma C44_arity_one_l : be_may_steenrod 0 1 2 None = Err TypeError /\ forall dt n d ot, d < 0 -> 2 <= n -> 0 <= dt -> dt <> 1 -> be_may_steenrod dt n d ot = Err RecursionError.
Proof.
  split; [vm_compute; reflexivity|]. intros dt n d ot Hd Hn Hd0 N'. unfold be_may_steenrod.
  destruct (ma_den dt n dt 2 None eq_refl Hn Hd0 N' (dt_ok_self _ Hd0)) as (NN & EN & DN & KN). change (norm_element dt n None = Ok NN) in EN. rewrite EN. cbn [bind].
  destruct (ma_den dt n dt 1 None eq_refl Hn Hd0 N' (dt_ok_self _ Hd0)) as (TT & ET & DT & KT). change (transposition_element dt n None = Ok TT) in ET. rewrite ET. cbn [bind].
  destruct (Z.ltb_spec d 0); [reflexivity|lia].
Qed.
(** #C44_example# *)
Example C44_example_l :
  be_may_steenrod 0 2 3 None = Ok (mkElt [([[1; 2]; [2; 1]; [1; 2]; [2; 1]], 1)] 0 tt) /\
  be_may_steenrod 0 3 1 (Some 5) = Ok (mkElt [([[1; 2; 3]; [2; 3; 1]], 1)] 5 tt) /\
  be_boundary 0 (mkElt [([[1; 2; 3]; [2; 3; 1]], 1)] 5 tt) = Ok (mkElt [([[2; 3; 1]], 1); ([[1; 2; 3]], 4)] 5 tt).
Proof. repeat split; vm_compute; reflexivity. Qed.
