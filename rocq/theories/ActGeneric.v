(** * Boundaries and symmetric actions of operad elements: common proofs.  Proof library. *)
From Coq Require Import Setoid Morphisms.
From Verif Require Import PyBase Dict FreeModule Symmetric Eqm Spec FreeModuleFacts FreeModuleLaws ListFacts ClassFacts LinearFacts SymmetricFacts
  CycleFacts SymmetricLaws RingFacts TensorAct.

Section Gen.
Context {K A : Type} `{KO : KeyOk K}.
Variable c : pycls K.
Hypothesis okc : cls_ok c.
Variable a : A.
Variable dt : Z.

(** *** a differential *)
Lemma sq_zero t P Q R D bnd (x : elt K A) : 0 <= t -> dt_ok dt t -> kpred Q ->
  linop c c t a a P Q D bnd -> rep P Q D -> linop c c t a a Q R D bnd -> admop c c Q R D ->
  (forall g k, adm c g -> P k -> bad c k = Ok false -> eqm t (D (D g) k) 0) ->
  wf c x -> torsion x = t -> attr x = a -> keys_in P x -> same (let! y := bnd x in bnd y) (zero dt c x).
Proof.
  intros Ht Hdt KQ L1 R1 L2 A2 HD Wx Tx Ax Kx.
  eapply (same_den c okc t a); [exact Ht| | |].
  - eapply returns_mono; [apply (linop_comp c c c okc okc okc t a a a P Q R D D bnd bnd Ht KQ L1 L2)|].
    + now apply rep_local.
    + exact A2.
    + exact Wx.
    + exact Tx.
    + exact Ax.
    + exact Kx.
    + intros z [Hz _]. exact Hz.
  - eapply returns_mono; [apply (zero_den c okc dt t); auto|]. intros z Hz. rewrite Ax in Hz. exact Hz.
  - intros g Hg. cbn beta. transitivity (ev (fun _ => 0) (data x)).
    + apply ev_eqm. intros k v Hin. apply HD; auto; [eapply Kx; eauto|]. apply (proj2 (proj2 Wx) _ _ Hin).
    + apply eqm_eq. now apply ev_zero.
Qed.

(** *** an action *)
Variable n : Z.
Hypothesis Hn : 1 <= n.
Variable P : K -> Prop.
Hypothesis KP : kpred P.
Variable act : ring -> elt K A -> res (elt K A).
Variable Pact : (K -> Z) -> skey -> K -> Z.
Variable t : Z.
Hypothesis Ht : 0 <= t.
Hypothesis Hdt : dt_ok dt t.
Hypothesis bil : bilop cls_ring c c t tt a a (pk n) P Pact act.
Hypothesis rep_act : rep2 (pk n) P P Pact.
Hypothesis adm_act : adm2 cls_ring c c (pk n) P P Pact.

Lemma ga_gives o x : wf cls_ring o -> wf c x -> torsion o = t -> torsion x = t -> attr x = a -> keys_in (pk n) o -> keys_in P x ->
  forall f, (forall g k2 k1, adm c g -> pk n k2 -> P k1 -> bad c k1 = Ok false -> eqm t (ev g (f k2 k1)) (Pact g k2 k1)) ->
  gives c (act o x) t a (extend2 f o x).
Proof.
  intros Wo Wx To Tx Ax Ko Kx f Hf. eapply (den_gives c okc); [exact Ht| |].
  - apply bil; auto. apply ring_attr0.
  - intros g Hg. cbn beta. rewrite ev_extend2. apply ev_eqm. intros k2 v2 H2. apply ev_eqm. intros k1 v1 H1. symmetry. apply Hf; eauto.
    apply (proj2 (proj2 Wx) _ _ H1).
Qed.
Lemma ga_keys o x z : wf cls_ring o -> wf c x -> torsion o = t -> torsion x = t -> attr x = a -> keys_in (pk n) o -> keys_in P x ->
  act o x = Ok z -> wf c z /\ torsion z = t /\ attr z = a /\ keys_in P z.
Proof.
  intros Wo Wx To Tx Ax Ko Kx E.
  exact (bilop_keys cls_ring c c okc t tt a a (pk n) P P Pact act Ht KP bil
    (rep2_local2 _ _ _ _ rep_act) (rep2_zero _ _ _ _ rep_act) o x z Wo To (ring_attr0 o) Ko Wx Tx Ax Kx E).
Qed.
Lemma ga_assoc u v x : wf cls_ring u -> wf cls_ring v -> wf c x -> torsion u = t -> torsion v = t -> torsion x = t -> attr x = a ->
  keys_in (pk n) u -> keys_in (pk n) v -> keys_in P x ->
  (forall g p q k, adm c g -> perm n p -> perm n q -> P k -> bad c k = Ok false ->
     eqm t (Pact g (SGE (pmul p q)) k) (Pact (fun k' => Pact g (SGE p) k') (SGE q) k)) ->
  (forall g k2 k2' k1, kval k2 = kval k2' -> Pact g k2 k1 = Pact g k2' k1) ->
  same (let! uv := ring_mul dt u v in act uv x) (let! vx := act v x in act u vx).
Proof.
  intros Wu Wv Wx Tu Tv Tx Ax Ku Kv Kx Hm Hv. assert (Hn0 : 0 <= n) by lia.
  refine (bilop_assoc cls_ring cls_ring c cls_ring c c ok_ring okc okc t tt tt a tt a a
    (pk n) (pk n) P (pk n) P P Pmul Pact Pact Pact _ _ _ _ u v x Ht (kpred_pk n) KP
    (bilop_mul dt n _ Hn0 Ht) (rep_mul n Hn0) bil adm_act bil rep_act bil adm_act
    _ Wu Tu _ Ku Wv Tv _ Kv Wx Tx Ax Kx); try apply ring_attr0.
  intros g k1 k2 k3 Hg H1 H2 H3 _ _ Hb. unfold Pmul.
  pose proof (Hm g (kval k1) (kval k2) k3 Hg H1 H2 H3 Hb) as E.
  rewrite (Hv _ (SGE (kval k2)) k2 k3) in E by reflexivity. rewrite E. apply eqm_eq.
  apply (rep2_ext (pk n) P P Pact _ _ k2 k3 rep_act H2 H3). intros k' _. now apply Hv.
Qed.
Lemma ga_add_l u v x : wf cls_ring u -> wf cls_ring v -> wf c x -> torsion u = t -> torsion v = t -> torsion x = t -> attr x = a ->
  keys_in (pk n) u -> keys_in (pk n) v -> keys_in P x ->
  same (let! s := add dt cls_ring u v in act s x) (let! p := act u x in let! q := act v x in add dt c p q).
Proof.
  intros Wa Wb Wx Ta Tb Tx Ax Ka Kb Kx.
  exact (bilop_add_l cls_ring c c ok_ring okc okc dt t tt a a (pk n) P P Pact act u v x Ht Hdt (kpred_pk n) KP
    bil (rep2_local2 _ _ _ _ rep_act) adm_act (rep2_zero _ _ _ _ rep_act)
    Wa Ta (ring_attr0 u) Ka Wb Tb (ring_attr0 v) Kb Wx Tx Ax Kx).
Qed.
Lemma ga_add_r u x y : wf cls_ring u -> wf c x -> wf c y -> torsion u = t -> torsion x = t -> torsion y = t -> attr x = a -> attr y = a ->
  keys_in (pk n) u -> keys_in P x -> keys_in P y ->
  same (let! s := add dt c x y in act u s) (let! p := act u x in let! q := act u y in add dt c p q).
Proof.
  intros Wa Wx Wy Ta Tx Ty Ax Ay Ka Kx Ky.
  exact (bilop_add_r cls_ring c c ok_ring okc okc dt t tt a a (pk n) P P Pact act u x y Ht Hdt KP KP
    bil (rep2_local2 _ _ _ _ rep_act) adm_act (rep2_zero _ _ _ _ rep_act)
    Wa Ta (ring_attr0 u) Ka Wx Tx Ax Kx Wy Ty Ay Ky).
Qed.
Lemma ga_linop u : wf cls_ring u -> torsion u = t -> keys_in (pk n) u ->
  linop c c t a a P P (DBL Pact u) (fun x => act u x).
Proof.
  intros Wa Ta Ka.
  exact (linop_bilL cls_ring c c okc t tt a a (pk n) P P Pact act Ht KP bil
    (rep2_local2 _ _ _ _ rep_act) (rep2_zero _ _ _ _ rep_act) u Wa Ta (ring_attr0 u) Ka).
Qed.
Lemma ga_bnd bnd D u x : linop c c t a a P P D bnd -> rep P P D -> admop c c P P D ->
  (forall g k2 k, adm c g -> pk n k2 -> P k -> bad c k = Ok false -> eqm t (Pact (D g) k2 k) (D (fun k' => Pact g k2 k') k)) ->
  wf cls_ring u -> wf c x -> torsion u = t -> torsion x = t -> attr x = a ->
  keys_in (pk n) u -> keys_in P x ->
  same (let! y := act u x in bnd y) (let! y := bnd x in act u y).
Proof.
  intros L2 R2 A2 Hc Wu Wx Tu Tx Ax Ku Kx.
  pose proof (ga_linop u Wu Tu Ku) as L1.
  pose proof (rep2_L _ _ _ Pact u rep_act Ku) as R1.
  pose proof (DBL_admop cls_ring c c _ _ _ Pact adm_act u Ku Wu) as A1.
  refine (linop_same c c okc t a a P P P _ _ _ _ x Ht
    (linop_comp c c c okc okc okc t a a a P P P _ _ _ _ Ht KP L1 L2 (rep_local _ _ _ R1) A2)
    (linop_comp c c c okc okc okc t a a a P P P _ _ _ _ Ht KP L2 L1 (rep_local _ _ _ R2) A1)
    Wx Tx Ax Kx _).
  intros g k Hg Hk Hb. cbn beta. change (D (DBL Pact u g) k) with (D (fun k' => ev (fun k2 => Pact g k2 k') (data u)) k).
  rewrite (rep_lin _ _ _ (fun k' k2 => Pact g k2 k') (data u) R2 k Hk). unfold DBL.
  apply ev_eqm. intros k2 v Hin. apply Hc; auto. apply (Ku _ _ Hin).
Qed.
Lemma ga_unit x : t <> 1 -> (forall g k, adm c g -> P k -> bad c k = Ok false -> eqm t (Pact g (SGE (zrange 1 (n + 1))) k) (g k)) ->
  wf c x -> torsion x = t -> attr x = a -> keys_in P x ->
  same (let! e := identity_element dt n (Some t) in act e x) (Ok x).
Proof.
  intros N1 Hu Wx Tx Ax Kx.
  unfold identity_element.
  rewrite (new_basis dt (Some t) t) by auto. cbn [bind].
  eapply (same_den c okc t a); [exact Ht| | |].
  - eapply returns_mono; [apply (ga_linop (mkElt [(SGE (zrange 1 (n + 1)), 1)] t tt))|].
    + now apply wf_basis.
    + reflexivity.
    + intros k v [[= <- <-]|[]]. apply perm_id.
    + exact Wx.
    + exact Tx.
    + exact Ax.
    + exact Kx.
    + intros z [Hz _]. exact Hz.
  - apply returns_ok. pose proof (den_self c x Wx) as Dx. rewrite Ax, Tx in Dx. exact Dx.
  - intros g Hg. cbn beta. apply ev_eqm. intros k v Hin. unfold DBL. cbn [data]. rewrite ev_cons, ev_nil.
    rewrite Z.mul_1_l, Z.add_0_r. apply Hu; eauto. apply (proj2 (proj2 Wx) _ _ Hin).
Qed.
End Gen.
