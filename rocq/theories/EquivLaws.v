(** * The action of the surjection operad on simplicial chains is equivariant (C62) *)
From Coq Require Import Setoid Morphisms.
From Verif Require Import PyBase Dict FreeModule Symmetric Simplicial Utils Surjection Eqm Spec SpecChain SpecOperad SpecSurj SpecAction FreeModuleFacts FreeModuleLaws ListFacts
  ClassFacts LinearFacts BilFacts SymmetricFacts CycleFacts SymmetricLaws RingFacts Tensor TensorAct KoszulFacts LoopFacts AW SimplicialFacts SimplicialDiag SimplicialLaws SurjFacts SurjBoundary SurjLaws SurjAct BELaws SurjLaws2 ActFacts ActSign ActCore ActCode ActLaws EquivAct.

Lemma bilop_weaken {K1 A1 K2 A2 K A} `{KO1 : KeyOk K1} `{KO2 : KeyOk K2} `{KO : KeyOk K} (c1 : pycls K1) (c2 : pycls K2) (c : pycls K) t (a1 : A1) (a2 : A2) (a : A)
  (P1 P1' : K1 -> Prop) (P2 P2' : K2 -> Prop) F f : (forall k, P1' k -> P1 k) -> (forall k, P2' k -> P2 k) ->
  bilop c1 c2 c t a1 a2 a P1 P2 F f -> bilop c1 c2 c t a1 a2 a P1' P2' F f.
Proof. intros I1 I2 B x y Wx Tx Ax Kx Wy Ty Ay Ky. apply B; auto; intros k v Hk; eauto. Qed.
Lemma adm2_weaken {K1 K2 K} `{KO1 : KeyOk K1} `{KO2 : KeyOk K2} `{KO : KeyOk K} (c1 : pycls K1) (c2 : pycls K2) (c : pycls K)
  (P1 P1' : K1 -> Prop) (P2 P2' : K2 -> Prop) (Q Q' : K -> Prop) F : (forall k, P1' k -> P1 k) -> (forall k, P2' k -> P2 k) -> (forall k, Q k -> Q' k) ->
  adm2 c1 c2 c P1 P2 Q F -> adm2 c1 c2 c P1' P2' Q' F.
Proof.
  intros I1 I2 IQ B g Hg. assert (Hg' : admP c Q g) by (destruct Hg as [G1 G2]; split; [intros k k' E Hk; apply G1; auto|intros k Hk; apply G2; auto]).
  destruct (B g Hg') as [B1 B2]. split.
  - intros k2 Hk Hb. destruct (B1 k2 (I2 _ Hk) Hb) as [C1 C2]. split; [intros k k' E Hk'; apply C1; auto|intros k Hk'; apply C2; auto].
  - intros k1 Hk Hb. destruct (B2 k1 (I1 _ Hk) Hb) as [C1 C2]. split; [intros k k' E Hk'; apply C1; auto|intros k Hk'; apply C2; auto].
Qed.
(** #C62_equivariant# (a * s)(x) == a * s(x): an element [a] of the symmetric
    group ring may act on the surjection or on the factors of the result. *)
Lemma C62_equivariant_l (dt r d e : Z) (a : ring) (s : surj) (x : simp) :
  1 <= r -> wf cls_ring a -> wf cls_surj s -> wf cls_simplicial x -> torsion a = torsion s -> torsion x = torsion s -> dt_ok dt (torsion s) -> attr s = MS ->
  keys_in (fun k => perm r (kval k)) a -> keys_in (surj_cell r d) s -> keys_in (fun k => zlen k = 1 /\ total_degree k = e) x ->
  same (let! u := extended dt cls_surj (surj_act dt) a s in surj_call_simplicial dt u x 1)
       (let! v := surj_call_simplicial dt s x 1 in extended dt cls_simplicial (simp_act dt) a v).
Proof.
  intros Hr Wa Ws Wx Ta Tx Hdt As Ka Ks Kx. pose proof (proj1 Ws) as Ht. assert (Hr0 : 0 <= r) by lia.
  assert (B1 : bilop cls_ring cls_surj cls_surj (torsion s) tt MS MS (pk r) (surj_cell r d) (PactS MS) (extended dt cls_surj (surj_act dt))).
  { eapply bilop_weaken; [| |apply (bil_sact dt MS (or_intror eq_refl) r (torsion s) Hr Ht Hdt)]; [auto|]. now intros k [Hk _]. }
  assert (R1 : rep2 (pk r) (surj_cell r d) (surj_cell r d) (PactS MS)) by (apply rep_sact_on; auto; intros p k Hp Hk; now apply cell_move).
  pose proof (bil_act dt (torsion s) r d 1 e 1 Ht Hdt Hr ltac:(lia)) as B2.
  pose proof (adm_Phi r d 1 e 1 Hr) as AD2.
  pose proof (rep_Phi r d 1 e 1 Hr) as R3.
  pose proof (bilop_act cls_simplicial spx_is_degenerate sbad sck spx_dim dt r (torsion s) Hr Ht Hdt) as B4.
  pose proof (adm_act cls_simplicial spx_is_degenerate sbad spx_dim r Hr0) as AD4.
  rewrite simp_act_tact.
  refine (bilop_assoc cls_ring cls_surj cls_simplicial cls_surj cls_simplicial cls_simplicial ok_surj ok_simplicial ok_simplicial (torsion s) tt MS tt MS tt tt
    (pk r) (surj_cell r d) (kdegS 1 e) (surj_cell r d) (kdegS (1 + r - 1) (e + d)) (kar r) (PactS MS) (Phi r 1) (Phi r 1) (Pact spx_dim)
    (extended dt cls_surj (surj_act dt)) (fun x y => surj_call_simplicial dt x y 1) (fun x y => surj_call_simplicial dt x y 1) (extended dt cls_simplicial (tact cls_simplicial spx_dim dt))
    a s x Ht (kpred_cell r d) (kpred_kdegS _ _) B1 R1 B2 _ B2 R3 _ _ _ Wa Ta _ Ka Ws eq_refl As Ks Wx Tx (s_attr' x) Kx); try (match goal with |- attr ?u = _ => now destruct (attr u) end).
  - eapply adm2_weaken; [| | |exact AD2]; auto. intros k [Hk _]. unfold kar. lia.
  - eapply bilop_weaken; [| |exact B4]; auto. intros k [Hk _]. unfold kar. lia.
  - eapply adm2_weaken; [| | |exact AD4]; auto. intros k [Hk _]. unfold kar. lia.
  - intros g k1 k2 k3 _ H1 [H2 _] [H3 _] _ _ _. unfold PactS, Pact. apply eqm_eq. destruct k3 as [|u [|u' k3]]; [discriminate H3| |exfalso; rewrite !zlen_cons in H3; pose proof (zlen_nonneg k3); lia].
    now apply Phi_equiv.
Qed.

(** #C62_example# The hypotheses hold for a = (2,1) - 3(1,2), s = (1,2,1) and a
    triangle; both sides are computed. *)
Example C62_example_l :
  let a := mkElt [(SGE [2; 1], 1); (SGE [1; 2], -3)] 0 tt in let s := mkElt (A := conv) [([1; 2; 1], 1)] 0 MS in let x := mkElt [([[0; 1; 2]], 1)] 0 tt in
  wf cls_ring a /\ wf cls_surj s /\ wf cls_simplicial x /\ keys_in (fun k => perm 2 (kval k)) a /\ keys_in (surj_cell 2 1) s /\ keys_in (fun k => zlen k = 1 /\ total_degree k = 2) x /\
  exists u v r, surj_act 0 a s = Ok u /\ surj_call_simplicial 0 s x 1 = Ok v /\ simp_act 0 a v = Ok r /\ zlen (data r) = 6 /\ same (surj_call_simplicial 0 u x 1) (Ok r).
Proof.
  cbn zeta. split; [apply wfb_wf; reflexivity|]. split; [apply wfb_wf; reflexivity|]. split; [apply wfb_wf; reflexivity|]. split; [|split; [|split]].
  - intros k v [[= <- <-]|[[= <- <-]|[]]]; cbn [kval SGE Tup]; permtac.
  - intros ? ? [[= <- <-]|[]]. split; [ontotac|reflexivity].
  - intros ? ? [[= <- <-]|[]]. split; reflexivity.
  - do 3 eexists. split; [vm_compute; reflexivity|]. split; [vm_compute; reflexivity|]. split; [vm_compute; reflexivity|]. split; [vm_compute; reflexivity|].
    do 2 eexists. split; [vm_compute; reflexivity|]. split; [reflexivity|]. split; [vm_compute; reflexivity|]. split; reflexivity.
Qed.
