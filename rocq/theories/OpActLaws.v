(** * The action is compatible with operadic composition (C63) *)
From Coq Require Import Setoid Morphisms.
From Verif Require Import PyBase Dict FreeModule Symmetric Simplicial Cubical Utils Surjection Eqm Spec SpecChain SpecOperad SpecSurj SpecAction FreeModuleFacts FreeModuleLaws ListFacts
  ClassFacts LinearFacts BilFacts SymmetricFacts CycleFacts SymmetricLaws RingFacts Tensor TensorAct LoopFacts AW SimplicialFacts SimplicialDiag SimplicialLaws SurjFacts SurjBoundary SurjLaws
  SurjCompose SurjCompose2 SurjCompose3 SurjCompose4 SurjLaws6 ActFacts ActSign ActCore ActCode ActLaws OperadAct.

Lemma bilop_flip {K1 A1 K2 A2 K A} `{KO1 : KeyOk K1} `{KO2 : KeyOk K2} `{KO : KeyOk K} (c1 : pycls K1) (c2 : pycls K2) (c : pycls K) t (a1 : A1) (a2 : A2) (a : A) P1 P2 F f :
  bilop c1 c2 c t a1 a2 a P1 P2 F f -> bilop c2 c1 c t a2 a1 a P2 P1 (fun g k2 k1 => F g k1 k2) (fun y x => f x y).
Proof.
  intros B y x Wy Ty Ay Ky Wx Tx Ax Kx. eapply returns_mono; [apply B; auto|]. intros z Hz. eapply den_ext; [|exact Hz]. intros g Hg. apply eqm_eq. apply ev_exch.
Qed.
(** #C63_compose# Acting with a composite is acting twice: modulo 2,
    (x o_i y)(c, coord) == y(x(c, coord), coord + i - 1). *)
Lemma C63_compose_l (dt n1 n2 p q n e i coord : Z) (x y : surj) (c : simp) :
  1 <= i <= n1 -> 1 <= n2 -> 1 <= coord <= n -> wf cls_surj x -> wf cls_surj y -> wf cls_simplicial c ->
  torsion x = 2 -> torsion y = 2 -> torsion c = 2 -> dt_ok dt 2 -> attr x = MS -> attr y = MS ->
  keys_in (surj_cell n1 p) x -> keys_in (surj_cell n2 q) y -> keys_in (fun k => zlen k = n /\ total_degree k = e) c ->
  same (let! z := surj_compose dt x y i in surj_call_simplicial dt z c coord)
       (let! u := surj_call_simplicial dt x c coord in surj_call_simplicial dt y u (coord + i - 1)).
Proof.
  intros Hi Hn Hc Wx Wy Wc Tx Ty Tc Hdt Ax Ay Kx Ky Kc. assert (H2 : 0 <= 2) by lia. assert (Hn1 : 1 <= n1) by lia. assert (Hn12 : 1 <= n1 + n2 - 1) by lia.
  assert (Hc' : 1 <= coord + i - 1 <= n + n1 - 1) by lia.
  pose proof (bilop_flip _ _ _ _ _ _ _ _ _ _ _ (bil_surj dt 2 MS MS n1 n2 p q i H2 Hdt (or_intror eq_refl) Hi Hn)) as B1.
  assert (R1 : rep2 (surj_cell n2 q) (surj_cell n1 p) (surj_cell (n1 + n2 - 1) (p + q)) (fun g k2 k1 => Pc i n2 g k1 k2)) by (intros k2 k1 K2 K1; exact (rep_Pc n1 n2 p q i Hi Hn k1 k2 K1 K2)).
  pose proof (bil_act dt 2 (n1 + n2 - 1) (p + q) n e coord H2 Hdt Hn12 Hc) as B2.
  pose proof (adm_Phi (n1 + n2 - 1) (p + q) n e coord Hn12) as AD2.
  pose proof (bil_act dt 2 n1 p n e coord H2 Hdt Hn1 Hc) as B3. pose proof (rep_Phi n1 p n e coord Hn1) as R3.
  pose proof (bil_act dt 2 n2 q (n + n1 - 1) (e + p) (coord + i - 1) H2 Hdt Hn Hc') as B4.
  pose proof (adm_Phi n2 q (n + n1 - 1) (e + p) (coord + i - 1) Hn) as AD4.
  replace (kdegS (n + n1 - 1 + n2 - 1) (e + p + q)) with (kdegS (n + (n1 + n2 - 1) - 1) (e + (p + q))) in AD4 by (f_equal; lia).
  refine (bilop_assoc cls_surj cls_surj cls_simplicial cls_surj cls_simplicial cls_simplicial ok_surj ok_simplicial ok_simplicial 2 MS MS tt MS tt tt
    (surj_cell n2 q) (surj_cell n1 p) (kdegS n e) (surj_cell (n1 + n2 - 1) (p + q)) (kdegS (n + n1 - 1) (e + p)) (kdegS (n + (n1 + n2 - 1) - 1) (e + (p + q)))
    (fun g k2 k1 => Pc i n2 g k1 k2) (Phi (n1 + n2 - 1) coord) (Phi n1 coord) (Phi n2 (coord + i - 1))
    (fun y x => surj_compose dt x y i) (fun x y => surj_call_simplicial dt x y coord) (fun x y => surj_call_simplicial dt x y coord) (fun x y => surj_call_simplicial dt x y (coord + i - 1))
    y x c H2 (kpred_cell _ _) (kpred_kdegS _ _) B1 R1 B2 AD2 B3 R3 B4 AD4 _ Wy Ty Ay Ky Wx Tx Ax Kx Wc Tc (s_attr' c) Kc).
  intros g k1 k2 k3 _ [O1 _] [O2 _] [L3 _] _ _ _. apply Phi_compose; auto. lia.
Qed.
(** #C63_example# The hypotheses hold for x = (1,2,1), y = (1,2,1), i = 1 and
    a 3-simplex; the result has ten terms. *)
Example C63_example_l :
  let x := mkElt (A := conv) [([1; 2; 1], 1)] 2 MS in let c := mkElt [([[0; 1; 2; 3]], 1)] 2 tt in
  wf cls_surj x /\ wf cls_simplicial c /\ keys_in (surj_cell 2 1) x /\ keys_in (fun k => zlen k = 1 /\ total_degree k = 3) c /\
  exists z u r, surj_compose 0 x x 1 = Ok z /\ surj_call_simplicial 0 x c 1 = Ok u /\ surj_call_simplicial 0 x u 1 = Ok r /\ (10 <=? zlen (data r)) = true /\ same (surj_call_simplicial 0 z c 1) (Ok r).
Proof.
  cbn zeta. split; [apply wfb_wf; reflexivity|]. split; [apply wfb_wf; reflexivity|]. split; [|split].
  - intros ? ? [[= <- <-]|[]]. split; [ontotac|reflexivity].
  - intros ? ? [[= <- <-]|[]]. split; reflexivity.
  - do 3 eexists. split; [vm_compute; reflexivity|]. split; [vm_compute; reflexivity|]. split; [vm_compute; reflexivity|]. split; [vm_compute; reflexivity|].
    do 2 eexists. split; [vm_compute; reflexivity|]. split; [reflexivity|]. split; [vm_compute; reflexivity|]. split; reflexivity.
Qed.
(** #C63_cubical_refuted# On cubical chains the same identity fails, even
    modulo 2: x = (1,2,1), y = (1,2), i = 1, on the square. *)
Lemma C63_cubical_refuted_l :
  ~ (forall (dt n1 n2 p q n e i coord : Z) (x y : surj) (c : cubc),
    1 <= i <= n1 -> 1 <= n2 -> 1 <= coord <= n -> wf cls_surj x -> wf cls_surj y -> wf cls_cubical c ->
    torsion x = 2 -> torsion y = 2 -> torsion c = 2 -> dt_ok dt 2 -> attr x = MS -> attr y = MS ->
    keys_in (surj_cell n1 p) x -> keys_in (surj_cell n2 q) y -> keys_in (fun k => zlen k = n) c ->
    same (let! z := surj_compose dt x y i in surj_call_cubical dt z c coord)
         (let! u := surj_call_cubical dt x c coord in surj_call_cubical dt y u (coord + i - 1))).
Proof.
  intros H. specialize (H 0 2 2 1 0 1 2 1 1 (mkElt [([1; 2; 1], 1)] 2 MS) (mkElt [([1; 2], 1)] 2 MS) (mkElt [([[2; 2]], 1)] 2 tt)
    ltac:(lia) ltac:(lia) ltac:(lia) ltac:(apply wfb_wf; reflexivity) ltac:(apply wfb_wf; reflexivity) ltac:(apply wfb_wf; reflexivity) eq_refl eq_refl eq_refl).
  assert (D : dt_ok 0 2) by (split; [lia|now left]). specialize (H D eq_refl eq_refl).
  specialize (H ltac:(intros ? ? [[= <- <-]|[]]; split; [ontotac|reflexivity]) ltac:(intros ? ? [[= <- <-]|[]]; split; [ontotac|reflexivity]) ltac:(intros ? ? [[= <- <-]|[]]; reflexivity)).
  destruct H as (u & v & Eu & Ev & E & _). vm_compute in Eu, Ev. injection Eu as <-. injection Ev as <-. vm_compute in E. discriminate.
Qed.
