(** * Cup-i products and the first Steenrod operations (C75) *)
From Coq Require Import Setoid Morphisms.
From Verif Require Import PyBase Dict FreeModule Symmetric Simplicial Utils Surjection BarrattEccles Eqm Spec SpecChain SpecOperad SpecSurj SpecAction SpecCochain SpecCup FreeModuleFacts FreeModuleLaws ListFacts
  ClassFacts LinearFacts BilFacts SymmetricFacts CycleFacts SymmetricLaws RingFacts Tensor TensorAct KoszulFacts LoopFacts AW SimplicialFacts SimplicialDiag SimplicialLaws BEOrbit BEDiag MayFacts BELaws3 SurjFacts SurjBoundary SurjLaws SurjAct SurjMay
  SteenrodFacts ActFacts ActSign ActCore ActCode ActLaws EquivAct SteenrodAct StnLaws SteenrodClass CupI.

Lemma word_call dt t r d n e coord s0 w (S : surj) (y : simp) : 0 <= t -> dt_ok dt t -> 1 <= r -> 1 <= coord <= n -> surj_cell r d w ->
  den cls_surj t MS (fun g => s0 * g w) S -> wf cls_simplicial y -> torsion y = t -> keys_in (kdegS n e) y ->
  returns (surj_call_simplicial dt S y coord) (den cls_simplicial t tt (fun g => s0 * ev (fun K => Phi r coord g w K) (data y))).
Proof.
  intros Ht Hdt Hr Hc Cw DS Wy Ty Ky.
  assert (KS : keys_in (surj_cell r d) S).
  { apply (den_keys cls_surj ok_surj t MS _ S _ Ht (kpred_cell r d) DS). intros g _ H0. apply eqm_eq. rewrite H0 by exact Cw. ring. }
  eapply returns_mono; [exact (bil_act dt t r d n e coord Ht Hdt Hr Hc S y (den_wf _ _ _ _ _ Ht DS) (proj1 DS) (proj1 (proj2 DS)) KS Wy Ty (s_attr' y) Ky)|].
  intros z Dz. eapply den_ext; [|exact Dz]. intros g Hg. cbn beta.
  apply (den_ev_on cls_surj ok_surj t MS (fun h => s0 * h w) S (surj_cell r d) (fun k => ev (fun K => Phi r coord g k K) (data y)) [w] (kpred_cell r d) DS KS).
  - apply admP_keyeq. intros k Hk Hb. apply ev_zero. intros K v HK. destruct (adm_Phi r d n e coord Hr g (adm_admP _ _ _ Hg)) as [A1 _].
    apply (A1 K (Ky _ _ HK)); [|exact Hk|exact Hb]. destruct Wy as (_ & _ & Wy). exact (proj2 (Wy _ _ HK)).
  - intros h Hh. apply eqm_eq. now rewrite (Hh w Cw (or_introl eq_refl)).
Qed.
Lemma word_new dt dc t w S : 0 <= t -> dt_ok dt t -> okey cls_surj w -> surj_new dt dc [(w, 1)] (Some t) (Some MS) = Ok S -> den cls_surj t MS (fun g => 1 * g w) S.
Proof.
  intros Ht Hdt Ho E. destruct (new_den cls_surj ok_surj dt t (Some t) MS [(w, 1)] eq_refl Ht) as (S' & E' & D).
  - split; [intros k' []|exact I].
  - intros k [<-|[]]. exact Ho.
  - unfold surj_new in E. cbn [dict_of fold_left dset fst snd] in E. rewrite E' in E. injection E as <-. eapply den_ext; [|exact D]. intros g _. apply eqm_eq. rewrite ev_cons, ev_nil. ring.
Qed.
Lemma single_deg e (y : simp) : keys_in (fun k => exists s, k = [s] /\ zlen s - 1 = e) y -> keys_in (kdegS 1 e) y.
Proof. intros Ky k v Hk. destruct (Ky _ _ Hk) as (s & -> & Es). split; [reflexivity|]. rewrite tdeg_cons. change (tdeg spx_dim []) with 0. unfold spx_dim. lia. Qed.
Lemma okey_cell r d w : 1 <= r -> surj_cell r d w -> okey cls_surj w.
Proof. intros Hr [Ho _]. exists (adj w). change (bad cls_surj w) with (surj_bad w). now rewrite (surj_bad_onto r). Qed.
Lemma id_cell r : 1 <= r -> surj_cell r 0 (zrange 1 (r + 1)).
Proof. intros Hr. destruct (spsi_id r Hr) as [H _]. exact H. Qed.

(** #C75_diagonal# The word (1, 2, ..., r) acts as the iterated diagonal:
    [w(y, coord) == y.iterated_diagonal(r - 1, coord)]. *)
Lemma C75_diagonal_l (dt r n e coord : Z) (dc : conv) (w : surj) (y : simp) :
  1 <= r -> 1 <= coord <= n -> wf cls_simplicial y -> data y <> [] -> dt_ok dt (torsion y) ->
  keys_in (fun k => zlen k = n /\ total_degree k = e) y ->
  surj_new dt dc [(zrange 1 (r + 1), 1)] (Some (torsion y)) (Some MS) = Ok w ->
  same (surj_call_simplicial dt w y coord) (simp_iterated_diagonal dt y (r - 1) coord).
Proof.
  intros Hr Hc Wy Ny Hdt Ky Ew. pose proof (proj1 Wy) as Ht.
  eapply (same_den cls_simplicial ok_simplicial (torsion y) tt); [exact Ht| | |].
  - apply (word_call dt (torsion y) r 0 n e coord 1 (zrange 1 (r + 1)) w y); auto using id_cell. apply (word_new dt dc); auto. apply (okey_cell r 0); auto using id_cell.
  - apply (diag_den dt (torsion y) n e (r - 1) coord y); auto. lia.
  - intros g _. cbn beta. apply eqm_eq. rewrite Z.mul_1_l. apply ev_ext. intros K v _. now apply Phi_id.
Qed.
(** #C75_two# [may_steenrod_structure(2, d)] is, up to a sign, the alternating
    word (1, 2, 1, 2, ...) of length d + 2; the sign is 1 in the
    Berger-Fresse convention. *)
Lemma C75_two_l (dt d u : Z) (dc cv : conv) (ot : option Z) (ov : option conv) :
  u = match ot with Some t => if t =? 0 then dt else t | None => dt end -> cv = match ov with Some c => c | None => dc end -> cv = BF \/ cv = MS ->
  0 <= d -> 0 <= u -> u <> 1 -> dt_ok dt u ->
  gives cls_surj (surj_may_steenrod dt dc 2 d ot ov) u cv [(altw 1 (Z.to_nat d + 2), match cv with MS => sgn ((d + 1) / 4) | _ => 1 end)].
Proof.
  intros Eu Ec Hcv Hd Hu N Hdt. pose proof (mayS_ok dt dc cv 2 (Z.to_nat d) ot ov u Eu Ec Hcv ltac:(lia) Hu N Hdt) as M. rewrite Z2Nat.id in M by lia.
  eapply (den_gives cls_surj ok_surj); [exact Hu|exact M|]. intros g Hg. apply eqm_eq. rewrite FpS_alt by exact Hg. rewrite two_sign_ok by exact Hcv. rewrite Z2Nat.id by lia. rewrite ev_cons, ev_nil. unfold two_sign. ring.
Qed.
Lemma alt_call dt t d e s0 (S : surj) (y : simp) : 0 <= t -> dt_ok dt t -> 0 <= e <= d -> den cls_surj t MS (fun g => s0 * g (altw 1 (Z.to_nat d + 2))) S ->
  wf cls_simplicial y -> torsion y = t -> keys_in (fun k => exists s, k = [s] /\ zlen s - 1 = e) y ->
  returns (surj_call_simplicial dt S y 1) (den cls_simplicial t tt (fun g => if e =? d then s0 * alt_sign d * ev (fun K => g (K ++ K)) (data y) else 0)).
Proof.
  intros Ht Hdt He DS Wy Ty Ky. pose proof (single_deg e y Ky) as Ky'. eapply returns_mono; [apply (word_call dt t 2 (Z.of_nat (Z.to_nat d)) 1 e 1 s0 (altw 1 (Z.to_nat d + 2)) S y); auto; try lia; apply altw_cell|].
  intros z Dz. eapply den_ext; [|exact Dz]. intros g Hg. cbn beta. apply eqm_eq.
  rewrite (ev_ext _ (fun K => (if e =? d then alt_sign d else 0) * g (K ++ K))).
  - rewrite ev_scal. destruct (e =? d); ring.
  - intros K v HK. destruct (Ky _ _ HK) as (s & -> & Es). destruct s as [|x l]; [change (zlen (@nil Z)) with 0 in Es; lia|]. rewrite zlen_cons in Es. rewrite Phi_alt; [|exact Hg|unfold zlen in *; lia].
    rewrite Z2Nat.id by lia. destruct (Nat.eqb_spec (length l) (Z.to_nat d)), (Z.eqb_spec e d); unfold zlen in *; try lia. cbn [app]. ring.
Qed.
Lemma ev_extend_dup c (y : simp) (g : list (list Z) -> Z) : ev g (extend (fun k => [(k ++ k, c)]) y) = c * ev (fun K => g (K ++ K)) (data y).
Proof. rewrite ev_extend. rewrite <- ev_scal. apply ev_ext. intros K v _. rewrite ev_cons, ev_nil. ring. Qed.
(** #C75_word# The alternating word of degree [d] sends a simplex [s] of dimension
    [d] to plus or minus [s] times [s], and every simplex of smaller dimension
    to zero. *)
Lemma C75_word_l (dt d e : Z) (dc : conv) (w : surj) (y : simp) :
  0 <= e <= d -> wf cls_simplicial y -> dt_ok dt (torsion y) -> keys_in (fun k => exists s, k = [s] /\ zlen s - 1 = e) y ->
  surj_new dt dc [(altw 1 (Z.to_nat d + 2), 1)] (Some (torsion y)) (Some MS) = Ok w ->
  gives cls_simplicial (surj_call_simplicial dt w y 1) (torsion y) tt (if e =? d then extend (fun k => [(k ++ k, alt_sign d)]) y else []).
Proof.
  intros He Wy Hdt Ky Ew. pose proof (proj1 Wy) as Ht. eapply (den_gives cls_simplicial ok_simplicial); [exact Ht| |].
  - apply (alt_call dt (torsion y) d e 1 w y); auto. apply (word_new dt dc); auto. apply (okey_cell 2 (Z.of_nat (Z.to_nat d))); [lia|apply altw_cell].
  - intros g _. cbn beta. apply eqm_eq. destruct (e =? d); [rewrite ev_extend_dup; ring|reflexivity].
Qed.
(** #C75_square# [may_steenrod_structure(2, d)] in the McClure-Smith convention
    sends [s] of dimension [d] to (-1)^(d(d-1)/2) [s] times [s], and every
    simplex of smaller dimension to zero. *)
Lemma C75_square_l (dt d e : Z) (dc : conv) (ot : option Z) (S : surj) (y : simp) :
  0 <= e <= d -> wf cls_simplicial y -> dt_ok dt (torsion y) -> torsion y <> 1 -> keys_in (fun k => exists s, k = [s] /\ zlen s - 1 = e) y ->
  torsion y = match ot with Some t => if t =? 0 then dt else t | None => dt end ->
  surj_may_steenrod dt dc 2 d ot (Some MS) = Ok S ->
  gives cls_simplicial (surj_call_simplicial dt S y 1) (torsion y) tt (if e =? d then extend (fun k => [(k ++ k, sgn (d * (d - 1) / 2))]) y else []).
Proof.
  intros He Wy Hdt N Ky Et ES. pose proof (proj1 Wy) as Ht. 
  destruct (mayS_ok dt dc MS 2 (Z.to_nat d) ot (Some MS) (torsion y) Et eq_refl (or_intror eq_refl) ltac:(lia) Ht N Hdt) as (S' & ES' & DS). rewrite Z2Nat.id in ES' by lia. rewrite ES in ES'. injection ES' as <-.
  eapply (den_gives cls_simplicial ok_simplicial); [exact Ht| |].
  - apply (alt_call dt (torsion y) d e (sgn ((d + 1) / 4)) S y); auto. eapply den_ext; [|exact DS]. intros g Hg. apply eqm_eq. rewrite FpS_alt by exact Hg. rewrite two_sign_ok by auto. now rewrite Z2Nat.id by lia.
  - intros g _. cbn beta. apply eqm_eq. destruct (e =? d); [|reflexivity]. rewrite ev_extend_dup, total_sign by lia. ring.
Qed.
Lemma op2 dt dc s q S : dt_ok dt 2 -> 0 <= s - q -> surj_steenrod_operation dt dc 2 s q false (Some MS) = Ok S ->
  den cls_surj 2 MS (fun g => two_sign MS (s - q) * g (altw 1 (Z.to_nat (s - q) + 2))) S.
Proof.
  intros Hdt Hd E. unfold surj_steenrod_operation in E. change (2 =? 2) with true in E. cbn [andb] in E. destruct (Z.ltb_spec (s - q) 0); [lia|].
  destruct (mayS_ok dt dc MS 2 (Z.to_nat (s - q)) (Some 2) (Some MS) 2 eq_refl eq_refl (or_intror eq_refl) ltac:(lia) ltac:(lia) ltac:(lia) Hdt) as (y & Ey & Dy). rewrite Z2Nat.id in Ey by lia. rewrite Ey in E. cbn [bind] in E.
  destruct (scale_den cls_surj ok_surj dt 2 ltac:(lia) Hdt MS _ 1 y Dy) as (S' & ES & DS). rewrite E in ES. injection ES as <-. eapply den_ext; [|exact DS]. intros g Hg. apply eqm_eq. cbn beta.
  rewrite FpS_alt by exact Hg. rewrite two_sign_ok by auto. rewrite Z2Nat.id by lia. ring.
Qed.
(** #C75_sq0# Sq^0 is the identity: for a cochain [alpha] of degree [m] with
    values modulo 2, [steenrod_operation(2, 0, -m)] does not change the
    value of [alpha] on any chain. *)
Lemma C75_sq0_l (dt m : Z) (dc : conv) (S : surj) (c : simp) (alpha : list Z -> Z) :
  0 <= m -> dt_ok dt 2 -> cochain m alpha -> wf cls_simplicial c -> torsion c = 2 -> keys_in (fun k => exists s, k = [s] /\ zlen s - 1 = m) c ->
  surj_steenrod_operation dt dc 2 0 (- m) false (Some MS) = Ok S ->
  exists z, surj_call_simplicial dt S c 1 = Ok z /\ evaluate alpha z mod 2 = evaluate alpha c mod 2.
Proof.
  intros Hm Hdt Ha Wc Tc Kc ES. apply op2 in ES; [|exact Hdt|lia]. replace (0 - - m) with m in ES by ring.
  destruct (alt_call dt 2 m m _ S c ltac:(lia) Hdt ltac:(lia) ES Wc Tc Kc) as (z & Ez & Dz). exists z. split; [exact Ez|]. apply mod_eqm; [lia|].
  change (evaluate alpha z) with (ev (on_tensor alpha) (data z)). change (evaluate alpha c) with (ev (on_tensor alpha) (data c)).
  assert (AG : adm cls_simplicial (on_tensor alpha)) by (apply (adm_on 2 m (fun _ => False) alpha Hm); split; [exact Ha|intros ? []]).
  etransitivity; [exact (den_ev cls_simplicial 2 tt _ z _ Dz AG)|]. cbn beta. rewrite Z.eqb_refl. rewrite <- ev_scal. apply ev_eqm. intros K v HK. destruct (Kc _ _ HK) as (s & -> & _). unfold on_tensor. cbn [app map fold_right].
  assert (E1 : eqm 2 (two_sign MS m * alt_sign m) 1) by (cbn [two_sign]; unfold alt_sign; rewrite <- sgn_add; apply sgn_eqm2). rewrite E1. rewrite !Z.mul_1_r, !Z.mul_1_l.
  destruct (Z.Even_or_Odd (alpha s)) as [[z0 E]|[z0 E]]; rewrite E; [exists (2 * z0 * z0 - z0)|exists (2 * z0 * z0 + z0)]; ring.
Qed.
(** #C75_negative# Operations that lower the degree are zero: the operation
    [steenrod_operation(2, s, q)] sends every chain of dimension less than
    [s - q] to zero. *)
Lemma C75_negative_l (dt s q e : Z) (dc : conv) (S : surj) (c : simp) :
  0 <= e < s - q -> dt_ok dt 2 -> wf cls_simplicial c -> torsion c = 2 -> keys_in (fun k => exists s, k = [s] /\ zlen s - 1 = e) c ->
  surj_steenrod_operation dt dc 2 s q false (Some MS) = Ok S ->
  gives cls_simplicial (surj_call_simplicial dt S c 1) 2 tt [].
Proof.
  intros He Hdt Wc Tc Kc ES. apply op2 in ES; [|exact Hdt|lia]. eapply (den_gives cls_simplicial ok_simplicial); [lia|apply (alt_call dt 2 (s - q) e (two_sign MS (s - q)) S c); auto; lia|].
  intros g _. cbn beta. destruct (Z.eqb_spec e (s - q)); [lia|]. apply eqm_eq. reflexivity.
Qed.
Lemma op_top dt dc p s q S : p = 2 \/ (3 <= p /\ Z.even p = false) -> dt_ok dt p -> (if p =? 2 then s - q else 2 * s - q) = 0 -> surj_steenrod_operation dt dc p s q false (Some MS) = Ok S ->
  den cls_surj p MS (fun g => 1 * g (zrange 1 (p + 1))) S.
Proof.
  intros Hp Hdt Hd E. assert (Hp1 : 2 <= p) by lia. unfold surj_steenrod_operation in E.
  assert (Ep : p = match Some p with Some t => if t =? 0 then dt else t | None => dt end) by (cbv beta iota; destruct (Z.eqb_spec p 0); [lia|reflexivity]).
  destruct (mayS_ok dt dc MS p 0 (Some p) (Some MS) p Ep eq_refl (or_intror eq_refl) Hp1 ltac:(lia) ltac:(lia) Hdt) as (y & Ey & Dy). change (Z.of_nat 0) with 0 in Ey.
  assert (Q : scale dt cls_surj 1 y = Ok S -> den cls_surj p MS (fun g => 1 * g (zrange 1 (p + 1))) S).
  { intros Es. destruct (scale_den cls_surj ok_surj dt p ltac:(lia) Hdt MS _ 1 y Dy) as (S' & ES & DS). rewrite Es in ES. injection ES as <-. exact DS. }
  apply Q. destruct (Z.eqb_spec p 2) as [->|N].
  - cbn [andb] in E. rewrite Hd in E. change (0 <? 0) with false in E. cbv iota in E. rewrite Ey in E. exact E.
  - cbn [andb] in E. assert (Eq : q = 2 * s) by lia. subst q. unfold steenrod_coeff in E. rewrite (Z.mul_comm 2 s), Z.mod_mul, Z.div_mul in E by lia. change (0 =? 0) with true in E. cbv iota zeta in E. cbn [bind] in E.
    replace ((s * 2 - s * 2) * (p - 1) - 0) with 0 in E by ring. change (0 <? 0) with false in E. cbv iota in E. rewrite Ey in E. cbn [bind] in E. replace (sgn (s + s)) with 1 in E; [exact E|]. rewrite sgn_add. symmetry. apply sgn_sq.
Qed.
(** #C75_top# The top operation is the p-th power: when s = q (p = 2) or 2s = q (odd p),
    [steenrod_operation(p, s, q)] acts as the iterated diagonal with p
    factors, so on cochains it is the cup product of [p] equal factors. *)
Lemma C75_top_l (dt p s q e : Z) (dc : conv) (S : surj) (c : simp) :
  p = 2 \/ (3 <= p /\ Z.even p = false) -> dt_ok dt p -> (if p =? 2 then s else 2 * s) = q ->
  wf cls_simplicial c -> torsion c = p -> data c <> [] -> keys_in (fun k => exists s, k = [s] /\ zlen s - 1 = e) c ->
  surj_steenrod_operation dt dc p s q false (Some MS) = Ok S ->
  same (surj_call_simplicial dt S c 1) (simp_iterated_diagonal dt c (p - 1) 1).
Proof.
  intros Hp Hdt Hq Wc Tc Nc Kc ES. apply op_top in ES; [|exact Hp|exact Hdt|destruct (p =? 2); lia].
  eapply (same_den cls_simplicial ok_simplicial p tt); [lia| | |].
  - apply (word_call dt p p 0 1 e 1 1 (zrange 1 (p + 1)) S c); auto; try lia; [apply id_cell; lia|apply single_deg; exact Kc].
  - apply (diag_den dt p 1 e (p - 1) 1 c); auto; try lia. apply single_deg; exact Kc.
  - intros g _. cbn beta. apply eqm_eq. rewrite Z.mul_1_l. apply ev_ext. intros K v _. apply Phi_id. lia.
Qed.
(** #C75_example# Sq^0 in degree 2, a square with the sign -1, and a vanishing operation. *)
Example C75_example_l :
  (exists S, surj_steenrod_operation 0 BF 2 0 (-2) false (Some MS) = Ok S /\ surj_call_simplicial 0 S (mkElt [([[0; 1; 2]], 1)] 2 tt) 1 = Ok (mkElt [([[0; 1; 2]; [0; 1; 2]], 1)] 2 tt)) /\
  (exists S, surj_may_steenrod 0 BF 2 2 None (Some MS) = Ok S /\ surj_call_simplicial 0 S (mkElt [([[0; 1; 2]], 3)] 0 tt) 1 = Ok (mkElt [([[0; 1; 2]; [0; 1; 2]], -3)] 0 tt)) /\
  (exists S, surj_steenrod_operation 0 BF 2 1 (-1) false (Some MS) = Ok S /\ surj_call_simplicial 0 S (mkElt [([[0; 1]], 1)] 2 tt) 1 = Ok (mkElt [] 2 tt)) /\
  wf cls_simplicial (mkElt [([[0; 1; 2]], 1)] 2 tt).
Proof. split; [|split; [|split]]; try (eexists; split; [vm_compute; reflexivity|vm_compute; reflexivity]). apply wfb_wf; reflexivity. Qed.
