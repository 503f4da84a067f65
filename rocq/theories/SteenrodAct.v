(** * Cochain operations defined by the May-Steenrod elements.  Proof library. *)
From Coq Require Import Setoid Morphisms.
From Verif Require Import PyBase Dict FreeModule Symmetric Simplicial Utils Surjection Eqm Spec SpecChain SpecOperad SpecSurj SpecAction SpecCochain FreeModuleFacts FreeModuleLaws ListFacts
  ClassFacts LinearFacts BilFacts SymmetricFacts CycleFacts SymmetricLaws RingFacts Tensor TensorAct KoszulFacts LoopFacts AW SimplicialFacts SimplicialDiag SimplicialLaws BEDiag MayFacts BELaws3 SurjFacts SurjBoundary SurjLaws SurjAct SurjMay
  ActFacts ActSign ActCore ActCode ActLaws EquivAct.

(** ** faces and degeneracies *)
Inductive subl {B} : list B -> list B -> Prop :=
| subl_nil : subl [] []
| subl_keep b v w : subl v w -> subl (b :: v) (b :: w)
| subl_drop b v w : subl v w -> subl v (b :: w).
Lemma subl_refl {B} (v : list B) : subl v v. Proof. induction v; constructor; auto. Qed.
Lemma subl_app {B} (v v' w w' : list B) : subl v w -> subl v' w' -> subl (v ++ v') (w ++ w').
Proof. intros H1 H2. induction H1; cbn [app]; [exact H2| |]; constructor; auto. Qed.
Lemma subl_nil_l {B} (w : list B) : subl [] w. Proof. induction w; constructor; auto. Qed.
Lemma X_subl (X : list Z -> Prop) v w : simplicial_set X -> subl v w -> forall l, X (l ++ w) -> l ++ v <> [] -> X (l ++ v).
Proof.
  intros [Xd _] S. induction S as [|b v w S IH|b v w S IH]; intros l Hx N; [exact Hx| |].
  - change (b :: v) with ([b] ++ v). rewrite app_assoc. apply IH; rewrite <- app_assoc; assumption.
  - apply IH; [|exact N]. apply (Xd l b w); [exact Hx|]. intros E. apply N. apply app_eq_nil in E. destruct E as [-> ->]. inversion S. reflexivity.
Qed.
Lemma joined_subl i L : subl (joined i L) (concat (map snd L)).
Proof.
  induction L as [|[a b] L IH]; [constructor|]. rewrite joined_cons. cbn [map snd concat]. apply subl_app; [|exact IH].
  destruct (a =? i); [apply subl_refl|apply subl_nil_l].
Qed.
Lemma X_pieces (X : list Z -> Prop) t : simplicial_set X -> forall (s : list Z) u l, In u (front_back t s) -> X (l ++ s) -> X (l ++ concat u).
Proof.
  intros HX. induction t as [|t IH]; intros s u l Hu Hx.
  - destruct Hu as [<-|[]]. cbn [concat]. now rewrite app_nil_r.
  - cbn [front_back] in Hu. apply in_flat_map in Hu. destruct Hu as ([[l1 a] l2] & Hs & Hu). rewrite cuts_splits in Hs. apply splits_in in Hs. subst s.
    apply in_map_iff in Hu. destruct Hu as (u' & <- & Hu'). cbn [concat]. rewrite app_assoc. apply (IH (a :: l2)); [exact Hu'|].
    rewrite <- !app_assoc. cbn [app]. rewrite app_assoc in Hx |- *. now apply (proj2 HX).
Qed.
Lemma joined_nonnil r k (u : list (list Z)) i : onto r k -> length u = length k -> hasnil u = false -> 1 <= i <= r -> joined i (combine k u) <> [].
Proof.
  intros Ho Lu Nu Hi. assert (Hin : In i k) by now apply Ho. clear Ho. revert u Lu Nu. induction k as [|a k IH]; intros [|b u] Lu Nu; try discriminate; [destruct Hin|].
  cbn [combine]. rewrite joined_cons. rewrite hasnil_cons in Nu. apply orb_false_iff in Nu. destruct Nu as [Nb Nu]. destruct Hin as [->|Hin].
  - rewrite Z.eqb_refl. destruct b; [discriminate|]. discriminate.
  - intros E. apply app_eq_nil in E. destruct E as [_ E]. revert E. apply IH; auto.
Qed.
Lemma X_acts (X : list Z -> Prop) r d k s w v : simplicial_set X -> 1 <= r -> onto r k -> s <> [] -> X s -> In (w, v) (simp_acts r d 1 k [s]) -> forall b, In b w -> X b.
Proof.
  intros HX Hr Ho Ns Xs Hin b Hb. apply acts_in in Hin. destruct Hin as (l1 & s' & l2 & u & E & E1 & Hu & ->).
  destruct l1; [|rewrite zlen_cons in E1; pose proof (zlen_nonneg l1); lia]. cbn [app] in *. injection E as <- <-. rewrite app_nil_r in Hb.
  pose proof (front_back_nonnil _ _ _ Ns Hu) as Nu. pose proof (X_pieces X _ HX s u [] Hu Xs) as Xc. apply (fb_len k) in Hu; [|now apply (onto_ne r)].
  unfold joins in Hb. apply in_map_iff in Hb. destruct Hb as (i & <- & Hi). apply in_zrange in Hi.
  change (X ([] ++ joined i (combine k u))). apply (X_subl X _ (concat (map snd (combine k u)))); auto; [apply joined_subl|now rewrite map_snd_combine|].
  cbn [app]. apply (joined_nonnil r); auto. lia.
Qed.
(** ** tensor powers of a cocycle *)
Section Cochain.
Variables (p m : Z) (X : list Z -> Prop) (alpha : list Z -> Z).
Hypothesis Hm : 0 <= m.
Hypothesis HX : simplicial_set X.
Hypothesis Ha : cocycle p m X alpha.
Hypothesis Hp0 : p <> 0.
Notation G := (on_tensor alpha).
Lemma on_cons b k : G (b :: k) = alpha b * G k. Proof. reflexivity. Qed.
Lemma on_zero b k : In b k -> alpha b = 0 -> G k = 0.
Proof. induction k as [|c k IH]; [intros []|]. rewrite on_cons. intros [->|Hin] E; [rewrite E; ring|rewrite IH by auto; ring]. Qed.
Lemma on_dim b k : In b k -> spx_dim b <> m -> G k = 0.
Proof. intros Hin Hb. apply (on_zero b); auto. now apply (proj1 Ha). Qed.
Lemma on_perm k k' : Permutation k k' -> G k = G k'.
Proof. induction 1; rewrite ?on_cons in *; try congruence; ring. Qed.
Lemma alpha_deg s : spx_is_degenerate s = true -> alpha s = 0.
Proof.
  rewrite deg_dupb. destruct s as [|v s]; [intros _; apply (proj1 Ha); rewrite zlen_nil; lia|]. intros D. 
  assert (E : exists l1 a l2, v :: s = l1 ++ a :: a :: l2).
  { clear -D. revert v D. induction s as [|w s IH]; intros v D; [discriminate|]. cbn in D. destruct (Z.eqb_spec v w) as [E|]; [subst w; now exists [], v, s|].
    destruct (IH w D) as (l1 & a & l2 & E). exists (v :: l1), a, l2. cbn. now rewrite E. }
  destruct E as (l1 & a & l2 & ->). apply (proj1 (proj1 Ha)).
Qed.
Lemma adm_on : adm cls_simplicial G.
Proof.
  split; [intros k k' E; now apply keqb_eq in E; subst|]. intros k Hk. injection Hk as Hk. apply existsb_exists in Hk. destruct Hk as (b & Hin & Hb). apply (on_zero b); auto using alpha_deg.
Qed.
Lemma alpha_cocycle s : X s -> eqm p (fdS alpha s) 0.
Proof.
  intros Hs. destruct (Z.eq_dec (spx_dim s) (m + 1)) as [E|N].
  - transitivity (fdS alpha s mod p); [symmetry; now apply Eqm.eqm_mod|]. apply eqm_eq. rewrite <- ((proj2 Ha) s Hs E). f_equal. unfold fd, ev, faces, fbS. rewrite cuts_splits. reflexivity.
  - apply eqm_eq. apply ev_zero. intros u v Hu. apply (proj1 Ha). apply dim_fbS in Hu. unfold spx_dim in *. lia.
Qed.
Lemma tDS_on k : (forall b, In b k -> X b) -> eqm p (tDS G k) 0.
Proof.
  induction k as [|b k IH]; intros Hk; [reflexivity|]. rewrite tD_cons.
  rewrite (fd_ext_all fbS _ (fun b' => G k * alpha b')) by (intros; rewrite on_cons; ring). rewrite fd_scal, (alpha_cocycle b) by (apply Hk; now left).
  rewrite (tD_ext_all fbS spx_dim _ (fun k' => alpha b * G k')) by (intros; apply on_cons). rewrite tD_scal, IH by (intros; apply Hk; now right). apply eqm_eq. ring.
Qed.
(** ** rotations act trivially on the tensor power *)
Lemma kinv_const (q : list Z) c : kinv q (fun _ => c) = c * c * inversions q.
Proof.
  unfold kinv. induction q as [|i q IH]; [cbn [pairsum inversions]; ring|]. cbn [pairsum inversions]. rewrite IH. 
  assert (E : sumf (fun j => if j <? i then c * c else 0) q = c * c * zlen (filter (fun j => j <? i) q)).
  { clear. induction q as [|j q IH]; [cbn [filter]; change (zlen []) with 0; rewrite sumf_nil; ring|]. rewrite sumf_cons, IH. cbn [filter]. destruct (j <? i); rewrite ?zlen_cons; ring. }
  rewrite E. ring.
Qed.
Lemma psgn_rot n k : 1 <= n -> Z.even n = false -> 0 <= k -> psgn (rot n k) = 1.
Proof.
  intros Hn Ho Hk.
  assert (A : forall a b, psgn (rot n (a + b)) = psgn (rot n a) * psgn (rot n b)) by (intros a b; rewrite <- rot_add by exact Hn; apply (psgn_pmul n); try lia; now apply perm_rot).
  assert (P : forall j : nat, psgn (rot n (Z.of_nat j)) = if Nat.even j then 1 else psgn (rot n 1)).
  { induction j as [|j IH]; [cbn [Nat.even]; change (Z.of_nat 0) with 0; rewrite rot_0; apply psgn_id; lia|]. rewrite Nat2Z.inj_succ, <- Z.add_1_r, A, IH, Nat.even_succ, <- Nat.negb_even.
    destruct (Nat.even j); cbn [negb]; [ring|]. apply psgn_sq. }
  assert (E1 : psgn (rot n 1) = 1).
  { transitivity (psgn (rot n n)); [|rewrite <- (Z.add_0_l n) at 2; rewrite rot_period by exact Hn; rewrite rot_0; apply psgn_id; lia].
    rewrite <- (Z2Nat.id n) at 3 by lia. rewrite P. rewrite <- even_of_nat, Z2Nat.id by lia. now rewrite Ho. }
  rewrite <- (Z2Nat.id k) by lia. rewrite P, E1. now destruct (Nat.even _).
Qed.
Hypothesis Hp2 : p = 2 \/ Z.even p = false.
Hypothesis Hp1 : 2 <= p.
Lemma kact_on j K : 0 <= j -> zlen K = p -> eqm p (kact spx_dim G (rot p j) K) (G K).
Proof.
  intros Hj Lk. unfold kact. assert (Pr : perm p (rot p j)) by (apply perm_rot; lia). rewrite (on_perm _ K (placef_perm p (rot p j) K ltac:(lia) Pr Lk)).
  destruct (forallb (fun b => spx_dim b =? m) K) eqn:F.
  - rewrite forallb_forall in F. assert (ES : sgn (kinv (rot p j) (fun i => spx_dim (lab (rot p j) K i))) = sgn (m * m * inversions (rot p j))).
    { rewrite <- kinv_const. apply sgn_eqm, kinv_eqm. intros i Hi. apply eqm_eq. apply Z.eqb_eq, F. unfold lab, znth. apply nth_In. destruct (posn_index _ _ Hi) as (_ & R & _).
      rewrite (perm_len p) in R by (assumption || lia). unfold zlen in *. lia. }
    rewrite ES. clear ES. destruct Hp2 as [->|Ho].
    + destruct (sgn_cases (m * m * inversions (rot 2 j))) as [-> | ->]; [apply eqm_eq; ring|]. exists (- G K). ring.
    + apply eqm_eq. replace (sgn (m * m * inversions (rot p j))) with 1; [ring|]. pose proof (psgn_rot p j ltac:(lia) Ho Hj) as E. unfold psgn in E.
      destruct (Z.even m) eqn:Em; [rewrite <- Z.mul_assoc; now rewrite sgn_mul_even|]. rewrite <- E. apply sgn_eqm.
      destruct (Z.Even_or_Odd m) as [[q Eq]|[q Eq]]; [rewrite Eq, Z.even_mul in Em; discriminate|]. exists (- ((2 * q * q + 2 * q) * inversions (rot p j))). rewrite Eq. ring.
  - assert (E : exists b, In b K /\ (spx_dim b =? m) = false).
    { clear -F. induction K as [|b K IH]; [discriminate|]. cbn in F. apply andb_false_iff in F. destruct F as [F|F]; [exists b; split; [now left|exact F]|]. destruct (IH F) as (c & ? & ?). exists c. split; [now right|assumption]. }
    destruct E as (b & Hin & Hb). apply Z.eqb_neq in Hb. rewrite (on_dim b) by assumption. apply eqm_eq. ring.
Qed.
Lemma RA_const d v : eqm p (RA p d (fun _ => v)) 0.
Proof.
  unfold RA. destruct (Nat.even d); [|apply eqm_eq; ring]. rewrite (sumf_ext _ (fun _ => v * 1)) by (intros; ring). rewrite sumf_scal, sumf_1, zlen_zrange. exists v. rewrite Z.max_r by lia. ring.
Qed.
Lemma RA_eqm d h h' : (forall j, 0 <= j -> eqm p (h (rot p j)) (h' (rot p j))) -> eqm p (RA p d h) (RA p d h').
Proof.
  intros E. unfold RA. destruct (Nat.even d); [apply sumf_eqm; intros k Hk; apply in_zrange in Hk; apply E; lia|]. rewrite !E by lia. reflexivity.
Qed.
Lemma onto_long r k : 0 <= r -> onto r k -> r <= zlen k.
Proof.
  intros Hr Hk. assert (L : (length (zrange 1 (r + 1)) <= length k)%nat) by (apply NoDup_incl_length; [apply NoDup_zrange|]; intros j Hj; apply Hk; apply in_zrange in Hj; lia).
  rewrite zrange_length in L. unfold zlen. lia.
Qed.
Lemma Phi_len d k s w v : surj_cell p d k -> In (w, v) (simp_acts p (zlen k - p) 1 k [s]) -> zlen w = p.
Proof. intros Hk Hin. assert (Q : kdegS 1 (tdeg spx_dim [s]) [s]) by (split; reflexivity). destruct (acts_deg p d 1 _ 1 k [s] w v ltac:(lia) Hk Q Hin) as [E _]. lia. Qed.
(** ** the main computation *)
Lemma sd_part d (y : surj) s : den cls_surj p MS (FpS MS p d) y -> spx_is_degenerate s = false -> eqm p (ev (sd MS (fun k => Phi p 1 G k [s])) (data y)) 0.
Proof.
  intros Dy Hs. set (F := fun k => Phi p 1 G k [s]).
  assert (Kd : forall d, admP cls_surj (surj_cell p d) F).
  { intros d'. assert (Hg : admP cls_simplicial (kdegS (1 + p - 1) (tdeg spx_dim [s] + d')) G) by (apply adm_admP, adm_on).
    destruct (adm_Phi p d' 1 (tdeg spx_dim [s]) 1 ltac:(lia) G Hg) as [B _]. apply (B [s]); [split; reflexivity|]. cbn. now rewrite Hs. }
  pose proof (psiS_keys MS p d p y ltac:(lia) ltac:(lia) Dy) as Ky.
  destruct d as [|d].
  - apply eqm_eq. apply ev_zero. intros k v Hk. destruct (Ky _ _ Hk) as [Ck _]. destruct (rep_sd MS _ _ (sface_cell p (Z.of_nat 0)) k Ck) as (L & L1 & L2). rewrite L2. apply ev_zero.
    intros k' v' Hk'. exfalso. destruct (L1 _ _ Hk') as [Ho Lk]. apply onto_long in Ho; lia.
  - assert (SF : sface_closed (surj_cell p (Z.of_nat (Datatypes.S d))) (surj_cell p (Z.of_nat d))).
    { intros k k' [Hk Lk] L Sk. split; [|lia]. intros j. rewrite Sk. apply Hk. }
    rewrite (psiS_ev MS p (Datatypes.S d) p y (sd MS F)); [|lia|lia|exact Dy|].
    + rewrite FpS_boundary; [|lia|].
      * transitivity (RA p (Datatypes.S d) (fun _ => FpS MS p d F)); [|apply RA_const]. apply RA_eqm. intros j Hj. destruct (FpS_list MS p d ltac:(lia)) as (L & L1 & L2). rewrite !L2.
        apply ev_eqm. intros k v Hk. destruct (L1 _ _ Hk) as [Ck _]. unfold F. rewrite Phi_equiv; [|lia|apply perm_rot; lia|apply Ck].
        unfold Phi. apply ev_eqm. intros K w HK. apply kact_on; [exact Hj|]. now apply (Phi_len (Z.of_nat d) k s K w).
      * intros k Hk Ak. apply (Kd (Z.of_nat d)); [exact Hk|]. cbn [bad cls_surj]. rewrite (surj_bad_onto p) by (try lia; apply Hk). now rewrite Ak.
    + apply (adm_sd MS _ _ SF); [intros k Hk; apply (onto_ne p); [lia|apply Hk]|]. apply Kd.
Qed.
Lemma chain_part d (y : surj) s : den cls_surj p MS (FpS MS p d) y -> spx_is_degenerate s = false -> X s ->
  eqm p (ev (fun k => tDS (fun K => Phi p 1 G k K) [s]) (data y)) 0.
Proof.
  intros Dy Hs Xs. pose proof (psiS_keys MS p d p y ltac:(lia) ltac:(lia) Dy) as Ky. pose proof (sd_part d y s Dy Hs) as E1.
  assert (Ns : s <> []) by (intros ->; discriminate).
  assert (E2 : eqm p (ev (fun k => Phi p 1 (tDS G) k [s]) (data y)) 0).
  { rewrite (ev_eqm p _ (fun _ => 0)); [apply eqm_eq; apply ev_zero; reflexivity|]. intros k v Hk. destruct (Ky _ _ Hk) as [[Ho _] _]. unfold Phi. rewrite (ev_eqm p _ (fun _ => 0)); [apply eqm_eq; apply ev_zero; reflexivity|].
    intros K w HK. apply tDS_on. apply (X_acts X p _ k s K w HX ltac:(lia) Ho Ns Xs HK). }
  rewrite (ev_ext _ (fun k => sd MS (fun k' => Phi p 1 G k' [s]) k + sgn (Z.of_nat d) * tDS (fun K => Phi p 1 G k K) [s])) in E2.
  - rewrite ev_add, ev_scal, E1 in E2. transitivity (sgn (Z.of_nat d) * (sgn (Z.of_nat d) * ev (fun k => tDS (fun K => Phi p 1 G k K) [s]) (data y))).
    + rewrite Z.mul_assoc, sgn_sq. apply eqm_eq. ring.
    + rewrite Z.add_0_l in E2. rewrite E2. apply eqm_eq. ring.
  - intros k v Hk. destruct (Ky _ _ Hk) as [Ck _]. apply (Phi_chain p (Z.of_nat d) 1 G k [] s []); auto; [lia|apply adm_on].
Qed.
End Cochain.
