(** * Surjections: the maps i, p, s, h and the May-Steenrod elements.  Proof library. *)
From Coq Require Import Setoid Morphisms.
From Verif Require Import PyBase Dict FreeModule Symmetric Simplicial Utils Surjection BarrattEccles Eqm Spec SpecChain SpecOperad SpecSurj FreeModuleFacts FreeModuleLaws ListFacts
  ClassFacts LinearFacts SymmetricFacts CycleFacts SymmetricLaws RingFacts RingLaws Tensor TensorAct KoszulFacts LoopFacts ActGeneric SimplicialLaws BEFacts BEOrbit BELaws BEDiag MayFacts BELaws3
  SurjFacts SurjBoundary SurjLaws SurjAct.

Notation suc := (fun j : Z => j + 1).
Notation prd := (fun j : Z => j - 1).
Definition wI (k : list Z) : list Z := 1 :: map suc k.
Definition Ii (g : list Z -> Z) (k : list Z) : Z := g (wI k).
Definition Pp (g : list Z -> Z) (k : list Z) : Z := U 1 (fun u => g (map prd u)) k.
Definition Ss (g : list Z -> Z) (k : list Z) : Z := g (1 :: k).

(** ** the sign twist *)
Lemma lessn_0 a l : (forall b, In b l -> a <= b) -> lessn a l = 0.
Proof.
  intros H. unfold lessn. induction l as [|b l IH]; [reflexivity|]. cbn [filter]. destruct (Z.ltb_spec b a) as [L|_]; [specialize (H b (or_introl eq_refl)); lia|].
  apply IH. intros c Hc. apply H. now right.
Qed.
Lemma lessn_map (f : Z -> Z) a l : (forall b c, f b < f c <-> b < c) -> lessn (f a) (map f l) = lessn a l.
Proof.
  intros H. induction l as [|b l IH]; [reflexivity|]. cbn [map]. rewrite !lessn_cons, IH. f_equal.
  destruct (Z.ltb_spec (f b) (f a)), (Z.ltb_spec b a); try reflexivity; exfalso; [match goal with L : f b < f a |- _ => apply (proj1 (H b a)) in L; lia end|match goal with L : b < a |- _ => apply (proj2 (H b a)) in L; lia end].
Qed.
Lemma invn_map (f : Z -> Z) l : (forall b c, f b < f c <-> b < c) -> invn (map f l) = invn l.
Proof. intros H. induction l as [|b l IH]; [reflexivity|]. cbn [map invn]. now rewrite IH, lessn_map. Qed.
Lemma tw_map cv (f : Z -> Z) l : (forall b c, f b < f c <-> b < c) -> tw cv (map f l) = tw cv l.
Proof.
  intros H. destruct cv; cbn [tw]; try reflexivity. unfold eps. change (@nil Z) with (map f []) at 1. rewrite caes_map, invn_map; auto.
  intros a b _ _ E. destruct (Z.lt_trichotomy a b) as [L|[L|L]]; [apply (proj2 (H a b)) in L; lia|exact L|apply (proj2 (H b a)) in L; lia].
Qed.
Lemma tw_cons1 cv k : (forall b, In b k -> 1 <= b) -> tw cv (1 :: k) = tw cv k.
Proof.
  intros H. destruct cv; cbn [tw]; try reflexivity. unfold eps. cbn [caes]. destruct (mem 1 (k ++ [])); [|reflexivity].
  cbn [app invn]. rewrite lessn_0; [reflexivity|]. intros b Hb. apply H. now apply in_caes in Hb.
Qed.
Lemma caes_uniq k : forall u v, uniq 1 k = Some u -> ~ In 1 v -> caes k v = caes u v.
Proof.
  induction k as [|b k IH]; intros u v; [discriminate|]. cbn [uniq]. destruct (Z.eqb_spec b 1) as [->|N].
  - destruct (mem 1 k) eqn:E; [discriminate|]. intros [= <-] Nv. cbn [caes]. replace (mem 1 (k ++ v)) with false; [reflexivity|].
    symmetry. apply mem_notin. rewrite in_app_iff. apply mem_notin in E. tauto.
  - destruct (uniq 1 k) as [w|] eqn:E; [|discriminate]. intros [= <-] Nv. cbn [caes]. rewrite (IH w v eq_refl Nv).
    assert (M : mem b (k ++ v) = mem b (w ++ v)); [|now rewrite M]. apply eq_true_iff_eq. rewrite !mem_in, !in_app_iff, (uniq_in _ _ _ E). tauto.
Qed.
Lemma tw_uniq cv k u : uniq 1 k = Some u -> tw cv u = tw cv k.
Proof. intros E. destruct cv; cbn [tw]; try reflexivity. unfold eps. now rewrite (caes_uniq k u [] E) by (intros []). Qed.
Lemma suc_mono : forall b c : Z, suc b < suc c <-> b < c. Proof. intros; cbn beta in *; lia. Qed.
Lemma prd_mono : forall b c : Z, prd b < prd c <-> b < c. Proof. intros; cbn beta in *; lia. Qed.
Lemma suc_prd l : map suc (map prd l) = l.
Proof. rewrite map_map. rewrite <- (map_id l) at 2. apply map_ext. intros; cbn beta in *; lia. Qed.
Lemma prd_suc l : map prd (map suc l) = l.
Proof. rewrite map_map. rewrite <- (map_id l) at 2. apply map_ext. intros; cbn beta in *; lia. Qed.

(** ** the identities *)
Definition pos (k : list Z) : Prop := forall b, In b k -> 1 <= b.
Lemma onto_pos n k : onto n k -> pos k. Proof. intros H b Hb. now apply H in Hb. Qed.
Lemma sd_ext_supp cv g h k : (forall u, (forall c, In c u <-> In c k) -> g u = h u) -> sd cv g k = sd cv h k.
Proof. intros E. unfold sd. f_equal. apply bfd_ext_supp. intros u Hu. now rewrite E. Qed.
Lemma Ss_sd cv g k : pos k -> In 1 k -> Ss (sd cv g) k = g k - sd cv (Ss g) k - Pp (Ii g) k.
Proof.
  intros Hp H1. unfold Ss, sd, Pp, Ii. rewrite bfd_cons, tw_cons1 by exact Hp. rewrite (proj2 (mem_in 1 k) H1).
  rewrite (bfd_ext_supp (fun u => tw cv (1 :: u) * g (1 :: u)) (fun u => tw cv u * g (1 :: u)) k).
  2:{ intros u Hu. rewrite tw_cons1; [reflexivity|]. intros b Hb. apply Hp. now apply Hu. }
  rewrite (U_ext 1 (fun u => tw cv (1 :: u) * g (1 :: u)) (fun u => tw cv k * g (wI (map prd u))) k).
  2:{ intros u Hu. rewrite tw_cons1; [|intros b Hb; apply Hp; now apply (uniq_in _ _ _ Hu)]. rewrite (tw_uniq cv k u Hu). unfold wI. now rewrite suc_prd. }
  rewrite U_scal. pose proof (tw_sq cv k) as E. set (X := U _ _ _). set (Y := bfd _ _). transitivity ((tw cv k * tw cv k) * g k - tw cv k * Y - (tw cv k * tw cv k) * X); [ring|]. rewrite E. ring.
Qed.
Lemma notin_suc k : pos k -> ~ In 1 (map suc k).
Proof. intros Hp H. apply in_map_iff in H. destruct H as (b & E & Hb). apply Hp in Hb. lia. Qed.
Lemma pos_wI k : pos k -> pos (wI k).
Proof. intros Hp b [<-|Hb]; [lia|]. apply in_map_iff in Hb. destruct Hb as (c & <- & Hc). apply Hp in Hc. lia. Qed.
Lemma tw_wI cv k : pos k -> tw cv (wI k) = tw cv k.
Proof. intros Hp. unfold wI. rewrite tw_cons1, (tw_map cv suc _ suc_mono); [reflexivity|]. intros b Hb. apply (pos_wI k Hp). now right. Qed.
Lemma Ii_sd cv g k : pos k -> Ii (sd cv g) k = sd cv (Ii g) k.
Proof.
  intros Hp. unfold Ii, sd. rewrite tw_wI by exact Hp. unfold wI at 1. rewrite bfd_cons. rewrite (proj2 (mem_notin 1 (map suc k)) (notin_suc k Hp)).
  rewrite bfd_map by (intros; cbn beta in *; lia). f_equal. apply bfd_ext_supp. intros u Hu. fold (wI u). rewrite tw_wI; [reflexivity|]. intros b Hb. apply Hp. now apply Hu.
Qed.
Lemma Pp_sd cv g k : Pp (sd cv g) k = sd cv (Pp g) k.
Proof.
  unfold Pp, sd. rewrite (bfd_ext_all (fun u => tw cv u * U 1 (fun u0 => g (map prd u0)) u) (U 1 (fun u => tw cv (map prd u) * g (map prd u)))).
  2:{ intros u. rewrite <- U_scal. apply U_ext. intros v Hv. now rewrite (tw_map cv prd _ prd_mono), (tw_uniq cv u v Hv). }
  rewrite bfd_U, <- U_scal. apply U_ext. intros u Hu. rewrite (tw_map cv prd _ prd_mono), (tw_uniq cv k u Hu). f_equal.
  apply bfd_map. intros; cbn beta in *; lia.
Qed.
Lemma U_sub a g h w : U a (fun u => g u - h u) w = U a g w - U a h w. Proof. unfold U. destruct (uniq a w); ring. Qed.
Lemma Pp_sub g h k : Pp (fun u => g u - h u) k = Pp g k - Pp h k. Proof. apply U_sub. Qed.
Lemma Pp_add g h k : Pp (fun u => g u + h u) k = Pp g k + Pp h k. Proof. apply U_add. Qed.
(** words and the operations *)
Lemma onto_suc n k : 0 <= n -> onto n k -> onto (n + 1) (wI k).
Proof.
  intros Hn Hk j. unfold wI. cbn [In]. rewrite in_map_iff. split.
  - intros [<-|(a & <- & Ha)]; [lia|]. apply Hk in Ha. lia.
  - intros Hj. destruct (Z.eq_dec j 1); [left; lia|]. right. exists (j - 1). split; [lia|]. apply Hk. lia.
Qed.
Lemma onto_prd n k u : onto (n + 1) k -> uniq 1 k = Some u -> onto n (map prd u).
Proof.
  intros Hk Hu j. rewrite in_map_iff. split.
  - intros (a & <- & Ha). apply (uniq_in _ _ _ Hu) in Ha. destruct Ha as [Ha N]. apply Hk in Ha. lia.
  - intros Hj. exists (j + 1). split; [lia|]. apply (uniq_in _ _ _ Hu). split; [apply Hk; lia|lia].
Qed.
Lemma Pp_ext n g h k : onto (n + 1) k -> (forall u, onto n u -> zlen u = zlen k - 1 -> (adj k = true -> adj u = true) -> g u = h u) -> Pp g k = Pp h k.
Proof.
  intros Hk E. apply U_ext. intros u Hu. apply E; [eapply onto_prd; eauto|rewrite zlen_map; now apply uniq_len in Hu|].
  intros A. pose proof (adj_uniq _ _ _ Hu A) as A'. clear -A'. induction u as [|a u IH]; [discriminate|]. destruct u as [|b u]; [discriminate|].
  rewrite adj_cons2 in A'. cbn [map] in *. rewrite adj_cons2. apply orb_true_iff in A'. apply orb_true_iff. destruct A' as [A'|A']; [left|right; auto]. apply Z.eqb_eq in A'. apply Z.eqb_eq. lia.
Qed.
Fixpoint Ir (r : nat) (g : list Z -> Z) : list Z -> Z := match r with O => g | S r' => Ii (Ir r' g) end.
Fixpoint Pr (r : nat) (g : list Z -> Z) : list Z -> Z := match r with O => g | S r' => Pp (Pr r' g) end.
Lemma Ir_r r g : Ir (S r) g = Ir r (Ii g). Proof. induction r as [|r IH]; [reflexivity|]. cbn [Ir] in *. now rewrite IH. Qed.
Lemma Pr_r r g : Pr (S r) g = Pr r (Pp g). Proof. induction r as [|r IH]; [reflexivity|]. cbn [Pr] in *. now rewrite IH. Qed.
Lemma Pr_ext r : forall n g h k, onto (n + Z.of_nat r) k -> (forall u, onto n u -> zlen u = zlen k - Z.of_nat r -> (adj k = true -> adj u = true) -> g u = h u) -> Pr r g k = Pr r h k.
Proof.
  induction r as [|r IH]; intros n g h k Hk E; cbn [Pr].
  - apply E; auto; [|lia]. now replace (n + Z.of_nat 0) with n in Hk by lia.
  - apply (Pp_ext (n + Z.of_nat r)); [now replace (n + Z.of_nat r + 1) with (n + Z.of_nat (S r)) by lia|]. intros u Hu Lu Au.
    apply (IH n); [exact Hu|]. intros v Hv Lv Av. apply E; auto. lia.
Qed.
Lemma Pr_sub r g h : forall k, Pr r (fun u => g u - h u) k = Pr r g k - Pr r h k.
Proof. induction r as [|r IH]; intros k; cbn [Pr]; [reflexivity|]. rewrite <- Pp_sub. apply U_ext. intros u _. apply IH. Qed.
Lemma Pr_add r g h : forall k, Pr r (fun u => g u + h u) k = Pr r g k + Pr r h k.
Proof. induction r as [|r IH]; intros k; cbn [Pr]; [reflexivity|]. rewrite <- Pp_add. apply U_ext. intros u _. apply IH. Qed.
Lemma Pr_sd cv r : forall g k, Pr r (sd cv g) k = sd cv (Pr r g) k.
Proof.
  induction r as [|r IH]; intros g k; cbn [Pr]; [reflexivity|]. rewrite <- Pp_sd. apply U_ext. intros u _. apply IH.
Qed.
Lemma Ir_sd cv r : forall g k, pos k -> Ir r (sd cv g) k = sd cv (Ir r g) k.
Proof.
  induction r as [|r IH]; intros g k Hp; [reflexivity|]. rewrite !Ir_r. rewrite <- IH by exact Hp.
  assert (G : forall r h h' k, pos k -> (forall u, pos u -> h u = h' u) -> Ir r h k = Ir r h' k).
  { clear. induction r as [|r IH]; intros h h' k Hp E; cbn [Ir]; [auto|]. apply IH; auto. now apply pos_wI. }
  apply G; [exact Hp|]. intros u Hu. now apply Ii_sd.
Qed.
(** the homotopy, [m] = arity - 1 *)
Fixpoint Hh (m : nat) (g : list Z -> Z) (k : list Z) : Z :=
  match m with O => 0 | S m' => Hh m' g k + Pr m' (Ss (Ir m' g)) k end.
Lemma sd_add cv g h k : sd cv (fun u => g u + h u) k = sd cv g k + sd cv h k.
Proof. rewrite !sd_ev. apply ev_add. Qed.
Lemma Hh_sd cv m : forall n g k, Z.of_nat m < n -> onto n k -> Hh m (sd cv g) k + sd cv (Hh m g) k = g k - Pr m (Ir m g) k.
Proof.
  induction m as [|m IH]; intros n g k Hm Hk; cbn [Hh].
  - cbn [Pr Ir]. rewrite sd_ev, ev_zero by reflexivity. ring.
  - rewrite sd_add. specialize (IH n g k ltac:(lia) Hk).
    enough (E : Pr m (Ss (Ir m (sd cv g))) k + sd cv (Pr m (Ss (Ir m g))) k = Pr m (Ir m g) k - Pr (S m) (Ir (S m) g) k) by lia.
    rewrite <- Pr_sd, <- Pr_add, Pr_r, <- Pr_sub. apply (Pr_ext m (n - Z.of_nat m)); [now replace (n - Z.of_nat m + Z.of_nat m) with n by lia|].
    intros u Hu _ _. cbn [Ir]. rewrite <- (Z.add_simpl_r (Ir m g u) 0), Z.add_0_r.
    pose proof (onto_pos _ _ Hu) as Pu. unfold Ss at 1. rewrite Ir_sd by (intros b [<-|Hb]; [lia|now apply Pu]).
    change (sd cv (Ir m g) (1 :: u)) with (Ss (sd cv (Ir m g)) u). rewrite Ss_sd; [|exact Pu|apply Hu; lia]. ring.
Qed.
Lemma Hh_adj m : forall n d g k, Z.of_nat m <= n -> surj_cell n d k -> (forall u, surj_cell n (d + 1) u -> adj u = true -> g u = 0) -> adj k = true -> Hh m g k = 0.
Proof.
  induction m as [|m IH]; intros n d g k Hm Hk Hg A; cbn [Hh]; [reflexivity|]. rewrite (IH n d) by (auto; lia).
  destruct Hk as [Hk Lk].
  rewrite (Pr_ext m (n - Z.of_nat m) _ (fun u => 0 - 0)); [rewrite (Pr_sub m (fun _ => 0) (fun _ => 0)); ring|now replace (n - Z.of_nat m + Z.of_nat m) with n by lia|].
  intros u Hu Lu Au. specialize (Au A). unfold Ss.
  assert (G : forall r (v : list Z) e, onto e v -> 0 <= e -> adj v = true -> (forall w, onto (e + Z.of_nat r) w -> zlen w = zlen v + Z.of_nat r -> adj w = true -> g w = 0) -> Ir r g v = 0).
  { clear. induction r as [|r IH]; intros v e Hv He A Hg; cbn [Ir].
    - apply Hg; auto; [|lia]. now replace (e + Z.of_nat 0) with e by lia.
    - unfold Ii. apply (IH _ (e + 1)); [now apply onto_suc|lia| |].
      + unfold wI. apply adj_tl. clear -A. induction v as [|a v IH]; [discriminate|]. destruct v as [|b v]; [discriminate|]. rewrite adj_cons2 in A. cbn [map] in *. rewrite adj_cons2.
        apply orb_true_iff in A. apply orb_true_iff. destruct A as [A|A]; [left|right; auto]. apply Z.eqb_eq in A. apply Z.eqb_eq. lia.
      + intros w Hw Lw Aw. apply Hg; auto; [now replace (e + Z.of_nat (S r)) with (e + 1 + Z.of_nat r) by lia|]. unfold wI in Lw. rewrite zlen_cons, zlen_map in Lw. lia. }
  apply (G m _ (n - Z.of_nat m)); [|lia|now apply adj_tl|].
  - intros j. cbn [In]. rewrite (Hu j). lia.
  - intros w Hw Lw Aw. apply Hg; [|exact Aw]. split; [now replace n with (n - Z.of_nat m + Z.of_nat m) by lia|]. rewrite zlen_cons in Lw. lia.
Qed.

(** ** terms *)
Lemma rep_comp {K K' K''} (P : K -> Prop) (Q : K' -> Prop) (R : K'' -> Prop) D1 D2 : rep P Q D1 -> rep Q R D2 -> rep P R (fun g => D1 (D2 g)).
Proof.
  intros H1 H2 k Hk. destruct (H1 k Hk) as (T & T1 & T2).
  assert (G : forall T : dict K', (forall k' v, In (k', v) T -> Q k') -> exists T' : dict K'', (forall k v, In (k, v) T' -> R k) /\ forall g, ev (D2 g) T = ev g T').
  { clear -H2. induction T as [|[k v] T IH]; intros HT; [exists []; split; [intros ? ? []|reflexivity]|].
    destruct IH as (T' & A1 & A2); [intros; eapply HT; right; eauto|]. destruct (H2 k) as (S & B1 & B2); [eapply HT; now left|].
    exists (map (fun p => (fst p, v * snd p)) S ++ T'). split.
    - intros k' v' Hin. apply in_app_iff in Hin. destruct Hin as [Hin|Hin]; [|eauto]. apply in_map_iff in Hin. destruct Hin as ([k0 v0] & [= <- <-] & Hin). eauto.
    - intros g. rewrite ev_cons, ev_app, A2, B2. f_equal. unfold ev. rewrite sumf_map, <- sumf_scal. apply sumf_ext. intros [a b] _. cbn [fst snd]. ring. }
  destruct (G T T1) as (T' & A1 & A2). exists T'. split; [exact A1|]. intros g. now rewrite T2, A2.
Qed.
Definition spsi (n d : Z) (k : list Z) : Prop := surj_cell n d k /\ hd 0 k = 1.
Lemma kpred_spsi n d : kpred (spsi n d).
Proof.
  apply kpred_eq. intros k. unfold spsi. destruct (proj1 (kpred_cell n d) k); [|tauto]. destruct (Z.eq_dec (hd 0 k) 1); tauto.
Qed.
Lemma rep_Ss n d : 1 <= n -> rep (surj_cell n d) (spsi n (d + 1)) Ss.
Proof.
  intros Hn k [Hk Lk]. exists [(1 :: k, 1)]. split.
  - intros k' v [[= <- <-]|[]]. split; [|reflexivity]. split; [|rewrite zlen_cons; lia]. intros j. cbn [In]. rewrite (Hk j). lia.
  - intros g. rewrite ev_cons, ev_nil. unfold Ss. ring.
Qed.
Lemma rep_Ii n d : 0 <= n -> rep (surj_cell n d) (spsi (n + 1) d) Ii.
Proof.
  intros Hn k [Hk Lk]. exists [(wI k, 1)]. split.
  - intros k' v [[= <- <-]|[]]. split; [|reflexivity]. split; [now apply onto_suc|unfold wI; rewrite zlen_cons, zlen_map; lia].
  - intros g. rewrite ev_cons, ev_nil. unfold Ii. ring.
Qed.
Lemma rep_Pp n d : rep (surj_cell (n + 1) d) (surj_cell n d) Pp.
Proof.
  intros k [Hk Lk]. unfold Pp, U. destruct (uniq 1 k) as [u|] eqn:E.
  - exists [(map prd u, 1)]. split; [|intros g; rewrite ev_cons, ev_nil; ring]. intros k' v [[= <- <-]|[]]. split; [eapply onto_prd; eauto|].
    rewrite zlen_map, (uniq_len _ _ _ E). lia.
  - exists []. split; [intros ? ? []|reflexivity].
Qed.
Lemma rep_sub {K K'} (P : K -> Prop) (Q R : K' -> Prop) D : (forall k, Q k -> R k) -> rep P Q D -> rep P R D.
Proof. intros H H1 k Hk. destruct (H1 k Hk) as (T & T1 & T2). exists T. eauto. Qed.
Lemma rep_Ir r : forall n d, 1 <= n -> rep (spsi n d) (spsi (n + Z.of_nat r) d) (Ir r).
Proof.
  induction r as [|r IH]; intros n d Hn.
  - intros k Hk. exists [(k, 1)]. split; [intros k' v [[= <- <-]|[]]; now replace (n + Z.of_nat 0) with n by lia|]. intros g. rewrite ev_cons, ev_nil. cbn [Ir]. ring.
  - cbn [Ir]. apply (rep_comp (spsi n d) (spsi (n + 1) d) (spsi (n + Z.of_nat (S r)) d) Ii (Ir r)).
    + intros k [Hk _]. destruct (rep_Ii n d ltac:(lia) k Hk) as (T & HT). now exists T.
    + replace (n + Z.of_nat (S r)) with (n + 1 + Z.of_nat r) by lia. apply IH. lia.
Qed.
Lemma rep_Pr r : forall n d, rep (surj_cell (n + Z.of_nat r) d) (surj_cell n d) (Pr r).
Proof.
  induction r as [|r IH]; intros n d.
  - intros k Hk. exists [(k, 1)]. split; [intros k' v [[= <- <-]|[]]; now replace n with (n + Z.of_nat 0) by lia|]. intros g. rewrite ev_cons, ev_nil. cbn [Pr]. ring.
  - cbn [Pr]. apply (rep_comp _ (surj_cell (n + Z.of_nat r) d) (surj_cell n d) Pp (Pr r)); [|apply IH].
    replace (n + Z.of_nat (S r)) with (n + Z.of_nat r + 1) by lia. apply rep_Pp.
Qed.
Lemma rep_Hh m : forall n d, Z.of_nat m <= n -> rep (surj_cell n d) (spsi n (d + 1)) (Hh m).
Proof.
  induction m as [|m IH]; intros n d Hm k Hk; [exists []; split; [intros ? ? []|reflexivity]|]. destruct (IH n d ltac:(lia) k Hk) as (T & T1 & T2).
  set (e := n - Z.of_nat m).
  assert (R : rep (surj_cell n d) (spsi n (d + 1)) (fun g => Pr m (Ss (Ir m g)))).
  { pose proof (rep_Pr m e d) as R1. replace (e + Z.of_nat m) with n in R1 by (unfold e; lia).
    pose proof (rep_Ss e d ltac:(unfold e; lia)) as R2. pose proof (rep_Ir m e (d + 1) ltac:(unfold e; lia)) as R3. replace (e + Z.of_nat m) with n in R3 by (unfold e; lia).
    exact (rep_comp _ _ _ _ _ R1 (rep_comp _ _ _ _ _ R2 R3)). }
  destruct (R k Hk) as (T' & A1 & A2). exists (T ++ T'). split.
  - intros k' v Hin. apply in_app_iff in Hin. destruct Hin; eauto.
  - intros g. cbn [Hh]. now rewrite T2, A2, ev_app.
Qed.

(** ** the functional of the element of degree [d] *)
Fixpoint FpS (cv : conv) (n : Z) (d : nat) (g : list Z -> Z) : Z :=
  match d with
  | O => g (idp n)
  | S d' => RA n (S d') (fun p => FpS cv n d' (fun k => asg cv p k * Hh (Z.to_nat (n - 1)) g (map (image p) k)))
  end.
Lemma onto_id n : onto n (idp n).
Proof. intros j. rewrite in_zrange. lia. Qed.
Lemma spsi_id n : 1 <= n -> spsi n 0 (idp n).
Proof. intros Hn. split; [split; [apply onto_id|rewrite zlen_zrange; lia]|]. rewrite zrange_cons by lia. reflexivity. Qed.
Lemma FpS_list cv n d : 1 <= n -> exists T : dict (list Z), (forall k v, In (k, v) T -> spsi n (Z.of_nat d) k) /\ forall g, FpS cv n d g = ev g T.
Proof.
  intros Hn. induction d as [|d IH]; cbn [FpS].
  - exists [(idp n, 1)]. split.
    + intros k v [[= <- <-]|[]]. now apply spsi_id.
    + intros g. rewrite ev_cons, ev_nil. ring.
  - destruct IH as (T & T1 & T2). destruct (RA_list n (S d) Hn) as (R & R1 & R2).
    assert (E : rep (fun pk => perm n (fst pk) /\ spsi n (Z.of_nat d) (snd pk)) (spsi n (Z.of_nat (S d))) (fun g pk => asg cv (fst pk) (snd pk) * Hh (Z.to_nat (n - 1)) g (map (image (fst pk)) (snd pk)))).
    { intros [p k] [Hp [Hk _]]. cbn [fst snd] in *. destruct (rep_Hh (Z.to_nat (n - 1)) n (Z.of_nat d) ltac:(lia) (map (image p) k)) as (L & L1 & L2); [apply cell_move; auto; lia|].
      replace (Z.of_nat d + 1) with (Z.of_nat (S d)) in L1 by lia.
      exists (map (fun q => (fst q, asg cv p k * snd q)) L). split.
      - intros k' v Hin. apply in_map_iff in Hin. destruct Hin as ([k0 v0] & [= <- <-] & Hin). eauto.
      - intros g. rewrite L2. unfold ev. rewrite sumf_map, <- sumf_scal. apply sumf_ext. intros [a b] _. cbn [fst snd]. ring. }
    assert (E0 : rep (fun _ : unit => True) (fun pk => perm n (fst pk) /\ spsi n (Z.of_nat d) (snd pk)) (fun h _ => RA n (S d) (fun p => FpS cv n d (fun k => h (p, k))))).
    { intros [] _. exists (flat_map (fun pv => map (fun kv => ((fst pv, fst kv), snd pv * snd kv)) T) R). split.
      * intros pk v Hin. apply in_flat_map in Hin. destruct Hin as ([p pv] & Hp & Hin). apply in_map_iff in Hin. destruct Hin as ([k0 v0] & [= <- <-] & Hin). cbn [fst snd]. split; eauto.
      * intros g. rewrite R2. unfold ev. rewrite sumf_flat_map. apply sumf_ext. intros [p pv] _. cbn [fst snd]. rewrite T2, sumf_map. unfold ev. rewrite <- sumf_scal.
        apply sumf_ext. intros [k v] _. cbn [fst snd]. ring. }
    destruct (rep_comp _ _ _ _ _ E0 E tt I) as (L & L1 & L2).
    exists L. split; [exact L1|]. intros g. exact (L2 g).
Qed.
Lemma FpS_ext cv n d g h : 1 <= n -> (forall k, spsi n (Z.of_nat d) k -> g k = h k) -> FpS cv n d g = FpS cv n d h.
Proof. intros Hn E. destruct (FpS_list cv n d Hn) as (T & T1 & T2). rewrite !T2. apply ev_ext. intros k v Hin. apply E. eauto. Qed.
Lemma FpS_sub cv n d g h : 1 <= n -> FpS cv n d (fun k => g k - h k) = FpS cv n d g - FpS cv n d h.
Proof. intros Hn. destruct (FpS_list cv n d Hn) as (T & T1 & T2). rewrite !T2. apply ev_sub. Qed.
Lemma Pr_word m : forall k G, onto (Z.of_nat m + 1) k -> zlen k = Z.of_nat m + 1 -> Pr m G k = G [1].
Proof.
  induction m as [|m IH]; intros k G Hk Lk; cbn [Pr].
  - destruct k as [|a [|b k]]; rewrite ?zlen_cons, ?zlen_nil in Lk; try (pose proof (zlen_nonneg k)); try lia.
    assert (a = 1) by (assert (In a [a]) by (now left); apply Hk in H; lia). now subst.
  - unfold Pp. assert (ND : NoDup k).
    { apply (@NoDup_incl_NoDup Z (zrange 1 (Z.of_nat (S m) + 2)) k); [apply NoDup_zrange|unfold zlen in Lk; rewrite zrange_length; lia|]. intros a Ha. apply in_zrange in Ha. apply Hk. lia. }
    assert (H1 : In 1 k) by (apply Hk; lia). apply in_split in H1. destruct H1 as (l1 & l2 & ->). apply NoDup_remove_2 in ND. rewrite in_app_iff in ND.
    assert (E : uniq 1 (l1 ++ 1 :: l2) = Some (l1 ++ l2)) by (apply uniq_app; tauto).
    rewrite (U_some _ _ _ _ E). apply IH.
    + apply (onto_prd _ (l1 ++ 1 :: l2)); [|exact E]. now replace (Z.of_nat m + 1 + 1) with (Z.of_nat (S m) + 1) by lia.
    + rewrite zlen_map, (uniq_len _ _ _ E). lia.
Qed.
Lemma adj_ones d u : onto 1 u -> zlen u = 1 + d -> 1 <= d -> adj u = true.
Proof.
  intros Hu Lu Hd. destruct u as [|a [|b u]]; rewrite ?zlen_cons, ?zlen_nil in Lu; try lia. rewrite adj_cons2.
  assert (a = 1) by (assert (I1 : In a (a :: b :: u)) by (now left); apply Hu in I1; lia). assert (b = 1) by (assert (I1 : In b (a :: b :: u)) by (right; now left); apply Hu in I1; lia). now subst.
Qed.
Lemma last_term n d g k : 1 <= n -> surj_cell n d k -> 1 <= d -> (forall u, surj_cell n d u -> adj u = true -> g u = 0) -> Pr (Z.to_nat (n - 1)) (Ir (Z.to_nat (n - 1)) g) k = 0.
Proof.
  intros Hn [Hk Lk] Hd Hg. set (m := Z.to_nat (n - 1)).
  assert (Em : 1 + Z.of_nat m = n) by (unfold m; lia).
  rewrite (Pr_ext m 1 _ (fun _ => 0 - 0)); [rewrite (Pr_sub m (fun _ => 0) (fun _ => 0)); ring|now rewrite Em|].
  intros u Hu Lu _. assert (Au : adj u = true) by (apply (adj_ones d); auto; lia).
  assert (G : forall r (v : list Z) e, onto e v -> 0 <= e -> adj v = true -> (forall w, onto (e + Z.of_nat r) w -> zlen w = zlen v + Z.of_nat r -> adj w = true -> g w = 0) -> Ir r g v = 0).
  { clear. induction r as [|r IH]; intros v e Hv He A Hg; cbn [Ir].
    - apply Hg; auto; [|lia]. now replace (e + Z.of_nat 0) with e by lia.
    - unfold Ii. apply (IH _ (e + 1)); [now apply onto_suc|lia| |].
      + unfold wI. apply adj_tl. clear -A. induction v as [|a v IH]; [discriminate|]. destruct v as [|b v]; [discriminate|]. rewrite adj_cons2 in A. cbn [map] in *. rewrite adj_cons2.
        apply orb_true_iff in A. apply orb_true_iff. destruct A as [A|A]; [left|right; auto]. apply Z.eqb_eq in A. apply Z.eqb_eq. lia.
      + intros w Hw Lw Aw. apply Hg; auto; [now replace (e + Z.of_nat (S r)) with (e + 1 + Z.of_nat r) by lia|]. unfold wI in Lw. rewrite zlen_cons, zlen_map in Lw. lia. }
  apply (G m u 1 Hu ltac:(lia) Au). intros w Hw Lw Aw. apply Hg; [|exact Aw]. rewrite Em in Hw. split; [exact Hw|lia].
Qed.
Lemma bfd_nodup k : NoDup k -> forall g, bfd g k = 0.
Proof.
  induction k as [|a k IH]; intros ND g; [reflexivity|]. inversion ND as [|? ? Ha ND']; subst. rewrite bfd_cons. apply mem_notin in Ha. rewrite Ha. now apply IH.
Qed.
Lemma caes_nodup k : NoDup k -> caes k [] = [].
Proof.
  induction k as [|a k IH]; intros ND; [reflexivity|]. inversion ND as [|? ? Ha ND']; subst. cbn [caes]. rewrite app_nil_r. apply mem_notin in Ha. rewrite Ha. now apply IH.
Qed.
Lemma tw_nodup cv k : NoDup k -> tw cv k = 1.
Proof. intros ND. destruct cv; cbn [tw]; try reflexivity. unfold eps. now rewrite caes_nodup. Qed.
Lemma map_image_id n p : 0 <= n -> perm n p -> map (image p) (idp n) = p.
Proof. apply perm_map_image. Qed.
Lemma FpS_boundary cv n d : 1 <= n -> forall g, (forall k, surj_cell n (Z.of_nat d) k -> adj k = true -> g k = 0) ->
  FpS cv n (S d) (sd cv g) = RA n (S d) (fun p => FpS cv n d (fun k => asg cv p k * g (map (image p) k))).
Proof.
  intros Hn. induction d as [|d IH]; intros g Hg.
  - cbn [FpS]. set (m := Z.to_nat (n - 1)).
    rewrite (RA_ext n 1 _ (fun p => asg cv p (idp n) * g (map (image p) (idp n)) - Ir m g [1])) by (exact Hn || (intros p Hp;
      rewrite (map_image_id n p) by (auto; lia); pose proof (Hh_sd cv m n g p ltac:(lia)) as E;
      assert (Op : onto n p) by (intros j; apply (perm_in n p); auto; lia); specialize (E Op);
      assert (ND : NoDup p) by (apply (perm_nodup n p); auto; lia);
      replace (sd cv (Hh m g) p) with 0 in E by (unfold sd; rewrite bfd_nodup by exact ND; ring);
      rewrite (Pr_word m) in E by (try (rewrite (perm_len n p)); auto; try lia; now replace (Z.of_nat m + 1) with n by lia);
      unfold asg; rewrite (map_image_id n p) by (auto; lia); rewrite !tw_nodup by (auto using NoDup_zrange); lia)).
    rewrite RA_sub. unfold RA at 2. cbn [Nat.even]. ring.
  - set (e := S d) in *. set (m := Z.to_nat (n - 1)).
    change (FpS cv n (S e) (sd cv g)) with (RA n (S e) (fun p => FpS cv n e (fun k => asg cv p k * Hh m (sd cv g) (map (image p) k)))).
    assert (Gp : forall p, perm n p -> FpS cv n e (fun k => asg cv p k * Hh m (sd cv g) (map (image p) k)) =
      FpS cv n e (fun k => asg cv p k * g (map (image p) k)) - RA n e (fun q => FpS cv n d (fun k => asg cv (pmul p q) k * Hh m g (map (image (pmul p q)) k)))).
    { intros p Hp. rewrite (FpS_ext cv n e _ (fun k => asg cv p k * g (map (image p) k) - sd cv (fun k' => asg cv p k' * Hh m g (map (image p) k')) k)).
      - rewrite FpS_sub by exact Hn. f_equal. unfold e. rewrite IH.
        + apply RA_ext; [exact Hn|]. intros q Hq. apply FpS_ext; [exact Hn|]. intros k [[Hk _] _]. rewrite (asg_mul n), (map_move n) by (auto; lia). ring.
        + intros k Hk Ak. rewrite (Hh_adj m n (Z.of_nat d)); [ring|lia|apply cell_move; auto; lia| |rewrite (adj_map n); auto; [lia|intros a Ha; now apply Hk]].
          replace (Z.of_nat d + 1) with (Z.of_nat e) by lia. exact Hg.
      - exact Hn.
      - intros k [Hk _]. assert (Hk' : surj_cell n (Z.of_nat e) (map (image p) k)) by (apply cell_move; auto; lia).
        rewrite <- (sd_move n) by (auto; try lia; apply Hk).
        pose proof (Hh_sd cv m n g (map (image p) k) ltac:(lia) (proj1 Hk')) as E.
        replace (Pr m (Ir m g) (map (image p) k)) with 0 in E by (symmetry; apply (last_term n (Z.of_nat e)); auto; lia).
        replace (Hh m (sd cv g) (map (image p) k)) with (g (map (image p) k) - sd cv (Hh m g) (map (image p) k)) by lia. ring. }
    rewrite (RA_ext n (S e) _ _ Hn Gp), RA_sub.
    rewrite (RA_RA n e (fun p => FpS cv n d (fun k => asg cv p k * Hh m g (map (image p) k))) Hn). ring.
Qed.

(** ** the element is not zero *)
Fixpoint kaS (n : Z) (d : nat) : list Z := match d with O => idp n | S d' => 1 :: map (image (rot n 1)) (kaS n d') end.
Lemma spsi_kaS n d : 1 <= n -> spsi n (Z.of_nat d) (kaS n d).
Proof.
  intros Hn. induction d as [|d [IH _]]; [now apply spsi_id|]. cbn [kaS]. split; [|reflexivity].
  destruct (cell_move n (Z.of_nat d) (rot n 1) _ ltac:(lia) (perm_rot n 1 Hn) IH) as [H1 H2]. split; [|rewrite zlen_cons; lia].
  intros j. cbn [In]. rewrite (H1 j). lia.
Qed.
Lemma Ir_single r : forall g v, (forall w, uniq 1 w <> None -> g w = 0) -> (1 <= r)%nat -> pos v -> Ir r g v = 0.
Proof.
  intros g v Hg. revert v. assert (G : forall r w, uniq 1 w <> None -> pos w -> Ir r g w = 0).
  { induction r0 as [|r0 IH]; intros w Hw Pw; cbn [Ir]; [auto|]. apply IH; [|now apply pos_wI]. unfold wI. cbn [uniq Z.eqb]. rewrite (proj2 (mem_notin 1 (map suc w)) (notin_suc w Pw)). discriminate. }
  intros v Hr Pv. destruct r as [|r]; [lia|]. cbn [Ir]. apply G; [|now apply pos_wI]. unfold wI. cbn [uniq Z.eqb]. rewrite (proj2 (mem_notin 1 (map suc v)) (notin_suc v Pv)). discriminate.
Qed.
Lemma Hh_single m : forall n g k, Z.of_nat m < n -> (1 <= m)%nat -> onto n k -> (forall w, uniq 1 w <> None -> g w = 0) -> Hh m g k = g (1 :: k).
Proof.
  induction m as [|m IH]; intros n g k Hm H1 Hk Hg; [lia|]. cbn [Hh]. destruct m as [|m]; [cbn; ring|].
  rewrite (IH n) by (auto; lia). rewrite (Pr_ext (S m) (n - Z.of_nat (S m)) _ (fun _ => 0 - 0)); [rewrite (Pr_sub (S m) (fun _ => 0) (fun _ => 0)); ring|now replace (n - Z.of_nat (S m) + Z.of_nat (S m)) with n by lia|].
  intros u Hu _ _. unfold Ss. rewrite Ir_single; [reflexivity|exact Hg|lia|]. intros b [<-|Hb]; [lia|]. now apply Hu in Hb.
Qed.
Lemma map_image_inj n p k k' : 0 <= n -> perm n p -> onto n k -> onto n k' -> map (image p) k = map (image p) k' -> k = k'.
Proof.
  intros Hn Hp Hk Hk'. assert (A : forall a, In a k -> 1 <= a <= n) by (intros; now apply Hk). assert (B : forall a, In a k' -> 1 <= a <= n) by (intros; now apply Hk'). clear Hk Hk'.
  revert k' B. induction k as [|q k IH]; intros [|q' k'] B E; try discriminate; [reflexivity|]. cbn in E. injection E as E1 E2. f_equal.
  - apply (image_inj n p); auto; [apply A|apply B]; now left.
  - apply IH; auto; intros a Ha; [apply A|apply B]; now right.
Qed.
Lemma hd_rot n j k : 1 <= n -> 0 <= j < n -> spsi n 0 k \/ (exists d, spsi n d k) -> hd 0 (map (image (rot n j)) k) = j + 1.
Proof.
  intros Hn Hj H. assert (Hk : k <> [] /\ hd 0 k = 1).
  { destruct H as [H|[d H]]; (split; [apply (onto_ne n); [lia|apply H]|apply H]). }
  destruct Hk as [Nk Hk]. destruct k as [|a k]; [congruence|]. cbn in Hk. subst a. cbn [map hd]. rewrite image_rot by lia. rewrite Z.mod_small by lia. lia.
Qed.
Lemma kaS_two n d : 2 <= n -> uniq 1 (kaS n (S d)) = None.
Proof.
  intros Hn. cbn [kaS uniq Z.eqb]. assert (In 1 (map (image (rot n 1)) (kaS n d))) as H1.
  { destruct (cell_move n (Z.of_nat d) (rot n 1) _ ltac:(lia) (perm_rot n 1 ltac:(lia)) (proj1 (spsi_kaS n d ltac:(lia)))) as [H1 _]. apply H1. lia. }
  apply mem_in in H1. now rewrite H1.
Qed.
Lemma FpS_scal cv n d c g : 1 <= n -> FpS cv n d (fun k => c * g k) = c * FpS cv n d g.
Proof. intros Hn. destruct (FpS_list cv n d Hn) as (T & T1 & T2). rewrite !T2. apply ev_scal. Qed.
Lemma ind_eq (k k' : list Z) : ind k k' = if list_eq_dec Z.eq_dec k' k then 1 else 0.
Proof.
  unfold ind. destruct (list_eq_dec Z.eq_dec k' k) as [->|N]; [now rewrite keqb_refl|]. destruct (keqb k' k) eqn:E; [|reflexivity]. apply keqb_eq in E. contradiction.
Qed.
Lemma FpS_kaS cv n d : 2 <= n -> exists s, s * s = 1 /\ FpS cv n d (ind (kaS n d)) = s.
Proof.
  intros Hn. induction d as [|d (s & Hs & IH)].
  - exists 1. split; [reflexivity|]. cbn [FpS kaS]. rewrite ind_eq. now destruct (list_eq_dec _ _ _).
  - exists (asg cv (rot n 1) (kaS n d) * s). split.
    { pose proof (asg_sq cv (rot n 1) (kaS n d)) as E. transitivity ((asg cv (rot n 1) (kaS n d) * asg cv (rot n 1) (kaS n d)) * (s * s)); [ring|]. rewrite E, Hs. reflexivity. }
    cbn [FpS]. set (m := Z.to_nat (n - 1)).
    assert (G : forall j, 0 <= j < n -> FpS cv n d (fun k => asg cv (rot n j) k * Hh m (ind (kaS n (S d))) (map (image (rot n j)) k)) = if j =? 1 then asg cv (rot n 1) (kaS n d) * s else 0).
    { intros j Hj.
      rewrite (FpS_ext cv n d _ (fun k => (if j =? 1 then asg cv (rot n 1) (kaS n d) else 0) * ind (kaS n d) k)).
      - rewrite FpS_scal, IH by lia. destruct (j =? 1); ring.
      - lia.
      - intros k Hk. rewrite (Hh_single m n); [|lia|lia|apply onto_move; [lia|apply perm_rot; lia|apply Hk]|].
        2:{ intros w Hw. rewrite ind_eq. destruct (list_eq_dec _ _ _) as [->|]; [|reflexivity]. now rewrite kaS_two in Hw by lia. }
        cbn [kaS]. rewrite !ind_eq. pose proof (spsi_kaS n d ltac:(lia)) as Hq.
        destruct (list_eq_dec Z.eq_dec k (kaS n d)) as [->|N].
        + destruct (Z.eqb_spec j 1) as [->|Nj]; [destruct (list_eq_dec _ _ _) as [|N]; [ring|congruence]|].
          destruct (list_eq_dec _ _ _) as [E|]; [|ring]. exfalso. injection E as E. apply (f_equal (hd 0)) in E. rewrite !hd_rot in E by (try lia; right; eexists; exact Hq). lia.
        + destruct (list_eq_dec _ _ _) as [E|]; [|destruct (j =? 1); ring]. exfalso. injection E as E. pose proof E as E'. apply (f_equal (hd 0)) in E'.
          rewrite !hd_rot in E' by (try lia; right; eexists; first [exact Hk|exact Hq]). assert (j = 1) by lia. subst j.
          apply (map_image_inj n) in E; [congruence|lia|apply perm_rot; lia|apply Hk|apply Hq]. }
    unfold RA. destruct (Nat.even (S d)).
    + rewrite (sumf_ext _ (fun j => if j =? 1 then asg cv (rot n 1) (kaS n d) * s else 0)) by (intros j Hj; apply in_zrange in Hj; apply G; lia).
      rewrite (zrange_cons 0), (zrange_cons (0 + 1)) by lia. rewrite !sumf_cons. change (0 =? 1) with false. change (0 + 1 =? 1) with true. cbv iota. rewrite sumf_0; [ring|].
      intros j Hj. apply in_zrange in Hj. destruct (Z.eqb_spec j 1); [lia|reflexivity].
    + rewrite !G by lia. change (0 =? 1) with false. change (1 =? 1) with true. cbv iota. ring.
Qed.
Lemma kaS_adj n d : 2 <= n -> adj (kaS n d) = false.
Proof.
  intros Hn. induction d as [|d IH].
  - cbn [kaS]. generalize 1 at 1. intros a. remember (Z.to_nat (n + 1 - a)) as l eqn:El. revert a El. induction l as [|l IHl]; intros a El; [rewrite zrange_nil by lia; reflexivity|].
    rewrite zrange_cons by lia. destruct l; [rewrite zrange_nil by lia; reflexivity|]. specialize (IHl (a + 1) ltac:(lia)). rewrite zrange_cons in * by lia. rewrite adj_cons2, IHl. destruct (Z.eqb_spec a (a + 1)); [lia|reflexivity].
  - cbn [kaS]. pose proof (spsi_kaS n d ltac:(lia)) as Hq. pose proof (hd_rot n 1 _ ltac:(lia) ltac:(lia) (or_intror (ex_intro (fun d0 => spsi n d0 (kaS n d)) _ Hq))) as Hh.
    assert (A : adj (map (image (rot n 1)) (kaS n d)) = false) by (rewrite (adj_map n); [exact IH|lia|apply perm_rot; lia|intros a Ha; now apply Hq]).
    destruct (map (image (rot n 1)) (kaS n d)) as [|b w]; [reflexivity|]. cbn in Hh. subst b. rewrite adj_cons2, A. reflexivity.
Qed.
Lemma psiS_nonzero cv n t d (y : surj) : 2 <= n -> 0 <= t -> t <> 1 -> den cls_surj t cv (FpS cv n d) y -> data y <> [].
Proof.
  intros Hn Ht N1 Dy. apply (den_nonzero cls_surj t cv _ y (ind (kaS n d)) Dy).
  - apply (adm_ind cls_surj ok_surj). cbn [bad cls_surj]. rewrite (surj_bad_onto n) by (try lia; apply spsi_kaS; lia). now rewrite kaS_adj.
  - destruct (FpS_kaS cv n d Hn) as (s & Hs & ->). intros [q Hq]. assert (E : t * (q * s) = 1) by lia. apply N1. destruct (Z.eq_mul_1 t (q * s)); lia.
Qed.

(** ** the code *)
Lemma for_app {B T} (l1 l2 : list B) (s : T) f : for_ (l1 ++ l2) s f = let! s' := for_ l1 s f in for_ l2 s' f.
Proof. revert s. induction l1 as [|b l1 IH]; intros s; cbn [app for_ bind]; [reflexivity|]. destruct (f s b); cbn [bind]; auto. Qed.
Lemma cell_okey n d k : 1 <= n -> surj_cell n d k -> okey cls_surj k.
Proof. intros Hn [Hk _]. apply surj_okey. now apply (onto_ne n). Qed.
Lemma adm_on n d (D : (list Z -> Z) -> list Z -> Z) n' d' : 1 <= n -> 1 <= n' ->
  (forall g k, surj_cell n d k -> adj k = true -> (forall u, surj_cell n' d' u -> adj u = true -> g u = 0) -> D g k = 0) ->
  admop cls_surj cls_surj (surj_cell n d) (surj_cell n' d') D.
Proof.
  intros Hn Hn' HD g [_ Hg]. apply admP_keyeq. intros k Hk Hb. cbn [bad cls_surj] in Hb. rewrite (surj_bad_onto n) in Hb by (auto; apply Hk). injection Hb as Hb. apply HD; auto.
  intros u Hu Au. apply Hg; [exact Hu|]. cbn [bad cls_surj]. rewrite (surj_bad_onto n') by (auto; apply Hu). now rewrite Au.
Qed.
Section Code.
Variable dt t : Z.
Variable cv : conv.
Hypothesis Ht : 0 <= t.
Hypothesis Hdt : dt_ok dt t.
Notation LO := (linop cls_surj cls_surj t cv cv).
Lemma linop_s n d : 1 <= n -> LO (surj_cell n d) (surj_cell n (d + 1)) Ss (ms_s dt).
Proof.
  intros Hn. pose proof (rep_sub _ _ (surj_cell n (d + 1)) _ (fun k H => proj1 H) (rep_Ss n d Hn)) as R.
  apply (linop_intro cls_surj cls_surj ok_surj); [exact Ht|apply kpred_cell|now apply rep_local|exact (rep_zero _ _ _ R)|].
  intros x Wx Tx Ax Kx. unfold ms_s. eapply returns_bind; [apply (zero_den cls_surj ok_surj dt t); auto|]. intros ans Hans. rewrite Ax in *.
  eapply returns_mono; [apply (loop_den cls_surj ok_surj t cv (data x) _ (fun k g => Ss g k)); [|exact Hans]|].
  - intros k v F y Hin Dy. eapply (add_term_den cls_surj ok_surj dt t); auto; [now destruct Dy|]. apply surj_okey. discriminate.
  - intros z Hz. eapply den_ext; [|exact Hz]. intros g _. cbn beta. apply eqm_eq. rewrite Z.add_0_l. reflexivity.
Qed.
Lemma linop_i1 n d : 0 <= n -> LO (surj_cell n d) (surj_cell (n + 1) d) Ii (ms_i1 dt).
Proof.
  intros Hn. pose proof (rep_sub _ _ (surj_cell (n + 1) d) _ (fun k H => proj1 H) (rep_Ii n d Hn)) as R.
  apply (linop_intro cls_surj cls_surj ok_surj); [exact Ht|apply kpred_cell|now apply rep_local|exact (rep_zero _ _ _ R)|].
  intros x Wx Tx Ax Kx. unfold ms_i1. eapply returns_bind; [apply (zero_den cls_surj ok_surj dt t); auto|]. intros ans Hans. rewrite Ax in *.
  eapply returns_mono; [apply (loop_den cls_surj ok_surj t cv (data x) _ (fun k g => Ii g k)); [|exact Hans]|].
  - intros k v F y Hin Dy. eapply (add_term_den cls_surj ok_surj dt t); auto; [now destruct Dy|]. apply surj_okey. discriminate.
  - intros z Hz. eapply den_ext; [|exact Hz]. intros g _. cbn beta. apply eqm_eq. rewrite Z.add_0_l. reflexivity.
Qed.
Lemma times_uniq k : times_in 1 k = 1 -> exists l1 l2, k = l1 ++ 1 :: l2 /\ ~ In 1 l1 /\ ~ In 1 l2.
Proof.
  induction k as [|b k IH]; [discriminate|]. cbn [times_in]. destruct (Z.eqb_spec b 1) as [->|N]; intros E.
  - exists [], k. repeat split; auto. intros H. apply times_in_pos in H. lia.
  - destruct IH as (l1 & l2 & -> & N1 & N2); [lia|]. exists (b :: l1), l2. repeat split; auto. intros [|]; auto.
Qed.
Lemma uniq_times k u : uniq 1 k = Some u -> times_in 1 k = 1.
Proof.
  intros E. destruct (uniq_some _ _ _ E) as (w1 & w2 & -> & -> & N1 & N2). rewrite times_app. cbn [times_in]. rewrite Z.eqb_refl, !times_notin by assumption. reflexivity.
Qed.
Lemma linop_p1 n d : 1 <= n -> LO (surj_cell (n + 1) d) (surj_cell n d) Pp (ms_p1 dt).
Proof.
  intros Hn. pose proof (rep_Pp n d) as R.
  apply (linop_intro cls_surj cls_surj ok_surj); [exact Ht|apply kpred_cell|now apply rep_local|exact (rep_zero _ _ _ R)|].
  intros x Wx Tx Ax Kx. unfold ms_p1. eapply returns_bind; [apply (zero_den cls_surj ok_surj dt t); auto|]. intros ans Hans. rewrite Ax in *.
  eapply returns_mono; [apply (loop_den cls_surj ok_surj t cv (data x) _ (fun k g => Pp g k)); [|exact Hans]|].
  - intros k v F y Hin Dy. apply Kx in Hin. destruct Hin as [Hk _]. rewrite py_count_times. destruct (Z.eqb_spec (times_in 1 k) 1) as [E|N].
    + destruct (times_uniq k E) as (l1 & l2 & -> & N1 & N2). rewrite py_index_app by exact N1. cbn [bind]. rewrite slice_to_app.
      rewrite slice_from_app_S, <- map_app.
      assert (Eu : uniq 1 (l1 ++ 1 :: l2) = Some (l1 ++ l2)) by now apply uniq_app.
      eapply returns_mono; [eapply (add_term_den cls_surj ok_surj dt t); eauto; [now destruct Dy|apply surj_okey; apply (onto_ne n); [lia|eapply onto_prd; eauto]]|].
      intros z Hz. eapply den_ext; [|exact Hz]. intros g _. cbn beta. apply eqm_eq. unfold Pp. now rewrite (U_some _ _ _ _ Eu).
    + apply returns_ok. eapply den_ext; [|exact Dy]. intros g _. cbn beta. apply eqm_eq. unfold Pp. rewrite U_none; [ring|].
      destruct (uniq 1 k) as [u|] eqn:Eu; [|reflexivity]. now apply uniq_times in Eu.
  - intros z Hz. eapply den_ext; [|exact Hz]. intros g _. cbn beta. apply eqm_eq. rewrite Z.add_0_l. reflexivity.
Qed.
Lemma adj_mono (f : Z -> Z) u : adj u = true -> adj (map f u) = true.
Proof.
  induction u as [|a u IH]; [discriminate|]. destruct u as [|b u]; [discriminate|]. rewrite adj_cons2. cbn [map] in *. rewrite adj_cons2.
  rewrite !orb_true_iff. intros [A|A]; [left|right; auto]. apply Z.eqb_eq in A. apply Z.eqb_eq. now subst.
Qed.
Lemma adm_Pp n d : 1 <= n -> admop cls_surj cls_surj (surj_cell (n + 1) d) (surj_cell n d) Pp.
Proof.
  intros Hn. apply adm_on; try lia. intros g k [Hk Lk] A Hg. unfold Pp, U. destruct (uniq 1 k) as [u|] eqn:E; [|reflexivity].
  apply Hg; [split; [eapply onto_prd; eauto|rewrite zlen_map, (uniq_len _ _ _ E); lia]|]. apply adj_mono. eapply adj_uniq; eauto.
Qed.
Lemma adm_Ss n d : 1 <= n -> admop cls_surj cls_surj (surj_cell n d) (surj_cell n (d + 1)) Ss.
Proof.
  intros Hn. apply adm_on; try lia. intros g k [Hk Lk] A Hg. unfold Ss. apply Hg; [|now apply adj_tl]. split; [|rewrite zlen_cons; lia]. intros j. cbn [In]. rewrite (Hk j). lia.
Qed.
Lemma adm_Ii n d : 1 <= n -> admop cls_surj cls_surj (surj_cell n d) (surj_cell (n + 1) d) Ii.
Proof.
  intros Hn. apply adm_on; try lia. intros g k [Hk Lk] A Hg. unfold Ii. apply Hg; [|unfold wI; apply adj_tl; now apply adj_mono].
  split; [apply onto_suc; auto; lia|unfold wI; rewrite zlen_cons, zlen_map; lia].
Qed.
Lemma rep_Ir' r n d : 0 <= n -> rep (surj_cell n d) (surj_cell (n + Z.of_nat r) d) (Ir r).
Proof.
  revert n. induction r as [|r IH]; intros n Hn.
  - intros k Hk. exists [(k, 1)]. split; [intros k' v [[= <- <-]|[]]; now replace (n + Z.of_nat 0) with n by lia|]. intros g. rewrite ev_cons, ev_nil. cbn [Ir]. ring.
  - cbn [Ir]. apply (rep_comp _ (surj_cell (n + 1) d) _ Ii (Ir r)); [apply (rep_sub _ _ _ _ (fun k H => proj1 H) (rep_Ii n d Hn))|].
    replace (n + Z.of_nat (S r)) with (n + 1 + Z.of_nat r) by lia. apply IH. lia.
Qed.
Lemma linop_id P : LO P P (fun g => g) (fun x => Ok x).
Proof.
  intros x Wx Tx Ax Kx. apply returns_ok. split; [|exact Kx]. rewrite <- Tx, <- Ax. now apply den_self.
Qed.
Lemma linop_ir r n d : 1 <= n -> LO (surj_cell n d) (surj_cell (n + Z.of_nat r) d) (Ir r) (res_iter r (ms_i1 dt)).
Proof.
  intros Hn. induction r as [|r IH].
  - cbn [Ir res_iter]. replace (n + Z.of_nat 0) with n by lia. apply linop_id.
  - assert (L : LO (surj_cell n d) (surj_cell (n + Z.of_nat (S r)) d) (fun g => Ir r (Ii g)) (res_iter (S r) (ms_i1 dt))).
    { cbn [res_iter]. apply (linop_comp cls_surj cls_surj cls_surj ok_surj ok_surj ok_surj t cv cv cv _ (surj_cell (n + Z.of_nat r) d) _ (Ir r) Ii _ (ms_i1 dt)); auto.
      - apply kpred_cell.
      - replace (n + Z.of_nat (S r)) with (n + Z.of_nat r + 1) by lia. apply linop_i1. lia.
      - apply rep_local, rep_Ir'. lia.
      - replace (n + Z.of_nat (S r)) with (n + Z.of_nat r + 1) by lia. apply adm_Ii. lia. }
    intros x Wx Tx Ax Kx. eapply returns_mono; [exact (L x Wx Tx Ax Kx)|]. intros z [Dz Kz]. split; [|exact Kz]. eapply den_ext; [|exact Dz]. intros g _. now rewrite Ir_r.
Qed.
Lemma linop_pr r n d : 1 <= n -> LO (surj_cell (n + Z.of_nat r) d) (surj_cell n d) (Pr r) (res_iter r (ms_p1 dt)).
Proof.
  revert n. induction r as [|r IH]; intros n Hn.
  - cbn [Pr res_iter]. replace (n + Z.of_nat 0) with n by lia. apply linop_id.
  - assert (L : LO (surj_cell (n + Z.of_nat (S r)) d) (surj_cell n d) (fun g => Pr r (Pp g)) (res_iter (S r) (ms_p1 dt))).
    { cbn [res_iter]. replace (n + Z.of_nat (S r)) with (n + 1 + Z.of_nat r) by lia.
      apply (linop_comp cls_surj cls_surj cls_surj ok_surj ok_surj ok_surj t cv cv cv _ (surj_cell (n + 1) d) _ (Pr r) Pp _ (ms_p1 dt)); auto.
      - apply kpred_cell.
      - apply IH. lia.
      - now apply linop_p1.
      - apply rep_local, rep_Pr.
      - now apply adm_Pp. }
    intros x Wx Tx Ax Kx. eapply returns_mono; [exact (L x Wx Tx Ax Kx)|]. intros z [Dz Kz]. split; [|exact Kz]. eapply den_ext; [|exact Dz]. intros g _. now rewrite Pr_r.
Qed.
Lemma adm_Ir r n d : 1 <= n -> admop cls_surj cls_surj (surj_cell n d) (surj_cell (n + Z.of_nat r) d) (Ir r).
Proof.
  revert n. induction r as [|r IH]; intros n Hn g Hg.
  - cbn [Ir]. now replace n with (n + Z.of_nat 0) by lia.
  - cbn [Ir]. apply (adm_Ii n d Hn). apply IH; [lia|]. now replace (n + 1 + Z.of_nat r) with (n + Z.of_nat (S r)) by lia.
Qed.
Lemma adm_Hh m n d : 1 <= n -> Z.of_nat m <= n -> admop cls_surj cls_surj (surj_cell n d) (surj_cell n (d + 1)) (Hh m).
Proof. intros Hn Hm. apply adm_on; auto. intros g k Hk A Hg. now apply (Hh_adj m n d). Qed.
Lemma linop_term r n d : (Z.of_nat r < n) -> 1 <= n ->
  LO (surj_cell n d) (surj_cell n (d + 1)) (fun g => Pr r (Ss (Ir r g))) (fun x => let! a := res_iter r (ms_p1 dt) x in let! b := ms_s dt a in res_iter r (ms_i1 dt) b).
Proof.
  intros Hr Hn. set (e := n - Z.of_nat r). assert (En : n = e + Z.of_nat r) by (unfold e; lia).
  assert (He : 1 <= e) by (unfold e; lia). clearbody e. subst n.
  apply (linop_comp cls_surj cls_surj cls_surj ok_surj ok_surj ok_surj t cv cv cv _ (surj_cell e d) _ (Pr r) (fun g => Ss (Ir r g)) _ _); auto.
  - apply kpred_cell.
  - now apply linop_pr.
  - apply (linop_comp cls_surj cls_surj cls_surj ok_surj ok_surj ok_surj t cv cv cv _ (surj_cell e (d + 1)) _ Ss (Ir r) _ _); auto.
    + apply kpred_cell.
    + now apply linop_s.
    + now apply linop_ir.
    + apply rep_local. apply (rep_sub _ _ _ _ (fun k H => proj1 H) (rep_Ss e d He)).
    + now apply adm_Ir.
  - apply rep_local, rep_Pr.
  - intros g Hg. apply (adm_Ss e d He). now apply adm_Ir.
Qed.
Lemma linop_h n d : 2 <= n -> LO (surj_cell n d) (surj_cell n (d + 1)) (Hh (Z.to_nat (n - 1))) (ms_h dt n).
Proof.
  intros Hn. pose proof (rep_sub _ _ (surj_cell n (d + 1)) _ (fun k H => proj1 H) (rep_Hh (Z.to_nat (n - 1)) n d ltac:(lia))) as R.
  apply (linop_intro cls_surj cls_surj ok_surj); [exact Ht|apply kpred_cell|now apply rep_local|exact (rep_zero _ _ _ R)|].
  intros x Wx Tx Ax Kx. unfold ms_h.
  eapply returns_bind; [exact (linop_s n d ltac:(lia) x Wx Tx Ax Kx)|]. intros a0 [D0 _].
  assert (G : forall q : nat, (Z.of_nat q <= n - 2) -> returns (for_ (zrange 1 (Z.of_nat q + 1)) a0 (fun answer r => let! a := ms_p dt r x in let! b := ms_s dt a in let! c := ms_i dt r b in iadd cls_surj answer c))
     (den cls_surj t cv (fun g => ev (Hh (S q) g) (data x)))).
  { induction q as [|q IH]; intros Hq.
    - rewrite zrange_nil by lia. apply returns_ok. eapply den_ext; [|exact D0]. intros g _. apply eqm_eq. apply ev_ext_all. intros k. cbn [Hh Pr Ir]. ring.
    - destruct IH as (y & Ey & Dy); [lia|]. rewrite zrange_snoc by lia. rewrite for_app. replace (Z.of_nat (S q)) with (Z.of_nat q + 1) by lia. rewrite Ey. cbn [bind for_].
      unfold ms_p, ms_i. replace (Z.to_nat (Z.of_nat q + 1)) with (S q) by lia.
      destruct (linop_term (S q) n d ltac:(lia) ltac:(lia) x Wx Tx Ax Kx) as (c & Ec & Dc & _).
      destruct (res_iter (S q) (ms_p1 dt) x) as [a|]; cbn [bind] in *; [|discriminate]. destruct (ms_s dt a) as [b|]; cbn [bind] in *; [|discriminate]. rewrite Ec. cbn [bind].
      eapply returns_bind; [exact (iadd_den cls_surj t cv cv _ _ _ _ Ht Dy Dc)|]. intros z Dz. apply returns_ok.
      eapply den_ext; [|exact Dz]. intros g _. cbn beta. apply eqm_eq. rewrite <- ev_add. apply ev_ext_all. reflexivity. }
  specialize (G (Z.to_nat (n - 2)) ltac:(lia)). replace (Z.of_nat (Z.to_nat (n - 2)) + 1) with (n - 1) in G by lia. replace (S (Z.to_nat (n - 2))) with (Z.to_nat (n - 1)) in G by lia. exact G.
Qed.
End Code.
(** ** acting with T and N *)
Lemma ma_nonzero n t d (a : ring) : 2 <= n -> 0 <= t -> t <> 1 -> den cls_ring t tt (fun g => RA n d (fun p => g (SGE p))) a -> data a <> [].
Proof.
  intros Hn Ht N Da. apply (den_nonzero cls_ring t tt _ a (fun k => if tup_eqb (kval k) (rot n 1) then 1 else 0) Da).
  - split; [|discriminate]. intros k k' E. cbn in E. apply tup_eqb_eq in E. now rewrite E.
  - cbn [kval SGE]. assert (E : forall j, 0 <= j < n -> (if tup_eqb (rot n j) (rot n 1) then 1 else 0) = if j =? 1 then 1 else 0).
    { intros j Hj. destruct (Z.eqb_spec j 1) as [->|Nj]; [now rewrite tup_refl|]. destruct (tup_eqb _ _) eqn:E; [|reflexivity]. apply tup_eqb_eq, rot_inj in E; lia. }
    assert (E1 : RA n d (fun p => if tup_eqb p (rot n 1) then 1 else 0) = 1).
    { unfold RA. destruct (Nat.even d).
      - rewrite (sumf_ext _ (fun j => if j =? 1 then 1 else 0)) by (intros j Hj; apply in_zrange in Hj; apply E; lia).
        rewrite (zrange_cons 0), (zrange_cons (0 + 1)) by lia. rewrite !sumf_cons. cbn [Z.eqb Z.add]. rewrite sumf_0; [reflexivity|].
        intros j Hj. apply in_zrange in Hj. destruct (Z.eqb_spec j 1); [lia|reflexivity].
      - rewrite !E by lia. reflexivity. }
    rewrite E1. intros [q Hq]. assert (t * q = 1) by lia. apply N. destruct (Z.eq_mul_1 t q); lia.
Qed.
Lemma act_maS dt cv n t d (a : ring) F (y : surj) : cv = BF \/ cv = MS -> 2 <= n -> 0 <= t -> t <> 1 -> dt_ok dt t ->
  den cls_ring t tt (fun g => RA n d (fun p => g (SGE p))) a -> keys_in (rpk n) a ->
  den cls_surj t cv F y -> keys_in (onto n) y -> data y <> [] ->
  returns (surj_act dt a y) (den cls_surj t cv (fun g => RA n d (fun p => ev (fun k => asg cv p k * g (map (image p) k)) (data y)))).
Proof.
  intros Hcv Hn Ht N Hdt Da Ka Dy Ky Ny.
  assert (Na : data a <> []) by exact (ma_nonzero n t d a Hn Ht N Da).
  eapply returns_mono; [apply (sact_den dt cv Hcv n t a y); auto; try lia;
    [exact (den_wf _ _ _ _ _ Ht Da)|exact (den_wf _ _ _ _ _ Ht Dy)|exact (proj1 Da)|exact (proj1 Dy)|exact (proj1 (proj2 Dy))|now apply rpk_pk]|].
  intros z Hz. eapply den_ext; [|exact Hz]. intros g _. cbn beta. apply (den_ev _ _ _ _ _ (fun k2 => ev (fun k1 => PactS cv g k2 k1) (data y)) Da).
  split; [|discriminate]. intros k k' E. cbn in E. apply tup_eqb_eq in E. unfold PactS. now rewrite E.
Qed.
Lemma psiS_keys cv n d t (y : surj) : 1 <= n -> 0 <= t -> den cls_surj t cv (FpS cv n d) y -> keys_in (spsi n (Z.of_nat d)) y.
Proof.
  intros Hn Ht Dy. apply (den_keys cls_surj ok_surj t cv _ y _ Ht (kpred_spsi n (Z.of_nat d)) Dy). intros g _ H0. apply eqm_eq.
  destruct (FpS_list cv n d Hn) as (L & L1 & L2). rewrite L2. apply ev_zero. intros k v Hin. apply H0. eauto.
Qed.
Lemma psiS_ev cv n d t (y : surj) g : 1 <= n -> 0 <= t -> den cls_surj t cv (FpS cv n d) y ->
  admP cls_surj (surj_cell n (Z.of_nat d)) g -> eqm t (ev g (data y)) (FpS cv n d g).
Proof.
  intros Hn Ht Dy Hg. pose proof (psiS_keys cv n d t y Hn Ht Dy) as Ky. destruct (FpS_list cv n d Hn) as (L & L1 & L2).
  apply (den_ev_on cls_surj ok_surj t cv _ y (spsi n (Z.of_nat d)) g (dkeys L) (kpred_spsi n (Z.of_nat d)) Dy Ky).
  - destruct Hg as [H1 H2]. split; [intros k k' E Hk; apply H1; [exact E|apply Hk]|intros k Hk; apply H2; apply Hk].
  - intros h Hh. apply eqm_eq. rewrite !L2. apply ev_ext. intros k v' Hin. apply Hh; [eauto|]. now apply (in_map fst) in Hin.
Qed.
Lemma admP_act cv n d p g : 1 <= n -> perm n p -> admP cls_surj (surj_cell n d) g -> admP cls_surj (surj_cell n d) (fun k => asg cv p k * g (map (image p) k)).
Proof.
  intros Hn Hp [_ Hg]. apply admP_keyeq. intros k Hk Hb. cbn [bad cls_surj] in Hb. rewrite (surj_bad_onto n) in Hb by (auto; apply Hk). injection Hb as Hb.
  rewrite Hg; [ring|apply cell_move; auto; lia|]. cbn [bad cls_surj]. rewrite (surj_bad_onto n) by first [exact Hn | (apply onto_move; [lia|exact Hp|apply Hk])]. f_equal. rewrite (adj_map n); auto; [lia|].
  intros a Ha. now apply Hk.
Qed.
Lemma psiS_ok dt cv n (T N : ring) : cv = BF \/ cv = MS -> 2 <= n -> 0 <= dt -> dt <> 1 ->
  den cls_ring dt tt (fun g => RA n 1 (fun p => g (SGE p))) T -> keys_in (rpk n) T ->
  den cls_ring dt tt (fun g => RA n 2 (fun p => g (SGE p))) N -> keys_in (rpk n) N ->
  forall dc d, returns (surj_psi dt dc N T n d cv) (den cls_surj dt cv (FpS cv n d)).
Proof.
  intros Hcv Hn Hdt N1 DT KT DN KN dc. pose proof (dt_ok_self dt Hdt) as OK.
  induction d as [|d IH]; cbn [surj_psi].
  - unfold surj_new. rewrite dict_of_id by (split; [intros ? []|exact I]). eapply returns_mono; [apply (new_den cls_surj ok_surj dt dt None cv); auto; [split; [intros ? []|exact I]|]|].
    + intros k [<-|[]]. apply (cell_okey n 0); [lia|]. apply spsi_id. lia.
    + intros w Hw. eapply den_ext; [|exact Hw]. intros g _. cbn beta. apply eqm_eq. cbn [FpS]. rewrite ev_cons, ev_nil. ring.
  - eapply returns_bind; [exact IH|]. intros y Dy. pose proof (psiS_keys cv n d dt y ltac:(lia) Hdt Dy) as Ky.
    assert (Ks : keys_in (onto n) y) by (intros k v Hin; exact (proj1 (proj1 (Ky _ _ Hin)))).
    assert (Ny : data y <> []) by (eapply psiS_nonzero; eauto).
    assert (DA : den cls_ring dt tt (fun g => RA n (S d) (fun p => g (SGE p))) (if Nat.even (S d) then N else T) /\ keys_in (rpk n) (if Nat.even (S d) then N else T)).
    { unfold RA in *. cbn [Nat.even] in DT, DN. destruct (Nat.even (S d)); split; assumption. }
    destruct DA as [DA KA]. eapply returns_bind; [exact (act_maS dt cv n dt (S d) _ _ y Hcv Hn Hdt N1 OK DA KA Dy Ks Ny)|].
    intros z Dz. destruct (RA_list n (S d) ltac:(lia)) as (R & R1 & R2).
    assert (Kz : keys_in (surj_cell n (Z.of_nat d)) z).
    { apply (den_keys cls_surj ok_surj dt cv _ z _ Hdt (kpred_cell n (Z.of_nat d)) Dz). intros g _ H0. apply eqm_eq.
      rewrite R2. apply ev_zero. intros p v Hp. apply ev_zero. intros k v' Hk. rewrite H0; [ring|]. apply cell_move; [lia|eauto|]. exact (proj1 (Ky _ _ Hk)). }
    eapply returns_mono; [apply (linop_h dt dt cv Hdt OK n (Z.of_nat d) Hn z (den_wf _ _ _ _ _ Hdt Dz) (proj1 Dz) (proj1 (proj2 Dz)) Kz)|].
    intros w [Dw _]. eapply den_ext; [|exact Dw]. intros g Hg. cbn beta. set (m := Z.to_nat (n - 1)).
    assert (Adm : admP cls_surj (surj_cell n (Z.of_nat d)) (Hh m g)).
    { apply (adm_Hh m n (Z.of_nat d)); [lia|lia|]. now apply adm_admP. }
    rewrite (den_ev_on cls_surj ok_surj dt cv _ z (surj_cell n (Z.of_nat d)) (Hh m g)
        (flat_map (fun pv => map (fun kv => map (image (fst pv)) (fst kv)) (data y)) R) (kpred_cell n (Z.of_nat d)) Dz Kz Adm).
    + cbn [FpS]. rewrite !R2. apply ev_eqm. intros p v Hp. apply psiS_ev; auto; [lia|]. apply admP_act; [lia|eauto|exact Adm].
    + intros h Hh. apply eqm_eq. rewrite !R2. apply ev_ext. intros p v Hp. apply ev_ext. intros k v' Hk. f_equal. apply Hh.
      * apply cell_move; [lia|eauto|]. exact (proj1 (Ky _ _ Hk)).
      * apply in_flat_map. exists (p, v). split; [exact Hp|]. apply in_map_iff. now exists (k, v').
Qed.
Lemma mayS_ok dt dc cv n d ot ov u : u = match ot with Some t => if t =? 0 then dt else t | None => dt end -> cv = match ov with Some c => c | None => dc end ->
  cv = BF \/ cv = MS -> 2 <= n -> 0 <= u -> u <> 1 -> dt_ok dt u ->
  returns (surj_may_steenrod dt dc n (Z.of_nat d) ot ov) (den cls_surj u cv (FpS cv n d)).
Proof.
  intros Eu Ecv Hcv Hn Hu N Hdt. pose proof (dt_ok_1 _ _ Hdt Hu N) as N'. pose proof (proj1 Hdt) as Hd0. unfold surj_may_steenrod.
  destruct (ma_den dt n dt 2 None eq_refl Hn Hd0 N' (dt_ok_self _ Hd0)) as (NN & EN & DN & KN). change (norm_element dt n None = Ok NN) in EN. rewrite EN. cbn [bind].
  destruct (ma_den dt n dt 1 None eq_refl Hn Hd0 N' (dt_ok_self _ Hd0)) as (TT & ET & DT & KT). change (transposition_element dt n None = Ok TT) in ET. rewrite ET. cbn [bind].
  destruct (Z.ltb_spec (Z.of_nat d) 0); [lia|]. rewrite Nat2Z.id, <- Ecv.
  destruct (psiS_ok dt cv n TT NN Hcv Hn Hd0 N' DT KT DN KN dc d) as (y & Ey & Dy). rewrite Ey. cbn [bind].
  assert (G : forall t, t = u -> t <> 0 -> returns (set_torsion cls_surj y t) (den cls_surj u cv (FpS cv n d))).
  { intros t -> Nz. eapply returns_mono; [apply (set_torsion_den cls_surj y u (den_wf _ _ _ _ _ Hd0 Dy) Hu)|]. intros z Dz. rewrite (proj1 (proj2 Dy)) in Dz.
    eapply den_ext; [|exact Dz]. intros g Hg. cbn beta. apply (dt_ok_eqm dt); [exact Hdt|]. exact (den_ev _ _ _ _ _ _ Dy Hg). }
  destruct ot as [t|]; [|apply returns_ok; subst u; exact Dy]. destruct (Z.eqb_spec t 0) as [->|Nz]; [apply returns_ok; subst u; exact Dy|].
  apply G; auto.
Qed.
