(** * Equivariant homotopies in the surjection complex, modulo 2 (C83) *)
From Coq Require Import Setoid Morphisms.
From Verif Require Import PyBase Dict FreeModule Symmetric Simplicial Utils Surjection Eqm Spec SpecChain SpecOperad SpecSurj FreeModuleFacts FreeModuleLaws ListFacts
  ClassFacts LinearFacts BilFacts SymmetricFacts CycleFacts SymmetricLaws RingFacts Tensor TensorAct SurjFacts SurjBoundary SurjLaws SurjAct SurjLaws2 MayFacts SurjMay
  SurjCompose SurjCompose2 SurjCompose3 SurjCompose4 SurjLaws6 CompEquiv SteenrodAct.

(** a linear functional given by a chain of words of arity [n] and degree [d] *)
Definition repF (n d : Z) (F : (list Z -> Z) -> Z) : Prop := exists T : dict (list Z), (forall k v, In (k, v) T -> surj_cell n d k) /\ forall g, F g = ev g T.
Definition admc (n d : Z) (g : list Z -> Z) : Prop := forall k, surj_cell n d k -> adj k = true -> g k = 0.
Definition mv (p : list Z) (g : list Z -> Z) (k : list Z) : Z := g (map (image p) k).
Lemma repF_eqm n d F g h : repF n d F -> (forall k, surj_cell n d k -> eqm 2 (g k) (h k)) -> eqm 2 (F g) (F h).
Proof. intros (T & T1 & T2) E. rewrite !T2. apply ev_eqm. intros k v Hk. apply E. eauto. Qed.
Lemma repF_ext n d F g h : repF n d F -> (forall k, surj_cell n d k -> g k = h k) -> F g = F h.
Proof. intros (T & T1 & T2) E. rewrite !T2. apply ev_ext. intros k v Hk. apply E. eauto. Qed.
Lemma repF_add n d F g h : repF n d F -> F (fun k => g k + h k) = F g + F h.
Proof. intros (T & T1 & T2). rewrite !T2. apply ev_add. Qed.
Lemma repF_zero n d F : repF n d F -> F (fun _ => 0) = 0.
Proof. intros (T & T1 & T2). rewrite T2. now apply ev_zero. Qed.
Lemma repF_exch {B} n d F (G : list Z -> B -> Z) (e : dict B) : repF n d F -> F (fun k => ev (fun b => G k b) e) = ev (fun b => F (fun k => G k b)) e.
Proof. intros (T & T1 & T2). rewrite T2, ev_exch. apply ev_ext_all. intros b. now rewrite T2. Qed.
Lemma repF_exch2 n d n' d' F F' (G : list Z -> list Z -> Z) : repF n d F -> repF n' d' F' -> F (fun k => F' (fun b => G k b)) = F' (fun b => F (fun k => G k b)).
Proof. intros R (T & T1 & T2). rewrite (repF_ext n d F _ (fun k => ev (fun b => G k b) T)) by (auto; intros; apply T2). rewrite (repF_exch n d) by exact R. now rewrite T2. Qed.
Lemma repF_bind n d n' d' F D : repF n d F -> rep (surj_cell n d) (surj_cell n' d') D -> repF n' d' (fun g => F (D g)).
Proof.
  intros (T & T1 & T2) R. destruct (rep_comp (fun _ : unit => True) _ _ (fun h _ => ev h T) D (fun _ _ => ex_intro _ T (conj T1 (fun g => eq_refl))) R tt I) as (L & L1 & L2).
  exists L. split; [exact L1|]. intros g. now rewrite T2, L2.
Qed.
Lemma repF_sum {B} n d (F : B -> (list Z -> Z) -> Z) l : (forall b, In b l -> repF n d (F b)) -> repF n d (fun g => sumf (fun b => F b g) l).
Proof.
  induction l as [|b l IH]; intros H; [exists []; split; [intros ? ? []|reflexivity]|]. destruct (H b (or_introl eq_refl)) as (T & T1 & T2). destruct IH as (L & L1 & L2); [intros; apply H; now right|].
  exists (T ++ L). split; [intros k v Hk; apply in_app_iff in Hk; destruct Hk; eauto|]. intros g. rewrite sumf_cons, ev_app, T2, L2. reflexivity.
Qed.
Lemma repF_plus n d F F' : repF n d F -> repF n d F' -> repF n d (fun g => F g + F' g).
Proof.
  intros (T & T1 & T2) (L & L1 & L2). exists (T ++ L). split; [intros k v Hk; apply in_app_iff in Hk; destruct Hk; eauto|]. intros g. now rewrite ev_app, T2, L2.
Qed.
Lemma rep_mv n d p : 1 <= n -> perm n p -> rep (surj_cell n d) (surj_cell n d) (mv p).
Proof. intros Hn Hp k Hk. exists [(map (image p) k, 1)]. split; [intros k' v [[= <- <-]|[]]; apply cell_move; auto; lia|]. intros g. rewrite ev_cons, ev_nil. unfold mv. ring. Qed.
Lemma sd_mv n cv p g k : 1 <= n -> perm n p -> onto n k -> eqm 2 (mv p (sd cv g) k) (sd cv (mv p g) k).
Proof.
  intros Hn Hp Hk. assert (A : forall u, eqm 2 (asg cv p u) 1) by (intros u; apply asg_one; now right). pose proof (sd_move n cv g p k ltac:(lia) Hp Hk) as E. unfold mv.
  transitivity (asg cv p k * sd cv g (map (image p) k)); [rewrite (A k); apply eqm_eq; ring|]. rewrite E, !sd_ev. apply ev_eqm. intros u v _. rewrite (A u). apply eqm_eq. ring.
Qed.
Lemma sd_eqm n d cv g h k : surj_cell n d k -> (forall u, surj_cell n (d - 1) u -> eqm 2 (g u) (h u)) -> eqm 2 (sd cv g k) (sd cv h k).
Proof. intros Hk E. destruct (rep_sd cv _ _ (sface_cell n d) k Hk) as (L & L1 & L2). rewrite !L2. apply ev_eqm. intros u v Hu. apply E. eauto. Qed.
Lemma onto_len r k : 0 <= r -> onto r k -> r <= zlen k.
Proof.
  intros Hr Ho. assert (H : (length (zrange 1 (r + 1)) <= length k)%nat).
  { apply NoDup_incl_length; [apply NoDup_zrange|]. intros j Hj. apply in_zrange in Hj. apply Ho. lia. }
  rewrite zrange_length in H. unfold zlen. lia.
Qed.
Lemma sd_low n cv g k : 1 <= n -> surj_cell n 0 k -> sd cv g k = 0.
Proof.
  intros Hn Hk. destruct (rep_sd cv _ _ (sface_cell n 0) k Hk) as (L & L1 & L2). rewrite L2. apply ev_zero. intros k' v' Hk'. exfalso. destruct (L1 _ _ Hk') as [Ho Lk]. apply (onto_len n) in Ho; lia.
Qed.

Section Homotopy.
Variables (n : Z) (rho : list Z) (F : nat -> (list Z -> Z) -> Z).
Hypothesis Hn : 1 <= n.
Hypothesis Hrho : perm n rho.
Hypothesis Hinv : forall k, onto n k -> map (image rho) (map (image rho) k) = k.
Hypothesis FR : forall d, repF n (Z.of_nat d) (F d).
Hypothesis FD : forall d g, admc n (Z.of_nat d) g -> eqm 2 (F (S d) (sd MS g)) (F d g + F d (mv rho g)).
Hypothesis F0 : forall c, eqm 2 (F 0 (fun _ => c)) 0.
Let m := Z.to_nat (n - 1).
Fixpoint GH (d : nat) (g : list Z -> Z) : Z :=
  match d with
  | O => F 0 (Hh m g)
  | S d' => F (S d') (Hh m g) + (GH d' (Hh m g) + GH d' (mv rho (Hh m g)))
  end.
Definition Y (d : nat) (g : list Z -> Z) : Z := match d with O => F 0 g | S d' => F (S d') g + (GH d' g + GH d' (mv rho g)) end.
Lemma GH_Y d g : GH d g = Y d (Hh m g). Proof. destruct d; reflexivity. Qed.
Lemma rep_H d : rep (surj_cell n d) (surj_cell n (d + 1)) (Hh m).
Proof. intros k Hk. destruct (rep_Hh m n d ltac:(unfold m; lia) k Hk) as (L & L1 & L2). exists L. split; [|exact L2]. intros k' v' H'. exact (proj1 (L1 _ _ H')). Qed.
Lemma Y_rep d : repF n (Z.of_nat d) (Y d).
Proof.
  induction d as [|d IH]; [exact (FR 0)|]. cbn [Y].
  assert (G : repF n (Z.of_nat (S d)) (GH d)).
  { destruct (repF_bind n (Z.of_nat d) n (Z.of_nat (S d)) (Y d) (Hh m) IH) as (L & L1 & L2); [replace (Z.of_nat (S d)) with (Z.of_nat d + 1) by lia; apply rep_H|]. exists L. split; [exact L1|]. intros g. now rewrite GH_Y, L2. }
  apply repF_plus; [apply FR|]. apply repF_plus; [exact G|]. apply (repF_bind n (Z.of_nat (S d)) n _ (GH d) (mv rho) G). now apply rep_mv.
Qed.
Lemma GH_rep d : repF n (Z.of_nat d + 1) (GH d).
Proof. destruct (repF_bind n (Z.of_nat d) n (Z.of_nat d + 1) (Y d) (Hh m) (Y_rep d) (rep_H _)) as (L & L1 & L2). exists L. split; [exact L1|]. intros g. now rewrite GH_Y, L2. Qed.
Lemma admc_mv d g : admc n d g -> admc n d (mv rho g).
Proof. intros Hg k Hk A. unfold mv. apply Hg; [apply cell_move; auto; lia|]. now apply adj_map. Qed.
Lemma admc_H d g : admc n (d + 1) g -> admc n d (Hh m g).
Proof. intros Hg k Hk A. apply (Hh_adj m n d); auto. unfold m. lia. Qed.
Lemma const_Pr g k : surj_cell n 0 k -> Pr m (Ir m g) k = Ir m g [1].
Proof. intros [Ho L]. assert (E : Z.of_nat m + 1 = n) by (unfold m; lia). apply Pr_word; rewrite E; [exact Ho|lia]. Qed.
(** the last term of the homotopy formula disappears *)
Lemma last_Y d g : admc n (Z.of_nat d) g -> eqm 2 (Y d (Pr m (Ir m g))) 0.
Proof.
  intros Hg. destruct d as [|d].
  - cbn [Y]. rewrite (repF_ext n 0 (F 0) _ (fun _ => Ir m g [1]) (FR 0)) by (intros; now apply const_Pr). apply F0.
  - rewrite (repF_ext n (Z.of_nat (S d)) (Y (S d)) _ (fun _ => 0) (Y_rep _)); [rewrite (repF_zero _ _ _ (Y_rep (S d))); reflexivity|].
    intros k Hk. apply (last_term n (Z.of_nat (S d))); auto; lia.
Qed.
Lemma Y_cycle_htpy d : (forall g, admc n (Z.of_nat d - 1) g -> eqm 2 (Y d (sd MS g)) 0) -> forall g, admc n (Z.of_nat d) g -> eqm 2 (GH d (sd MS g)) (Y d g).
Proof.
  intros C g Hg. rewrite GH_Y.
  assert (E : Y d (fun k => Hh m (sd MS g) k + sd MS (Hh m g) k + Pr m (Ir m g) k) = Y d g).
  { apply (repF_ext n (Z.of_nat d) _ _ _ (Y_rep d)). intros k Hk. rewrite (Hh_sd MS m n) by (try apply Hk; unfold m; lia). ring. }
  rewrite (repF_add n (Z.of_nat d)), (repF_add n (Z.of_nat d)) in E by apply Y_rep. rewrite <- E, (C (Hh m g)), last_Y; [apply eqm_eq; ring|exact Hg|].
  apply admc_H. now replace (Z.of_nat d - 1 + 1) with (Z.of_nat d) by lia.
Qed.
Lemma Y_cycle d : forall g, admc n (Z.of_nat d - 1) g -> eqm 2 (Y d (sd MS g)) 0.
Proof.
  induction d as [|d IH]; intros g Hg.
  - cbn [Y]. rewrite (repF_ext n 0 (F 0) _ (fun _ => 0) (FR 0)) by (intros; now apply (sd_low n)). apply F0.
  - replace (Z.of_nat (S d) - 1) with (Z.of_nat d) in Hg by lia. pose proof (Y_cycle_htpy d IH) as HT. cbn [Y]. rewrite (FD d g Hg), (HT g Hg).
    rewrite (repF_eqm n (Z.of_nat d + 1) (GH d) (mv rho (sd MS g)) (sd MS (mv rho g)) (GH_rep d)) by (intros k Hk; apply (sd_mv n); auto; apply Hk).
    rewrite (HT (mv rho g) (admc_mv _ _ Hg)). destruct d as [|d]; cbn [Y].
    + exists (F 0 g + F 0 (mv rho g)). ring.
    + assert (E : GH d (mv rho (mv rho g)) = GH d g). { apply (repF_ext n (Z.of_nat d + 1) _ _ _ (GH_rep d)). intros k Hk. unfold mv. rewrite Hinv by apply Hk. reflexivity. }
      rewrite E. exists (F (S d) g + F (S d) (mv rho g) + GH d g + GH d (mv rho g)). ring.
Qed.
(** [F d] is, up to a boundary and an element of the form (1 + rho) h, zero. *)
Lemma homotopy d g : admc n (Z.of_nat d) g -> eqm 2 (GH d (sd MS g)) (F d g + match d with O => 0 | S d' => GH d' g + GH d' (mv rho g) end).
Proof. intros Hg. rewrite (Y_cycle_htpy d (Y_cycle d) g Hg). destruct d; cbn [Y]; apply eqm_eq; ring. Qed.
(** so an invariant cocycle vanishes on it *)
Lemma invariant_cocycle d g : (forall e, admc n e g) -> (forall e k, surj_cell n e k -> eqm 2 (sd MS g k) 0) -> (forall k, onto n k -> eqm 2 (mv rho g k) (g k)) -> eqm 2 (F d g) 0.
Proof.
  intros Hg Hs Hr. pose proof (homotopy d g (Hg _)) as E. rewrite (repF_eqm n (Z.of_nat d + 1) (GH d) _ (fun _ => 0) (GH_rep d)) in E by (intros k Hk; now apply (Hs (Z.of_nat d + 1))).
  rewrite (repF_zero _ _ _ (GH_rep d)) in E. destruct d as [|d].
  - rewrite Z.add_0_r in E. now symmetry.
  - rewrite (repF_eqm n (Z.of_nat d + 1) (GH d) (mv rho g) g (GH_rep d)) in E by (intros k Hk; apply Hr, Hk). rewrite (Z.add_comm (F _ _)) in E. destruct E as [q E]. exists (- q - GH d g). lia.
Qed.
End Homotopy.
