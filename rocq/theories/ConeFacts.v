(** * Contractions of tensor powers.  Proof library. *)
From Coq Require Import Setoid Morphisms.
From Verif Require Import PyBase Dict FreeModule Symmetric Simplicial Cubical Eqm Spec SpecChain SpecCube FreeModuleFacts FreeModuleLaws ListFacts ClassFacts LinearFacts SymmetricFacts
  CycleFacts SymmetricLaws RingFacts Tensor TensorAct KoszulFacts LoopFacts SimplicialFacts CubicalFacts AcyclicFacts.

Section Cone.
Variable c : pycls (list (list Z)).
Hypothesis okc : cls_ok c.
Variable badb : list Z -> bool.
Hypothesis Hbad : forall k, bad c k = Ok (existsb badb k).
Hypothesis Hck : forall k, ckey c k = k.
Variable fb : list Z -> dict (list Z).
Variable dg : list Z -> Z.
Hypothesis dg_fb : forall b b' v, In (b', v) (fb b) -> dg b' = dg b - 1.
Hypothesis fd_bad : forall g b, (forall b', badb b' = true -> g b' = 0) -> badb b = true -> fd fb g b = 0.
Variable dt : Z.
Notation el := (elt (list (list Z)) unit).
Variable bnd : el -> res el.
Hypothesis bnd_den : forall t x, 0 <= t -> dt_ok dt t -> wf c x -> torsion x = t ->
  returns (bnd x) (den c t tt (fun g => ev (tD fb dg g) (data x))).
(** the factors, the contraction of a factor, the point, the augmentation *)
Variable C : list Z -> Prop.
Hypothesis Cdec : forall b, C b \/ ~ C b.
Hypothesis Cfb : forall b b' v, C b -> In (b', v) (fb b) -> C b'.
Variable hb : list Z -> dict (list Z).
Hypothesis Chb : forall b b' v, C b -> In (b', v) (hb b) -> C b'.
Hypothesis dg_hb : forall b b' v, In (b', v) (hb b) -> dg b' = dg b + 1.
Definition hd_ (g : list Z -> Z) (b : list Z) : Z := ev g (hb b).
Variable pt : list Z.
Hypothesis Cpt : C pt.
Hypothesis dg_pt : dg pt = 0.
Variable eps : list Z -> Z.
Hypothesis eps_dg : forall b, eps b <> 0 -> dg b = 0.
Hypothesis eps1 : forall b, C b -> badb b = false -> dg b = 0 -> eps b = 1.
Hypothesis eps_bad : forall b, badb b = true -> eps b = 0.
Hypothesis good_dg : forall b, badb b = false -> 0 <= dg b.
Hypothesis hd_bad : forall g b, (forall b', badb b' = true -> g b' = 0) -> badb b = true -> hd_ g b = 0.
Hypothesis fd_eps : forall b, C b -> badb b = false -> fd fb eps b = 0.
Hypothesis fd_pt : forall g, (forall b', badb b' = true -> g b' = 0) -> fd fb g pt = 0.
Hypothesis hom : forall g b, (forall b', badb b' = true -> g b' = 0) -> C b -> badb b = false -> hd_ (fd fb g) b + fd fb (hd_ g) b = g b - eps b * g pt.

Fixpoint tHl (k : list (list Z)) : dict (list (list Z)) :=
  match k with
  | [] => []
  | b :: k' => map (fun p => (fst p :: k', snd p)) (hb b) ++ map (fun p => (pt :: fst p, eps b * snd p)) (tHl k')
  end.
Definition tH (g : list (list Z) -> Z) (k : list (list Z)) : Z := ev g (tHl k).
Lemma tH_nil g : tH g [] = 0. Proof. reflexivity. Qed.
Lemma tH_cons g b k : tH g (b :: k) = hd_ (fun b' => g (b' :: k)) b + eps b * tH (fun k' => g (pt :: k')) k.
Proof.
  unfold tH, hd_. cbn [tHl]. rewrite ev_app. f_equal; unfold ev; rewrite sumf_map; [reflexivity|]. rewrite <- sumf_scal. apply sumf_ext. intros p _. cbn [fst snd]. ring.
Qed.
Lemma tH_ext g h k : (forall k' v, In (k', v) (tHl k) -> g k' = h k') -> tH g k = tH h k.
Proof. intros E. apply ev_ext. exact E. Qed.
Fixpoint teps (k : list (list Z)) : Z := match k with [] => 1 | b :: k' => eps b * teps k' end.
Definition zb (g : list (list Z) -> Z) : Prop := forall k b, In b k -> badb b = true -> g k = 0.
Lemma exch (G : list Z -> list (list Z) -> Z) b k : hd_ (fun b' => tD fb dg (G b') k) b = tD fb dg (fun k' => hd_ (fun b' => G b' k') b) k.
Proof. unfold hd_, tD. apply (ev_exch (fun b' k' => G b' k')). Qed.
Lemma hd_ext_in g h b : (forall b', dg b' = dg b + 1 -> g b' = h b') -> hd_ g b = hd_ h b.
Proof. intros E. apply ev_ext. intros b' v Hin. apply E. eapply dg_hb; eauto. Qed.
Lemma hd_add g h b : hd_ (fun b' => g b' + h b') b = hd_ g b + hd_ h b. Proof. apply ev_lin2. Qed.
Lemma hd_scal n g b : hd_ (fun b' => n * g b') b = n * hd_ g b. Proof. apply ev_scal. Qed.
Lemma homotopy k : forall g, zb g -> (forall b, In b k -> C b /\ badb b = false) ->
  tH (tD fb dg g) k + tD fb dg (tH g) k = g k - teps k * g (map (fun _ => pt) k).
Proof.
  induction k as [|b k IH]; intros g Hg Hk; [cbn [teps map]; rewrite tH_nil, tD_nil; ring|].
  destruct (Hk b (or_introl eq_refl)) as [Cb Gb]. assert (Hk' : forall b, In b k -> C b /\ badb b = false) by (intros; apply Hk; now right).
  assert (Z1 : forall b', badb b' = true -> g (b' :: k) = 0) by (intros b' Hb'; apply (Hg _ b'); [now left|exact Hb']).
  set (gp := fun k' => g (pt :: k')). assert (Hgp : zb gp) by (intros k' b' Hin Hb'; apply (Hg _ b'); [now right|exact Hb']).
  rewrite tH_cons, tD_cons. cbn [teps map].
  assert (E1 : hd_ (fun b' => tD fb dg g (b' :: k)) b = hd_ (fd fb (fun b' => g (b' :: k))) b - sgn (dg b) * tD fb dg (fun k' => hd_ (fun b' => g (b' :: k')) b) k).
  { rewrite (hd_ext_in _ (fun b' => fd fb (fun b'' => g (b'' :: k)) b' + - sgn (dg b) * tD fb dg (fun k' => g (b' :: k')) k)).
    - rewrite hd_add, hd_scal. rewrite (exch (fun b' k' => g (b' :: k'))). change (hd_ (fun b' => fd fb (fun b'' => g (b'' :: k)) b') b) with (hd_ (fd fb (fun b' => g (b' :: k))) b). ring.
    - intros b' D. rewrite tD_cons, D, sgn_S. ring. }
  assert (E2 : tH (fun k' => tD fb dg g (pt :: k')) k = tH (tD fb dg gp) k).
  { apply tH_ext. intros k' v _. rewrite tD_cons, dg_pt, sgn_0. rewrite fd_pt; [unfold gp; ring|]. intros b' Hb'. apply (Hg _ b'); [now left|exact Hb']. }
  assert (E3 : fd fb (fun b' => tH g (b' :: k)) b = fd fb (hd_ (fun b' => g (b' :: k))) b).
  { rewrite (fd_ext_all fb _ (fun b' => hd_ (fun c' => g (c' :: k)) b' + tH gp k * eps b')).
    - rewrite fd_add, fd_scal, fd_eps by assumption. rewrite Z.mul_0_r, Z.add_0_r. reflexivity.
    - intros b'. rewrite tH_cons. fold gp. ring. }
  assert (E4 : tD fb dg (fun k' => tH g (b :: k')) k = tD fb dg (fun k' => hd_ (fun b' => g (b' :: k')) b) k + eps b * tD fb dg (tH gp) k).
  { rewrite (tD_ext_all fb dg _ (fun k' => hd_ (fun b' => g (b' :: k')) b + eps b * tH gp k')).
    - rewrite tD_add, tD_scal. reflexivity.
    - intros k'. rewrite tH_cons. reflexivity. }
  rewrite E1, E2, E3, E4. pose proof (hom (fun b' => g (b' :: k)) b Z1 Cb Gb) as H1. specialize (IH gp Hgp Hk'). cbn beta in H1. unfold gp in IH at 3 4. cbn beta in IH.
  destruct (Z.eq_dec (eps b) 0) as [E|N].
  - rewrite E in *. lia.
  - rewrite (eps_dg b N), sgn_0 in *. transitivity (hd_ (fd fb (fun b' => g (b' :: k))) b + fd fb (hd_ (fun b' => g (b' :: k))) b + eps b * (tH (tD fb dg gp) k + tD fb dg (tH gp) k)); [ring|]. rewrite H1, IH. ring.
Qed.
Definition ccell (r d : Z) (k : list (list Z)) : Prop := zlen k = r /\ tdeg dg k = d /\ forall b, In b k -> C b.
Lemma kpred_ccell r d : kpred (ccell r d).
Proof.
  apply kpred_eq. intros k. unfold ccell. assert (D : (forall b, In b k -> C b) \/ ~ (forall b, In b k -> C b)).
  { induction k as [|b k IH]; [left; intros ? []|]. destruct (Cdec b) as [H|H]; [|right; intros G; apply H, G; now left]. destruct IH as [IH|IH]; [left|right; intros G; apply IH; intros; apply G; now right].
    intros b' [<-|Hb]; auto. }
  destruct D; destruct (Z.eq_dec (zlen k) r); destruct (Z.eq_dec (tdeg dg k) d); tauto.
Qed.
Lemma tb_ccell r d k k' v : ccell r d k -> In (k', v) (tb fb dg k) -> ccell r (d - 1) k'.
Proof.
  intros (L & D & HC) Hin. destruct (tdeg_tb fb dg dg_fb _ _ _ Hin) as [E1 E2]. split; [unfold zlen in *; lia|]. split; [lia|]. clear L D E1 E2.
  revert k' v Hin. induction k as [|b k IH]; intros k' v; [intros []|]. cbn [tb]. intros Hin. apply in_app_or in Hin. destruct Hin as [Hin|Hin]; apply in_map_iff in Hin; destruct Hin as ([u e] & E & Hin); injection E as <- <-; cbn [fst].
  - intros b' [<-|Hb]; [eapply Cfb; [|exact Hin]; apply HC; now left|apply HC; now right].
  - intros b' [<-|Hb]; [apply HC; now left|]. eapply IH; eauto. intros; apply HC; now right.
Qed.
Lemma tHl_ccell k : forall k' v, (forall b, In b k -> C b) -> In (k', v) (tHl k) -> v <> 0 -> ccell (zlen k) (tdeg dg k + 1) k'.
Proof.
  induction k as [|b k IH]; intros k' v HC; [intros []|]. cbn [tHl]. intros Hin Nv. apply in_app_or in Hin. destruct Hin as [Hin|Hin]; apply in_map_iff in Hin; destruct Hin as ([u e] & E & Hin); injection E as <- <-; cbn [fst snd] in *.
  - split; [rewrite !zlen_cons; reflexivity|]. split; [rewrite !tdeg_cons, (dg_hb _ _ _ Hin); ring|]. intros b' [<-|Hb]; [eapply Chb; [|exact Hin]; apply HC; now left|apply HC; now right].
  - assert (Ne : eps b <> 0) by (intros E0; rewrite E0 in Nv; lia). assert (Nu : e <> 0) by (intros E0; rewrite E0 in Nv; lia). destruct (IH u e ltac:(intros; apply HC; now right) Hin Nu) as (L & D & H').
    split; [rewrite !zlen_cons; lia|]. split; [rewrite !tdeg_cons, D, dg_pt, (eps_dg b Ne); ring|]. intros b' [<-|Hb]; [exact Cpt|now apply H'].
Qed.
Lemma rep_tH r d : rep (ccell r d) (ccell r (d + 1)) tH.
Proof.
  intros k (L & D & HC). exists (filter (fun p => negb (snd p =? 0)) (tHl k)). split.
  - intros k' v Hin. apply filter_In in Hin. destruct Hin as [Hin Nv]. cbn [snd] in Nv. apply negb_true_iff, Z.eqb_neq in Nv. pose proof (tHl_ccell k k' v HC Hin Nv) as H. now rewrite L, D in H.
  - intros g. unfold tH. generalize (tHl k). intros T. induction T as [|[k' v] T IH]; [reflexivity|]. cbn [filter snd]. destruct (Z.eqb_spec v 0) as [->|]; cbn [negb]; rewrite !ev_cons, IH; ring.
Qed.
Lemma zb_tH g k : zb g -> existsb badb k = true -> tH g k = 0.
Proof.
  revert g. induction k as [|b k IH]; intros g Hg Hk; [discriminate|]. cbn [existsb] in Hk. rewrite tH_cons.
  destruct (badb b) eqn:E.
  - rewrite hd_bad, (eps_bad b E); [ring| |exact E]. intros b' Hb'. apply (Hg _ b'); [now left|exact Hb'].
  - cbn [orb] in Hk. rewrite (IH (fun k' => g (pt :: k'))); [|intros k' b' H1 H2; apply (Hg _ b'); [now right|exact H2]|exact Hk].
    apply existsb_exists in Hk. destruct Hk as (b' & H1 & H2). unfold hd_. rewrite ev_zero; [ring|]. intros k' v _. apply (Hg _ b'); [now right|exact H2].
Qed.
(** functions that are admissible on a set of keys, cut off *)
Definition cut (g : list (list Z) -> Z) (k : list (list Z)) : Z := if existsb badb k then 0 else g k.
Lemma zb_cut g : zb (cut g).
Proof. intros k b Hin Hb. unfold cut. destruct (existsb badb k) eqn:E; [reflexivity|]. exfalso. assert (existsb badb k = true) by (apply existsb_exists; eauto). congruence. Qed.
Lemma cut_eq P g k : admP c P g -> P k -> cut g k = g k.
Proof. intros [_ Hg] Pk. unfold cut. destruct (existsb badb k) eqn:E; [|reflexivity]. symmetry. apply Hg; [exact Pk|]. rewrite Hbad. now f_equal. Qed.
Lemma admop_tH r d : admop c c (ccell r d) (ccell r (d + 1)) tH.
Proof.
  intros g Hg. apply admP_keyeq. intros k Pk Hb. rewrite Hbad in Hb. injection Hb as Hb. destruct (rep_tH r d k Pk) as (T & HT1 & HT2).
  rewrite HT2, (ev_ext g (cut g)), <- HT2. - apply zb_tH; [apply zb_cut|exact Hb]. - intros k' v Hin. symmetry. eapply cut_eq; eauto.
Qed.
(** the cone of an element *)
Definition tcone (x : el) : res el :=
  let! ans := zero dt c x in for_ (data x) ans (fun ans '(k, v) => for_ (tHl k) ans (fun ans '(k', s) => add_term dt c x ans k' (v * s))).
Lemma okey_c k : okey c k. Proof. eexists. apply Hbad. Qed.
Lemma linop_tcone t r d : 0 <= t -> dt_ok dt t -> linop c c t tt tt (ccell r d) (ccell r (d + 1)) tH tcone.
Proof.
  intros Ht Hdt. pose proof (rep_tH r d) as R.
  apply (linop_intro c c okc); [exact Ht|apply kpred_ccell|now apply rep_local|exact (rep_zero _ _ _ R)|].
  intros x Wx Tx Ax Kx. unfold tcone. eapply returns_bind; [apply (zero_den c okc dt t); auto|]. intros ans Hans. rewrite Ax in *.
  eapply returns_mono; [apply (loop_den c okc t tt (data x) _ (fun k g => tH g k)); [|exact Hans]|].
  - intros k v F y Hin Dy. eapply returns_mono; [apply (loop_den c okc t tt (tHl k) _ (fun k' g => v * g k')); [|exact Dy]|].
    + intros k' s F' y' _ Dy'. eapply returns_mono; [eapply (add_term_den c okc dt t); [exact Ht|exact Hdt|exact Tx|exact Dy'|apply okey_c]|]. intros z Hz. eapply den_ext; [|exact Hz]. intros g _. cbn beta. apply eqm_eq. ring.
    + intros z Hz. eapply den_ext; [|exact Hz]. intros g _. cbn beta. apply eqm_eq. unfold tH. rewrite <- ev_scal. reflexivity.
  - intros z Hz. eapply den_ext; [|exact Hz]. intros g _. cbn beta. apply eqm_eq. rewrite Z.add_0_l. reflexivity.
Qed.
Lemma linop_cb t r d d' : d' = d - 1 -> 0 <= t -> dt_ok dt t -> linop c c t tt tt (ccell r d) (ccell r d') (tD fb dg) bnd.
Proof. intros -> Ht Hdt. exact (linop_bnd c Hck fb dg dt bnd bnd_den t _ _ Ht Hdt (kpred_ccell _ _) (tb_ccell r d)). Qed.
Lemma rep_cb r d d' : d' = d - 1 -> rep (ccell r d) (ccell r d') (tD fb dg).
Proof. intros ->. exact (rep_tD fb dg _ _ (tb_ccell r d)). Qed.
Lemma admop_cb r d d' : d' = d - 1 -> admop c c (ccell r d) (ccell r d') (tD fb dg).
Proof. intros ->. exact (adm_tD c badb Hbad fb dg fd_bad _ _ (tb_ccell r d)). Qed.
Lemma homotopy_on r d g k : admP c (ccell r d) g -> ccell r d k -> bad c k = Ok false ->
  tH (tD fb dg g) k + tD fb dg (tH g) k = g k - teps k * cut g (map (fun _ => pt) k).
Proof.
  intros Hg Pk Hb. rewrite Hbad in Hb. injection Hb as Hb. assert (Gk : forall b, In b k -> C b /\ badb b = false).
  { intros b Hin. split; [now apply Pk|]. destruct (badb b) eqn:E; [|reflexivity]. assert (existsb badb k = true) by (apply existsb_exists; eauto). congruence. }
  pose proof (homotopy k (cut g) (zb_cut g) Gk) as H. rewrite (cut_eq _ g k Hg Pk) in H. rewrite <- H. f_equal.
  - destruct (rep_tH r d k Pk) as (T & HT1 & HT2). rewrite !HT2. apply ev_ext. intros k' v Hin. destruct (rep_cb r (d + 1) d ltac:(lia) k' (HT1 _ _ Hin)) as (T' & HT1' & HT2'). rewrite !HT2'. apply ev_ext. intros k'' v' Hin'. symmetry. eapply cut_eq; eauto.
  - destruct (rep_cb r d (d - 1) eq_refl k Pk) as (T & HT1 & HT2). rewrite !HT2. apply ev_ext. intros k' v Hin. destruct (rep_tH r (d - 1) k' (HT1 _ _ Hin)) as (T' & HT1' & HT2'). rewrite !HT2'. replace (d - 1 + 1) with d in HT1' by lia. apply ev_ext. intros k'' v' Hin'. symmetry. eapply cut_eq; eauto.
Qed.
Lemma teps_deg k : teps k <> 0 -> tdeg dg k = 0.
Proof. induction k as [|b k IH]; intros N; [reflexivity|]. cbn [teps] in N. rewrite tdeg_cons. rewrite (eps_dg b), IH; [reflexivity| |]; intros E; apply N; rewrite E; ring. Qed.
Lemma cone_cycle_bounds r d (x : el) : wf c x -> dt_ok dt (torsion x) -> 1 <= d -> keys_in (ccell r d) x ->
  (exists z, bnd x = Ok z /\ is_zero z) ->
  exists y, wf c y /\ torsion y = torsion x /\ keys_in (ccell r (d + 1)) y /\ same (bnd y) (Ok x).
Proof.
  intros Wx Hdt Hd Kx Z0. pose proof (proj1 Wx) as Ht. assert (Ax : forall w : el, attr w = tt) by (intros w; now destruct (attr w)).
  pose proof (admop_tH r (d - 1)) as A1. replace (d - 1 + 1) with d in A1 by lia.
  destruct (cycle_bounds c okc (torsion x) tt (ccell r d) (ccell r (d + 1)) (ccell r (d - 1)) (tD fb dg) (tD fb dg) tH tH bnd bnd tcone
    Ht (kpred_ccell _ _) (kpred_ccell _ _) (linop_cb (torsion x) r d (d - 1) eq_refl Ht Hdt) (rep_cb r d (d - 1) eq_refl)
    (linop_cb (torsion x) r (d + 1) d ltac:(lia) Ht Hdt) (admop_cb r (d + 1) d ltac:(lia)) (linop_tcone (torsion x) r d Ht Hdt) (rep_tH r d) A1 x Wx eq_refl (Ax x) Kx Z0) as (y & H1 & H2 & _ & H3 & H4).
  - intros g k Hg Pk Hb. apply eqm_eq. rewrite (homotopy_on r d g k Hg Pk Hb). destruct (Z.eq_dec (teps k) 0) as [->|N]; [ring|]. apply teps_deg in N. destruct Pk as (_ & D & _). lia.
  - eauto.
Qed.
Lemma good_teps r k : ccell r 0 k -> existsb badb k = false -> teps k = 1.
Proof.
  intros (_ & D & HC) Hb. assert (G : forall b, In b k -> badb b = false).
  { intros b Hin. destruct (badb b) eqn:E; [|reflexivity]. assert (existsb badb k = true) by (apply existsb_exists; eauto). congruence. }
  clear Hb r. assert (P : forall k, (forall b, In b k -> badb b = false) -> 0 <= tdeg dg k).
  { clear -good_dg. induction k as [|b k IH]; intros G; [reflexivity|]. rewrite tdeg_cons. pose proof (good_dg b (G b (or_introl eq_refl))). specialize (IH ltac:(intros; apply G; now right)). lia. }
  induction k as [|b k IH]; [reflexivity|]. rewrite tdeg_cons in D. pose proof (good_dg b (G b (or_introl eq_refl))). pose proof (P k ltac:(intros; apply G; now right)).
  cbn [teps]. rewrite (eps1 b); [|apply HC; now left|apply G; now left|lia]. rewrite IH; [reflexivity|lia|intros; apply HC; now right|intros; apply G; now right].
Qed.
Lemma teps_tD k : (forall b, In b k -> C b /\ badb b = false) -> tD fb dg teps k = 0.
Proof.
  induction k as [|b k IH]; intros Hk; [reflexivity|]. rewrite tD_cons. cbn [teps]. rewrite tD_scal, IH by (intros; apply Hk; now right).
  rewrite (fd_ext_all fb _ (fun b' => teps k * eps b')) by (intros; ring). rewrite fd_scal, fd_eps by (apply Hk; now left). ring.
Qed.
Lemma teps_bad k : existsb badb k = true -> teps k = 0.
Proof. induction k as [|b k IH]; [discriminate|]. cbn [existsb teps]. intros H. apply orb_true_iff in H. destruct H as [H|H]; [rewrite eps_bad by exact H; ring|rewrite IH by exact H; ring]. Qed.
Lemma wf_good (x : el) k v : wf c x -> In (k, v) (data x) -> existsb badb k = false.
Proof. intros Wx Hin. pose proof (proj2 (proj2 (proj2 Wx) _ _ Hin)) as Hb. rewrite Hbad in Hb. now injection Hb. Qed.
Lemma total_teps r (x : el) : wf c x -> keys_in (ccell r 0) x -> total x = ev teps (data x).
Proof. intros Wx Kx. unfold total. apply ev_ext. intros k v Hin. symmetry. apply (good_teps r); [exact (Kx _ _ Hin)|eapply wf_good; eauto]. Qed.
Lemma cone_zero_bounds r (x : el) : wf c x -> dt_ok dt (torsion x) -> keys_in (ccell r 0) x ->
  ((exists y, wf c y /\ torsion y = torsion x /\ keys_in (ccell r 1) y /\ same (bnd y) (Ok x)) <-> (torsion x | total x)).
Proof.
  intros Wx Hdt Kx. pose proof (proj1 Wx) as Ht. assert (Ax : forall w : el, attr w = tt) by (intros w; now destruct (attr w)). split.
  - intros (y & Wy & Ty & Ky & w & x' & Ew & Ex & E & _). injection Ex as <-.
    destruct (bnd_den (torsion y) y ltac:(lia) ltac:(congruence) Wy eq_refl) as (w' & Ew' & Dw). assert (w' = w) by congruence. subst w'.
    assert (E1 : eqm (torsion x) (ev teps (data w)) 0).
    { rewrite <- Ty. destruct Dw as (_ & _ & _ & Dw). rewrite (Dw teps).
      - rewrite ev_zero; [reflexivity|]. intros k v Hin. apply teps_tD. intros b Hb. split; [exact (proj2 (proj2 (Ky _ _ Hin)) b Hb)|].
        pose proof (wf_good y k v Wy Hin) as G. destruct (badb b) eqn:Eb; [|reflexivity]. assert (existsb badb k = true) by (apply existsb_exists; eauto). congruence.
      - split; [intros k k' Hk; apply keqb_eq in Hk; now subst|]. intros k Hk. rewrite Hbad in Hk. injection Hk as Hk. now apply teps_bad. }
    rewrite (total_teps r x Wx Kx). rewrite <- (dict_eqb_ev teps (data w) (data x)).
    + unfold eqm in E1. now rewrite Z.sub_0_r in E1.
    + intros k k' Hk; apply keqb_eq in Hk; now subst.
    + apply Dw.
    + apply Wx.
    + exact E.
  - intros Htot.
    destruct (zero_bounds c okc (torsion x) tt (ccell r 0) (ccell r 1) (tD fb dg) tH bnd tcone Ht (kpred_ccell _ _)
      (linop_cb (torsion x) r 1 0 eq_refl Ht Hdt) (admop_cb r 1 0 eq_refl) (linop_tcone (torsion x) r 0 Ht Hdt) (rep_tH r 0) (fun g => cut g (repeat pt (Z.to_nat r))) x Wx eq_refl (Ax x) Kx Htot) as (y & H1 & H2 & _ & H3 & H4).
    + intros g k Hg Pk Hb. apply eqm_eq. pose proof (homotopy_on r 0 g k Hg Pk Hb) as H. rewrite Hbad in Hb. injection Hb as Hb. rewrite (good_teps r k Pk Hb) in H.
      assert (Z0 : tD fb dg (tH g) k = 0).
      { destruct (rep_cb r 0 (-1) eq_refl k Pk) as (T & HT1 & HT2). rewrite HT2. apply ev_zero. intros k' v Hin. pose proof (HT1 _ _ Hin) as Pk'.
        destruct (existsb badb k') eqn:E.
        - pose proof (admop_tH r (-1) g Hg) as [_ A]. apply A; [exact Pk'|]. rewrite Hbad. now f_equal.
        - exfalso. assert (G : forall b, In b k' -> badb b = false).
          { intros b Hb'. destruct (badb b) eqn:E'; [|reflexivity]. assert (existsb badb k' = true) by (apply existsb_exists; eauto). congruence. }
          destruct Pk' as (_ & D & _). clear -D G good_dg. assert (0 <= tdeg dg k'); [|lia]. clear D. induction k' as [|b k IH]; [reflexivity|]. rewrite tdeg_cons. pose proof (good_dg b (G b (or_introl eq_refl))). specialize (IH ltac:(intros; apply G; now right)). lia. }
      rewrite Z0 in H. assert (Er : map (fun _ => pt) k = repeat pt (Z.to_nat r)). { destruct Pk as (L & _). assert (EL : Z.to_nat r = length k) by (unfold zlen in L; lia). rewrite EL. clear. induction k as [|b k IH]; [reflexivity|]. cbn. now rewrite IH. }
      rewrite Er in H. lia.
    + eauto.
Qed.
End Cone.
