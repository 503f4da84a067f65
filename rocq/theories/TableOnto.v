(** * Table reduction is onto and a quasi-isomorphism *)
From Coq Require Import Setoid Morphisms.
From Verif Require Import PyBase Dict FreeModule Symmetric Simplicial Utils Surjection BarrattEccles Eqm Spec SpecChain SpecOperad SpecSurj FreeModuleFacts FreeModuleLaws ListFacts
  ClassFacts LinearFacts BilFacts SymmetricFacts CycleFacts SymmetricLaws RingFacts RingLaws TensorAct LoopFacts ActGeneric BEFacts BEOrbit BELaws EZ BECompose SurjFacts SurjBoundary SurjLaws SurjAct SurjCompose SurjCompose2 SurjCompose3 SurjCompose4 SurjLaws4 SurjLaws6
  TableFacts TableFacts2 TableFacts3 TableLaws AcyclicFacts AcyclicLaws BEComplexity CongFacts.

(** the letters of a word in the order of their first occurrences *)
Fixpoint fo (u : list Z) : list Z := match u with [] => [] | a :: w => a :: del a (fo w) end.
(** a table with one reading only *)
Fixpoint tab (u : list Z) : list (list Z) :=
  match u with
  | [] => [[]]
  | a :: w => if mem a w then fo (a :: w) :: tab w else map (cons a) (tab w)
  end.
Lemma fo_in u c : In c (fo u) <-> In c u.
Proof.
  induction u as [|a w IH]; [reflexivity|]. cbn [fo In]. rewrite in_del, IH. destruct (Z.eq_dec a c); intuition auto.
Qed.
Lemma fo_nodup u : NoDup (fo u).
Proof. induction u as [|a w IH]; [constructor|]. cbn [fo]. constructor; [|now apply NoDup_del]. rewrite in_del. tauto. Qed.
Lemma tab_head u : exists rest, tab u = fo u :: rest.
Proof.
  induction u as [|a w [rest IH]]; [now exists []|]. cbn [tab]. destruct (mem a w) eqn:E; [eauto|]. rewrite IH. cbn [map fo]. rewrite del_notin; [eauto|]. rewrite fo_in. now apply mem_notin.
Qed.
Lemma tab_rws u : rws (fun c => In c u) (tab u).
Proof.
  induction u as [|a w IH].
  - intros r [<-|[]]. split; [constructor|reflexivity].
  - cbn [tab]. destruct (mem a w) eqn:E.
    + apply mem_in in E. intros r [<-|Hr]; [split; [apply (fo_nodup (a :: w))|intros c; apply (fo_in (a :: w))]|]. destruct (IH r Hr) as [H1 H2]. split; [exact H1|]. intros c. rewrite H2. cbn [In]. intuition congruence.
    + apply mem_notin in E. intros r Hr. apply in_map_iff in Hr. destruct Hr as (r' & <- & Hr). destruct (IH r' Hr) as [H1 H2]. split.
      * constructor; [|exact H1]. now rewrite H2.
      * intros c. cbn [In]. now rewrite H2.
Qed.
Lemma tab_len u : zlen (tab u) = nc u + 1.
Proof.
  induction u as [|a w IH]; [reflexivity|]. rewrite nc_cons. cbn [tab]. destruct (mem a w); [rewrite zlen_cons; lia|]. unfold zlen in *. rewrite map_length. lia.
Qed.
Lemma tab_TT u : forall g, killadj g -> TT g (tab u) = g u.
Proof.
  induction u as [|a w IH]; intros g Hg; [apply TT_one|]. pose proof (killadj_cons g a Hg) as Hg'. destruct (tab_head w) as [rest Et]. pose proof (tab_rws w) as Rw. cbn [tab]. destruct (mem a w) eqn:E.
  - cbn [fo]. specialize (IH _ Hg'). rewrite Et in *. rewrite TT_cons. rewrite IH.
    assert (R : rws (fun c => In c (a :: w)) ((a :: del a (fo w)) :: fo w :: rest)).
    { pose proof (tab_rws (a :: w)) as R. cbn [tab] in R. rewrite E, Et in R. exact R. }
    rewrite (TT_rep _ _ (rws_next _ _ _ _ R)); [ring| |exact Hg']. cbn [map rep_row]. now left.
  - apply mem_notin in E. specialize (IH _ Hg'). rewrite Et in *. cbn [map]. destruct rest as [|s rest]; [cbn [map]; rewrite TT_one in *; exact IH|].
    cbn [map]. rewrite TT_cons.
    rewrite (TT_zero _ ((a :: s) :: map (cons a) rest)).
    2:{ intros v Hv. assert (R : rws (fun c => In c (a :: w)) ((a :: s) :: map (cons a) rest)).
        { pose proof (tab_rws (a :: w)) as R. cbn [tab] in R. rewrite (proj2 (mem_notin a w) E), Et in R. cbn [map] in R. eapply rws_tl; exact R. }
        destruct (TL_head _ _ _ _ R v Hv) as [v' ->]. now apply kill_head. }
    rewrite Z.add_0_l. rewrite <- IH. f_equal. f_equal.
    assert (D : forall r, In r (s :: rest) -> del a (a :: r) = r).
    { intros r Hr. rewrite del_cons, Z.eqb_refl. apply del_notin. intros Ha. apply E. destruct (Rw r (or_intror Hr)) as [_ H2]. now apply H2. }
    change (map (del a) (map (cons a) (s :: rest)) = s :: rest). rewrite map_map. rewrite (map_ext_in _ (fun r => r)) by (intros r Hr; now apply D). apply map_id.
Qed.
Lemma tab_cell n d u : 1 <= n -> surj_cell n d u -> be_cell n d (tab u).
Proof.
  intros Hn [Ho Hl]. split.
  - intros r Hr. destruct (tab_rws u r Hr) as [ND HS]. apply NoDup_Permutation; [exact ND|apply NoDup_zrange|]. intros c. rewrite HS, in_zrange, (Ho c). lia.
  - rewrite tab_len, (onto_nc n) by (auto; lia). lia.
Qed.
Definition pick (u w : list Z) : Z := if adj w then 0 else if tup_eqb u w then 1 else 0.
Lemma pick_adj u : killadj (pick u). Proof. intros w Hw. unfold pick. now rewrite Hw. Qed.
Lemma pick_self u : adj u = false -> pick u u = 1. Proof. intros Ha. unfold pick. now rewrite Ha, tup_refl. Qed.
Lemma tab_nonrep u : adj u = false -> ~ rep_row (tab u).
Proof.
  intros Ha Hr. pose proof (tab_TT u (pick u) (pick_adj u)) as T. rewrite (TT_rep _ _ (tab_rws u) Hr _ (pick_adj u)), (pick_self u Ha) in T. discriminate.
Qed.
Lemma tab_inj u u' : adj u = false -> tab u = tab u' -> u = u'.
Proof.
  intros Ha E. pose proof (tab_TT u (pick u) (pick_adj u)) as T. rewrite (pick_self u Ha), E, (tab_TT u' (pick u) (pick_adj u)) in T. unfold pick in T.
  destruct (adj u'); [discriminate|]. destruct (tup_eqb u u') eqn:Eu; [now apply tup_eqb_eq|discriminate].
Qed.

(** ** the complexity of the table *)
Lemma ord_del i j a l : a <> i -> a <> j -> ord i j (del a l) = ord i j l.
Proof.
  intros Ni Nj. induction l as [|c l IH]; [reflexivity|]. rewrite del_cons. destruct (Z.eqb_spec c a) as [->|N].
  - cbn [ord]. rewrite (proj2 (Z.eqb_neq a i) Ni), (proj2 (Z.eqb_neq a j) Nj). exact IH.
  - cbn [ord]. now rewrite IH.
Qed.
Lemma ord_fo i j u : ord i j (fo u) = ord i j u.
Proof.
  induction u as [|a w IH]; [reflexivity|]. cbn [fo ord]. destruct (Z.eqb_spec a i); [reflexivity|]. destruct (Z.eqb_spec a j); [reflexivity|]. now rewrite ord_del.
Qed.
Definition ij (i j : Z) (u : list Z) : list Z := filter (fun a => (a =? i) || (a =? j)) u.
Lemma ij_cons i j a u : ij i j (a :: u) = if (a =? i) || (a =? j) then a :: ij i j u else ij i j u. Proof. reflexivity. Qed.
Lemma ij_head i j u : i <> j -> In i u \/ In j u -> exists r, ij i j u = (if ord i j u then i else j) :: r.
Proof.
  intros N. induction u as [|a u IH]; [cbn; tauto|]. intros H. rewrite ij_cons. cbn [ord]. destruct (Z.eqb_spec a i) as [->|Ni]; [cbn [orb]; eauto|].
  destruct (Z.eqb_spec a j) as [->|Nj]; [cbn [orb]; eauto|]. cbn [orb]. apply IH. cbn [In] in H. intuition congruence.
Qed.
Lemma ch_cons2 a b l : changes (a :: b :: l) = (if a =? b then 0 else 1) + changes (b :: l). Proof. reflexivity. Qed.
Lemma bch_const b (l : list bool) : (forall c, In c l -> c = b) -> bch l = 0.
Proof.
  induction l as [|c [|c' l] IH]; intros H; try reflexivity. rewrite bch_cons2, IH by (intros; apply H; now right). rewrite (H c), (H c') by (cbn; tauto). now rewrite Bool.eqb_reflx.
Qed.
Lemma changes_const b (l : list Z) : (forall c, In c l -> c = b) -> changes l = 0.
Proof.
  induction l as [|c [|c' l] IH]; intros H; try reflexivity. rewrite ch_cons2, IH by (intros; apply H; now right). rewrite (H c), (H c') by (cbn; tauto). now rewrite Z.eqb_refl.
Qed.
Lemma tab_changes i j u : i <> j -> In i u -> In j u -> changes (ij i j u) = bch (map (ord i j) (tab u)) + 1.
Proof.
  intros N. induction u as [|a w IH]; [intros []|]. intros Hi Hj. destruct (tab_head w) as [rest Et]. rewrite ij_cons. cbn [tab].
  destruct (Z.eq_dec a i) as [->|Ni]; [|destruct (Z.eq_dec a j) as [->|Nj]].
  - rewrite Z.eqb_refl. cbn [orb]. assert (Hj' : In j w) by (destruct Hj; congruence). destruct (ij_head i j w N (or_intror Hj')) as [r Er]. destruct (mem i w) eqn:E.
    + apply mem_in in E. specialize (IH E Hj'). rewrite Et in *. cbn [map] in *. rewrite bch_cons2. cbn [fo ord]. rewrite Z.eqb_refl. rewrite ord_fo in *. rewrite Er in *. rewrite ch_cons2, IH.
      destruct (ord i j w); [rewrite Z.eqb_refl; cbn [Bool.eqb]; lia|]. rewrite (proj2 (Z.eqb_neq i j) N). cbn [Bool.eqb]. lia.
    + apply mem_notin in E. rewrite map_map. rewrite (bch_const true).
      2:{ intros c Hc. apply in_map_iff in Hc. destruct Hc as (l & <- & _). cbn [ord]. now rewrite Z.eqb_refl. }
      assert (C : forall c, In c (ij i j w) -> c = j).
      { intros c Hc. apply filter_In in Hc. destruct Hc as [Hc Hb]. apply orb_true_iff in Hb. rewrite !Z.eqb_eq in Hb. destruct Hb as [->| ->]; [contradiction|reflexivity]. }
      rewrite Er in *. rewrite ch_cons2. rewrite (changes_const j) by exact C. rewrite (C (if ord i j w then i else j)) by now left. rewrite (proj2 (Z.eqb_neq i j) N). lia.
  - rewrite Z.eqb_refl, orb_true_r. assert (Hi' : In i w) by (destruct Hi; congruence). destruct (ij_head i j w N (or_introl Hi')) as [r Er]. destruct (mem j w) eqn:E.
    + apply mem_in in E. specialize (IH Hi' E). rewrite Et in *. cbn [map] in *. rewrite bch_cons2. cbn [fo ord]. rewrite Z.eqb_refl, (proj2 (Z.eqb_neq j i) Ni). rewrite ord_fo in *. rewrite Er in *. rewrite ch_cons2, IH.
      destruct (ord i j w); [rewrite (proj2 (Z.eqb_neq j i) Ni); cbn [Bool.eqb]; lia|]. rewrite Z.eqb_refl. cbn [Bool.eqb]. lia.
    + apply mem_notin in E. rewrite map_map. rewrite (bch_const false).
      2:{ intros c Hc. apply in_map_iff in Hc. destruct Hc as (l & <- & _). cbn [ord]. now rewrite Z.eqb_refl, (proj2 (Z.eqb_neq j i) Ni). }
      assert (C : forall c, In c (ij i j w) -> c = i).
      { intros c Hc. apply filter_In in Hc. destruct Hc as [Hc Hb]. apply orb_true_iff in Hb. rewrite !Z.eqb_eq in Hb. destruct Hb as [->| ->]; [reflexivity|contradiction]. }
      rewrite Er in *. rewrite ch_cons2. rewrite (changes_const i) by exact C. rewrite (C (if ord i j w then i else j)) by now left. rewrite (proj2 (Z.eqb_neq j i) Ni). lia.
  - rewrite (proj2 (Z.eqb_neq a i) Ni), (proj2 (Z.eqb_neq a j) Nj). cbn [orb].
    assert (Hi' : In i w) by (destruct Hi; congruence). assert (Hj' : In j w) by (destruct Hj; congruence). rewrite (IH Hi' Hj'). f_equal. destruct (mem a w) eqn:E.
    + rewrite Et. cbn [map]. rewrite bch_cons2. rewrite (ord_fo i j (a :: w)), (ord_fo i j w). cbn [ord]. rewrite (proj2 (Z.eqb_neq a i) Ni), (proj2 (Z.eqb_neq a j) Nj). now rewrite Bool.eqb_reflx.
    + rewrite map_map. f_equal. apply map_ext. intros l. cbn [ord]. now rewrite (proj2 (Z.eqb_neq a i) Ni), (proj2 (Z.eqb_neq a j) Nj).
Qed.
Lemma tab_complexity n u i j : onto n u -> 1 <= i < j -> j <= n -> switches i j u = order_changes i j (tab u) + 1.
Proof.
  intros Ho Hi Hj. assert (Ii : In i u) by (apply Ho; lia). assert (Ij : In j u) by (apply Ho; lia). rewrite (oc_ord i j (tab u)) by (first [lia | intros p Hp; destruct (tab_rws u p Hp) as [_ HS]; rewrite !HS; auto]).
  apply (tab_changes i j u); auto. lia.
Qed.

(** ** elements *)
Definition lift (y : surj) : bee := mkElt (map (fun kv => (tab (fst kv), snd kv)) (data y)) (torsion y) tt.
Lemma wf_adj n (y : surj) w v : 1 <= n -> wf cls_surj y -> keys_in (onto n) y -> In (w, v) (data y) -> adj w = false.
Proof.
  intros Hn (_ & _ & W) K Hin. destruct (W w v Hin) as [_ B]. change (surj_bad w = Ok false) in B. rewrite (surj_bad_onto n) in B by (auto; eapply K; eauto). congruence.
Qed.
Lemma lift_wf n (y : surj) : 1 <= n -> wf cls_surj y -> keys_in (onto n) y -> wf cls_be (lift y).
Proof.
  intros Hn W K. assert (Ha : forall w v, In (w, v) (data y) -> adj w = false) by (intros w v; now apply (wf_adj n)). destruct W as (Ht & Kd & Cv). split; [exact Ht|]. cbn [lift data torsion]. split.
  - clear Cv K. revert Kd Ha. induction (data y) as [|[w v] d IH]; intros Kd Ha; [exact I|]. cbn [dkeys map fst snd kdistinct] in *. destruct Kd as [K1 K2]. split; [|apply IH; [exact K2|intros; eapply Ha; right; eauto]].
    intros k Hk. apply in_map_iff in Hk. destruct Hk as ([k' v'] & <- & Hk). apply in_map_iff in Hk. destruct Hk as ([w' v''] & [= <- <-] & Hk). cbn [fst].
    destruct (keqb (tab w) (tab w')) eqn:E; [|exact E]. exfalso. apply keqb_eq in E. apply tab_inj in E; [|apply (Ha w v); now left]. subst w'.
    specialize (K1 w (in_map fst _ _ Hk)). rewrite keqb_refl in K1. discriminate.
  - intros k v Hin. apply in_map_iff in Hin. destruct Hin as ([w v'] & [= <- <-] & Hin). destruct (Cv w v' Hin) as [C _]. split; [exact C|]. cbn [fst]. rewrite be_bad. f_equal.
    pose proof (tab_nonrep w (Ha w v' Hin)) as NR. destruct (tab_head w) as [rest Et]. rewrite Et in *. unfold bbad. destruct (bdup (fo w :: rest)) eqn:E; [|reflexivity]. exfalso. apply NR, rep_row_repeats, bdup_repeats, E.
Qed.
Lemma lift_keys n d (y : surj) : 1 <= n -> keys_in (surj_cell n d) y -> keys_in (be_cell n d) (lift y).
Proof. intros Hn K k v Hin. apply in_map_iff in Hin. destruct Hin as ([w v'] & [= <- <-] & Hin). apply (tab_cell n d w Hn). eapply K; eauto. Qed.
Lemma lift_table dt n d (y : surj) : 1 <= n -> wf cls_surj y -> dt_ok dt (torsion y) -> attr y = BF -> keys_in (surj_cell n d) y -> same (be_table_reduction dt (lift y)) (Ok y).
Proof.
  intros Hn W Hdt At K. assert (Ko : keys_in (onto n) y) by (intros k v Hin; exact (proj1 (K k v Hin))).
  pose proof (lift_keys n d y Hn K) as Kl.
  eapply (same_den cls_surj ok_surj (torsion y) BF); [exact (proj1 W)| | |].
  - apply (table_den dt (torsion y) n); auto; [exact (proj1 W)|eapply lift_wf; eauto|]. intros k v Hin. exact (proj1 (Kl k v Hin)).
  - exists y. split; [reflexivity|]. rewrite <- At. now apply den_self.
  - intros g [_ Hg]. apply eqm_eq. cbn [lift data]. unfold ev. rewrite sumf_map. apply sumf_ext. intros [w v] Hin. cbn [fst snd]. f_equal.
    set (h := fun w => if adj w then 0 else g w). pose proof (wf_adj n y w v Hn W Ko Hin) as Ha. pose proof (tab_cell n d w Hn (K w v Hin)) as [Hs _].
    transitivity (TT h (tab w)).
    + apply TT_ext. intros w' Hw. unfold h. destruct (adj w') eqn:Ea; [|reflexivity]. apply Hg. eapply bad_adj; eauto. eapply TL_onto; eauto.
    + rewrite tab_TT by (intros w' Hw; unfold h; now rewrite Hw). unfold h. now rewrite Ha.
Qed.

(** #C94_onto# Every surjection element in the Berger-Fresse convention, of arity n and degree d,
    is the table reduction of a Barratt-Eccles element of the same arity, degree and torsion, in
    whose basis elements no two letters change their order more often than allowed by a basis
    element of the surjection element: the table reduction maps every stage of the complexity
    filtration onto the corresponding stage. *)
Lemma C94_onto_l (dt n d : Z) (y : surj) :
  1 <= n -> wf cls_surj y -> dt_ok dt (torsion y) -> attr y = BF -> keys_in (surj_cell n d) y ->
  exists x : bee, wf cls_be x /\ torsion x = torsion y /\ keys_in (be_cell n d) x /\ same (be_table_reduction dt x) (Ok y) /\
    keys_in (fun k => exists w v, In (w, v) (data y) /\ forall i j, 1 <= i < j -> j <= n -> order_changes i j k + 1 = switches i j w) x.
Proof.
  intros Hn W Hdt At K. exists (lift y). split; [|split; [|split; [|split]]].
  - apply (lift_wf n); auto. intros k v Hin. exact (proj1 (K k v Hin)).
  - reflexivity.
  - now apply lift_keys.
  - now apply (lift_table dt n d).
  - intros k v Hin. apply in_map_iff in Hin. destruct Hin as ([w v'] & [= <- <-] & Hin). exists w, v'. split; [exact Hin|]. intros i j Hi Hj. symmetry. apply (tab_complexity n); auto. exact (proj1 (K w v' Hin)).
Qed.

(** ** cycles and boundaries *)
Lemma table_linop dt n t : 1 <= n -> 0 <= t -> dt_ok dt t -> linop cls_be cls_surj t tt BF (be_simplex n) (onto n) TT (be_table_reduction dt).
Proof. intros. apply (linop_table dt _ n); auto using kpred_onto; intros k w; apply TL_onto. Qed.
Lemma table_cong dt n (x y : bee) : 1 <= n -> dt_ok dt (torsion x) -> wf cls_be x -> wf cls_be y -> torsion y = torsion x -> keys_in (be_simplex n) x -> elt_eqb x y = true ->
  same (be_table_reduction dt x) (be_table_reduction dt y).
Proof. intros Hn Hdt Wx Wy T K E. pose proof (proj1 Wx). eapply (linop_cong cls_be cls_surj ok_surj (torsion x) tt BF); eauto using be_attr, table_linop. Qed.
Lemma sb_linop dt n t cv : 0 <= t -> dt_ok dt t -> known cv t -> linop cls_surj cls_surj t cv cv (onto n) (onto n) (sd cv) (surj_boundary dt).
Proof. intros. apply linop_sb; auto using kpred_onto. intros k u Hk _ S c. rewrite S. apply Hk. Qed.
Lemma sb_cong dt n (x y : surj) : dt_ok dt (torsion x) -> known (attr x) (torsion x) -> wf cls_surj x -> wf cls_surj y -> torsion y = torsion x -> attr y = attr x -> keys_in (onto n) x -> elt_eqb x y = true ->
  same (surj_boundary dt x) (surj_boundary dt y).
Proof. intros Hdt HK Wx Wy T Aa K E. pose proof (proj1 Wx). eapply (linop_cong cls_surj cls_surj ok_surj (torsion x) (attr x) (attr x)); eauto using sb_linop. Qed.
Lemma same_zero {K A} `{KO : KeyOk K} (c : pycls K) (r : res (elt K A)) z : same r (Ok z) -> is_zero z -> (forall y, r = Ok y -> wf c y) -> exists y, r = Ok y /\ is_zero y.
Proof.
  intros (x & y & Ex & Ey & E & _) Z W. injection Ey as <-. exists x. split; [exact Ex|]. specialize (W x Ex). destruct W as (_ & Kd & Cv). unfold is_zero in *. destruct (data x) as [|[k v] l] eqn:D; [reflexivity|]. exfalso.
  unfold elt_eqb in E. rewrite dict_eqb_dget in E. specialize (E k). rewrite Z, D in E. cbn [dget] in E. rewrite keqb_refl in E. destruct (Cv k v (or_introl eq_refl)) as [[Nv _] _]. auto.
Qed.
(** the boundary of an element of degree 0 *)
Lemma be_bnd_zero dt n (x : bee) : 1 <= n -> wf cls_be x -> dt_ok dt (torsion x) -> keys_in (be_cell n 0) x -> exists z, be_boundary dt x = Ok z /\ is_zero z.
Proof.
  intros Hn W Hdt K. destruct (C34_boundary_degree_l dt n 0 x Hn W Hdt K) as (y & Ey & Wy & _ & Ky & _). exists y. split; [exact Ey|]. destruct y as [l t a]. unfold is_zero. cbn [data]. destruct l as [|[k v] l]; [reflexivity|]. exfalso.
  destruct (Ky k v (or_introl eq_refl)) as [_ L]. destruct k as [|p k]; [|rewrite zlen_cons in L; pose proof (zlen_nonneg k); lia].
  destruct Wy as (_ & _ & C). destruct (C [] v (or_introl eq_refl)) as [_ B]. discriminate B.
Qed.

(** #C94_cycles# Every cycle of the surjection operad is the table reduction of a cycle of the Barratt-Eccles operad of the same arity and degree. *)
Lemma C94_cycles_l (dt n d : Z) (y : surj) :
  1 <= n -> 0 <= d -> wf cls_surj y -> dt_ok dt (torsion y) -> attr y = BF -> keys_in (surj_cell n d) y ->
  (exists z, surj_boundary dt y = Ok z /\ is_zero z) ->
  exists x : bee, wf cls_be x /\ torsion x = torsion y /\ keys_in (be_cell n d) x /\ (exists z, be_boundary dt x = Ok z /\ is_zero z) /\ same (be_table_reduction dt x) (Ok y).
Proof.
  intros Hn Hd W Hdt At K Hz. destruct (Z.eq_dec d 0) as [-> | Nd].
  - assert (Wl : wf cls_be (lift y)) by (apply (lift_wf n); auto; intros k v Hin; exact (proj1 (K k v Hin))).
    exists (lift y). split; [exact Wl|]. split; [reflexivity|]. split; [now apply lift_keys|]. split; [|now apply (lift_table dt n 0)]. apply (be_bnd_zero dt n); auto. now apply lift_keys.
  - destruct (C69_surjection_l dt n d y) as (w & Ww & Tw & Aw & Kw & (w' & y' & Ew & Ey & E & E1 & E2)); auto; [lia|]. injection Ey as <-. rewrite At in Aw.
    destruct (C94_onto_l dt n (d + 1) w) as (v & Wv & Tv & Kv & (v' & w2 & Ev & Ew2 & F & F1 & F2) & _); auto; [congruence|]. injection Ew2 as <-.
    assert (Hdv : dt_ok dt (torsion v)) by congruence.
    destruct (C34_boundary_degree_l dt n (d + 1) v Hn Wv Hdv Kv) as (x & Ex & Wx & Tx & Kx & _).
    assert (Kvs : keys_in (be_simplex n) v) by (intros k u Hin; exact (proj1 (Kv k u Hin))).
    exists x. split; [exact Wx|]. split; [congruence|]. split; [exact Kx|]. split.
    + pose proof (C34_boundary_squared_l dt v Wv Hdv) as S. rewrite Ex in S. cbn [bind] in S. destruct S as (a & b & Ea & Eb & S1 & S2 & S3).
      rewrite zero_data in Eb. injection Eb as <-. apply (same_zero cls_be (be_boundary dt x) (mkElt [] (torsion v) (attr v))); [exists a, (mkElt [] (torsion v) (attr v)); repeat split; auto|reflexivity|].
      intros u Eu. destruct (be_boundary_den dt (torsion x) x (proj1 Wx)) as (u' & Eu' & Du); [congruence|auto|auto|]. rewrite Eu in Eu'. injection Eu' as <-. eapply den_wf; [exact (proj1 Wx)|exact Du].
    + pose proof (C39_chain_map_l dt n v Hn Wv Hdv Kvs) as C. rewrite Ex, Ev in C. cbn [bind] in C. eapply same_trans; [exact C|]. eapply same_trans; [|exists w', y; rewrite <- Ew; repeat split; eauto].
      destruct (C39_table_degree_l dt n (d + 1) v Hn Wv Hdv Kv) as (v2 & Ev2 & Wv2 & Tv2 & Av2 & Kv2). rewrite Ev in Ev2. injection Ev2 as <-.
      apply (sb_cong dt n); auto; try congruence; [rewrite Av2; left; reflexivity|]. intros k u Hin. exact (proj1 (Kv2 k u Hin)).
Qed.
(** the table reduction of a cycle is a cycle *)
Lemma table_cycle dt n d (x : bee) y : 1 <= n -> wf cls_be x -> dt_ok dt (torsion x) -> keys_in (be_cell n d) x -> (exists z, be_boundary dt x = Ok z /\ is_zero z) ->
  be_table_reduction dt x = Ok y -> exists z, surj_boundary dt y = Ok z /\ is_zero z.
Proof.
  intros Hn W Hdt K (z & Ez & Zz) Ey. assert (Ks : keys_in (be_simplex n) x) by (intros k u Hin; exact (proj1 (K k u Hin))).
  pose proof (C39_chain_map_l dt n x Hn W Hdt Ks) as C. rewrite Ez, Ey in C. cbn [bind] in C.
  destruct (be_boundary_den dt (torsion x) x (proj1 W) Hdt W eq_refl) as (z' & Ez' & Dz). rewrite Ez in Ez'. injection Ez' as <-.
  destruct (table_linop dt n (torsion x) Hn (proj1 W) Hdt z) as (u & Eu & Du & _); [eapply den_wf; [exact (proj1 W)|exact Dz]|exact (proj1 Dz)|apply be_attr|intros k v Hin; unfold is_zero in Zz; rewrite Zz in Hin; destruct Hin|].
  rewrite Eu in C. destruct (C39_table_degree_l dt n d x Hn W Hdt K) as (y' & Ey' & Wy & Ty & Ay & Ky). rewrite Ey in Ey'. injection Ey' as <-.
  apply same_sym in C. refine (same_zero cls_surj _ u C _ _).
  - destruct u as [l t a]. unfold is_zero. cbn [data]. destruct l as [|[k v] l]; [reflexivity|]. exfalso.
    assert (N : elt_eqb (mkElt ((k, v) :: l) t a) (mkElt [] t a) = true).
    { destruct Du as (D1 & D2 & D3). cbn in D1. subst t. eapply (den_eqb cls_surj ok_surj (torsion x) BF a); [exact (proj1 W)|split; [reflexivity|split; [exact D2|exact D3]]|split; [reflexivity|split; [reflexivity|split; [split; [exact I|intros ? ? []]|intros g _; instantiate (1 := fun _ => 0); reflexivity]]]|].
      intros g _. cbn beta. replace (data z) with (@nil (bkey * Z)) by (symmetry; exact Zz). reflexivity. }
    unfold elt_eqb in N. rewrite dict_eqb_dget in N. specialize (N k). cbn [data dget] in N. rewrite keqb_refl in N. destruct Du as (_ & _ & (_ & C') & _). destruct (C' k v (or_introl eq_refl)) as [[Nv _] _]. auto.
  - intros w Ew. destruct (sb_linop dt n (torsion y) BF) with (x := y) as (w' & Ew' & Dw & _); auto; [exact (proj1 Wy)|congruence|left; reflexivity|intros k v Hin; exact (proj1 (Ky k v Hin))|].
    rewrite Ew in Ew'. injection Ew' as <-. eapply den_wf; [exact (proj1 Wy)|exact Dw].
Qed.
Lemma table_total dt n (x : bee) y : 1 <= n -> wf cls_be x -> dt_ok dt (torsion x) -> keys_in (be_cell n 0) x -> be_table_reduction dt x = Ok y -> eqm (torsion x) (total y) (total x).
Proof.
  intros Hn W Hdt K Ey. assert (Ks : keys_in (be_simplex n) x) by (intros k u Hin; exact (proj1 (K k u Hin))).
  destruct (C39_table_degree_l dt n 0 x Hn W Hdt K) as (y' & Ey' & Wy & Ty & Ay & Ky). rewrite Ey in Ey'. injection Ey' as <-.
  destruct (table_linop dt n (torsion x) Hn (proj1 W) Hdt x W eq_refl (be_attr x) Ks) as (u & Eu & Du & _). rewrite Ey in Eu. injection Eu as <-. destruct Du as (_ & _ & _ & Dg).
  set (g := fun w : list Z => match surj_bad w with Ok true => 0 | _ => 1 end).
  assert (Ag : adm cls_surj g). { split; [intros k k' E; apply keqb_eq in E; now subst|]. intros k Hb. unfold g. change (surj_bad k = Ok true) in Hb. now rewrite Hb. }
  specialize (Dg g Ag). unfold total. transitivity (ev g (data y)).
  - apply eqm_eq. apply ev_ext. intros k v Hin. destruct Wy as (_ & _ & C). destruct (C k v Hin) as [_ B]. unfold g. change (surj_bad k = Ok false) in B. now rewrite B.
  - rewrite Dg. apply eqm_eq. apply ev_ext. intros k v Hin. destruct (K k v Hin) as [Hs L]. destruct k as [|p [|q k]]; [discriminate L| |rewrite !zlen_cons in L; pose proof (zlen_nonneg k); lia].
    rewrite TT_one. unfold g. assert (Hp : perm n p) by (apply Hs; now left). rewrite (surj_bad_onto n) by (first [exact Hn | intros j; apply (perm_in n p j Hp)]). rewrite nodup_adj; [reflexivity|]. now apply (perm_nodup n).
Qed.
Lemma total_cong (x y : surj) : wf cls_surj x -> wf cls_surj y -> elt_eqb x y = true -> total x = total y.
Proof. intros. unfold total. now apply (eqb_ev cls_surj). Qed.

(** #C94_boundaries# A cycle of the Barratt-Eccles operad is a boundary if and only if its table reduction is a boundary. *)
Lemma C94_boundaries_l (dt n d : Z) (x : bee) (y : surj) :
  1 <= n -> 0 <= d -> wf cls_be x -> dt_ok dt (torsion x) -> keys_in (be_cell n d) x -> (exists z, be_boundary dt x = Ok z /\ is_zero z) ->
  be_table_reduction dt x = Ok y ->
  (exists v, wf cls_be v /\ torsion v = torsion x /\ keys_in (be_cell n (d + 1)) v /\ same (be_boundary dt v) (Ok x)) <->
  (exists w, wf cls_surj w /\ torsion w = torsion x /\ attr w = BF /\ keys_in (surj_cell n (d + 1)) w /\ same (surj_boundary dt w) (Ok y)).
Proof.
  intros Hn Hd W Hdt K Hz Ey. destruct (C39_table_degree_l dt n d x Hn W Hdt K) as (y' & Ey' & Wy & Ty & Ay & Ky). rewrite Ey in Ey'. injection Ey' as <-.
  destruct (Z.eq_dec d 0) as [-> | Nd].
  - pose proof (C69_barratt_eccles_zero_l dt n x ltac:(lia) W Hdt K) as B. pose proof (C69_surjection_zero_l dt n y Hn Wy) as S. rewrite Ty, Ay in S. specialize (S Hdt (or_introl eq_refl) Ky).
    rewrite Z.add_0_l. rewrite B, S. rewrite <- !total_zsum. pose proof (table_total dt n x y Hn W Hdt K Ey) as E.
    split; intros D; [replace (total y) with ((total y - total x) + total x) by ring|replace (total x) with (total y - (total y - total x)) by ring]; [apply Z.divide_add_r|apply Z.divide_sub_r]; auto.
  - split; intros _.
    + destruct (C69_surjection_l dt n d y) as (w & Ww & Tw & Aw & Kw & Sw); auto; [lia|congruence|eapply table_cycle; eauto|]. exists w. split; [exact Ww|]. split; [congruence|]. split; [congruence|]. split; auto.
    + apply C69_barratt_eccles_l; auto; lia.
Qed.

(** #C94_basis# Every basis element of the surjection operad is the table reduction of one basis element. *)
Lemma C94_basis_l (dt n d t : Z) (w : list Z) :
  1 <= n -> 0 <= t -> t <> 1 -> dt_ok dt t -> surj_cell n d w -> ~ repeats w ->
  exists k, be_cell n d k /\ ~ repeats k /\ (forall i j, 1 <= i < j -> j <= n -> order_changes i j k + 1 = switches i j w) /\
    same (be_table_reduction dt (mkElt [(k, 1)] t tt)) (Ok (mkElt [(w, 1)] t BF)).
Proof.
  intros Hn Ht Nt Hdt Hw Nr. assert (Ha : adj w = false) by (destruct (adj w) eqn:E; [exfalso; apply Nr; now apply repeats_adj|reflexivity]).
  set (y := mkElt [(w, 1)] t BF : surj).
  assert (Wy : wf cls_surj y). { split; [exact Ht|]. split; [split; [intros ? []|exact I]|]. intros k v [[= <- <-]|[]]. split; [split; [lia|cbn; lia]|]. change (surj_bad w = Ok false). rewrite (surj_bad_onto n) by (auto; apply Hw). now rewrite Ha. }
  assert (Ky : keys_in (surj_cell n d) y) by (intros k v [[= <- <-]|[]]; exact Hw).
  exists (tab w). split; [now apply tab_cell|]. split; [intros R; apply (tab_nonrep w Ha), rep_row_repeats, R|]. split; [intros i j Hi Hj; symmetry; apply (tab_complexity n); auto; apply Hw|].
  now apply (lift_table dt n d y).
Qed.
(** #C94_example# A preimage of 1213 + 2123 modulo 3; and three basis elements whose combination is sent to zero: the table reduction is not injective. *)
Example C94_example_l :
  let y : surj := mkElt [([1; 2; 1; 3], 1); ([2; 1; 2; 3], 2)] 3 BF in
  let x : bee := mkElt [([[1; 2; 3]; [2; 1; 3]], 1); ([[2; 1; 3]; [1; 2; 3]], 2)] 3 tt in
  let b : bee := mkElt [([[1; 2; 3]; [3; 2; 1]], 1); ([[1; 3; 2]; [3; 2; 1]], -1); ([[1; 2; 3]; [1; 3; 2]], -1)] 0 tt in
  (wf cls_surj y /\ attr y = BF /\ keys_in (surj_cell 3 1) y) /\
  (wf cls_be x /\ keys_in (be_cell 3 1) x /\ be_table_reduction 3 x = Ok y) /\
  (wf cls_be b /\ keys_in (be_cell 3 1) b /\ exists z, be_table_reduction 0 b = Ok z /\ is_zero z).
Proof.
  cbv zeta. assert (T : forall p, In p [[1; 2; 3]; [2; 1; 3]; [1; 3; 2]; [3; 2; 1]] -> perm 3 p).
  { intros p [<-|[<-|[<-|[<-|[]]]]]; permtac. }
  assert (T2 : forall p q, In p [[1; 2; 3]; [2; 1; 3]; [1; 3; 2]; [3; 2; 1]] -> In q [[1; 2; 3]; [2; 1; 3]; [1; 3; 2]; [3; 2; 1]] -> be_cell 3 1 [p; q]).
  { intros p q Hp Hq. split; [|reflexivity]. intros r [<-|[<-|[]]]; auto. }
  split; [|split].
  - split; [apply wfb_wf; reflexivity|]. split; [reflexivity|]. intros k v [[= <- <-]|[[= <- <-]|[]]]; (split; [|reflexivity]); intros j; cbn; lia.
  - split; [apply wfb_wf; reflexivity|]. split; [|reflexivity]. intros k v [[= <- <-]|[[= <- <-]|[]]]; apply T2; cbn; tauto.
  - split; [apply wfb_wf; reflexivity|]. split; [|eexists; split; [vm_compute; reflexivity|reflexivity]]. intros k v [[= <- <-]|[[= <- <-]|[[= <- <-]|[]]]]; apply T2; cbn; tauto.
Qed.
