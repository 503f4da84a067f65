(** * Proof library for FreeModule.v: evaluation of linear forms on elements. *)
From Coq Require Import Setoid Morphisms.
From Verif Require Import PyBase Dict FreeModule Eqm Spec.

(** A computation returns normally with a result satisfying [P]. *)
Definition returns {S} (r : res S) (P : S -> Prop) : Prop := exists s, r = Ok s /\ P s.

Lemma returns_ok {S} (s : S) (P : S -> Prop) : P s -> returns (Ok s) P.
Proof. intros H. now exists s. Qed.
Lemma returns_bind {S T} (r : res S) (f : S -> res T) P Q :
  returns r P -> (forall s, P s -> returns (f s) Q) -> returns (bind r f) Q.
Proof. intros (s & -> & Hs) H. cbn. now apply H. Qed.
Lemma returns_mono {S} (r : res S) (P Q : S -> Prop) :
  returns r P -> (forall s, P s -> Q s) -> returns r Q.
Proof. intros (s & -> & Hs) H. exists s. split; auto. Qed.
Lemma returns_eq {S} (r : res S) (s : S) (P : S -> Prop) : returns r P -> r = Ok s -> P s.
Proof. intros (s' & H & Hs) E. congruence. Qed.

#[global] Instance KeyEq_KeyOk K `{KeyEq K} : KeyOk K.
Proof.
  constructor; intros *; rewrite ?keqb_eq; congruence.
Qed.

Lemma list_eqb_eq {A} (e : A -> A -> bool) : (forall a b, e a b = true <-> a = b) ->
  forall l l', list_eqb e l l' = true <-> l = l'.
Proof.
  intros H. induction l as [|a l IH]; destruct l' as [|b l']; cbn; try (split; congruence).
  rewrite andb_true_iff, H, IH. split; [intros [-> ->]; reflexivity | intros [= -> ->]; auto].
Qed.
Lemma tup_eqb_eq a b : tup_eqb a b = true <-> a = b.
Proof. apply list_eqb_eq, Z.eqb_eq. Qed.
#[global] Instance KeyEq_tup : KeyEq (list Z). Proof. constructor. apply tup_eqb_eq. Qed.
#[global] Instance KeyEq_tup2 : KeyEq (list (list Z)).
Proof. constructor. apply list_eqb_eq, tup_eqb_eq. Qed.
#[global] Instance KeyEq_tup3 : KeyEq (list (list (list Z))).
Proof. constructor. apply list_eqb_eq, list_eqb_eq, tup_eqb_eq. Qed.

(** evaluation of the linear form [g] *)
Definition ev {K} (g : K -> Z) (d : dict K) : Z := sumf (fun p => snd p * g (fst p)) d.

Lemma ev_nil {K} (g : K -> Z) : ev g [] = 0. Proof. reflexivity. Qed.
Lemma ev_cons {K} (g : K -> Z) k v d : ev g ((k, v) :: d) = v * g k + ev g d.
Proof. reflexivity. Qed.
Lemma ev_add {K} (g h : K -> Z) d : ev (fun k => g k + h k) d = ev g d + ev h d.
Proof. unfold ev. rewrite <- sumf_add. apply sumf_ext. intros; ring. Qed.
Lemma ev_sub {K} (g h : K -> Z) d : ev (fun k => g k - h k) d = ev g d - ev h d.
Proof. unfold ev. rewrite <- sumf_sub. apply sumf_ext. intros; ring. Qed.
Lemma ev_opp {K} (g : K -> Z) d : ev (fun k => - g k) d = - ev g d.
Proof. unfold ev. rewrite <- sumf_opp. apply sumf_ext. intros; ring. Qed.
Lemma ev_scal {K} a (g : K -> Z) d : ev (fun k => a * g k) d = a * ev g d.
Proof. unfold ev. rewrite <- sumf_scal. apply sumf_ext. intros; ring. Qed.
Lemma ev_ext {K} (g h : K -> Z) d : (forall k v, In (k, v) d -> g k = h k) -> ev g d = ev h d.
Proof. intros H. apply sumf_ext. intros [k v] Hk. cbn. now rewrite (H k v). Qed.
Lemma ev_ext_all {K} (g h : K -> Z) d : (forall k, g k = h k) -> ev g d = ev h d.
Proof. intros H. apply ev_ext. auto. Qed.
Lemma ev_eqm {K} t (g h : K -> Z) d : (forall k v, In (k, v) d -> eqm t (g k) (h k)) -> eqm t (ev g d) (ev h d).
Proof. intros H. apply sumf_eqm. intros [k v] Hk. cbn. now rewrite (H k v). Qed.
Lemma ev_zero {K} (g : K -> Z) d : (forall k v, In (k, v) d -> g k = 0) -> ev g d = 0.
Proof. intros H. apply sumf_0. intros [k v] Hk. cbn. rewrite (H k v) by easy. ring. Qed.
Lemma ev_sumf {K B} (f : B -> K -> Z) l d : ev (fun k => sumf (fun b => f b k) l) d = sumf (fun b => ev (f b) d) l.
Proof.
  unfold ev. rewrite <- sumf_exch. apply sumf_ext. intros [k v] _. cbn. now rewrite sumf_scal.
Qed.
Lemma ev_app {K} (g : K -> Z) d e : ev g (d ++ e) = ev g d + ev g e.
Proof. apply sumf_app. Qed.
Lemma ev_map_key {K K'} (g : K' -> Z) (h : K -> K') d :
  ev g (map (fun p => (h (fst p), snd p)) d) = ev (fun k => g (h k)) d.
Proof. unfold ev. now rewrite sumf_map. Qed.
Lemma ev_map_val {K} (g : K -> Z) a d :
  ev g (map (fun p => (fst p, a * snd p)) d) = a * ev g d.
Proof. unfold ev. rewrite sumf_map, <- sumf_scal. apply sumf_ext. intros; cbn; ring. Qed.

Section Facts.
Context {K A : Type} `{KO : KeyOk K}.

Definition resp (g : K -> Z) : Prop := forall k k', keqb k k' = true -> g k = g k'.

(** linear forms that are well defined on the free module of the class *)
Definition adm (c : pycls K) (g : K -> Z) : Prop :=
  resp g /\ forall k, bad c k = Ok true -> g k = 0.

(** keys for which the degeneracy test does not raise *)
Definition okey (c : pycls K) (k : K) : Prop := exists b, bad c k = Ok b.

Lemma keqb_false_sym (k k' : K) : keqb k k' = false -> keqb k' k = false.
Proof. destruct (keqb k' k) eqn:E; [|reflexivity]. apply keqb_sym in E. congruence. Qed.
Lemma keqb_cong_r (a b k : K) : keqb a b = true -> keqb a k = keqb b k.
Proof.
  intros E. destruct (keqb a k) eqn:E1, (keqb b k) eqn:E2; try reflexivity.
  - apply keqb_sym in E. rewrite (keqb_trans _ _ _ E E1) in E2. congruence.
  - rewrite (keqb_trans _ _ _ E E2) in E1. congruence.
Qed.
Lemma keqb_cong_l (a b k : K) : keqb a b = true -> keqb k a = keqb k b.
Proof.
  intros E. destruct (keqb k a) eqn:E1, (keqb k b) eqn:E2; try reflexivity.
  - rewrite (keqb_trans _ _ _ E1 E) in E2. congruence.
  - apply keqb_sym in E. rewrite (keqb_trans _ _ _ E2 E) in E1. congruence.
Qed.

Definition ind (k0 : K) : K -> Z := fun k => if keqb k k0 then 1 else 0.
Lemma resp_ind k0 : resp (ind k0).
Proof. intros k k' E. unfold ind. now rewrite (keqb_cong_r _ _ _ E). Qed.

Lemma ev_dset g d k v : resp g -> ev g (dset d k v) = ev g d + (v - dget d k) * g k.
Proof.
  intros Hg. induction d as [|[k' v'] d IH]; cbn [dset dget].
  - rewrite !ev_cons, !ev_nil. ring.
  - destruct (keqb k' k) eqn:E.
    + rewrite !ev_cons. rewrite (Hg _ _ E). ring.
    + rewrite !ev_cons, IH. ring.
Qed.
Lemma ev_dupdate g d e : resp g -> ev g (dupdate d e) = ev g d + ev g e.
Proof.
  intros Hg. unfold dupdate. revert d. induction e as [|[k v] e IH]; intros d; cbn [fold_left fst snd].
  - rewrite ev_nil. ring.
  - rewrite IH, ev_dset, ev_cons by assumption. ring.
Qed.
Lemma ev_dsubtract g d e : resp g -> ev g (dsubtract d e) = ev g d - ev g e.
Proof.
  intros Hg. unfold dsubtract. revert d. induction e as [|[k v] e IH]; intros d; cbn [fold_left fst snd].
  - rewrite ev_nil. ring.
  - rewrite IH, ev_dset, ev_cons by assumption. ring.
Qed.

Lemma dget_notin d k : (forall k', In k' (dkeys d) -> keqb k' k = false) -> dget d k = 0.
Proof.
  induction d as [|[k' v'] d IH]; intros Hn; cbn; [reflexivity|].
  rewrite (Hn k') by now left. apply IH. intros k'' Hk. apply Hn. now right.
Qed.
Lemma dget_ind d k : kdistinct (dkeys d) -> ev (ind k) d = dget d k.
Proof.
  induction d as [|[k' v'] d IH]; cbn [dget]; [reflexivity|]. cbn [dkeys map fst kdistinct].
  intros [H1 H2]. rewrite ev_cons. unfold ind at 1. destruct (keqb k' k) eqn:E.
  - rewrite IH by assumption. rewrite dget_notin; [ring|]. intros k'' Hk.
    apply H1 in Hk. rewrite (keqb_cong_r _ _ _ E) in Hk. now apply keqb_false_sym.
  - rewrite IH by assumption. ring.
Qed.
Lemma dget_cong d k k' : keqb k k' = true -> dget d k = dget d k'.
Proof.
  intros E. induction d as [|[k1 v1] d IH]; cbn; [reflexivity|].
  rewrite (keqb_cong_l _ _ k1 E). now rewrite IH.
Qed.

Lemma dset_keys_in d k v k' : In k' (dkeys (dset d k v)) -> In k' (dkeys d) \/ k' = k.
Proof.
  induction d as [|[k1 v1] d IH]; cbn [dset dkeys map fst].
  - cbn. intuition.
  - destruct (keqb k1 k); cbn [map fst In]; [tauto|]. intros [->|H1]; [tauto|]. apply IH in H1. tauto.
Qed.
Lemma dset_distinct d k v : kdistinct (dkeys d) -> kdistinct (dkeys (dset d k v)).
Proof.
  induction d as [|[k1 v1] d IH]; cbn [dset dkeys map fst kdistinct].
  - cbn. tauto.
  - intros [H1 H2]. destruct (keqb k1 k) eqn:E; cbn [map fst kdistinct]; [tauto|]. split.
    + intros k' Hk. apply dset_keys_in in Hk. destruct Hk as [Hk | ->]; auto.
    + now apply IH.
Qed.
Lemma dupdate_distinct d e : kdistinct (dkeys d) -> kdistinct (dkeys (dupdate d e)).
Proof.
  unfold dupdate. revert d. induction e as [|[k v] e IH]; intros d Hd; cbn [fold_left]; [exact Hd|].
  apply IH, dset_distinct, Hd.
Qed.
Lemma dsubtract_distinct d e : kdistinct (dkeys d) -> kdistinct (dkeys (dsubtract d e)).
Proof.
  unfold dsubtract. revert d. induction e as [|[k v] e IH]; intros d Hd; cbn [fold_left]; [exact Hd|].
  apply IH, dset_distinct, Hd.
Qed.
Lemma dict_of_distinct l : kdistinct (dkeys (dict_of l)).
Proof.
  unfold dict_of. assert (H0 : kdistinct (dkeys (@nil (K * Z)))) by exact I. revert H0. generalize (@nil (K * Z)) as d.
  induction l as [|[k v] l IH]; intros d Hd; cbn [fold_left]; [exact Hd|].
  apply IH, dset_distinct, Hd.
Qed.
Lemma dset_fresh d k v : (forall k', In k' (dkeys d) -> keqb k' k = false) -> dset d k v = d ++ [(k, v)].
Proof.
  induction d as [|[k1 v1] d IH]; intros Hn; cbn [dset app]; [reflexivity|].
  rewrite (Hn k1) by now left. f_equal. apply IH. intros k' Hk. apply Hn. now right.
Qed.
Lemma dict_of_id_aux l : forall d, kdistinct (dkeys (d ++ l)) ->
  fold_left (fun d p => dset d (fst p) (snd p)) l d = d ++ l.
Proof.
  induction l as [|[k v] l IH]; intros d Hd; cbn [fold_left fst snd].
  - now rewrite app_nil_r.
  - rewrite dset_fresh.
    + rewrite IH; rewrite <- app_assoc; [reflexivity|exact Hd].
    + intros k' Hk. clear IH. induction d as [|[k1 v1] d IHd]; cbn [dkeys map fst In app] in *; [tauto|].
      cbn [kdistinct] in Hd. destruct Hd as [H1 H2]. destruct Hk as [->|Hk].
      * apply H1. unfold dkeys. rewrite map_app. apply in_or_app. right. now left.
      * now apply IHd.
Qed.
Lemma dict_of_id l : kdistinct (dkeys l) -> dict_of l = l.
Proof. intros H0. unfold dict_of. now rewrite dict_of_id_aux. Qed.
Lemma dset_In d k v k' v' : In (k', v') (dset d k v) -> In (k', v') d \/ (v' = v /\ keqb k' k = true).
Proof.
  induction d as [|[k1 v1] d IH]; cbn [dset].
  - intros [[= <- <-]|[]]. right. split; [reflexivity|apply keqb_refl].
  - destruct (keqb k1 k) eqn:E.
    + intros [[= <- <-]|Hi]; [right; auto | left; now right].
    + intros [Hi|Hi]; [left; now left|]. apply IH in Hi. destruct Hi; [left; now right | now right].
Qed.

(** predicates on keys compatible with key equality are preserved *)
Lemma dset_Forall (P : K -> Prop) d k v :
  (forall k', In k' (dkeys d) -> P k') -> P k -> forall k', In k' (dkeys (dset d k v)) -> P k'.
Proof. intros H1 H2 k' Hk. apply dset_keys_in in Hk. destruct Hk as [Hk | ->]; auto. Qed.
Lemma fold_dset_Forall (P : K -> Prop) (f : dict K -> K * Z -> Z) e : forall d,
  (forall k, In k (dkeys d) -> P k) -> (forall k, In k (dkeys e) -> P k) ->
  forall k, In k (dkeys (fold_left (fun d p => dset d (fst p) (f d p)) e d)) -> P k.
Proof.
  induction e as [|[k1 v1] e IH]; intros d Hd He k Hk; cbn [fold_left fst] in Hk; [auto|].
  eapply IH; [| |exact Hk].
  - apply dset_Forall; [exact Hd|]. apply He. now left.
  - intros k' Hk'. apply He. now right.
Qed.
Lemma dupdate_Forall (P : K -> Prop) d e :
  (forall k, In k (dkeys d) -> P k) -> (forall k, In k (dkeys e) -> P k) ->
  forall k, In k (dkeys (dupdate d e)) -> P k.
Proof. apply (fold_dset_Forall P (fun d p => snd p + dget d (fst p))). Qed.
Lemma dsubtract_Forall (P : K -> Prop) d e :
  (forall k, In k (dkeys d) -> P k) -> (forall k, In k (dkeys e) -> P k) ->
  forall k, In k (dkeys (dsubtract d e)) -> P k.
Proof. apply (fold_dset_Forall P (fun d p => dget d (fst p) - snd p)). Qed.
Lemma dict_of_Forall (P : K -> Prop) e :
  (forall k, In k (dkeys e) -> P k) -> forall k, In k (dkeys (dict_of e)) -> P k.
Proof. intros He. apply (fold_dset_Forall P (fun _ p => snd p)); [intros ? []|exact He]. Qed.

Variable c : pycls K.
Hypothesis Hc : cls_ok c.

Lemma mapM_ok {B C} (f : B -> res C) l : (forall b, In b l -> exists r, f b = Ok r) -> exists r, mapM f l = Ok r.
Proof.
  induction l as [|b l IH]; intros Hl; cbn; [eauto|].
  destruct (Hl b) as [r Hr]; [now left|]. rewrite Hr. cbn.
  destruct IH as [rs Hrs]; [intros; apply Hl; now right|]. rewrite Hrs. cbn. eauto.
Qed.

Definition zb (p : K * Z) : K * Z := (fst p, match bad c (fst p) with Ok true => 0 | _ => snd p end).

Lemma zero_bad_ok d : (forall k, In k (dkeys d) -> okey c k) -> zero_bad c d = Ok (map zb d).
Proof.
  induction d as [|[k v] d IH]; intros Hk; cbn; [reflexivity|].
  destruct (Hk k) as [b Hb]; [now left|]. rewrite Hb. cbn.
  unfold zero_bad in IH. rewrite IH by (intros; apply Hk; now right). cbn.
  unfold zb at 2. cbn. rewrite Hb. now destruct b.
Qed.
Lemma zero_bad_inv d d' : zero_bad c d = Ok d' -> forall k, In k (dkeys d) -> okey c k.
Proof.
  revert d'. induction d as [|[k v] d IH]; intros d' E k' Hk; [destruct Hk|].
  cbn in E. destruct (bad c k) as [b|] eqn:Eb; cbn in E; [|discriminate].
  destruct (mapM _ d) as [r|] eqn:Er; cbn in E; [|discriminate].
  destruct Hk as [<-|Hk]; [now exists b|]. eapply IH; eauto.
Qed.

Definition prefd (t : Z) (d : dict K) : dict K := strip (reduce t (map zb d)).
Lemma pref_ok t d : (forall k, In k (dkeys d) -> okey c k) -> pref c t d = Ok (prefd t d).
Proof. intros Hk. unfold pref. rewrite zero_bad_ok by assumption. reflexivity. Qed.
Lemma pref_inv t d d' : pref c t d = Ok d' -> d' = prefd t d /\ forall k, In k (dkeys d) -> okey c k.
Proof.
  intros E. unfold pref in E. destruct (zero_bad c d) as [d1|] eqn:E1; cbn in E; [|discriminate].
  pose proof (zero_bad_inv _ _ E1) as Hk. split; [|exact Hk].
  rewrite zero_bad_ok in E1 by assumption. unfold prefd. congruence.
Qed.

Lemma ev_strip g (d : dict K) : ev g (strip d) = ev g d.
Proof.
  unfold ev, strip. rewrite sumf_filter. apply sumf_ext. intros [k v] _. cbn.
  destruct (v =? 0) eqn:E; cbn; [|reflexivity]. apply Z.eqb_eq in E. subst. ring.
Qed.
Lemma ev_reduce t g (d : dict K) : eqm t (ev g (reduce t d)) (ev g d).
Proof.
  unfold reduce. destruct (t =? 0) eqn:E; [reflexivity|]. apply Z.eqb_neq in E.
  unfold ev. rewrite sumf_map. apply sumf_eqm. intros [k v] _. cbn. now rewrite eqm_mod.
Qed.
Lemma ev_zb g d : adm c g -> ev g (map zb d) = ev g d.
Proof.
  intros [_ Hg]. unfold ev. rewrite sumf_map. apply sumf_ext. intros [k v] _. unfold zb. cbn.
  destruct (bad c k) as [[]|] eqn:E; try reflexivity. rewrite (Hg k E). ring.
Qed.
Lemma ev_prefd t g d : adm c g -> eqm t (ev g (prefd t d)) (ev g d).
Proof. intros Hg. unfold prefd. rewrite ev_strip, ev_reduce, ev_zb by assumption. reflexivity. Qed.

Lemma kdistinct_sub (d d' : dict K) (f : K * Z -> K * Z) : (forall p, fst (f p) = fst p) ->
  dkeys (map f d) = dkeys d.
Proof. intros Hf. unfold dkeys. rewrite map_map. now apply map_ext. Qed.
Lemma kdistinct_filter p (d : dict K) : kdistinct (dkeys d) -> kdistinct (dkeys (filter p d)).
Proof.
  induction d as [|[k v] d IH]; cbn [dkeys map fst filter kdistinct]; [auto|]. intros [H1 H2].
  destruct (p (k, v)); [|auto]. cbn [map fst kdistinct]. split; [|auto].
  intros k' Hk. apply H1. unfold dkeys in *. apply in_map_iff in Hk. destruct Hk as (q & <- & Hq).
  apply filter_In in Hq. now apply in_map.
Qed.
Lemma prefd_canonical t d : 0 <= t -> kdistinct (dkeys d) -> (forall k, In k (dkeys d) -> okey c k) ->
  canonical c t (prefd t d).
Proof.
  intros Ht Hd Hk. split.
  - unfold prefd, strip. apply kdistinct_filter. unfold reduce.
    destruct (t =? 0); rewrite ?(kdistinct_sub _ d) by (intros []; reflexivity); try assumption.
  - intros k v Hin. unfold prefd, strip in Hin. apply filter_In in Hin. destruct Hin as [Hin Hv].
    cbn in Hv. apply negb_true_iff, Z.eqb_neq in Hv.
    assert (exists v0, In (k, v0) (map zb d) /\ (0 < t -> v = v0 mod t) /\ (v0 = 0 -> v = 0)) as (v0 & Hin0 & Hv0 & Hv00).
    { unfold reduce in Hin. destruct (t =? 0) eqn:E.
      - apply Z.eqb_eq in E. exists v. repeat split; [assumption|lia|auto].
      - apply Z.eqb_neq in E. apply in_map_iff in Hin. destruct Hin as ([k0 v0] & [= <- <-] & Hin). exists v0.
        repeat split; auto. intros ->. apply Zmod_0_l. }
    split.
    + split; [assumption|]. intros Ht'. specialize (Hv0 Ht'). pose proof (Z.mod_pos_bound v0 t Ht'). lia.
    + apply in_map_iff in Hin0. destruct Hin0 as ([k1 v1] & E & Hin0). unfold zb in E. cbn in E.
      injection E as <- E. destruct (Hk k1) as [b Hb].
      { unfold dkeys. now apply (in_map fst) in Hin0. }
      rewrite Hb in E. destruct b; [|assumption]. exfalso. apply Hv, Hv00. congruence.
Qed.
Lemma prefd_id t d : canonical c t d -> 0 <= t -> prefd t d = d.
Proof.
  intros [_ Hd] Ht. unfold prefd. replace (map zb d) with d.
  2:{ symmetry. rewrite <- (map_id d) at 2. apply map_ext_in. intros [k v] Hin. unfold zb; cbn.
      apply Hd in Hin. now rewrite (proj2 Hin). }
  replace (reduce t d) with d.
  2:{ unfold reduce. destruct (t =? 0) eqn:E; [reflexivity|]. apply Z.eqb_neq in E.
      symmetry. rewrite <- (map_id d) at 2. apply map_ext_in. intros [k v] Hin. cbn.
      apply Hd in Hin. destruct Hin as [[_ Hv] _]. rewrite Z.mod_small; [reflexivity|]. lia. }
  unfold strip. induction d as [|[k v] d IH]; cbn; [reflexivity|].
  destruct (v =? 0) eqn:E.
  - apply Z.eqb_eq in E. destruct (Hd k v) as [[Hv _] _]; [now left|]. congruence.
  - cbn. f_equal. apply IH. intros k' v' Hin. apply Hd. now right.
Qed.
Lemma canonical_okey t d : canonical c t d -> forall k, In k (dkeys d) -> okey c k.
Proof.
  intros [_ Hd] k Hk. unfold dkeys in Hk. apply in_map_iff in Hk. destruct Hk as ([k' v] & <- & Hin).
  exists false. now apply (Hd _ _ Hin).
Qed.
Lemma canonical_nil t : canonical c t [].
Proof. split; [exact I|]. intros k v []. Qed.

Lemma okey_cong k k' : keqb k k' = true -> okey c k -> okey c k'.
Proof. intros E [b Hb]. exists b. now rewrite <- (proj1 Hc _ _ E). Qed.

Lemma convert_ok d : (forall k, In k (dkeys d) -> okey c k) ->
  (forall k, In k (dkeys (convert c d)) -> okey c k) /\ kdistinct (dkeys (convert c d)).
Proof.
  intros Hk. split; [|apply dict_of_distinct].
  apply dict_of_Forall. intros k Hin. unfold dkeys in Hin. rewrite map_map in Hin.
  apply in_map_iff in Hin. destruct Hin as ([k' v] & <- & Hin). cbn.
  apply okey_cong with k'; [apply keqb_sym, (proj2 Hc)|]. apply Hk. unfold dkeys. now apply (in_map fst) in Hin.
Qed.
Lemma kdistinct_conv d : kdistinct (dkeys d) -> kdistinct (dkeys (map (fun p => (ckey c (fst p), snd p)) d)).
Proof.
  induction d as [|[k v] d IH]; cbn [dkeys map fst kdistinct]; [auto|]. intros [H1 H2]. split; [|auto].
  intros k' Hk. rewrite map_map in Hk. apply in_map_iff in Hk. destruct Hk as ([k1 v1] & <- & Hin). cbn.
  rewrite (keqb_cong_r _ k) by apply (proj2 Hc). rewrite (keqb_cong_l _ k1) by apply (proj2 Hc).
  apply H1. unfold dkeys. now apply (in_map fst) in Hin.
Qed.
Lemma ev_convert g d : resp g -> kdistinct (dkeys d) -> ev g (convert c d) = ev g d.
Proof.
  intros Hg Hd. unfold convert. rewrite dict_of_id by now apply kdistinct_conv.
  rewrite ev_map_key. apply ev_ext_all. intros k. apply Hg, (proj2 Hc).
Qed.

(** *** Denotation: [y] is a canonical element of torsion [t] whose value at
    every admissible linear form [g] is [F g] modulo [t]. *)
Definition den (t : Z) (a : A) (F : (K -> Z) -> Z) (y : elt K A) : Prop :=
  torsion y = t /\ attr y = a /\ canonical c t (data y) /\
  forall g, adm c g -> eqm t (ev g (data y)) (F g).

Lemma den_wf t a F y : 0 <= t -> den t a F y -> wf c y.
Proof. intros Ht (<- & _ & H1 & _). split; assumption. Qed.
Lemma den_self x : wf c x -> den (torsion x) (attr x) (fun g => ev g (data x)) x.
Proof. intros [_ Hx]. split; [|split; [|split]]; auto. reflexivity. Qed.
Lemma den_ext t a F F' y : (forall g, adm c g -> eqm t (F g) (F' g)) -> den t a F y -> den t a F' y.
Proof. intros HF (H1 & H2 & H3 & H4). split; [|split; [|split]]; auto. intros g Hg. now rewrite H4, HF. Qed.
Lemma den_ev t a F y g : den t a F y -> adm c g -> eqm t (ev g (data y)) (F g).
Proof. intros (_ & _ & _ & H1) Hg. auto. Qed.

Lemma dt_ok_div dt t : dt_ok dt t -> (t | dt).
Proof. intros [_ [-> | [_ H1]]]; [apply Z.divide_0_r | exact H1]. Qed.

Lemma create_den dt t (x : elt K A) d :
  0 <= t -> dt_ok dt t -> torsion x = t ->
  kdistinct (dkeys d) -> (forall k, In k (dkeys d) -> okey c k) ->
  returns (create dt c x d) (den t (attr x) (fun g => ev g d)).
Proof.
  intros Ht Hdt Hx Hd Hk. pose proof (proj1 Hdt) as Hdt0. unfold create. destruct (convert_ok d Hk) as [Hk1 Hd1].
  rewrite pref_ok by assumption. cbn.
  pose proof (prefd_canonical dt _ Hdt0 Hd1 Hk1) as Hcan.
  rewrite pref_ok by (eapply canonical_okey; eauto). cbn. apply returns_ok. rewrite Hx.
  split; [|split; [|split]]; auto.
  - apply prefd_canonical; [assumption|apply Hcan|eapply canonical_okey; eauto].
  - intros g Hg. cbn [data]. rewrite ev_prefd by assumption.
    rewrite (eqm_trans_div t dt _ _ (dt_ok_div _ _ Hdt) (ev_prefd dt g _ Hg)).
    rewrite ev_convert; [reflexivity | apply Hg | assumption].
Qed.

Lemma new_den dt t (ot : option Z) (a : A) d :
  t = match ot with Some t => t | None => dt end -> 0 <= t ->
  kdistinct (dkeys d) -> (forall k, In k (dkeys d) -> okey c k) ->
  returns (new dt c d ot a) (den t a (fun g => ev g d)).
Proof.
  intros Et Ht Hd Hk. unfold new. destruct (convert_ok d Hk) as [Hk1 Hd1].
  rewrite <- Et. rewrite pref_ok by assumption. cbn. apply returns_ok.
  split; [|split; [|split]]; auto.
  - now apply prefd_canonical.
  - intros g Hg. cbn [data]. rewrite ev_prefd by assumption. rewrite ev_convert; [reflexivity|apply Hg|assumption].
Qed.

Lemma zero_den dt t (x : elt K A) : 0 <= t -> dt_ok dt t -> torsion x = t ->
  returns (zero dt c x) (den t (attr x) (fun _ => 0)).
Proof.
  intros Ht H1 H2. unfold zero. eapply returns_mono; [apply create_den with (t := t); auto; [exact I | intros k []]|].
  intros y Hy. eapply den_ext; [|exact Hy]. reflexivity.
Qed.
Lemma zero_data dt (x : elt K A) : zero dt c x = Ok (mkElt [] (torsion x) (attr x)).
Proof.
  unfold zero, create, convert. cbn. unfold reduce. cbn. destruct (dt =? 0); cbn; unfold reduce; now destruct (torsion x =? 0).
Qed.

Lemma iadd_den t a b F G (x y : elt K A) : 0 <= t -> den t a F x -> den t b G y ->
  returns (iadd c x y) (den t a (fun g => F g + G g)).
Proof.
  intros Ht (Hx1 & Hx2 & Hx3 & Hx4) (Hy1 & Hy2 & Hy3 & Hy4). unfold iadd.
  rewrite Hx1, Hy1, Z.eqb_refl. cbn [negb].
  assert (Hk : forall k, In k (dkeys (dupdate (data x) (data y))) -> okey c k).
  { apply dupdate_Forall; eapply canonical_okey; eauto. }
  rewrite pref_ok by assumption. cbn. apply returns_ok.
  split; [|split; [|split]]; auto.
  - apply prefd_canonical; auto. apply dupdate_distinct, Hx3.
  - intros g Hg. cbn [data]. rewrite ev_prefd by assumption. rewrite ev_dupdate by apply Hg.
    now rewrite Hx4, Hy4.
Qed.
Lemma isub_den t a b F G (x y : elt K A) : 0 <= t -> den t a F x -> den t b G y ->
  returns (isub c x y) (den t a (fun g => F g - G g)).
Proof.
  intros Ht (Hx1 & Hx2 & Hx3 & Hx4) (Hy1 & Hy2 & Hy3 & Hy4). unfold isub.
  rewrite Hx1, Hy1, Z.eqb_refl. cbn [negb].
  assert (Hk : forall k, In k (dkeys (dsubtract (data x) (data y))) -> okey c k).
  { apply dsubtract_Forall; eapply canonical_okey; eauto. }
  rewrite pref_ok by assumption. cbn. apply returns_ok.
  split; [|split; [|split]]; auto.
  - apply prefd_canonical; auto. apply dsubtract_distinct, Hx3.
  - intros g Hg. cbn [data]. rewrite ev_prefd by assumption. rewrite ev_dsubtract by apply Hg.
    now rewrite Hx4, Hy4.
Qed.

Section Dt.
Variables dt t : Z.
Hypothesis Ht : 0 <= t.
Hypothesis Hdt : dt_ok dt t.

Lemma add_den a b F G (x y : elt K A) : den t a F x -> den t b G y ->
  returns (add dt c x y) (den t a (fun g => F g + G g)).
Proof.
  intros Hx Hy. pose proof Hx as (Hx1 & Hx2 & Hx3 & Hx4). pose proof Hy as (Hy1 & _ & Hy3 & Hy4). unfold add.
  rewrite Hx1, Hy1, Z.eqb_refl. cbn [negb].
  eapply returns_bind. { apply create_den with (t := t); eauto; [apply Hx3|eapply canonical_okey; eauto]. }
  intros z (Hz1 & Hz2 & Hz3 & Hz4).
  assert (Hk : forall k, In k (dkeys (dupdate (data z) (data y))) -> okey c k).
  { apply dupdate_Forall; eapply canonical_okey; eauto. }
  rewrite pref_ok by assumption. cbn. apply returns_ok.
  split; [|split; [|split]]; auto.
  - apply prefd_canonical; auto. apply dupdate_distinct, Hz3.
  - intros g Hg. cbn [data]. rewrite ev_prefd by assumption. rewrite ev_dupdate by apply Hg.
    rewrite Hz4, Hy4, Hx4 by assumption. reflexivity.
Qed.
Lemma sub_den a b F G (x y : elt K A) : den t a F x -> den t b G y ->
  returns (sub dt c x y) (den t a (fun g => F g - G g)).
Proof.
  intros Hx Hy. pose proof Hx as (Hx1 & Hx2 & Hx3 & Hx4). pose proof Hy as (Hy1 & _ & Hy3 & Hy4). unfold sub.
  rewrite Hx1, Hy1, Z.eqb_refl. cbn [negb].
  eapply returns_bind. { apply create_den with (t := t); eauto; [apply Hx3|eapply canonical_okey; eauto]. }
  intros z (Hz1 & Hz2 & Hz3 & Hz4).
  assert (Hk : forall k, In k (dkeys (dsubtract (data z) (data y))) -> okey c k).
  { apply dsubtract_Forall; eapply canonical_okey; eauto. }
  rewrite pref_ok by assumption. cbn. apply returns_ok.
  split; [|split; [|split]]; auto.
  - apply prefd_canonical; auto. apply dsubtract_distinct, Hz3.
  - intros g Hg. cbn [data]. rewrite ev_prefd by assumption. rewrite ev_dsubtract by apply Hg.
    rewrite Hz4, Hy4, Hx4 by assumption. reflexivity.
Qed.
Lemma dkeys_map_val (f : K * Z -> Z) (d : dict K) : dkeys (map (fun p => (fst p, f p)) d) = dkeys d.
Proof. unfold dkeys. rewrite map_map. now apply map_ext. Qed.
Lemma scale_den a F n (x : elt K A) : den t a F x ->
  returns (scale dt c n x) (den t a (fun g => n * F g)).
Proof.
  intros (Hx1 & Hx2 & Hx3 & Hx4). unfold scale. rewrite <- Hx2.
  eapply returns_mono.
  { apply create_den with (t := t); eauto; rewrite (dkeys_map_val (fun p => n * snd p)); [apply Hx3|eapply canonical_okey; eauto]. }
  intros y Hy. eapply den_ext; [|exact Hy]. intros g Hg. cbn. rewrite ev_map_val. now rewrite Hx4.
Qed.
Lemma neg_den a F (x : elt K A) : den t a F x ->
  returns (neg dt c x) (den t a (fun g => - F g)).
Proof.
  intros Hx. unfold neg. eapply returns_mono; [apply scale_den; eassumption|].
  intros y Hy. eapply den_ext; [|exact Hy]. intros g Hg. cbn beta. now replace (-1 * F g) with (- F g) by ring.
Qed.

Lemma add_term_den a F (x answer : elt K A) k v :
  torsion x = t -> den t a F answer -> okey c k ->
  returns (add_term dt c x answer k v) (den t a (fun g => F g + v * g k)).
Proof.
  intros Hx Ha Hk. unfold add_term. eapply returns_bind.
  { apply create_den with (t := t); auto; [split; [intros k' [] | exact I] | intros k' [<-|[]]; exact Hk]. }
  intros y Hy. eapply returns_mono; [eapply (iadd_den t); [exact Ht|exact Ha|exact Hy]|].
  intros z Hz. eapply den_ext; [|exact Hz]. intros g Hg. cbn beta. rewrite ev_cons, ev_nil. now rewrite Z.add_0_r.
Qed.

(** loops that accumulate into the answer *)
Lemma for_den {B} (l : list B) (body : elt K A -> B -> res (elt K A)) (Phi : B -> (K -> Z) -> Z) a :
  (forall b F y, In b l -> den t a F y -> returns (body y b) (den t a (fun g => F g + Phi b g))) ->
  forall F y, den t a F y -> returns (for_ l y body) (den t a (fun g => F g + sumf (fun b => Phi b g) l)).
Proof.
  induction l as [|b l IH]; intros Hb F y Hy; cbn [for_].
  - apply returns_ok. eapply den_ext; [|exact Hy]. intros g _. rewrite sumf_nil. now rewrite Z.add_0_r.
  - eapply returns_bind; [apply Hb; [now left|exact Hy]|]. intros z Hz.
    eapply returns_mono; [apply IH with (F := fun g => F g + Phi b g); [|exact Hz]|].
    + intros b' F' y' Hin Hy'. apply Hb; [now right|exact Hy'].
    + intros w Hw. eapply den_ext; [|exact Hw]. intros g _. cbn beta. rewrite sumf_cons. now rewrite Z.add_assoc.
Qed.
End Dt.

Lemma set_torsion_den (x : elt K A) t' : wf c x -> 0 <= t' ->
  returns (set_torsion c x t') (den t' (attr x) (fun g => ev g (data x))).
Proof.
  intros [Hx0 Hx] Ht'. unfold set_torsion.
  rewrite pref_ok by (eapply canonical_okey; eauto). cbn. apply returns_ok.
  split; [|split; [|split]]; auto.
  - apply prefd_canonical; [assumption|apply Hx|eapply canonical_okey; eauto].
  - intros g Hg. cbn [data]. now rewrite ev_prefd.
Qed.

(** equality of canonical elements *)
Lemma adm_ind k : bad c k = Ok false -> adm c (ind k).
Proof.
  intros Hk. split; [apply resp_ind|]. intros k' Hk'. unfold ind.
  destruct (keqb k' k) eqn:E; [|reflexivity]. rewrite (proj1 Hc _ _ E) in Hk'. congruence.
Qed.
Lemma dget_range t d k : 0 < t -> canonical c t d -> 0 <= dget d k < t.
Proof.
  intros Ht [_ Hd]. induction d as [|[k' v] d IH]; cbn; [lia|].
  destruct (keqb k' k).
  - destruct (Hd k' v) as [[_ Hv] _]; [now left|]. lia.
  - apply IH. intros k1 v1 Hin. apply Hd. now right.
Qed.
Lemma canonical_eq t d e : 0 <= t -> canonical c t d -> canonical c t e ->
  (forall g, adm c g -> eqm t (ev g d) (ev g e)) -> dict_eqb d e = true.
Proof.
  intros Ht Hd He Heq. unfold dict_eqb. apply forallb_forall. intros k Hk. apply Z.eqb_eq.
  assert (Hb : bad c k = Ok false).
  { apply in_app_or in Hk. unfold dkeys in Hk.
    destruct Hk as [Hk|Hk]; apply in_map_iff in Hk; destruct Hk as ([k' v] & <- & Hin).
    - now apply (proj2 Hd) in Hin.
    - now apply (proj2 He) in Hin. }
  specialize (Heq _ (adm_ind k Hb)). rewrite !dget_ind in Heq by (apply Hd || apply He).
  destruct (Z.eq_dec t 0) as [->|Hn]; [now apply eqm_0 in Heq|].
  apply eqm_small with t; auto; try lia; apply dget_range; auto; lia.
Qed.
Lemma den_eqb t a b F G x y : 0 <= t -> den t a F x -> den t b G y ->
  (forall g, adm c g -> eqm t (F g) (G g)) -> elt_eqb x y = true.
Proof.
  intros Ht (_ & _ & Hx & Hx') (_ & _ & Hy & Hy') Heq. apply canonical_eq with t; auto.
  intros g Hg. rewrite Hx', Hy' by assumption. now apply Heq.
Qed.

Lemma dict_eqb_dget d e : dict_eqb d e = true <-> (forall k : K, dget d k = dget e k).
Proof.
  unfold dict_eqb. rewrite forallb_forall. split.
  - intros H0 k. 
    destruct (existsb (fun k' => keqb k' k) (dkeys d ++ dkeys e)) eqn:E.
    + apply existsb_exists in E. destruct E as (k' & Hin & E). apply H0, Z.eqb_eq in Hin.
      now rewrite <- !(dget_cong _ _ _ E).
    + assert (forall k', In k' (dkeys d ++ dkeys e) -> keqb k' k = false) as Hn.
      { intros k' Hin. destruct (keqb k' k) eqn:E'; [|reflexivity].
        assert (existsb (fun k' => keqb k' k) (dkeys d ++ dkeys e) = true); [|congruence].
        apply existsb_exists. eauto. }
      rewrite !dget_notin; [reflexivity| |]; intros k' Hin; apply Hn, in_or_app; auto.
  - intros H0 k _. apply Z.eqb_eq, H0.
Qed.
Lemma dget_in d k v : kdistinct (dkeys d) -> In (k, v) d -> dget d k = v.
Proof.
  induction d as [|[k' v'] d IH]; cbn [dkeys map fst kdistinct dget In]; [tauto|].
  intros [H1 H2] [[= -> ->]|Hin]; [now rewrite keqb_refl|].
  rewrite H1; [auto|]. now apply (in_map fst) in Hin.
Qed.
Lemma dict_eqb_ev g d e : resp g -> kdistinct (dkeys d) -> kdistinct (dkeys e) -> dict_eqb d e = true -> ev g d = ev g e.
Proof.
  intros Hg Hd He Heq. rewrite dict_eqb_dget in Heq.
  assert (ev g (dsubtract d e) = 0) as H0.
  { assert (Hz : forall k, dget (dsubtract d e) k = 0).
    { intros k. rewrite <- dget_ind by now apply dsubtract_distinct.
      rewrite ev_dsubtract by apply resp_ind. rewrite !dget_ind by assumption. rewrite Heq. ring. }
    pose proof (dsubtract_distinct _ e Hd) as Hds. apply sumf_0. intros [k v] Hin. cbn.
    rewrite <- (dget_in _ _ _ Hds Hin), Hz. ring. }
  rewrite ev_dsubtract in H0 by assumption. lia.
Qed.
End Facts.

(** Boolean check of well-formedness, for the examples. *)
Definition wfb {K A} `{PyKey K} (c : pycls K) (x : elt K A) : bool :=
  (0 <=? torsion x) &&
  (fix go (l : list K) := match l with
                          | [] => true
                          | k :: l' => forallb (fun k' => negb (keqb k k')) l' && go l'
                          end) (dkeys (data x)) &&
  forallb (fun p => negb (snd p =? 0) && ((torsion x =? 0) || ((0 <? snd p) && (snd p <? torsion x))) &&
                    match bad c (fst p) with Ok b => negb b | Err _ => false end) (data x).
Lemma wfb_wf {K A} `{PyKey K} (c : pycls K) (x : elt K A) : wfb c x = true -> wf c x.
Proof.
  unfold wfb, wf, canonical. rewrite !andb_true_iff. intros [[E1 E2] E3]. split; [lia|]. split.
  - revert E2. induction (dkeys (data x)) as [|k l IH]; [reflexivity|]. rewrite andb_true_iff.
    intros [F1 F2]. split; [|now apply IH]. intros k' Hk'. rewrite forallb_forall in F1.
    apply F1 in Hk'. now destruct (keqb k k').
  - intros k v Hin. rewrite forallb_forall in E3. apply E3 in Hin. cbn in Hin.
    rewrite !andb_true_iff in Hin. destruct Hin as [[F1 F2] F3]. unfold canon_coef. split; [lia|].
    destruct (bad c k) as [[]|]; [discriminate|reflexivity|discriminate].
Qed.
#[global] Instance KeyOk_Z : KeyEq Z. Proof. constructor. apply Z.eqb_eq. Qed.
Lemma cls_ok_keyeq {K} `{KeyEq K} (c : pycls K) : (forall k, ckey c k = k) -> cls_ok c.
Proof.
  intros Hk. split.
  - intros k k' E. apply keqb_eq in E. congruence.
  - intros k. rewrite Hk. now apply keqb_eq.
Qed.
