(** * More methods inherited from Counter: order, in-place multiset operations, elements, total (C89) *)
From Verif Require Import PyBase Dict FreeModule Symmetric Simplicial Cubical Surjection BarrattEccles Inherited Eqm Spec FreeModuleFacts FreeModuleLaws ListFacts ClassFacts InhLaws.

Section F.
Context {K A : Type} `{KO : KeyOk K}.
Lemma all_keys (R : Z -> Z -> Prop) (r : Z -> Z -> bool) (d e : dict K) : (forall a b, r a b = true <-> R a b) -> R 0 0 ->
  (forallb (fun k => r (dget d k) (dget e k)) (dkeys d ++ dkeys e) = true <-> forall k, R (dget d k) (dget e k)).
Proof.
  intros Hr H00. rewrite forallb_forall. split.
  - intros H0 k. destruct (existsb (fun k' => keqb k' k) (dkeys d ++ dkeys e)) eqn:E.
    + apply existsb_exists in E. destruct E as (k' & Hin & E). apply H0, Hr in Hin. now rewrite <- !(dget_cong _ _ _ E).
    + assert (forall k', In k' (dkeys d ++ dkeys e) -> keqb k' k = false) as Hn.
      { intros k' Hin. destruct (keqb k' k) eqn:E'; [|reflexivity].
        assert (existsb (fun k' => keqb k' k) (dkeys d ++ dkeys e) = true); [|congruence]. apply existsb_exists. eauto. }
      rewrite !dget_notin; [exact H00| |]; intros k' Hin; apply Hn, in_or_app; auto.
  - intros H0 k _. apply Hr, H0.
Qed.
Lemma keep_get (d : dict K) k : kdistinct (dkeys d) -> dget (keep_positive d) k = Z.max 0 (dget d k).
Proof.
  induction d as [|[k1 v1] d IH]; intros Hd; [reflexivity|]. cbn [dkeys map fst kdistinct] in Hd. destruct Hd as [H1 H2].
  cbn [keep_positive filter snd dget]. destruct (Z.ltb_spec 0 v1); cbn [dget].
  - destruct (keqb k1 k) eqn:E; [lia|]. now apply IH.
  - fold (keep_positive d). rewrite IH by exact H2. destruct (keqb k1 k) eqn:E; [|reflexivity].
    rewrite (dget_notin d k); [lia|]. intros k' Hin. apply H1 in Hin. destruct (keqb k' k) eqn:E1; [|reflexivity].
    rewrite (keqb_trans k1 k k') in Hin; [discriminate|assumption|now apply keqb_sym].
Qed.
Lemma keep_distinct (d : dict K) : kdistinct (dkeys d) -> kdistinct (dkeys (keep_positive d)).
Proof.
  induction d as [|[k1 v1] d IH]; intros Hd; [exact I|]. cbn [dkeys map fst kdistinct] in Hd. destruct Hd as [H1 H2].
  cbn [keep_positive filter snd]. destruct (0 <? v1); [|now apply IH]. cbn [dkeys map fst kdistinct]. split; [|now apply IH].
  intros k' Hin. apply H1. apply in_map_iff in Hin. destruct Hin as (p & <- & Hin). apply filter_In in Hin. apply in_map, Hin.
Qed.
Lemma ior_fold (e : dict K) : kdistinct (dkeys e) -> forall d k,
  dget (fold_left (fun d p => if dget d (fst p) <? snd p then dset d (fst p) (snd p) else d) e d) k =
  if dmem e k then Z.max (dget d k) (dget e k) else dget d k.
Proof.
  induction e as [|[k1 v1] e IH]; intros Hd d k; [reflexivity|]. cbn [dkeys map fst kdistinct] in Hd. destruct Hd as [H1 H2].
  cbn [fold_left fst snd]. rewrite IH by exact H2. change (dmem ((k1, v1) :: e) k) with (keqb k1 k || dmem e k). cbn [dget].
  destruct (keqb k1 k) eqn:E; cbn [orb].
  - assert (dmem e k = false) as ->.
    { unfold dmem. apply not_true_is_false. intros Hx. apply existsb_exists in Hx. destruct Hx as (k' & Hin & Ek).
      apply H1 in Hin. rewrite (keqb_trans k1 k k') in Hin; [discriminate|assumption|apply keqb_sym; assumption]. }
    rewrite (dget_cong d _ _ E). destruct (Z.ltb_spec (dget d k) v1); [rewrite dget_dset, E|]; lia.
  - assert (dget (if dget d k1 <? v1 then dset d k1 v1 else d) k = dget d k) as ->; [|reflexivity].
    destruct (dget d k1 <? v1); [|reflexivity]. now rewrite dget_dset, E.
Qed.
Lemma fold_if_Forall (P : K -> Prop) (f : dict K -> K * Z -> bool) (w : K * Z -> Z) (e : dict K) : forall d,
  (forall k, In k (dkeys d) -> P k) -> (forall k, In k (dkeys e) -> P k) ->
  forall k, In k (dkeys (fold_left (fun d p => if f d p then dset d (fst p) (w p) else d) e d)) -> P k.
Proof.
  induction e as [|[k1 v1] e IH]; intros d Hd He k Hk; cbn [fold_left fst] in Hk; [auto|].
  eapply IH; [| |exact Hk].
  - destruct (f d (k1, v1)); [|exact Hd]. intros k' Hk'. apply dset_keys_in in Hk'. destruct Hk' as [Hk' | ->]; [auto|]. apply He. now left.
  - intros k' Hk'. apply He. now right.
Qed.
Lemma fold_if_distinct (f : dict K -> K * Z -> bool) (w : K * Z -> Z) (e : dict K) : forall d,
  kdistinct (dkeys d) -> kdistinct (dkeys (fold_left (fun d p => if f d p then dset d (fst p) (w p) else d) e d)).
Proof.
  induction e as [|[k1 v1] e IH]; intros d Hd; [exact Hd|]. cbn [fold_left]. apply IH. destruct (f d (k1, v1)); [now apply dset_distinct|exact Hd].
Qed.
Lemma canon_keys (c : pycls K) t (d : dict K) k : canonical c t d -> In k (dkeys d) -> bad c k = Ok false.
Proof. intros [_ Hb] Hin. apply in_map_iff in Hin. destruct Hin as ([k' v] & <- & Hin). apply (Hb _ _ Hin). Qed.
Lemma canon_get (c : pycls K) t (d : dict K) k : canonical c t d -> dget d k = 0 \/ canon_coef t (dget d k).
Proof.
  intros [_ Hb]. induction d as [|[k1 v1] d IH]; [now left|]. cbn [dget]. destruct (keqb k1 k).
  - right. apply (Hb k1 v1). now left.
  - apply IH. intros. apply Hb. now right.
Qed.
Lemma keep_wf (c : pycls K) t (d : dict K) : kdistinct (dkeys d) -> (forall k, In k (dkeys d) -> bad c k = Ok false) ->
  (forall k, 0 < dget d k -> canon_coef t (dget d k)) -> canonical c t (keep_positive d).
Proof.
  intros Hd Hk Hv. split; [now apply keep_distinct|]. intros k v Hin. apply filter_In in Hin. destruct Hin as [Hin Hp].
  cbn [snd] in Hp. apply Z.ltb_lt in Hp. split; [|apply Hk; now apply (in_map fst) in Hin].
  rewrite <- (dget_in _ _ _ Hd Hin) in Hp |- *. now apply Hv.
Qed.
End F.

(** #C89_order# [x <= y], [x < y], [x >= y], [x > y] compare all the coefficients as integers, also those of
    the keys that occur in only one of the elements; [<] is [<=] with one strict inequality. *)
Lemma C89_order_l {K A} `{KeyOk K} (x y : elt K A) :
  (counter_le (data x) (data y) = true <-> forall k, dget (data x) k <= dget (data y) k) /\
  (counter_ge (data x) (data y) = true <-> forall k, dget (data y) k <= dget (data x) k) /\
  (counter_lt (data x) (data y) = true <->
     (forall k, dget (data x) k <= dget (data y) k) /\ exists k, dget (data x) k < dget (data y) k) /\
  (counter_gt (data x) (data y) = true <->
     (forall k, dget (data y) k <= dget (data x) k) /\ exists k, dget (data y) k < dget (data x) k).
Proof.
  assert (Le : forall d e : dict K, counter_le d e = true <-> forall k, dget d k <= dget e k).
  { intros d e. apply (all_keys Z.le Z.leb d e); [apply Z.leb_le|lia]. }
  assert (Ge : forall d e : dict K, counter_ge d e = true <-> forall k, dget e k <= dget d k).
  { intros d e. apply (all_keys (fun a b => b <= a) (fun a b => b <=? a) d e); [intros; apply Z.leb_le|lia]. }
  assert (Ne : forall d e : dict K, dict_eqb d e = false <-> exists k, dget d k <> dget e k).
  { intros d e. split.
    - intros E. unfold dict_eqb in E. destruct (existsb (fun k => negb (dget d k =? dget e k)) (dkeys d ++ dkeys e)) eqn:X.
      + apply existsb_exists in X. destruct X as (k & _ & X). apply negb_true_iff, Z.eqb_neq in X. eauto.
      + exfalso. apply not_true_iff_false in E. apply E. apply forallb_forall. intros k Hin.
        destruct (dget d k =? dget e k) eqn:Y; [reflexivity|]. apply not_true_iff_false in X. destruct X. apply existsb_exists. exists k. now rewrite Y.
    - intros [k Hk]. apply not_true_is_false. intros E. apply dict_eqb_dget with (k := k) in E. tauto. }
  split; [apply Le|]. split; [apply Ge|]. split.
  - unfold counter_lt. rewrite andb_true_iff, negb_true_iff, Le, Ne. split; intros [H1 [k Hk]]; (split; [exact H1|]); exists k; specialize (H1 k); lia.
  - unfold counter_gt. rewrite andb_true_iff, negb_true_iff, Ge, Ne. split; intros [H1 [k Hk]]; (split; [exact H1|]); exists k; specialize (H1 k); lia.
Qed.

(** #C89_order_add# Over the integers, and only there, this is an order of the module: adding the same
    element to both sides keeps [<=]. *)
Lemma C89_order_add_l {K A} `{KeyOk K} (c : pycls K) (dt : Z) (x y z : elt K A) :
  cls_ok c -> wf c x -> wf c y -> wf c z -> torsion x = 0 -> torsion y = 0 -> torsion z = 0 -> dt_ok dt 0 ->
  exists p q, add dt c x z = Ok p /\ add dt c y z = Ok q /\ counter_le (data p) (data q) = counter_le (data x) (data y).
Proof.
  intros Hc Hx Hy Hz Tx Ty Tz Hdt.
  assert (G : forall a : elt K A, wf c a -> torsion a = 0 -> exists p, add dt c a z = Ok p /\ forall k, dget (data p) k = dget (data a) k + dget (data z) k).
  { intros a Ha Ta. pose proof (den_self c a Ha) as Da. pose proof (den_self c z Hz) as Dz. rewrite Ta in Da. rewrite Tz in Dz.
    destruct (add_den c Hc dt 0 ltac:(lia) Hdt _ _ _ _ a z Da Dz) as (p & Ep & Dp). exists p. split; [exact Ep|]. intros k.
    destruct (bad c k) as [[|]|e] eqn:B.
    - rewrite !dget_notin; [reflexivity| | |]; intros k' Hk'; (destruct (keqb k' k) eqn:E; [|reflexivity]); exfalso; apply (proj1 Hc) in E.
      1: apply (canon_keys c (torsion z) _ _ (proj2 Hz)) in Hk'. 2: apply (canon_keys c (torsion a) _ _ (proj2 Ha)) in Hk'.
      3: destruct Dp as (_ & _ & Dp & _); apply (canon_keys c 0 _ _ Dp) in Hk'. all: congruence.
    - destruct Dp as (_ & _ & Cp & Dp). specialize (Dp (ind k)). rewrite !dget_ind in Dp by (apply Cp || apply Ha || apply Hz).
      assert (adm c (ind k)) as Ad. { split; [apply resp_ind|]. intros k' B'. unfold ind. destruct (keqb k' k) eqn:E; [|reflexivity]. apply (proj1 Hc) in E. congruence. }
      apply Dp in Ad. destruct Ad as [q Hq]. lia.
    - rewrite !dget_notin; [reflexivity| | |]; intros k' Hk'; (destruct (keqb k' k) eqn:E; [|reflexivity]); exfalso; apply (proj1 Hc) in E.
      1: apply (canon_keys c (torsion z) _ _ (proj2 Hz)) in Hk'. 2: apply (canon_keys c (torsion a) _ _ (proj2 Ha)) in Hk'.
      3: destruct Dp as (_ & _ & Dp & _); apply (canon_keys c 0 _ _ Dp) in Hk'. all: congruence. }
  destruct (G x Hx Tx) as (p & Ep & Hp). destruct (G y Hy Ty) as (q & Eq & Hq). exists p, q. split; [exact Ep|]. split; [exact Eq|].
  apply eq_true_iff_eq. rewrite (proj1 (C89_order_l p q)), (proj1 (C89_order_l x y)).
  split; intros H1 k; specialize (H1 k); rewrite Hp, Hq in *; lia.
Qed.

(** #C89_inplace# [x |= y] and [x &= y] set the coefficients to the maximum and minimum (cut at 0) and keep the
    attributes of [x]; for elements over the same ring the result is again a normal form. *)
Lemma C89_inplace_l {K A} `{KeyOk K} (c : pycls K) (x y : elt K A) :
  wf c x -> wf c y ->
  (forall k, dget (data (ior x y)) k = Z.max 0 (Z.max (dget (data x) k) (dget (data y) k))) /\
  (forall k, dget (data (iand x y)) k = Z.max 0 (Z.min (dget (data x) k) (dget (data y) k))) /\
  torsion (ior x y) = torsion x /\ attr (ior x y) = attr x /\
  torsion (iand x y) = torsion x /\ attr (iand x y) = attr x /\
  (torsion y = torsion x -> wf c (ior x y) /\ wf c (iand x y)).
Proof.
  intros Hx Hy.
  set (du := fold_left (fun d p => if dget d (fst p) <? snd p then dset d (fst p) (snd p) else d) (data y) (data x)).
  set (di := fold_left (fun d p => if dget (data y) (fst p) <? snd p then dset d (fst p) (dget (data y) (fst p)) else d) (data x) (data x)).
  assert (Du : kdistinct (dkeys du)) by (apply (fold_if_distinct (fun d p => dget d (fst p) <? snd p) snd); apply Hx).
  assert (Di : kdistinct (dkeys di)) by (apply (fold_if_distinct (fun d p => dget (data y) (fst p) <? snd p) (fun p => dget (data y) (fst p))); apply Hx).
  assert (Gu : forall k, dget du k = if dmem (data y) k then Z.max (dget (data x) k) (dget (data y) k) else dget (data x) k) by (intros; apply ior_fold, Hy).
  assert (Gi : forall k, dget di k = Z.min (dget (data x) k) (dget (data y) k) \/ (dget di k = 0 /\ dget (data x) k = 0)).
  { intros k. unfold di. rewrite (sel_fold (fun p => dget (data y) (fst p) <? snd p) (fun k _ => dget (data y) k)); [|apply Hx|].
    2:{ intros k1 k2 v E. cbn [fst snd]. now rewrite (dget_cong _ _ _ E). }
    cbn [fst snd]. destruct (dmem (data x) k) eqn:E; [destruct (Z.ltb_spec (dget (data y) k) (dget (data x) k)); lia|].
    rewrite (dmem_false _ _ E). lia. }
  assert (E1 : forall k, dget (data (ior x y)) k = Z.max 0 (Z.max (dget (data x) k) (dget (data y) k))).
  { intros k. change (data (ior x y)) with (keep_positive du). rewrite keep_get, Gu by exact Du.
    destruct (dmem (data y) k) eqn:E; [reflexivity|]. rewrite (dmem_false _ _ E). lia. }
  assert (E2 : forall k, dget (data (iand x y)) k = Z.max 0 (Z.min (dget (data x) k) (dget (data y) k))).
  { intros k. change (data (iand x y)) with (keep_positive di). rewrite keep_get by exact Di. specialize (Gi k). lia. }
  split; [exact E1|]. split; [exact E2|]. do 4 (split; [reflexivity|]). intros Et. destruct Hx as [Tx Cx], Hy as [Ty Cy]. rewrite Et in *.
  split; (split; [exact Tx|]).
  - change (data (ior x y)) with (keep_positive du). apply keep_wf; [exact Du| |].
    + apply (fold_if_Forall (fun k => bad c k = Ok false) (fun d p => dget d (fst p) <? snd p) snd); intros k; eapply canon_keys; eassumption.
    + intros k Hk. rewrite Gu in *. cbn [torsion ior]. destruct (canon_get c _ _ k Cx) as [X|X], (canon_get c _ _ k Cy) as [Y|Y]; destruct (dmem (data y) k);
        unfold canon_coef in *; lia.
  - change (data (iand x y)) with (keep_positive di). apply keep_wf; [exact Di| |].
    + apply (fold_if_Forall (fun k => bad c k = Ok false) (fun d p => dget (data y) (fst p) <? snd p) (fun p => dget (data y) (fst p))); intros k; eapply canon_keys; eassumption.
    + intros k Hk. cbn [torsion iand]. specialize (Gi k). destruct (canon_get c _ _ k Cx) as [X|X], (canon_get c _ _ k Cy) as [Y|Y];
        unfold canon_coef in *; lia.
Qed.

(** #C89_elements# [x.elements()] lists every key as often as its coefficient says, and not at all if it is negative. *)
Lemma C89_elements_l {K A} `{KeyOk K} (c : pycls K) (x : elt K A) k :
  wf c x -> zlen (filter (fun k' => keqb k' k) (counter_elements (data x))) = Z.max 0 (dget (data x) k).
Proof.
  intros [_ [Hd _]]. unfold counter_elements. induction (data x) as [|[k1 v1] d IH]; [reflexivity|].
  cbn [dkeys map fst kdistinct] in Hd. destruct Hd as [H1 H2]. cbn [flat_map fst snd dget]. rewrite filter_app. unfold zlen in *. rewrite app_length, Nat2Z.inj_add, IH by exact H2.
  assert (R : forall n, length (filter (fun k' => keqb k' k) (repeat k1 n)) = if keqb k1 k then n else 0%nat).
  { induction n as [|n IHn]; cbn [repeat filter]; [now destruct (keqb k1 k)|]. destruct (keqb k1 k) eqn:E; cbn [length]; lia. }
  rewrite R. destruct (keqb k1 k) eqn:E; [|lia]. rewrite (dget_notin d k); [lia|].
  intros k' Hin. apply H1 in Hin. destruct (keqb k' k) eqn:E1; [|reflexivity].
  rewrite (keqb_trans k1 k k') in Hin; [discriminate|assumption|now apply keqb_sym].
Qed.

(** #C89_total# [x.total()] is the augmentation: the sum of the coefficients, exactly additive for
    [x.update(y)] and [x.subtract(y)], and additive modulo the torsion for [x + y]. *)
Lemma C89_total_l {K A} `{KeyOk K} (c : pycls K) (dt : Z) (x y : elt K A) :
  cls_ok c -> wf c x -> wf c y -> torsion y = torsion x -> dt_ok dt (torsion x) ->
  counter_total (data x) = zsum (map (dget (data x)) (dkeys (data x))) /\
  counter_total (data (updated x y)) = counter_total (data x) + counter_total (data y) /\
  counter_total (data (subtracted x y)) = counter_total (data x) - counter_total (data y) /\
  exists s, add dt c x y = Ok s /\ eqm (torsion x) (counter_total (data s)) (counter_total (data x) + counter_total (data y)).
Proof.
  intros Hc Hx Hy Et Hdt.
  assert (T : forall d : dict K, counter_total d = ev (fun _ => 1) d).
  { intros d. unfold counter_total. induction d as [|[k v] d IH]; [reflexivity|]. cbn [map snd]. rewrite ev_cons, <- IH. change (v + zsum (map snd d) = v * 1 + zsum (map snd d)). ring. }
  split; [|split; [|split]].
  - unfold counter_total, dkeys. rewrite map_map. f_equal. apply map_ext_in. intros [k v] Hin. cbn [fst snd]. symmetry. apply dget_in; [apply Hx|exact Hin].
  - unfold updated. cbn [data]. rewrite !T. apply ev_dupdate. intros ? ? _. reflexivity.
  - unfold subtracted. cbn [data]. rewrite !T. apply ev_dsubtract. intros ? ? _. reflexivity.
  - set (g := fun k => match bad c k with Ok false => 1 | _ => 0 end).
    assert (Ag : adm c g). { split; [intros k k' E; unfold g; now rewrite (proj1 Hc _ _ E)|]. intros k E. unfold g. now rewrite E. }
    assert (Tg : forall t d, canonical c t d -> counter_total d = ev g d).
    { intros t d Hd. rewrite T. unfold ev. apply sumf_ext. intros [k v] Hin. cbn [fst snd]. unfold g. now rewrite (proj2 (proj2 Hd _ _ Hin)). }
    pose proof (den_self c x Hx) as Dx. pose proof (den_self c y Hy) as Dy. rewrite Et in Dy.
    destruct (add_den c Hc dt _ (proj1 Hx) Hdt _ _ _ _ x y Dx Dy) as (s & Es & _ & _ & Cs & Ds). exists s. split; [exact Es|].
    rewrite (Tg _ _ Cs), (Tg _ _ (proj2 Hx)), (Tg _ _ (proj2 Hy)). apply Ds, Ag.
Qed.

(** #C89_copy_surj# A copy of a surjection element has the default torsion and the default convention, whatever the
    convention of the original is. *)
Lemma C89_copy_surj_l (dt : Z) (dc : conv) (x : surj) :
  wf cls_surj x -> 0 <= dt ->
  exists y, surj_copied dt dc x = Ok y /\ wf cls_surj y /\ torsion y = dt /\ attr y = dc /\
    forall k, dget (data y) k = if dt =? 0 then dget (data x) k else dget (data x) k mod dt.
Proof. intros Hx Hdt. apply (C89_copy_l dt cls_surj dc x ok_surj Hx Hdt). Qed.

(** #C89_more_example# For [x = 2*(1,2,1) + (2,1,2)] and [y = (1,2,1)] modulo 3: [y <= x] and [y < x], but
    [y + y <= x + y] is false: the order is not kept by the addition modulo 3;
    [x | y], [x & y], the elements and the total. *)
Example C89_more_example_l :
  let x := mkElt [([1;2;1], 2); ([2;1;2], 1)] 3 MS in
  let y := mkElt [([1;2;1], 1)] 3 MS in
  wf cls_surj x /\ wf cls_surj y /\
  counter_le (data y) (data x) = true /\ counter_lt (data y) (data x) = true /\ counter_ge (data y) (data x) = false /\
  counter_gt (data x) (data y) = true /\
  add 0 cls_surj y y = Ok (mkElt [([1;2;1], 2)] 3 MS) /\ add 0 cls_surj x y = Ok (mkElt [([2;1;2], 1)] 3 MS) /\
  counter_le [([1;2;1], 2)] [([2;1;2], 1)] = false /\
  ior y x = mkElt [([1;2;1], 2); ([2;1;2], 1)] 3 MS /\ iand x y = mkElt [([1;2;1], 1)] 3 MS /\
  counter_elements (data x) = [[1;2;1]; [1;2;1]; [2;1;2]] /\ counter_total (data x) = 3.
Proof.
  cbv zeta. split; [apply wfb_wf; reflexivity|]. split; [apply wfb_wf; reflexivity|].
  repeat (split; [reflexivity|]). reflexivity.
Qed.
