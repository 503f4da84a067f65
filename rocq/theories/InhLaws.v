(** * Methods inherited from Counter (C89) *)
From Verif Require Import PyBase Dict FreeModule Symmetric Simplicial Cubical Surjection BarrattEccles Inherited Eqm Spec FreeModuleFacts FreeModuleLaws ListFacts ClassFacts.

Section F.
Context {K : Type} `{KO : KeyOk K}.
Lemma dget_dset (d : dict K) k v k' : dget (dset d k v) k' = if keqb k k' then v else dget d k'.
Proof.
  induction d as [|[k1 v1] d IH]; cbn [dset dget]; [reflexivity|].
  destruct (keqb k1 k) eqn:E; cbn [dget].
  - rewrite (keqb_cong_l k k' k1) || idtac. destruct (keqb k1 k') eqn:E1.
    + assert (keqb k k' = true) as ->; [|reflexivity]. eapply keqb_trans; [apply keqb_sym; exact E|exact E1].
    + destruct (keqb k k') eqn:E2; [|reflexivity]. rewrite (keqb_trans _ _ _ E E2) in E1. discriminate.
  - destruct (keqb k1 k') eqn:E1; [|exact IH]. destruct (keqb k k') eqn:E2; [|reflexivity].
    rewrite (keqb_trans k1 k' k) in E; [discriminate|assumption|apply keqb_sym; assumption].
Qed.
(** the loop of the multiset operations: [f] picks the items to keep and [w] their new count *)
Lemma sel_fold (f : K * Z -> bool) (w : K -> Z -> Z) (l : dict K) : kdistinct (dkeys l) ->
  (forall k k' v, keqb k k' = true -> f (k, v) = f (k', v) /\ w k v = w k' v) ->
  forall r k, dget (fold_left (fun r p => if f p then dset r (fst p) (w (fst p) (snd p)) else r) l r) k =
    if dmem l k then (if f (k, dget l k) then w k (dget l k) else dget r k) else dget r k.
Proof.
  intros Hd Hf. induction l as [|[k1 v1] l IH]; intros r k; [reflexivity|].
  cbn [dkeys map fst kdistinct] in Hd. destruct Hd as [H1 H2].
  cbn [fold_left fst snd]. rewrite IH by exact H2. change (dmem ((k1, v1) :: l) k) with (keqb k1 k || dmem l k). cbn [dget].
  destruct (keqb k1 k) eqn:E; cbn [orb].
  - assert (dmem l k = false) as ->.
    { unfold dmem. apply not_true_is_false. intros Hx. apply existsb_exists in Hx. destruct Hx as (k' & Hin & Ek).
      apply H1 in Hin. rewrite (keqb_trans k1 k k') in Hin; [discriminate|assumption|apply keqb_sym; assumption]. }
    destruct (Hf _ _ v1 E) as [-> ->]. destruct (f (k, v1)); [|reflexivity]. rewrite dget_dset, E. reflexivity.
  - assert (Hr : dget (if f (k1, v1) then dset r k1 (w k1 v1) else r) k = dget r k).
    { destruct (f (k1, v1)); [|reflexivity]. rewrite dget_dset, E. reflexivity. }
    now rewrite Hr.
Qed.
Lemma dmem_false (l : dict K) k : dmem l k = false -> dget l k = 0.
Proof.
  intros E. apply dget_notin. intros k' Hin. unfold dmem in E. destruct (keqb k' k) eqn:E1; [|reflexivity].
  enough (existsb (fun k' => keqb k' k) (dkeys l) = true) by congruence. apply existsb_exists. now exists k'.
Qed.
Lemma dmem_cong (l : dict K) k k' : keqb k k' = true -> dmem l k = dmem l k'.
Proof. intros E. unfold dmem. induction (dkeys l) as [|a m IH]; [reflexivity|]. cbn [existsb]. rewrite IH. now rewrite (keqb_cong_l _ _ a E). Qed.

Lemma dget_map_ckey (c : pycls K) (d : dict K) k : cls_ok c -> dget (map (fun p => (ckey c (fst p), snd p)) d) k = dget d k.
Proof.
  intros Hc. induction d as [|[k1 v1] d IH]; [reflexivity|]. cbn [map dget fst snd]. rewrite IH.
  pose proof (proj2 Hc k1) as E. destruct (keqb k1 k) eqn:E1.
  - now rewrite (keqb_trans _ _ _ E E1).
  - destruct (keqb (ckey c k1) k) eqn:E2; [|reflexivity]. rewrite (keqb_trans k1 (ckey c k1) k) in E1; [discriminate|now apply keqb_sym|assumption].
Qed.
Lemma kdistinct_ckey (c : pycls K) (d : dict K) : cls_ok c -> kdistinct (dkeys d) -> kdistinct (dkeys (map (fun p => (ckey c (fst p), snd p)) d)).
Proof.
  intros Hc. induction d as [|[k1 v1] d IH]; cbn [map dkeys fst kdistinct]; [tauto|]. intros [H1 H2]. split; [|now apply IH].
  intros k' Hin. rewrite map_map in Hin. apply in_map_iff in Hin. destruct Hin as ([k2 v2] & <- & Hin). cbn [fst] in *.
  apply (in_map fst) in Hin. apply H1 in Hin. cbn [fst] in Hin. destruct (keqb (ckey c k1) (ckey c k2)) eqn:E; [|reflexivity].
  rewrite (keqb_trans k1 (ckey c k1) k2) in Hin; [discriminate|apply keqb_sym, (proj2 Hc)|].
  eapply keqb_trans; [exact E|apply (proj2 Hc)].
Qed.
Lemma convert_canonical (c : pycls K) t (d : dict K) : cls_ok c -> canonical c t d ->
  canonical c t (convert c d) /\ forall k, dget (convert c d) k = dget d k.
Proof.
  intros Hc [Hd Hb]. unfold convert. rewrite dict_of_id by now apply kdistinct_ckey. split; [|intros; now apply dget_map_ckey].
  split; [now apply kdistinct_ckey|]. intros k v Hin. apply in_map_iff in Hin. destruct Hin as ([k2 v2] & [= <- <-] & Hin).
  apply Hb in Hin. split; [apply Hin|]. rewrite (proj1 Hc _ k2 (proj2 Hc k2)). apply Hin.
Qed.
End F.

(** #C89_copy# [x.copy()], [copy.copy(x)], [copy.deepcopy(x)] and [pickle.loads(pickle.dumps(x))] all
    return the element with the same coefficients in the ring of the *class default*: the coefficients
    are reduced modulo [default_torsion] when it is not 0, and the other attributes (the
    convention of surjections) are reset to their defaults. *)
Lemma C89_copy_l {K A} `{KeyOk K} (dt : Z) (c : pycls K) (a0 : A) (x : elt K A) :
  cls_ok c -> wf c x -> 0 <= dt ->
  exists y, copied dt c a0 x = Ok y /\ wf c y /\ torsion y = dt /\ attr y = a0 /\
    forall k, dget (data y) k = if dt =? 0 then dget (data x) k else dget (data x) k mod dt.
Proof.
  intros Hc Hx Hdt. destruct (convert_canonical c (torsion x) (data x) Hc (proj2 Hx)) as [H1 H2].
  destruct (C07_set_torsion_l c (mkElt (convert c (data x)) (torsion x) a0) dt Hc (conj (proj1 Hx) H1) Hdt) as (y & Ey & Hy & Et & Ea & Hg).
  exists y. split.
  - unfold copied, new. unfold set_torsion in Ey. exact Ey.
  - split; [exact Hy|]. split; [exact Et|]. split; [exact Ea|]. intros k. rewrite Hg. cbn [data]. now rewrite H2.
Qed.

(** #C89_copy_eq# With the default torsion of the library (0), or when the torsion of the element is the
    class default, a copy is equal ([==]) to the original; nevertheless [x + y] of the original and its
    copy raises [TypeError] exactly when the torsion of [x] is not the class default, because [==]
    ignores the torsion. *)
Lemma C89_copy_eq_l {K A} `{KeyOk K} (dt : Z) (c : pycls K) (a0 : A) (x : elt K A) :
  cls_ok c -> wf c x -> 0 <= dt ->
  exists y, copied dt c a0 x = Ok y /\
    (dt = 0 \/ torsion x = dt -> elt_eqb x y = true) /\
    (add dt c x y = Err TypeError <-> torsion x <> dt) /\ (torsion x = dt <-> exists s, add dt c x y = Ok s).
Proof.
  intros Hc Hx Hdt. destruct (C89_copy_l dt c a0 x Hc Hx Hdt) as (y & Ey & Hy & Et & Ea & Hg).
  exists y. split; [exact Ey|]. split.
  { intros Hd. unfold elt_eqb. apply dict_eqb_dget. intros k. rewrite Hg. destruct (dt =? 0) eqn:E; [reflexivity|].
    destruct Hd as [Hd|Hd]; [lia|]. symmetry. apply Z.mod_small. rewrite <- Hd. eapply dget_range; [lia|apply Hx]. }
  destruct (Z.eq_dec (torsion x) dt) as [E|E].
  - assert (Hs : exists s, add dt c x y = Ok s).
    { destruct (C02_coefficients_l c dt x y 1 Hc Hx Hy) as (s & _ & _ & _ & Es & _); [congruence| |now exists s].
      split; [lia|]. destruct (Z.eq_dec dt 0); [now left|]. right. rewrite E. split; [assumption|apply Z.divide_refl]. }
    split; [|tauto]. destruct Hs as [s ->]. split; [discriminate|tauto].
  - assert (Hs : add dt c x y = Err TypeError). { unfold add. rewrite Et. apply Z.eqb_neq in E. now rewrite E. }
    rewrite Hs. split; [tauto|]. split; [tauto|]. intros [s Hs']. discriminate.
Qed.

(** #C89_update# [x.update(y)] and [x.subtract(y)] change the counts by exact integer addition and
    subtraction, whatever the torsions are: nothing is reduced and no zero count is removed. *)
Lemma C89_update_l {K A} `{KeyOk K} (c : pycls K) (x y : elt K A) :
  wf c x -> wf c y ->
  (forall k, dget (data (updated x y)) k = dget (data x) k + dget (data y) k) /\
  (forall k, dget (data (subtracted x y)) k = dget (data x) k - dget (data y) k) /\
  torsion (updated x y) = torsion x /\ torsion (subtracted x y) = torsion x /\
  attr (updated x y) = attr x /\ attr (subtracted x y) = attr x.
Proof.
  intros [_ [Hx _]] [_ [Hy _]]. unfold updated, subtracted; cbn [data torsion attr]. split; [|split; [|auto]]; intros k.
  - rewrite <- !dget_ind; auto; [|now apply dupdate_distinct]. apply ev_dupdate, resp_ind.
  - rewrite <- !dget_ind; auto; [apply ev_dsubtract, resp_ind|].
    unfold dsubtract. clear Hy. revert Hx. generalize (data x). induction (data y) as [|[k1 v1] e IH]; intros d Hd; cbn [fold_left]; [exact Hd|].
    apply IH, dset_distinct, Hd.
Qed.

(** #C89_update_add# Normalising after [x.update(y)] or [x.subtract(y)] ([preferred_rep], or [set_torsion] with the same
    torsion) gives exactly what [x += y] and [x -= y] give, for elements over the same ring. *)
Lemma C89_update_add_l {K A} `{KeyOk K} (c : pycls K) (x y : elt K A) :
  torsion y = torsion x ->
  set_torsion c (updated x y) (torsion x) = iadd c x y /\ set_torsion c (subtracted x y) (torsion x) = isub c x y.
Proof. intros E. unfold set_torsion, iadd, isub, updated, subtracted. cbn [data attr]. rewrite E, Z.eqb_refl. split; reflexivity. Qed.

Lemma dmem_get {K} `{KeyOk K} (d : dict K) k : dget d k <> 0 -> dmem d k = true.
Proof. intros E. destruct (dmem d k) eqn:E1; [reflexivity|]. apply dmem_false in E1. tauto. Qed.

(** #C89_multiset# [+x], [x | y] and [x & y] are the multiset operations of [Counter]: the counts are the
    positive part, the maximum and the minimum of the counts (cut at 0) as plain integers;
    none of them is an operation of the module. *)
Lemma C89_multiset_l {K A} `{KeyOk K} (c : pycls K) (x y : elt K A) :
  wf c x -> wf c y ->
  (forall k, dget (counter_pos (data x)) k = Z.max 0 (dget (data x) k)) /\
  (forall k, dget (counter_or (data x) (data y)) k = Z.max 0 (Z.max (dget (data x) k) (dget (data y) k))) /\
  (forall k, dget (counter_and (data x) (data y)) k = Z.max 0 (Z.min (dget (data x) k) (dget (data y) k))).
Proof.
  intros [_ [Hx _]] [_ [Hy _]]. split; [|split]; intros k.
  - unfold counter_pos. rewrite (sel_fold (fun p => 0 <? snd p) (fun _ v => v)) by (auto; intros; auto). cbn [snd dget].
    destruct (dmem (data x) k) eqn:E; [destruct (0 <? dget (data x) k) eqn:E1; lia|]. rewrite (dmem_false _ _ E). reflexivity.
  - unfold counter_or.
    rewrite (sel_fold (fun p => negb (dmem (data x) (fst p)) && (0 <? snd p)) (fun _ v => v)); auto.
    2:{ intros k1 k2 v E. cbn [fst snd]. now rewrite (dmem_cong _ _ _ E). }
    rewrite (sel_fold (fun p => 0 <? (if snd p <? dget (data y) (fst p) then dget (data y) (fst p) else snd p)) (fun k v => if v <? dget (data y) k then dget (data y) k else v)); auto.
    2:{ intros k1 k2 v E. cbn [fst snd]. now rewrite (dget_cong _ _ _ E). }
    cbn [fst snd dget]. destruct (dmem (data x) k) eqn:E, (dmem (data y) k) eqn:E1; cbn [negb andb];
      try rewrite (dmem_false _ _ E); try rewrite (dmem_false _ _ E1); repeat match goal with |- context [?a <? ?b] => lazymatch b with context [if _ then _ else _] => fail | _ => destruct (Z.ltb_spec a b) end end; lia.
  - unfold counter_and.
    rewrite (sel_fold (fun p => 0 <? (if snd p <? dget (data y) (fst p) then snd p else dget (data y) (fst p))) (fun k v => if v <? dget (data y) k then v else dget (data y) k)); auto.
    2:{ intros k1 k2 v E. cbn [fst snd]. now rewrite (dget_cong _ _ _ E). }
    cbn [fst snd dget]. destruct (dmem (data x) k) eqn:E;
      try rewrite (dmem_false _ _ E); repeat match goal with |- context [?a <? ?b] => lazymatch b with context [if _ then _ else _] => fail | _ => destruct (Z.ltb_spec a b) end end; lia.
Qed.

(** #C89_pos_torsion# Over [Z/n] all the coefficients are positive, so [+x] has the items of [x] in the same order. *)
Lemma C89_pos_torsion_l {K A} `{KeyOk K} (c : pycls K) (x : elt K A) :
  wf c x -> torsion x <> 0 -> counter_pos (data x) = data x.
Proof.
  intros [Hx0 [Hd Hb]] Ht. unfold counter_pos.
  transitivity (dict_of (data x)); [|now apply dict_of_id]. unfold dict_of.
  assert (Hp : forall p, In p (data x) -> 0 < snd p). { intros [k v] Hin. apply Hb in Hin. destruct Hin as [[_ Hv] _]. cbn [snd]. lia. }
  revert Hp. generalize (@nil (K * Z)). induction (data x) as [|p l IH]; intros r Hp; [reflexivity|]. cbn [fold_left].
  assert (0 <? snd p = true) as -> by (apply Z.ltb_lt; apply Hp; now left). cbn [dkeys map kdistinct] in Hd. apply IH; [apply Hd| |].
  - intros k v Hin. apply Hb. now right.
  - intros q Hq. apply Hp. now right.
Qed.

(** #C89_example# For [x = 2*(1,2,1) + (2,1,2)] modulo 3 in the McClure-Smith convention: the copy is
    equal to [x] but lives over the integers with the Berger-Fresse convention, so that adding them
    raises [TypeError]; [x.update(x)] has the count 4 at [(1,2,1)], which is not a normal form: it is
    not equal to [x + x], which is [(1,2,1) + 2*(2,1,2)]; the operations [|] and [&] return [x]. *)
Example C89_example_l :
  let x := mkElt [([1;2;1], 2); ([2;1;2], 1)] 3 MS in
  wf cls_surj x /\
  surj_copied 0 BF x = Ok (mkElt [([1;2;1], 2); ([2;1;2], 1)] 0 BF) /\
  elt_eqb x (mkElt [([1;2;1], 2); ([2;1;2], 1)] 0 BF) = true /\
  add 0 cls_surj x (mkElt [([1;2;1], 2); ([2;1;2], 1)] 0 BF) = Err TypeError /\
  surj_copied 2 BF x = Ok (mkElt [([2;1;2], 1)] 2 BF) /\
  data (updated x x) = [([1;2;1], 4); ([2;1;2], 2)] /\ ~ wf cls_surj (updated x x) /\
  add 0 cls_surj x x = Ok (mkElt [([1;2;1], 1); ([2;1;2], 2)] 3 MS) /\
  elt_eqb (updated x x) (mkElt [([1;2;1], 1); ([2;1;2], 2)] 3 MS) = false /\
  counter_pos (data x) = data x /\ counter_or (data x) (data x) = data x /\ counter_and (data x) (data x) = data x /\
  counter_pos [([1;2;1], -2); ([2;1;2], 1)] = [([2;1;2], 1)].
Proof.
  cbv zeta. split; [apply wfb_wf; reflexivity|]. do 5 (split; [reflexivity|]). split.
  { intros [_ [_ Hb]]. destruct (Hb [1;2;1] 4) as [[_ Hv] _]; [now left|]. cbn [torsion updated] in Hv. lia. }
  repeat (split; [reflexivity|]). reflexivity.
Qed.
