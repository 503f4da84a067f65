(** * The classes of the library satisfy the assumption [cls_ok]. *)
From Verif Require Import PyBase Dict FreeModule Symmetric Simplicial Cubical Utils Surjection BarrattEccles
  Eqm Spec FreeModuleFacts FreeModuleLaws.

#[global] Instance KeyOk_skey : KeyOk skey.
Proof.
  constructor; cbn; intros *; rewrite ?tup_eqb_eq; congruence.
Qed.
Lemma ok_simplicial : cls_ok cls_simplicial. Proof. now apply cls_ok_keyeq. Qed.
Lemma ok_cubical : cls_ok cls_cubical. Proof. now apply cls_ok_keyeq. Qed.
Lemma ok_surj : cls_ok cls_surj. Proof. now apply cls_ok_keyeq. Qed.
Lemma ok_be : cls_ok cls_be. Proof. now apply cls_ok_keyeq. Qed.
Lemma ok_ring : cls_ok cls_ring.
Proof. split; cbn; [reflexivity|]. intros k. now apply tup_eqb_eq. Qed.
Lemma ok_free K `{KeyOk K} : cls_ok (cls_free K).
Proof. split; cbn; [reflexivity|]. intros k. apply keqb_refl. Qed.

(** #C01_classes# The generic theorems apply to every class of elements of the library. *)
Lemma C01_classes_l : cls_ok cls_ring /\ cls_ok cls_simplicial /\ cls_ok cls_cubical /\
  cls_ok cls_surj /\ cls_ok cls_be /\ cls_ok (cls_free Z) /\ cls_ok (cls_free (list bkey)).
Proof.
  refine (conj ok_ring (conj ok_simplicial (conj ok_cubical (conj ok_surj (conj ok_be (conj _ _))))));
    apply ok_free; typeclasses eauto.
Qed.

(** #C01_degenerate_keys# What the classes declare degenerate: a key of a
    canonical element has, for simplices, no factor that is empty or repeats
    a vertex consecutively; for surjections, values exactly {1..max} and no
    two equal consecutive values; for Barratt-Eccles, no two equal
    consecutive permutations. *)
Lemma C01_degenerate_keys_l :
  (forall (x : simp) k, wf cls_simplicial x -> In k (dkeys (data x)) ->
     forall s, In s k -> s <> [] /\ forall l a b r, s = l ++ a :: b :: r -> a <> b) /\
  (forall (x : surj) k, wf cls_surj x -> In k (dkeys (data x)) ->
     k <> [] /\ (exists m, 1 <= m /\ forall v, In v k <-> 1 <= v <= m) /\
     forall l a b r, k = l ++ a :: b :: r -> a <> b) /\
  (forall (x : bee) k, wf cls_be x -> In k (dkeys (data x)) ->
     k <> [] /\ forall l a b r, k = l ++ a :: b :: r -> a <> b).
Proof.
  assert (PW : forall {B} (eqb : B -> B -> bool), (forall a, eqb a a = true) ->
     forall s, existsb (fun p => eqb (fst p) (snd p)) (pairwise s) = false ->
     forall l a b r, s = l ++ a :: b :: r -> a <> b).
  { intros B eqb Hr s Hs l. revert s Hs. induction l as [|e l IH]; intros s Hs a b r ->.
    - cbn in Hs. intros ->. rewrite Hr in Hs. discriminate.
    - apply (IH (l ++ a :: b :: r)) with r; [|reflexivity].
      unfold pairwise in *. cbn [app tl] in *.
      destruct (l ++ a :: b :: r) as [|f l'] eqn:E; [now destruct l|].
      cbn [combine existsb tl] in *. apply orb_false_iff in Hs. apply Hs. }
  assert (GET : forall {K A} `{KeyOk K} (c : pycls K) (x : elt K A) k, wf c x -> In k (dkeys (data x)) -> bad c k = Ok false).
  { intros K A P O c x k [_ [_ Hx]] Hk. apply in_map_iff in Hk. destruct Hk as ([k' v] & <- & Hin). apply (Hx _ _ Hin). }
  split; [|split].
  - intros x k Hx Hk s Hs. apply (GET _ _ _ _ cls_simplicial) in Hk; [|assumption]. cbn in Hk. injection Hk as Hk.
    assert (Hd : spx_is_degenerate s = false).
    { destruct (spx_is_degenerate s) eqn:E; [|reflexivity]. rewrite <- Hk. symmetry. apply existsb_exists. eauto. }
    unfold spx_is_degenerate in Hd. apply orb_false_iff in Hd. destruct Hd as [H1 H2]. split.
    + intros ->. discriminate H1.
    + apply (PW Z Z.eqb Z.eqb_refl s H2).
  - intros x k Hx Hk. apply (GET _ _ _ _ cls_surj) in Hk; [|assumption]. cbn in Hk. unfold surj_bad in Hk.
    destruct (py_max k) as [m|] eqn:Em; cbn in Hk; [|discriminate]. injection Hk as Hk.
    apply orb_false_iff in Hk. destruct Hk as [H1 H2]. apply negb_false_iff in H1. split; [|split].
    + intros ->. discriminate Em.
    + unfold set_eqb in H1. apply andb_true_iff in H1. destruct H1 as [F1 F2].
      rewrite forallb_forall in F1, F2.
      assert (Hin : forall v, In v k <-> 1 <= v <= m).
      { intros v. split.
        - intros Hv. apply F1 in Hv. unfold mem in Hv. apply existsb_exists in Hv.
          destruct Hv as (w & Hw & E). apply in_zrange in Hw. lia.
        - intros Hv. assert (Hz : In v (zrange 1 (m + 1))) by (apply in_zrange; lia).
          apply F2 in Hz. unfold mem in Hz. apply existsb_exists in Hz. destruct Hz as (w & Hw & E).
          apply Z.eqb_eq in E. now subst. }
      exists m. split; [|exact Hin]. destruct k as [|a k]; [discriminate Em|].
      assert (Ha : In a (a :: k)) by now left. apply Hin in Ha. lia.
    + apply (PW Z Z.eqb Z.eqb_refl k H2).
  - intros x k Hx Hk. apply (GET _ _ _ _ cls_be) in Hk; [|assumption]. cbn in Hk. injection Hk as Hk.
    apply orb_false_iff in Hk. destruct Hk as [H1 H2]. split.
    + intros ->. discriminate H1.
    + apply (PW _ tup_eqb (fun a => proj2 (tup_eqb_eq a a) eq_refl) k H2).
Qed.

(** #C01_example# The hypotheses of C01-C09 are met by surjection elements
    of torsion 5 with two terms, for [default_torsion] 0 and 5. *)
Example C01_example_l :
  let x : surj := mkElt [([1;2;1], 3); ([1;2;3;1], 4)] 5 BF in
  let y : surj := mkElt [([2;1;2], 1); ([1;2;1], 2)] 5 BF in
  cls_ok cls_surj /\ wf cls_surj x /\ wf cls_surj y /\ torsion y = torsion x /\ attr y = attr x /\
  dt_ok 0 (torsion x) /\ dt_ok 5 (torsion x) /\
  add 0 cls_surj x y = Ok (mkElt [([1;2;3;1], 4); ([2;1;2], 1)] 5 BF) /\
  new 0 cls_surj [([1;2;1], -7); ([1;1;2], 4); ([1;2], 5)] (Some 5) BF = Ok (mkElt [([1;2;1], 3)] 5 BF).
Proof.
  cbv zeta. split; [exact ok_surj|]. split; [apply wfb_wf; reflexivity|]. split; [apply wfb_wf; reflexivity|].
  repeat split; cbn; try lia; try reflexivity. right. split; [lia|]. exists 1. reflexivity.
Qed.
