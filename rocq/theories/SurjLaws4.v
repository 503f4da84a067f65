(** * Property theorems of the surjection operad: basis. *)
From Coq Require Import Setoid Morphisms.
From Verif Require Import PyBase Dict FreeModule Symmetric Simplicial Cubical Utils Surjection BarrattEccles Eqm Spec SpecChain SpecCube SpecOperad SpecSurj FreeModuleFacts FreeModuleLaws ListFacts
  ClassFacts LinearFacts SymmetricFacts CycleFacts SymmetricLaws RingFacts RingLaws Tensor TensorAct KoszulFacts LoopFacts ActGeneric SimplicialLaws BEFacts BEOrbit BELaws BELaws2 CubicalDiag
  SurjFacts SurjBoundary SurjLaws SurjAct SurjOrbit SurjLaws2 SurjLaws3.

Lemma for_filter {B} (f : B -> bool) (body : list B -> B -> res (list B)) l :
  (forall acc b, In b l -> body acc b = Ok (if f b then acc ++ [b] else acc)) -> forall acc, for_ l acc body = Ok (acc ++ filter f l).
Proof.
  induction l as [|b l IH]; intros Hb acc; cbn [for_ filter]; [now rewrite app_nil_r|]. rewrite Hb by now left. cbn [bind].
  rewrite IH by (intros; apply Hb; now right). destruct (f b); [now rewrite <- app_assoc|reflexivity].
Qed.
Lemma NoDup_app_i {B} (l l' : list B) : NoDup l -> NoDup l' -> (forall a, In a l -> In a l' -> False) -> NoDup (l ++ l').
Proof.
  induction 1 as [|a l Na ND IH]; intros ND' D; [exact ND'|]. cbn [app]. constructor; [|apply IH; auto; intros b H1 H2; apply (D b); [now right|exact H2]].
  rewrite in_app_iff. intros [H|H]; [contradiction|]. apply (D a); [now left|exact H].
Qed.
Lemma NoDup_product_rep {B} (l : list B) n : NoDup l -> NoDup (product_rep l n).
Proof.
  intros ND. induction n as [|n IH]; cbn [product_rep]; [repeat constructor; intros []|].
  assert (G : forall l', NoDup l' -> NoDup (flat_map (fun a => map (cons a) (product_rep l n)) l')).
  { induction l' as [|a l' IH']; intros ND'; cbn [flat_map]; [constructor|]. inversion ND' as [|? ? Na ND'']; subst.
    apply NoDup_app_i; [apply FinFun.Injective_map_NoDup; [intros u v [= ->]; reflexivity|exact IH]|now apply IH'|].
    intros w Hw Hw'. apply in_map_iff in Hw. destruct Hw as (u & <- & _). apply in_flat_map in Hw'. destruct Hw' as (b & Hb & Hw'). apply in_map_iff in Hw'. destruct Hw' as (u' & [= -> _] & _). contradiction. }
  now apply G.
Qed.
Lemma repeats_adj k : repeats k <-> adj k = true.
Proof.
  unfold repeats. split.
  - intros (l1 & a & l2 & ->). induction l1 as [|b l1 IH]; cbn [app]; [rewrite adj_cons2, Z.eqb_refl; reflexivity|now apply adj_tl].
  - induction k as [|a w IH]; [discriminate|]. destruct w as [|b w]; [discriminate|]. rewrite adj_cons2. intros H. apply orb_true_iff in H. destruct H as [H|H].
    + apply Z.eqb_eq in H. subst b. exists [], a, w. reflexivity.
    + destruct (IH H) as (l1 & c & l2 & ->). exists (a :: l1), c, l2. reflexivity.
Qed.
Lemma surj_new_one dt dc k b : 0 <= dt -> dt <> 1 -> surj_bad k = Ok b -> surj_new dt dc [(k, 1)] None None = Ok (mkElt (if b then [] else [(k, 1)]) dt dc).
Proof.
  intros H0 H1 Hb. unfold surj_new, new, pref, zero_bad. replace (convert cls_surj (dict_of [(k, 1)])) with [(k, 1)] by reflexivity.
  cbn [mapM fst bad cls_surj]. rewrite Hb. cbn [bind snd]. unfold reduce. destruct (Z.eqb_spec dt 0); [now destruct b|]. cbn [map fst snd strip filter].
  destruct b; [rewrite Zmod_0_l; reflexivity|]. rewrite Z.mod_1_l by lia. reflexivity.
Qed.
Definition in_basis (r c : Z) (k : list Z) : bool :=
  set_eqb k (zrange 1 (r + 1)) && negb (adj k) && (match surj_complexity (mkElt [(k, 1)] 0 BF) with Ok cx => cx <=? c | Err _ => false end).
Lemma complexity_attr k t cv : surj_complexity (mkElt [(k, 1)] t cv) = surj_complexity (mkElt [(k, 1)] 0 BF). Proof. reflexivity. Qed.
(** #C55_basis# The list is complete, without repetitions, and contains only
    the non-degenerate surjections of the given arity and degree, within the
    complexity bound. *)
Lemma C55_basis_l (dt : Z) (dc : conv) (r d : Z) (oc : option Z) : 0 <= dt -> dt <> 1 -> 1 <= r -> 1 <= r + d ->
  exists l, surj_basis dt dc r d oc = Ok l /\ NoDup l /\
    forall k, In k l <-> surj_cell r d k /\ ~ repeats k /\ (forall c, oc = Some c -> forall i j, switches i j k <= c).
Proof.
  intros H0 H1 Hr Hd. set (c := match oc with Some c => c | None => d + 1 end).
  set (L := product_rep (zrange 1 (r + 1)) (Z.to_nat (r + d))).
  assert (B : forall acc s, In s L -> (let! e := surj_new dt dc [(s, 1)] None None in if dempty (data e) then Ok acc else let! cx := surj_complexity e in let! oa := surj_arity e in
    if (cx <=? c) && opt_eqb oa (Some r) then Ok (acc ++ [s]) else Ok acc) = Ok (if in_basis r c s then acc ++ [s] else acc)).
  { intros acc s Hs. apply in_product_rep in Hs. destruct Hs as [Ls Hs]. assert (Ne : s <> []) by (intros ->; cbn in Ls; lia).
    destruct s as [|a s]; [contradiction|]. set (w := a :: s) in *. assert (exists m, py_max w = Ok m) as [m Em] by (cbn; eauto).
    rewrite (surj_new_one dt dc w _ H0 H1 (surj_bad_spec w m Em)). cbn [bind]. unfold in_basis.
    assert (Mr : m <= r). { apply py_max_spec in Em. destruct Em as [Em _]. apply Hs, in_zrange in Em. lia. }
    destruct (set_eqb w (zrange 1 (m + 1))) eqn:Es; cbn [negb orb].
    - destruct (adj w) eqn:Ea; cbn [data dempty]; [now rewrite andb_false_r|].
      change (data (mkElt [(w, 1)] dt dc)) with [(w, 1)]. cbn [dempty negb]. rewrite complexity_attr. apply onto_set in Es.
      assert (Hm : 1 <= m). { apply py_max_spec in Em. destruct Em as [Em _]. apply Hs, in_zrange in Em. lia. }
      assert (Wf : wf cls_surj (mkElt [(w, 1)] 0 BF)). { split; [reflexivity|]. split; [cbn; tauto|]. intros k v [[= <- <-]|[]]. split; [split; [lia|cbn; lia]|]. cbn [bad cls_surj]. rewrite (surj_bad_onto m) by assumption. now rewrite Ea. }
      destruct (C54_complexity_value_l _ Wf) as (cx & -> & _). cbn [bind].
      rewrite (surj_arity_ok m) by first [exact Hm|discriminate|intros k v [[= <- <-]|[]]; exact Es]. cbn [bind opt_eqb].
      destruct (Z.eqb_spec m r) as [->|Nm]; [apply onto_set in Es; rewrite Es; cbn [andb]; rewrite andb_true_r; now destruct (cx <=? c)|].
      rewrite andb_false_r. destruct (set_eqb w (zrange 1 (r + 1))) eqn:Er; [|reflexivity]. exfalso. apply Nm. apply onto_set in Er. now apply (onto_fun m r w).
    - cbn [data dempty]. destruct (set_eqb w (zrange 1 (r + 1))) eqn:Er; [|reflexivity]. exfalso. apply onto_set in Er. pose proof (onto_max r w Hr Er) as Em'.
      assert (m = r) as -> by congruence. apply onto_set in Er. congruence. }
  exists (filter (in_basis r c) L). split; [|split].
  - unfold surj_basis. fold c. rewrite (proj2 (Z.ltb_ge _ _)) by lia. fold L. exact (for_filter (in_basis r c) _ L B []).
  - apply NoDup_filter, NoDup_product_rep, NoDup_zrange.
  - intros k. rewrite filter_In. unfold L. rewrite in_product_rep. unfold in_basis. rewrite repeats_adj, !andb_true_iff, negb_true_iff, <- onto_set. unfold surj_cell.
    assert (X : forall k, onto r k -> adj k = false -> exists cx, surj_complexity (mkElt [(k, 1)] 0 BF) = Ok cx /\ ((cx <=? c) = true <-> forall i j, switches i j k <= c)).
    { clear k. intros k Ho Ha. assert (Wf : wf cls_surj (mkElt [(k, 1)] 0 BF)). { split; [reflexivity|]. split; [cbn; tauto|]. intros k' v [[= <- <-]|[]]. split; [split; [lia|cbn; lia]|]. cbn [bad cls_surj]. rewrite (surj_bad_onto r) by assumption. now rewrite Ha. }
      destruct (C54_complexity_value_l _ Wf) as (cx & E & G1 & G2). exists cx. split; [exact E|]. rewrite Z.leb_le. split.
      - intros Hle i j. apply Z.le_trans with cx; [apply (G1 k 1); now left|exact Hle].
      - intros Hs. destruct G2 as [->|(k' & v & i & j & [[= <- <-]|[]] & _ & _ & _ & <-)]; [|apply Hs]. specialize (Hs 1 1). pose proof (switches_nonneg 1 1 k). lia. }
    split.
    + intros [[Lk Hk] [[Ho Ha] Hc]]. destruct (X k Ho Ha) as (cx & E & G). rewrite E in Hc. split; [split; [exact Ho|unfold zlen; lia]|]. split; [congruence|]. intros c' -> . now apply G.
    + intros [[Ho Lk] [Ha Hc]]. apply not_true_iff_false in Ha. destruct (X k Ho Ha) as (cx & E & G). rewrite E. split; [|split; [auto|]].
      * split; [unfold zlen in Lk; lia|]. intros a Hin. apply Ho in Hin. apply in_zrange. lia.
      * apply G. subst c. destruct oc as [c|]; [now apply Hc|]. intros i j.
        assert (Hd0 : 0 <= d). { pose proof (zlen_sum_times r k ltac:(lia) Ho). assert (M : forall l, (forall a, In a l -> In a (zrange 1 (r + 1))) -> zlen l <= sumf (fun j => times_in j k) l).
          { induction l as [|b l IH]; intros Hl; [reflexivity|]. rewrite zlen_cons, sumf_cons. specialize (IH (fun a Ha => Hl a (or_intror Ha))). assert (1 <= times_in b k); [|lia]. apply times_in_pos, Ho. specialize (Hl b (or_introl eq_refl)). apply in_zrange in Hl. lia. }
          specialize (M _ (fun a H => H)). rewrite zlen_zrange in M by lia. lia. }
        destruct (Z.eq_dec i j) as [->|Nij]; [rewrite switches_out; [lia|left; intros; tauto]|].
        destruct (in_dec Z.eq_dec i k) as [Hi|Hi]; [|rewrite switches_out; [lia|right; intros b Hb [-> | ->]; [contradiction|reflexivity]]].
        destruct (in_dec Z.eq_dec j k) as [Hj|Hj]; [|rewrite switches_out; [lia|left; intros b Hb [-> | ->]; [reflexivity|contradiction]]].
        apply (switches_bound r d); auto. now split.
Qed.
(** #C55_negative_degree# When arity + degree is zero or negative the call fails. *)
Lemma C55_negative_degree_l (dt : Z) (dc : conv) (r d : Z) (oc : option Z) : r + d <= 0 -> surj_basis dt dc r d oc = Err ValueError.
Proof.
  intros H. unfold surj_basis. destruct (Z.ltb_spec (r + d) 0); [reflexivity|]. assert (r + d = 0) as -> by lia. reflexivity.
Qed.
(** #C55_default_torsion_one# If the class attribute [default_torsion] is 1, the basis is
    empty: all elements are zero. *)
Lemma C55_default_torsion_one_l (dc : conv) (r d : Z) (oc : option Z) : 1 <= r -> 1 <= r + d -> surj_basis 1 dc r d oc = Ok [].
Proof.
  intros Hr Hd. unfold surj_basis. rewrite (proj2 (Z.ltb_ge _ _)) by lia.
  rewrite (for_filter (fun _ => false)); [f_equal; cbn [app]; induction (product_rep (zrange 1 (r + 1)) (Z.to_nat (r + d))); [reflexivity|cbn [filter]; assumption]|].
  intros acc s Hs. apply in_product_rep in Hs. destruct Hs as [Ls _]. assert (Ne : s <> []) by (intros ->; cbn in Ls; lia). destruct (surj_okey s Ne) as [b Eb]. cbn [bad cls_surj] in Eb.
  unfold surj_new, new, pref, zero_bad. replace (convert cls_surj (dict_of [(s, 1)])) with [(s, 1)] by reflexivity. cbn [mapM fst bad cls_surj]. rewrite Eb. now destruct b.
Qed.
(** #C55_example# *)
Example C55_example_l :
  surj_basis 0 BF 2 1 None = Ok [[1; 2; 1]; [2; 1; 2]] /\
  (exists l, surj_basis 0 MS 3 2 None = Ok l /\ zlen l = 42) /\ (exists l, surj_basis 0 MS 3 2 (Some 2) = Ok l /\ zlen l = 12) /\
  surj_basis 0 BF 3 (-1) None = Ok [] /\ surj_basis 0 BF 1 3 None = Ok [].
Proof. vm_compute. repeat split; try reflexivity; eexists; split; reflexivity. Qed.
