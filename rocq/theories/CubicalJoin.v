(** * The join of cubes and the Cartan-Serre map.  Proof library. *)
From Coq Require Import Setoid Morphisms.
From Verif Require Import PyBase Dict FreeModule Symmetric Simplicial Cubical Eqm Spec SpecChain SpecCube FreeModuleFacts FreeModuleLaws ListFacts ClassFacts LinearFacts SymmetricFacts
  CycleFacts SymmetricLaws RingFacts Tensor TensorAct KoszulFacts LoopFacts SimplicialFacts CubicalFacts.

(** ** Tests on positions of intervals *)
Lemma intervals_app c c' : cube_intervals (c ++ c') = cube_intervals c ++ map (fun i => i + zlen c) (cube_intervals c').
Proof.
  induction c as [|a c IH]; cbn [app].
  - rewrite zlen_nil. cbn [app]. symmetry. rewrite (map_ext _ (fun i => i)) by (intros; ring). apply map_id.
  - rewrite !intervals_cons, IH, map_app, map_map, <- app_assoc. do 2 f_equal. apply map_ext. intros i. rewrite zlen_cons. ring.
Qed.
Lemma fold_min_spec l : forall a m, fold_left Z.min l a = m -> (m = a \/ In m l) /\ m <= a /\ forall b, In b l -> m <= b.
Proof.
  induction l as [|b l IH]; intros a m E; cbn [fold_left] in E.
  - subst m. repeat split; [now left|lia|intros ? []].
  - apply IH in E. destruct E as (H1 & H2 & H3). split; [|split].
    + destruct H1 as [->|H1]; [|right; now right]. destruct (Z.min_spec a b) as [[_ ->]|[_ ->]]; [now left|right; now left].
    + lia.
    + intros b' [<-|Hb']; [lia|]. now apply H3.
Qed.
Lemma zero_l c1 a c2 : join_is_zero_l (cube_intervals (c1 ++ a :: c2)) (zlen c1) = Ok (negb (cube_dim (a :: c2) =? 0)).
Proof.
  unfold join_is_zero_l. rewrite <- zlen_intervals. destruct (cube_intervals (c1 ++ a :: c2)) as [|i l] eqn:E.
  - rewrite intervals_app in E. apply app_eq_nil in E. destruct E as [_ E]. apply map_eq_nil in E. now rewrite E.
  - destruct (py_max (i :: l)) as [m|] eqn:Em; [|discriminate]. cbn [bind]. f_equal. apply py_max_spec in Em. rewrite <- E in Em. destruct Em as [H1 H2].
    rewrite intervals_app in H1, H2. destruct (cube_intervals (a :: c2)) as [|j l'] eqn:E2.
    + cbn [map] in H1. rewrite app_nil_r in H1. apply intervals_in in H1. destruct (Z.leb_spec (zlen c1) m); [lia|reflexivity].
    + destruct (Z.eqb_spec (zlen (j :: l')) 0) as [E3|_]; [rewrite zlen_cons in E3; pose proof (zlen_nonneg l'); lia|]. cbn [negb].
      specialize (H2 (j + zlen c1)). pose proof (intervals_nonneg (a :: c2) j). rewrite E2 in H. specialize (H (or_introl eq_refl)).
      apply Z.leb_le. assert (j + zlen c1 <= m); [|lia]. apply H2. apply in_or_app. right. now left.
Qed.
Lemma zero_r c1 a c2 : join_is_zero_r (zlen c1) (cube_intervals (c1 ++ a :: c2)) = Ok (negb (cube_dim (c1 ++ [a]) =? 0)).
Proof.
  replace (c1 ++ a :: c2) with ((c1 ++ [a]) ++ c2) by (rewrite <- app_assoc; reflexivity). set (c := c1 ++ [a]).
  assert (Lc : zlen c = zlen c1 + 1) by (unfold c; rewrite zlen_app, zlen_cons, zlen_nil; ring).
  unfold join_is_zero_r. rewrite <- zlen_intervals. destruct (cube_intervals (c ++ c2)) as [|i l] eqn:E.
  - rewrite intervals_app in E. apply app_eq_nil in E. destruct E as [E _]. now rewrite E.
  - cbn [py_min bind]. f_equal. destruct (fold_min_spec l i _ eq_refl) as (H1 & H2 & H3). set (m := fold_left Z.min l i) in *.
    assert (Hm : In m (i :: l)) by (destruct H1 as [-> |H1]; [now left|now right]).
    assert (Hl : forall b, In b (i :: l) -> m <= b) by (intros b [<-|Hb]; auto).
    rewrite <- E in Hm, Hl. rewrite intervals_app in Hm, Hl. destruct (cube_intervals c) as [|j l'] eqn:E2.
    + cbn [app] in Hm. apply in_map_iff in Hm. destruct Hm as (j & Ej & Hj). apply intervals_nonneg in Hj. destruct (Z.leb_spec m (zlen c1)); [lia|reflexivity].
    + destruct (Z.eqb_spec (zlen (j :: l')) 0) as [E3|_]; [rewrite zlen_cons in E3; pose proof (zlen_nonneg l'); lia|]. cbn [negb].
      pose proof (intervals_in c j). rewrite E2 in H. specialize (H (or_introl eq_refl)). apply Z.leb_le. assert (m <= j); [|lia]. apply Hl. now left.
Qed.

(** ** Two cubes *)
Definition delta (a b : Z) : Z := if (a =? 0) && (b =? 1) then 1 else if (a =? 1) && (b =? 0) then -1 else 0.
Definition e0 (c : list Z) : Z := if cube_dim c =? 0 then 1 else 0.
Fixpoint jj (G : list Z -> Z) (c1 c2 : list Z) : Z :=
  match c1, c2 with
  | a :: u, b :: w => if b =? 2 then 0 else e0 (a :: u) * delta a b * G (2 :: w) + (if a =? 2 then -1 else 1) * jj (fun v => G (a :: v)) u w
  | _, _ => 0
  end.
Lemma jj_ext G G' c1 c2 : (forall v, zlen v = zlen c2 -> G v = G' v) -> zlen c1 = zlen c2 -> jj G c1 c2 = jj G' c1 c2.
Proof.
  revert G G' c2. induction c1 as [|a u IH]; intros G G' [|b w] E L; try reflexivity. rewrite !zlen_cons in L. cbn [jj]. rewrite (E (2 :: w)) by (rewrite !zlen_cons; lia).
  rewrite (IH (fun v => G (a :: v)) (fun v => G' (a :: v)) w); [reflexivity| |lia]. intros v Lv. apply E. rewrite !zlen_cons. lia.
Qed.
Lemma jj_ext_all G G' c1 c2 : (forall v, G v = G' v) -> jj G c1 c2 = jj G' c1 c2.
Proof.
  revert G G' c2. induction c1 as [|a u IH]; intros G G' [|b w] E; try reflexivity. cbn [jj]. rewrite (E (2 :: w)).
  rewrite (IH (fun v => G (a :: v)) (fun v => G' (a :: v)) w); [reflexivity|]. intros v. apply E.
Qed.
Lemma jj_lin G G' x y c1 c2 : jj (fun v => x * G v + y * G' v) c1 c2 = x * jj G c1 c2 + y * jj G' c1 c2.
Proof.
  revert G G' c2. induction c1 as [|a u IH]; intros G G' [|b w]; try (cbn [jj]; ring). cbn [jj]. destruct (b =? 2); [ring|].
  rewrite (IH (fun v => G (a :: v)) (fun v => G' (a :: v))). ring.
Qed.
Lemma sumf_combine_map {A B C D} (f : C * D -> Z) (h : A -> C) (h' : B -> D) l l' : sumf f (combine (map h l) (map h' l')) = sumf (fun p => f (h (fst p), h' (snd p))) (combine l l').
Proof. revert l'. induction l as [|a l IH]; intros [|b l']; try reflexivity. cbn [map combine]. rewrite !sumf_cons, IH. reflexivity. Qed.
Lemma e0_cases c : (cube_dim c = 0 /\ e0 c = 1) \/ (cube_dim c <> 0 /\ e0 c = 0).
Proof. unfold e0. destruct (Z.eqb_spec (cube_dim c) 0); [now left|now right]. Qed.
Definition jterm (a b : Z) (l1 l2 m1 m2 : list Z) (G : list Z -> Z) : Z :=
  if (cube_dim (a :: l2) =? 0) && (cube_dim (m1 ++ [b]) =? 0) then delta a b * (sgn (cube_dim l1) * G (l1 ++ 2 :: m2)) else 0.
Lemma join2_sum G c1 c2 : ev G (join2 c1 c2) = sumf (fun '((l1, a, l2), (m1, b, m2)) => jterm a b l1 l2 m1 m2 G) (combine (splits c1) (splits c2)).
Proof.
  unfold join2, ev. rewrite !cuts_splits, sumf_flat_map. apply sumf_ext. intros [[[l1 a] l2] [[m1 b] m2]] _. unfold jterm. rewrite <- !cube_dim_dim.
  destruct ((cube_dim (a :: l2) =? 0) && (cube_dim (m1 ++ [b]) =? 0)); [|reflexivity]. unfold delta.
  destruct ((a =? 0) && (b =? 1)); [rewrite sumf_cons, sumf_nil; cbn [fst snd]; ring|]. destruct ((a =? 1) && (b =? 0)); [rewrite sumf_cons, sumf_nil; cbn [fst snd]; ring|]. rewrite sumf_nil. ring.
Qed.
Lemma join2_jj G c1 c2 : ev G (join2 c1 c2) = jj G c1 c2.
Proof.
  rewrite join2_sum. revert G c2. induction c1 as [|a u IH]; intros G [|b w]; try reflexivity.
  - rewrite !splits_cons. cbn [combine]. rewrite sumf_cons, sumf_combine_map. cbn [jj fst snd].
    unfold jterm at 1. cbn [app]. rewrite (cube_dim_cons b []), cube_dim_nil, Z.add_0_r.
    destruct (Z.eqb_spec b 2) as [->|N].
    + change (1 =? 0) with false. rewrite andb_false_r, Z.add_0_l. apply sumf_0. intros [[[l1 x] l2] [[m1 y] m2]] _. cbn [fst snd]. unfold jterm.
      cbn [app]. rewrite (cube_dim_cons 2). change (2 =? 2) with true. cbn iota. pose proof (cube_dim_nonneg (m1 ++ [y])).
      destruct (Z.eqb_spec (1 + cube_dim (m1 ++ [y])) 0); [lia|]. now rewrite andb_false_r.
    + change (0 =? 0) with true. rewrite andb_true_r. change (sgn (cube_dim [])) with 1. f_equal.
      * unfold e0. change (sgn 0) with 1. destruct (cube_dim (a :: u) =? 0); ring.
      * rewrite <- IH, <- sumf_scal. apply sumf_ext. intros [[[l1 x] l2] [[m1 y] m2]] _. cbn [fst snd]. unfold jterm. cbn [app]. rewrite (cube_dim_cons b), (cube_dim_cons a).
        destruct (Z.eqb_spec b 2); [contradiction|]. rewrite Z.add_0_l. rewrite sgn_add. destruct ((cube_dim (x :: l2) =? 0) && (cube_dim (m1 ++ [y]) =? 0)); [|ring].
        destruct (a =? 2); [change (sgn 1) with (-1)|change (sgn 0) with 1]; ring.
Qed.
Lemma join2_len c1 c2 b e : In (b, e) (join2 c1 c2) -> zlen c1 = zlen c2 -> zlen b = zlen c1 /\ cube_dim b = cube_dim c1 + cube_dim c2 + 1.
Proof.
  unfold join2. rewrite !cuts_splits, in_flat_map. intros ([[[l1 x] l2] [[m1 y] m2]] & Hin & Hb) L.
  assert (HL : forall (c1 c2 : list Z) p q, In (p, q) (combine (splits c1) (splits c2)) -> zlen (fst (fst p)) = zlen (fst (fst q))).
  { clear. induction c1 as [|a u IH]; intros [|b w] p q; try (now intros []).
    rewrite !splits_cons. cbn [combine]. intros [[= <- <-]|Hin]; [reflexivity|].
      assert (H : forall (h1 h2 : list Z * Z * list Z -> list Z * Z * list Z) l l', In (p, q) (combine (map h1 l) (map h2 l')) -> exists p' q', In (p', q') (combine l l') /\ p = h1 p' /\ q = h2 q').
      { clear. intros h1 h2 l. induction l as [|a l IH]; intros [|b l'] Hin; try (now destruct Hin). destruct Hin as [[= <- <-]|Hin].
        - exists a, b. split; [now left|auto].
        - apply IH in Hin. destruct Hin as (p' & q' & H1 & H2). exists p', q'. split; [now right|exact H2]. }
      apply H in Hin. destruct Hin as (p' & q' & Hin & -> & ->). cbn [fst]. rewrite !zlen_cons. f_equal. now apply IH with w. }
  pose proof (HL _ _ _ _ Hin) as HL'. cbn [fst] in HL'. pose proof (in_combine_l _ _ _ _ Hin) as H1. pose proof (in_combine_r _ _ _ _ Hin) as H2. apply splits_in in H1, H2. subst c1 c2.
  rewrite !zlen_app, !zlen_cons in L. rewrite <- !cube_dim_dim in Hb.
  destruct (Z.eqb_spec (cube_dim (x :: l2)) 0) as [E1|]; [|destruct Hb]. destruct (Z.eqb_spec (cube_dim (m1 ++ [y])) 0) as [E2|]; [|destruct Hb]. cbn [andb] in Hb.
  assert (Eb : b = l1 ++ 2 :: m2) by (destruct ((x =? 0) && (y =? 1)); [destruct Hb as [[= <- <-]|[]]; reflexivity|]; destruct ((x =? 1) && (y =? 0)); [destruct Hb as [[= <- <-]|[]]; reflexivity|destruct Hb]).
  subst b. rewrite !zlen_app, !zlen_cons. split; [lia|]. rewrite cube_dim_app in *. rewrite !cube_dim_app, (cube_dim_cons 2 m2). change (2 =? 2) with true. cbn iota.
  pose proof (cube_dim_cons y m2). pose proof (cube_dim_cons y []). rewrite cube_dim_nil in *. lia.
Qed.

(** chain homotopy *)
Lemma e0_cons a u : e0 (a :: u) = if a =? 2 then 0 else e0 u.
Proof. unfold e0. rewrite cube_dim_cons. destruct (a =? 2); [|reflexivity]. pose proof (cube_dim_nonneg u). destruct (Z.eqb_spec (1 + cube_dim u) 0); [lia|reflexivity]. Qed.
Lemma fdC_e0 c : fdC e0 c = 0.
Proof.
  induction c as [|a w IH]; [reflexivity|]. destruct (Z.eq_dec a 2) as [->|N].
  - rewrite fdC_2, !e0_cons. change (1 =? 2) with false. change (0 =? 2) with false. cbn iota. rewrite (fdC_ext _ (fun _ => 0)) by (intros; now rewrite e0_cons). rewrite fdC_0. ring.
  - rewrite fdC_n by assumption. rewrite (fdC_ext _ e0); [exact IH|]. intros u. rewrite e0_cons. destruct (Z.eqb_spec a 2); [contradiction|reflexivity].
Qed.
Definition d2j (J : list Z -> list Z -> Z) (f b : list Z) : Z := fdC (fun f' => J f' b) f + sgn (cube_dim f) * fdC (fun b' => J f b') b.
Lemma jj_22 G u w : jj G (2 :: u) (2 :: w) = 0. Proof. reflexivity. Qed.
Lemma jj_n2 G a u w : jj G (a :: u) (2 :: w) = 0. Proof. reflexivity. Qed.
Lemma jj_2n G u b w : b <> 2 -> jj G (2 :: u) (b :: w) = - jj (fun v => G (2 :: v)) u w.
Proof. intros N. cbn [jj]. destruct (Z.eqb_spec b 2); [contradiction|]. rewrite e0_cons. change (2 =? 2) with true. cbn iota. ring. Qed.
Lemma jj_nn G a u b w : a <> 2 -> b <> 2 -> jj G (a :: u) (b :: w) = e0 u * delta a b * G (2 :: w) + jj (fun v => G (a :: v)) u w.
Proof. intros Na Nb. cbn [jj]. rewrite e0_cons. destruct (Z.eqb_spec b 2); [contradiction|]. destruct (Z.eqb_spec a 2); [contradiction|]. ring. Qed.
Lemma jj_sub3 G1 G0 G2 u w : jj (fun v => G1 v - G0 v - G2 v) u w = jj G1 u w - jj G0 u w - jj G2 u w.
Proof.
  rewrite (jj_ext_all _ (fun v => 1 * G1 v + (-1) * (1 * G0 v + 1 * G2 v))) by (intros; ring).
  rewrite jj_lin, (jj_lin G0 G2). ring.
Qed.
Lemma jj_homotopy G c1 c2 : zlen c1 = zlen c2 -> is_cube c1 -> is_cube c2 -> jj (fdC G) c1 c2 + d2j (jj G) c1 c2 = e0 c1 * G c2 - e0 c2 * G c1.
Proof.
  revert G c2. induction c1 as [|a u IH]; intros G [|b w] L C1 C2.
  - unfold d2j, e0. cbn. ring.
  - exfalso. unfold zlen in L. cbn in L. lia.
  - exfalso. unfold zlen in L. cbn in L. lia.
  - rewrite !zlen_cons in L. assert (Lu : zlen u = zlen w) by lia. clear L.
    assert (Ca : a = 0 \/ a = 1 \/ a = 2) by (apply C1; now left). assert (Cb : b = 0 \/ b = 1 \/ b = 2) by (apply C2; now left).
    assert (Cu : is_cube u) by (intros z Hz; apply C1; now right). assert (Cw : is_cube w) by (intros z Hz; apply C2; now right). clear C1 C2.
    assert (Eu : sgn (cube_dim u) * e0 u = e0 u) by (destruct (e0_cases u) as [[-> ->]|[_ ->]]; [reflexivity|ring]).
    unfold d2j in *. rewrite !e0_cons, (cube_dim_cons a). destruct (Z.eqb_spec a 2) as [->|Na]; destruct (Z.eqb_spec b 2) as [->|Nb].
    + rewrite jj_22. rewrite !fdC_2, !jj_n2. rewrite !jj_2n by lia. rewrite (fdC_ext (fun u0 => jj G (2 :: u0) (2 :: w)) (fun _ => 0)) by reflexivity.
      change (fun u0 : list Z => jj G (2 :: u) (2 :: u0)) with (fun _ : list Z => 0). rewrite !fdC_0. ring.
    + rewrite jj_2n, fdC_2, !jj_nn, fdC_n by (assumption || lia). rewrite sgn_S'.
      rewrite (jj_ext_all (fun v => fdC G (2 :: v)) (fun v => (fun v => G (1 :: v)) v - (fun v => G (0 :: v)) v - fdC (fun v => G (2 :: v)) v)) by (intros; apply fdC_2). rewrite jj_sub3.
      rewrite (fdC_ext (fun u0 => jj G (2 :: u0) (b :: w)) (fun u0 => (-1) * jj (fun v => G (2 :: v)) u0 w)) by (intros; rewrite jj_2n by assumption; ring).
      rewrite (fdC_ext (fun u0 => jj G (2 :: u) (b :: u0)) (fun u0 => (-1) * jj (fun v => G (2 :: v)) u u0)) by (intros; rewrite jj_2n by assumption; ring).
      rewrite !fdC_scal. specialize (IH (fun v => G (2 :: v)) w Lu Cu Cw). change (fun v => fdC (fun v0 => G (2 :: v0)) v) with (fdC (fun v => G (2 :: v))) in *.
      assert (Hd : delta 1 b - delta 0 b = -1) by (destruct Cb as [-> | [-> | ->]]; [reflexivity|reflexivity|contradiction]).
      set (A := jj (fdC (fun v => G (2 :: v))) u w) in *. set (B := fdC (fun f' => jj (fun v => G (2 :: v)) f' w) u) in *. 
      change (fdC (fun u0 => jj (fun v => G (2 :: v)) u0 w) u) with B. set (C := fdC (fun b' => jj (fun v => G (2 :: v)) u b') w) in *. change (fdC (fun u0 => jj (fun v => G (2 :: v)) u u0) w) with C.
      replace (delta 1 b) with (delta 0 b - 1) by lia. transitivity ((A + (B + sgn (cube_dim u) * C)) - e0 u * G (2 :: w)); [ring|rewrite IH; ring].
    + rewrite jj_n2, fdC_n, fdC_2, !jj_nn by (assumption || lia). rewrite (fdC_ext (fun u0 => jj G (a :: u0) (2 :: w)) (fun _ => 0)) by reflexivity.
      change (fun u0 : list Z => jj G (a :: u) (2 :: u0)) with (fun _ : list Z => 0). rewrite !fdC_0, Z.add_0_l.
      assert (Hd : delta a 1 - delta a 0 = 1) by (destruct Ca as [-> | [-> | ->]]; [reflexivity|reflexivity|contradiction]). replace (delta a 1) with (delta a 0 + 1) by lia.
      transitivity ((sgn (cube_dim u) * e0 u) * G (2 :: w)); [rewrite !Z.add_0_l; ring|rewrite Eu; ring].
    + rewrite jj_nn by assumption. rewrite fdC_2, (fdC_n _ a), (fdC_n _ b) by assumption.
      rewrite (jj_ext_all (fun v => fdC G (a :: v)) (fdC (fun v => G (a :: v)))) by (intros; now rewrite fdC_n).
      rewrite (fdC_ext (fun u0 => jj G (a :: u0) (b :: w)) (fun u0 => (delta a b * G (2 :: w)) * e0 u0 + jj (fun v => G (a :: v)) u0 w)) by (intros; rewrite jj_nn by assumption; ring).
      rewrite (fdC_ext (fun u0 => jj G (a :: u) (b :: u0)) (fun u0 => (e0 u * delta a b) * G (2 :: u0) + jj (fun v => G (a :: v)) u u0)) by (intros; rewrite jj_nn by assumption; ring).
      rewrite !fdC_add, !fdC_scal. change (fun u0 => e0 u0) with e0. rewrite fdC_e0. specialize (IH (fun v => G (a :: v)) w Lu Cu Cw). cbn beta in IH. rewrite Z.add_0_l.
      assert (Hd : delta a b * (G (1 :: w) - G (0 :: w)) + G (a :: w) = G (b :: w)) by (destruct Ca as [-> | [-> | ->]]; destruct Cb as [-> | [-> | ->]]; first [contradiction | change (delta 0 0) with 0; ring | change (delta 0 1) with 1; ring | change (delta 1 0) with (-1); ring | change (delta 1 1) with 0; ring]).
      set (A := jj (fdC (fun v => G (a :: v))) u w) in *. set (B := fdC (fun f' => jj (fun v => G (a :: v)) f' w) u) in *. 
      change (fdC (fun u0 => jj (fun v => G (a :: v)) u0 w) u) with B. set (C := fdC (fun b' => jj (fun v => G (a :: v)) u b') w) in *. change (fdC (fun u0 => jj (fun v => G (a :: v)) u u0) w) with C.
      set (X := fdC (fun u0 => G (2 :: u0)) w). rewrite <- Hd. 
      transitivity (e0 u * delta a b * (G (1 :: w) - G (0 :: w) - X) + (sgn (cube_dim u) * e0 u) * (delta a b * X) + (A + (B + sgn (cube_dim u) * C))); [ring|]. rewrite Eu, IH. ring.
Qed.

(** ** Iterated joins *)
Fixpoint Jn (G : list Z -> Z) (k : list (list Z)) (b : list Z) : Z :=
  match k with
  | [] => G b
  | c :: k' => ev (Jn G k') (join2 b c)
  end.
Lemma ev_flat {K K'} (f : K -> dict K') (l : dict K) g : ev g (flat_map (fun '(b, e) => map (fun '(b', e') => (b', e * e')) (f b)) l) = ev (fun b => ev g (f b)) l.
Proof.
  unfold ev. rewrite sumf_flat_map. apply sumf_ext. intros [b e] _. rewrite sumf_map. cbn [fst snd]. rewrite <- sumf_scal. apply sumf_ext. intros [b' e'] _. cbn [fst snd]. ring.
Qed.
Lemma joins_Jn G c k : ev G (joins (c :: k)) = Jn G k c.
Proof.
  unfold joins. assert (H : forall acc, ev G (fold_left (fun acc c' => flat_map (fun '(b, e) => map (fun '(b', e') => (b', e * e')) (join2 b c')) acc) k acc) = ev (Jn G k) acc).
  { induction k as [|c' k IH]; intros acc; cbn [fold_left Jn]; [reflexivity|]. rewrite IH. apply (ev_flat (fun b => join2 b c')). }
  rewrite H, ev_cons, ev_nil. ring.
Qed.
Lemma Jn_zero k b : Jn (fun _ => 0) k b = 0.
Proof. revert b. induction k as [|c k IH]; intros b; [reflexivity|]. cbn [Jn]. now apply ev_zero. Qed.
Lemma sumf_combine_splits (F : (list Z * Z * list Z) * (list Z * Z * list Z) -> Z) b c : zlen b = zlen c ->
  sumf F (combine (splits b) (splits c)) = sumf (fun i => F ((slice_to b i, znth 0 b i, slice_from b (i + 1)), (slice_to c i, znth 0 c i, slice_from c (i + 1)))) (zrange 0 (zlen b)).
Proof.
  revert F c. induction b as [|x b IH]; intros F [|y c] L; try (exfalso; unfold zlen in L; cbn in L; lia); [reflexivity|]. rewrite !zlen_cons in L.
  rewrite !splits_cons. cbn [combine]. rewrite sumf_cons, sumf_combine_map, zlen_cons, sumf_zrange_S by apply zlen_nonneg. f_equal.
  - rewrite !slice_from_S by lia. rewrite !slice_to_firstn, !slice_from_skipn by lia. reflexivity.
  - rewrite (IH (fun p => F ((x :: fst (fst (fst p)), snd (fst (fst p)), snd (fst p)), (y :: fst (fst (snd p)), snd (fst (snd p)), snd (snd p))))) by lia.
    apply sumf_ext. intros i Hi. apply in_zrange in Hi. cbn [fst snd]. rewrite !slice_to_S, !(slice_from_S _ _ (i + 1)) by lia. unfold znth. replace (Z.to_nat (i + 1)) with (S (Z.to_nat i)) by lia. reflexivity.
Qed.
Lemma combinations_zrange {t N} : forall a, combinations (S t) (zrange a N) = flat_map (fun b => map (cons b) (combinations t (zrange (b + 1) N))) (zrange a N).
Proof.
  intros a. remember (Z.to_nat (N - a)) as m eqn:Em. revert a Em. induction m as [|m IH]; intros a Em.
  - rewrite (zrange_nil a N) by lia. reflexivity.
  - rewrite (zrange_cons a N) by lia. specialize (IH (a + 1) ltac:(lia)). cbn [flat_map]. rewrite <- IH. reflexivity.
Qed.
Definition termv (G : list Z -> Z) (ind : list Z) (c b : list Z) (s : Z) (k : list (list Z)) : Z :=
  match join_skip (combine ind (pairwise (c :: k))) with
  | Ok false => match join_loop (combine ind k) b s with Ok (Some (b', s')) => sgn s' * G b' | _ => 0 end
  | _ => 0
  end.
Lemma termv_cons G i ind c b s c' k : termv G (i :: ind) c b s (c' :: k) =
  match join_is_zero_l (cube_intervals c) i, join_is_zero_r i (cube_intervals c') with
  | Ok false, Ok false => match join_step i b c' s with Ok (Some (b', s')) => termv G ind c' b' s' k | _ => 0 end
  | _, _ => 0
  end.
Proof.
  unfold termv. rewrite pairwise_cons. cbn [combine join_skip join_loop]. destruct (join_is_zero_l (cube_intervals c) i) as [[|]|]; cbn [bind]; try reflexivity.
  destruct (join_is_zero_r i (cube_intervals c')) as [[|]|]; cbn [bind]; try reflexivity.
  destruct (join_step i b c' s) as [[[b' s']|]|]; cbn [bind]; try reflexivity; destruct (join_skip _) as [[|]|]; reflexivity.
Qed.
Lemma skipn_app_len {B} (l1 l2 : list B) n : n = length l1 -> skipn n (l1 ++ l2) = l2.
Proof. intros ->. rewrite skipn_app, skipn_all, Nat.sub_diag. reflexivity. Qed.
Lemma firstn_app_len {B} (l1 l2 : list B) n : n = length l1 -> firstn n (l1 ++ l2) = l1.
Proof. intros ->. rewrite firstn_app, firstn_all, Nat.sub_diag. cbn. apply app_nil_r. Qed.
Lemma slice_to_app' {B} (l1 l2 : list B) i : zlen l1 = i -> slice_to (l1 ++ l2) i = l1.
Proof. intros <-. apply slice_to_app. Qed.
Lemma slice_from_app_S' {B} (l1 l2 : list B) a i : zlen l1 = i -> slice_from (l1 ++ a :: l2) (i + 1) = l2.
Proof. intros <-. apply slice_from_app_S. Qed.
Lemma znth_app' {B} (d : B) (l1 l2 : list B) a i : zlen l1 = i -> znth d (l1 ++ a :: l2) i = a.
Proof. intros <-. unfold znth. rewrite zlen_length. apply nth_middle. Qed.
Lemma py_get_app' {B} (l1 l2 : list B) a i : zlen l1 = i -> py_get (l1 ++ a :: l2) i = Ok a.
Proof. intros <-. apply py_get_app. Qed.
Lemma zero_l' c1 a c2 i : zlen c1 = i -> join_is_zero_l (cube_intervals (c1 ++ a :: c2)) i = Ok (negb (cube_dim (a :: c2) =? 0)).
Proof. intros <-. apply zero_l. Qed.
Lemma zero_r' c1 a c2 i : zlen c1 = i -> join_is_zero_r i (cube_intervals (c1 ++ a :: c2)) = Ok (negb (cube_dim (c1 ++ [a]) =? 0)).
Proof. intros <-. apply zero_r. Qed.
Lemma skipn_add {B} n m (l : list B) : skipn (n + m) l = skipn n (skipn m l).
Proof. revert l. induction m as [|m IH]; intros l; [now rewrite Nat.add_0_r|]. rewrite Nat.add_succ_r. destruct l; [now rewrite !skipn_nil|]. apply IH. Qed.
Lemma code_joins G N : forall k c b s lo, zlen c = N -> zlen b = N -> (forall c', In c' k -> zlen c' = N) -> 0 <= lo <= N ->
  skipn (Z.to_nat lo) b = skipn (Z.to_nat lo) c -> cube_dim (firstn (Z.to_nat lo) c) = 0 -> (forall i, 0 <= i < lo -> cube_dim (skipn (Z.to_nat i) b) <> 0) ->
  sumf (fun ind => termv G ind c b s k) (combinations (length k) (zrange lo N)) = sgn s * Jn G k b.
Proof.
  induction k as [|c' k IH]; intros c b s lo Lc Lb Lk Hlo Hs Hd Hb.
  - cbn [combinations length]. rewrite sumf_cons, sumf_nil, Z.add_0_r. reflexivity.
  - cbn [length Jn]. rewrite combinations_zrange, sumf_flat_map.
    assert (Lc' : zlen c' = N) by (apply Lk; now left). rewrite join2_sum, sumf_combine_splits by lia. rewrite Lb, (zrange_app 0 lo N) by lia. rewrite sumf_app.
    rewrite (sumf_0 _ (zrange 0 lo)), Z.add_0_l.
    2:{ intros i Hi. apply in_zrange in Hi. cbn iota. destruct (split_at b i) as (b1 & x & b2 & -> & E1); [lia|]. unfold jterm. rewrite (slice_from_app_S' _ _ _ i), (znth_app' _ _ _ _ i) by assumption. specialize (Hb i ltac:(lia)). rewrite skipn_app_len in Hb by (unfold zlen in E1; lia).
        destruct (Z.eqb_spec (cube_dim (x :: b2)) 0); [contradiction|reflexivity]. }
    rewrite <- sumf_scal. apply sumf_ext. intros i Hi. apply in_zrange in Hi. rewrite sumf_map. cbn iota.
    destruct (split_at c i) as (c1 & x & c2 & -> & E1); [lia|]. destruct (split_at b i) as (b1 & x' & b2 & -> & E2); [lia|]. destruct (split_at c' i) as (m1 & y & m2 & -> & E3); [lia|].
    assert (Ex : x' :: b2 = x :: c2).
    { assert (H : skipn (Z.to_nat i) (b1 ++ x' :: b2) = skipn (Z.to_nat i) (c1 ++ x :: c2)).
      { replace (Z.to_nat i) with (Z.to_nat (i - lo) + Z.to_nat lo)%nat by lia. rewrite !skipn_add. now rewrite Hs. }
      rewrite !skipn_app_len in H by (unfold zlen in *; lia). exact H. }
    injection Ex as -> ->. rewrite !(slice_to_app' _ _ i), !(slice_from_app_S' _ _ _ i), !(znth_app' _ _ _ _ i) by assumption.
    rewrite (sumf_ext _ (fun ind => match Ok (negb (cube_dim (x :: c2) =? 0)), Ok (negb (cube_dim (m1 ++ [y]) =? 0)) with
       | Ok false, Ok false => match join_step i (b1 ++ x :: c2) (m1 ++ y :: m2) s with Ok (Some (b', s')) => termv G ind (m1 ++ y :: m2) b' s' k | _ => 0 end | _, _ => 0 end)).
    2:{ intros ind _. rewrite termv_cons, zero_l', zero_r' by assumption. reflexivity. }
    unfold jterm. destruct (Z.eqb_spec (cube_dim (x :: c2)) 0) as [Ed1|]; cbn [negb andb]; [|rewrite sumf_0 by reflexivity; ring].
    destruct (Z.eqb_spec (cube_dim (m1 ++ [y])) 0) as [Ed2|]; cbn [negb andb]; [|rewrite sumf_0 by reflexivity; ring].
    unfold join_step. rewrite !(slice_to_app' _ _ i), !(slice_from_app_S' _ _ _ i), !(py_get_app' _ _ _ i) by assumption. cbn [bind].
    assert (EI : forall s', sumf (fun ind => termv G ind (m1 ++ y :: m2) (b1 ++ 2 :: m2) s' k) (combinations (length k) (zrange (i + 1) N)) = sgn s' * Jn G k (b1 ++ 2 :: m2)).
    { intros s'. rewrite !zlen_app, !zlen_cons in *. apply IH; try (rewrite ?zlen_app, ?zlen_cons; lia).
      - intros c' Hc'. apply Lk. now right.
      - replace (b1 ++ 2 :: m2) with ((b1 ++ [2]) ++ m2) by now rewrite <- app_assoc. replace (m1 ++ y :: m2) with ((m1 ++ [y]) ++ m2) by now rewrite <- app_assoc.
        rewrite !skipn_app_len; [reflexivity| |]; rewrite app_length; cbn [length]; unfold zlen in *; lia.
      - replace (m1 ++ y :: m2) with ((m1 ++ [y]) ++ m2) by now rewrite <- app_assoc. rewrite firstn_app_len; [exact Ed2|]. rewrite app_length; cbn [length]; unfold zlen in *; lia.
      - intros j Hj. rewrite skipn_app. replace (Z.to_nat j - length b1)%nat with O by (unfold zlen in *; lia). cbn [skipn]. rewrite cube_dim_app, cube_dim_cons. change (2 =? 2) with true. cbn iota.
        pose proof (cube_dim_nonneg (skipn (Z.to_nat j) b1)). pose proof (cube_dim_nonneg m2). lia. }
    assert (Es : sgn (cube_dim (b1 ++ x :: c2)) = sgn (cube_dim b1)) by (rewrite cube_dim_app, Ed1; f_equal; ring).
    unfold delta. destruct ((x =? 0) && (y =? 1)).
    + cbn [app]. rewrite EI, sgn_mod2, sgn_add, Es. ring.
    + destruct ((x =? 1) && (y =? 0)).
      * cbn [app]. rewrite EI, sgn_mod2, sgn_S', sgn_add, Es. ring.
      * rewrite sumf_0 by reflexivity. ring.
Qed.
Lemma zero_l_ok l i : exists r, join_is_zero_l l i = Ok r. Proof. destruct l; eexists; reflexivity. Qed.
Lemma zero_r_ok l i : exists r, join_is_zero_r i l = Ok r. Proof. destruct l; eexists; reflexivity. Qed.
Lemma join_skip_ok l : exists r, join_skip l = Ok r.
Proof.
  induction l as [|[i [c1 c2]] l IH]; [eexists; reflexivity|]. cbn [join_skip]. destruct (zero_l_ok (cube_intervals c1) i) as [[|] ->]; cbn [bind]; [eexists; reflexivity|].
  destruct (zero_r_ok (cube_intervals c2) i) as [[|] ->]; cbn [bind]; [eexists; reflexivity|]. exact IH.
Qed.
Lemma join_loop_ok N l b s : zlen b = N -> (forall i c, In (i, c) l -> 0 <= i < N /\ zlen c = N) -> exists r, join_loop l b s = Ok r.
Proof.
  revert b s. induction l as [|[i c] l IH]; intros b s Lb Hl; [eexists; reflexivity|]. cbn [join_loop]. destruct (Hl i c (or_introl eq_refl)) as [Hi Lc].
  unfold join_step. destruct (split_at b i) as (b1 & x & b2 & -> & E1); [lia|]. destruct (split_at c i) as (c1 & y & c2 & -> & E2); [lia|].
  rewrite !(slice_to_app' _ _ i), !(slice_from_app_S' _ _ _ i), !(py_get_app' _ _ _ i) by assumption. cbn [bind].
  assert (L : zlen (b1 ++ [2] ++ c2) = N) by (rewrite !zlen_app, !zlen_cons, zlen_nil in *; lia).
  destruct (_ && _); [cbn [bind]; apply IH; [exact L|]; intros; apply Hl; now right|]. destruct (_ && _); cbn [bind]; [apply IH; [exact L|]; intros; apply Hl; now right|]. eexists. reflexivity.
Qed.
Lemma combinations_bounds m a b c i : In c (combinations m (zrange a b)) -> In i c -> a <= i < b.
Proof.
  revert a c. induction m as [|m IH]; intros a c Hc Hi.
  - destruct Hc as [<-|[]]. destruct Hi.
  - rewrite combinations_zrange in Hc. apply in_flat_map in Hc. destruct Hc as (j & Hj & Hc). apply in_zrange in Hj. apply in_map_iff in Hc. destruct Hc as (c' & <- & Hc').
    destruct Hi as [<-|Hi]; [lia|]. specialize (IH _ _ Hc' Hi). lia.
Qed.
(** keys with at least one factor, all of the same length *)
Definition even_cubes (k : list (list Z)) : Prop := forall c, In c k -> zlen c = zlen (hd [] k).
Definition DJ (g : list (list Z) -> Z) (k : list (list Z)) : Z := ev (fun b => g [b]) (joins k).
Lemma join_den dt t n d (x : cubc) : 0 <= t -> dt_ok dt t -> wf cls_cubical x -> torsion x = t -> 1 <= n -> keys_in (kdeg cube_dim n d) x -> keys_in even_cubes x ->
  returns (cub_join dt x) (den cls_cubical t tt (fun g => ev (DJ g) (data x))).
Proof.
  intros Ht Hdt Wx Tx Hn Kx Ke. unfold cub_join. destruct (data x) as [|p q] eqn:Ex; cbn [dempty].
  - apply returns_ok. rewrite <- Ex. pose proof (den_self cls_cubical x Wx) as H. rewrite Tx, (cub_attr x), Ex in H. rewrite Ex. exact H.
  - rewrite <- Ex. assert (Nx : data x <> []) by (rewrite Ex; discriminate). clear p q Ex.
    assert (Ed : cub_degree x = Some d).
    { unfold cub_degree. rewrite (zset_const _ d); [reflexivity| |].
      - unfold dkeys. rewrite map_map. now destruct (data x).
      - intros m Hm. apply in_map_iff in Hm. destruct Hm as (k & <- & Hk). apply in_map_iff in Hk. destruct Hk as ([k' v] & <- & Hin). exact (proj2 (Kx _ _ Hin)). }
    rewrite Ed. eapply returns_bind; [apply (zero_den cls_cubical ok_cubical dt t); auto|]. intros y0 Hy0. rewrite cub_attr in Hy0. eapply returns_mono.
    + apply (loop_den cls_cubical ok_cubical t tt (data x) _ (fun k g => DJ g k)); [|exact Hy0].
      intros k v F y Hin Hy. destruct (Kx _ _ Hin) as [Lk _]. specialize (Ke _ _ Hin). destruct k as [|c k]; [rewrite zlen_nil in Lk; lia|]. unfold even_cubes in Ke. cbn [hd] in Ke.
      change (py_get (c :: k) 0) with (py_get ([] ++ c :: k) (zlen (@nil (list Z)))). rewrite py_get_app. cbn [bind]. unfold cub_arity.
      rewrite (tensor_arity_ok n) by (assumption || (intros k' v' Hin'; exact (proj1 (Kx _ _ Hin')))). rewrite zlen_cons in Lk. unfold py_combinations. destruct (Z.ltb_spec (n - 1) 0); [lia|]. cbn [bind].
      replace (Z.to_nat (n - 1)) with (length k) by (unfold zlen in Lk; lia).
      change (slice_from (c :: k) 1) with (slice_from ([] ++ c :: k) (zlen (@nil (list Z)) + 1)). rewrite slice_from_app_S. eapply returns_mono.
      * apply (for_den cls_cubical t _ _ (fun ind g => v * termv (fun b => g [b]) ind c c 0 k) tt); [|exact Hy].
        intros ind F1 y1 Hind Hy1. unfold termv. destruct (join_skip_ok (combine ind (pairwise (c :: k)))) as [sk Esk]. rewrite Esk. cbn [bind]. destruct sk.
        -- apply returns_ok. eapply den_ext; [|exact Hy1]. intros g _. apply eqm_eq. ring.
        -- destruct (join_loop_ok (zlen c) (combine ind k) c 0 eq_refl) as [r Er].
           { intros i c' Hic. split; [apply (combinations_bounds _ _ _ _ _ Hind); now apply in_combine_l in Hic|]. apply Ke. right. now apply in_combine_r in Hic. }
           rewrite Er. cbn [bind]. destruct r as [[cube se]|].
           ++ eapply returns_mono; [eapply (add_term_den cls_cubical ok_cubical dt t); eauto; [exact (proj1 Hy1)|eexists; reflexivity]|].
              intros z Hz. eapply den_ext; [|exact Hz]. intros g _. cbn beta. apply eqm_eq. ring.
           ++ apply returns_ok. eapply den_ext; [|exact Hy1]. intros g _. apply eqm_eq. ring.
      * intros z Hz. eapply den_ext; [|exact Hz]. intros g _. cbn beta. apply eqm_eq. f_equal. rewrite sumf_scal. f_equal. unfold DJ. rewrite joins_Jn.
        rewrite (code_joins (fun b => g [b]) (zlen c)); [change (sgn 0) with 1; ring|reflexivity|reflexivity|intros; apply Ke; now right|pose proof (zlen_nonneg c); lia|reflexivity|reflexivity|intros; lia].
    + intros z Hz. eapply den_ext; [|exact Hz]. intros g _. cbn beta. apply eqm_eq. now rewrite Z.add_0_l.
Qed.
