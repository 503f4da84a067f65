(** * Braces in the surjection operad (C102) *)
From Coq Require Import Setoid Morphisms.
From Verif Require Import PyBase Dict FreeModule Symmetric Simplicial Utils Surjection GroupMul Eqm Spec SpecChain SpecOperad SpecSurj SpecBrace FreeModuleFacts FreeModuleLaws ListFacts
  ClassFacts LinearFacts BilFacts SymmetricFacts CycleFacts SymmetricLaws RingFacts TensorAct LoopFacts AW SimplicialDiag SurjFacts SurjBoundary SurjLaws SurjAct SurjLaws3 SurjCompose SurjCompose2 SurjCompose3 SurjCompose4 SurjLaws6 GroupLaws.

(** ** the words *)
Lemma braced_cons a z l : braced a (z :: l) = a :: z :: braced a l. Proof. reflexivity. Qed.
Lemma in_braced a l c : In c (braced a l) <-> c = a \/ In c l.
Proof.
  induction l as [|z l IH]; [cbn; intuition congruence|]. rewrite braced_cons. cbn [In]. rewrite IH. intuition congruence.
Qed.
Lemma mem_braced a l : mem a (braced a l) = true. Proof. unfold braced. cbn. now rewrite Z.eqb_refl. Qed.
Lemma mem_braced_out a l c : c <> a -> ~ In c l -> mem c (braced a l) = false.
Proof. intros N1 N2. apply not_true_iff_false. rewrite mem_in, in_braced. tauto. Qed.
Lemma braced_map f a l : map f (braced a l) = braced (f a) (map f l).
Proof. induction l as [|z l IH]; [reflexivity|]. cbn [map]. rewrite !braced_cons. cbn [map]. now rewrite IH. Qed.
Lemma zlen_braced a l : zlen (braced a l) = 2 * zlen l + 1.
Proof. induction l as [|z l IH]; [reflexivity|]. rewrite braced_cons, !zlen_cons, IH. ring. Qed.
Lemma adj_braced a l : ~ In a l -> adj (braced a l) = false.
Proof.
  induction l as [|z l IH]; intros N; [reflexivity|]. cbn [In] in N. rewrite braced_cons, adj_cons2. unfold braced in *. rewrite adj_cons2, IH by tauto.
  rewrite orb_false_r. apply orb_false_iff. split; apply Z.eqb_neq; intros ->; tauto.
Qed.
Lemma brace_onto n : 0 <= n -> onto (n + 1) (brace n).
Proof. intros Hn c. unfold brace. rewrite in_braced, in_zrange. lia. Qed.
Lemma brace_cell n : 0 <= n -> surj_cell (n + 1) n (brace n).
Proof. intros Hn. split; [now apply brace_onto|]. unfold brace. rewrite zlen_braced, zlen_zrange. lia. Qed.
Lemma brace_good n : 0 <= n -> surj_bad (brace n) = Ok false.
Proof. intros Hn. rewrite (surj_bad_onto (n + 1)) by (try lia; now apply brace_onto). f_equal. apply adj_braced. rewrite in_zrange. lia. Qed.
Lemma brace_wf n t : 0 <= n -> 0 <= t -> t <> 1 -> wf cls_surj (mkElt [(brace n, 1)] t BF).
Proof. intros. apply wf_basis_gen; auto. now apply brace_good. Qed.
(** complexity *)
Lemma changes_le a b w : (forall c, In c w -> c = a \/ c = b) -> changes w <= 2 * times_in b w - (match w with c :: _ => if c =? b then 1 else 0 | [] => 0 end).
Proof.
  induction w as [|c w IH]; intros Hw; [cbn; lia|]. specialize (IH (fun c Hc => Hw c (or_intror Hc))). cbn [times_in]. destruct w as [|d w].
  - cbn [changes times_in]. destruct (c =? b); lia.
  - cbn [changes]. cbn [changes] in IH. destruct (Hw c (or_introl eq_refl)), (Hw d (or_intror (or_introl eq_refl))); subst;
    rewrite ?Z.eqb_refl in *; destruct (Z.eqb_spec a b), (Z.eqb_spec b a); cbn [negb] in *; lia.
Qed.
Lemma times_filter b p w : times_in b (filter p w) <= times_in b w.
Proof. induction w as [|c w IH]; [reflexivity|]. cbn [filter times_in]. destruct (p c); cbn [times_in]; destruct (c =? b); lia. Qed.
Lemma times_notin b w : ~ In b w -> times_in b w = 0.
Proof. induction w as [|c w IH]; intros N; [reflexivity|]. cbn [In] in N. cbn [times_in]. rewrite IH by tauto. destruct (Z.eqb_spec c b); [tauto|reflexivity]. Qed.
Lemma times_braced a l b : b <> a -> NoDup l -> times_in b (braced a l) <= 1.
Proof.
  intros N. induction l as [|z l IH]; intros D.
  - unfold braced. cbn. destruct (Z.eqb_spec a b); [congruence|lia].
  - inversion D as [|? ? Hz D']; subst. rewrite braced_cons. cbn [times_in]. destruct (Z.eqb_spec a b); [congruence|]. destruct (Z.eqb_spec z b) as [->|].
    + rewrite times_notin; [lia|]. rewrite in_braced. tauto.
    + specialize (IH D'). lia.
Qed.
Lemma zrange_nodup a b : NoDup (zrange a b).
Proof. unfold zrange. apply FinFun.Injective_map_NoDup; [intros x y E; lia|apply seq_NoDup]. Qed.
Lemma switches_le i j b w : (b = i \/ b = j) -> switches i j w <= 2 * times_in b w.
Proof.
  intros Hb. unfold switches. set (p := fun a => (a =? i) || (a =? j)). assert (T := times_filter b p w).
  assert (C : changes (filter p w) <= 2 * times_in b (filter p w)).
  { destruct Hb as [-> | ->].
    - pose proof (changes_le j i (filter p w)) as L. destruct (filter p w) as [|c v] eqn:E; [cbn; lia|]. rewrite <- E in *.
      assert (Q : forall c, In c (filter p w) -> c = j \/ c = i) by (intros d Hd; apply filter_In in Hd; destruct Hd as [_ Hd]; unfold p in Hd; rewrite orb_true_iff, !Z.eqb_eq in Hd; tauto).
      specialize (L Q). rewrite E in *. destruct (c =? i); lia.
    - pose proof (changes_le i j (filter p w)) as L. destruct (filter p w) as [|c v] eqn:E; [cbn; lia|]. rewrite <- E in *.
      assert (Q : forall c, In c (filter p w) -> c = i \/ c = j) by (intros d Hd; apply filter_In in Hd; destruct Hd as [_ Hd]; unfold p in Hd; rewrite orb_true_iff, !Z.eqb_eq in Hd; tauto).
      specialize (L Q). rewrite E in *. destruct (c =? j); lia. }
  lia.
Qed.
Lemma switches_brace i j n : i <> j -> switches i j (brace n) <= 2.
Proof.
  intros N. assert (exists b, (b = i \/ b = j) /\ b <> 1) as (b & Hb & Nb) by (destruct (Z.eq_dec i 1); [exists j|exists i]; split; auto; lia).
  pose proof (switches_le i j b (brace n) Hb). pose proof (times_braced 1 (zrange 2 (n + 2)) b Nb (zrange_nodup _ _)). unfold brace in *. lia.
Qed.
Lemma switches_one n w : (forall c, In c w -> c <> 2) -> changes (filter (fun a => (a =? 1) || (a =? 2)) (2 :: braced 1 w)) = 1 + n - n.
Proof.
  intros Hw. assert (E : forall u, (forall c, In c u -> c <> 2) -> changes (filter (fun a => (a =? 1) || (a =? 2)) u) = 0 /\ (forall c v, filter (fun a => (a =? 1) || (a =? 2)) u = c :: v -> c = 1)).
  { induction u as [|c u IH]; intros Hu; [split; [reflexivity|discriminate]|]. destruct IH as [I1 I2]; [intros d Hd; apply Hu; now right|]. cbn [filter].
    destruct (Z.eqb_spec c 2) as [->|_]; [exfalso; apply (Hu 2); [now left|reflexivity]|]. destruct (Z.eqb_spec c 1) as [->|]; cbn [orb]; [|now split].
    split; [|intros d v Q; now injection Q]. destruct (filter _ u) as [|d v]; [reflexivity|]. pose proof (I2 d v eq_refl). subst d. change (changes (1 :: 1 :: v)) with (0 + changes (1 :: v)). now rewrite I1. }
  unfold braced. cbn [filter]. change ((2 =? 1) || (2 =? 2)) with true. change ((1 =? 1) || (1 =? 2)) with true. cbv iota.
  assert (Q : forall c, In c (braced 1 w) -> c <> 2) by (intros c; rewrite in_braced; intros [-> | Hc]; [lia|now apply Hw]).
  destruct (E _ Q) as [E1 _]. unfold braced in E1. cbn [filter] in E1. change ((1 =? 1) || (1 =? 2)) with true in E1. cbv iota in E1.
  cbn [changes] in *. change (2 =? 1) with false. cbv iota. rewrite E1. ring.
Qed.
Lemma switches_brace12 n : 1 <= n -> switches 1 2 (brace n) = 2.
Proof.
  intros Hn. unfold brace. rewrite zrange_cons by lia. rewrite braced_cons. unfold switches.
  pose proof (switches_one 0 (zrange (2 + 1) (n + 2))) as E. assert (Q : forall c, In c (zrange (2 + 1) (n + 2)) -> c <> 2) by (intros c; rewrite in_zrange; lia). specialize (E Q).
  remember (2 :: braced 1 (zrange (2 + 1) (n + 2))) as w eqn:Ew. cbn [filter]. change ((1 =? 1) || (1 =? 2)) with true. cbv iota.
  assert (exists v, filter (fun a => (a =? 1) || (a =? 2)) w = 2 :: v) as [v Ev] by (rewrite Ew; cbn [filter]; change ((2 =? 1) || (2 =? 2)) with true; cbv iota; now eexists).
  rewrite Ev in *. cbn [changes] in *. change (1 =? 2) with false. cbv iota. rewrite E. reflexivity.
Qed.
(** #C102_brace_element# The brace 1 2 1 3 1 ... (n+1) 1 is a basis element of arity n + 1 and degree n; its complexity is 2 (0 for n = 0),
    so that it lies in the part of the surjection operad that models the little 2-cubes. *)
Lemma C102_brace_element_l (n t : Z) : 0 <= n -> 0 <= t -> t <> 1 ->
  wf cls_surj (mkElt [(brace n, 1)] t BF) /\ surj_cell (n + 1) n (brace n) /\
  surj_complexity (mkElt [(brace n, 1)] t BF) = Ok (if n =? 0 then 0 else 2).
Proof.
  intros Hn Ht Nt. pose proof (brace_wf n t Hn Ht Nt) as W. split; [exact W|]. split; [now apply brace_cell|].
  destruct (C54_complexity_value_l _ W) as (c & E & H1 & H2). rewrite E. f_equal. cbn [data] in *. destruct (Z.eqb_spec n 0) as [->|N].
  - destruct H2 as [H2|(k & v & i & j & Hk & Hij & Hi & Hj & H2)]; [exact H2|]. destruct Hk as [Hk|[]]. injection Hk as <- <-. apply brace_onto in Hi; [|lia]. apply brace_onto in Hj; lia.
  - apply Z.le_antisymm.
    + destruct H2 as [H2|(k & v & i & j & Hk & Hij & Hi & Hj & H2)]; [lia|]. destruct Hk as [Hk|[]]. injection Hk as <- <-. rewrite <- H2. apply switches_brace. lia.
    + rewrite <- (switches_brace12 n) by lia. eapply H1. left. reflexivity.
Qed.

(** ** boundary *)
Fixpoint dropb (a : Z) (j : nat) (l : list Z) : list Z :=
  match l, j with
  | [], O => []
  | [], Datatypes.S _ => [a]
  | z :: l', O => z :: braced a l'
  | z :: l', Datatypes.S j' => a :: z :: dropb a j' l'
  end.
Lemma bfd_braced a l : l <> [] -> ~ In a l -> NoDup l -> forall g,
  bfd g (braced a l) = sumf (fun j => sgn (Z.of_nat j) * g (dropb a j l)) (seq 0 (Datatypes.S (length l))).
Proof.
  induction l as [|z l IH]; intros Nl Na D g; [congruence|]. inversion D as [|? ? Hz D']; subst. cbn [In] in Na.
  assert (Hza : z <> a) by (intros ->; tauto).
  rewrite braced_cons, bfd_cons. replace (mem a (z :: braced a l)) with true by (symmetry; apply mem_in; right; apply in_braced; now left).
  rewrite bfd_cons, (mem_braced_out a l z) by (auto; congruence). rewrite U_cons. destruct (Z.eqb_spec z a); [tauto|]. unfold braced at 3. rewrite U_cons, Z.eqb_refl.
  cbn [length]. change (seq 0 (Datatypes.S (Datatypes.S (length l)))) with (0%nat :: seq 1 (Datatypes.S (length l))). rewrite <- seq_shift. rewrite sumf_cons, sumf_map.
  cbn [dropb]. change (sgn (Z.of_nat 0)) with 1. destruct l as [|z' l].
  - change (bfd (fun u => g (a :: z :: u)) (braced a [])) with 0. cbn [flat_map mem existsb length seq dropb]. rewrite sumf_cons. change (sgn (Z.of_nat 1)) with (-1). unfold braced. cbn [flat_map]. change (dropb a 0 []) with (@nil Z). rewrite sumf_nil. ring.
  - replace (mem a (flat_map (fun b => [b; a]) (z' :: l))) with true by (symmetry; apply mem_in; cbn; tauto).
    rewrite IH by first [discriminate | tauto | assumption]. rewrite (sumf_ext (fun x => sgn (Z.of_nat (Datatypes.S x)) * g (a :: z :: dropb a x (z' :: l))) (fun x => (-1) * (sgn (Z.of_nat x) * g (a :: z :: dropb a x (z' :: l))))).
    + rewrite sumf_scal. ring.
    + intros j _. rewrite Nat2Z.inj_succ. unfold Z.succ. rewrite Z.add_comm, sgn_S'. ring.
Qed.

Definition bff (n j : Z) (q : Z) : list Z := (if q =? j then [] else [1]) ++ (if q <? n then [q + 2] else []).
Lemma bff_after n j : forall d i, (d = Z.to_nat (n - i))%nat -> 0 <= i <= n -> j < i -> flat_map (bff n j) (zrange i (n + 1)) = braced 1 (zrange (i + 2) (n + 2)).
Proof.
  induction d as [|d IH]; intros i Hd Hi Hj.
  - replace i with n by lia. rewrite zrange_cons by lia. rewrite !zrange_nil by lia. unfold bff, braced. cbn [flat_map]. destruct (Z.eqb_spec n j); [lia|]. destruct (Z.ltb_spec n n); [lia|]. reflexivity.
  - rewrite (zrange_cons i) by lia. rewrite (zrange_cons (i + 2)) by lia. rewrite braced_cons. cbn [flat_map]. rewrite IH by lia. unfold bff. destruct (Z.eqb_spec i j); [lia|]. destruct (Z.ltb_spec i n); [|lia].
    cbn [app]. do 3 f_equal. f_equal. ring.
Qed.
Lemma bff_drop n j : forall d i, (d = Z.to_nat (j - i))%nat -> 0 <= i <= j -> j <= n -> flat_map (bff n j) (zrange i (n + 1)) = dropb 1 d (zrange (i + 2) (n + 2)).
Proof.
  induction d as [|d IH]; intros i Hd Hi Hj.
  - assert (i = j) as -> by lia. rewrite (zrange_cons j) by lia. cbn [flat_map]. unfold bff at 1. rewrite Z.eqb_refl. cbn [app]. destruct (Z.ltb_spec j n).
    + rewrite (zrange_cons (j + 2)) by lia. cbn [dropb app]. f_equal. rewrite (bff_after n j (Z.to_nat (n - (j + 1)))) by lia. f_equal. f_equal. ring.
    + rewrite !zrange_nil by lia. reflexivity.
  - rewrite (zrange_cons i) by lia. rewrite (zrange_cons (i + 2)) by lia. cbn [flat_map dropb]. rewrite IH by lia. unfold bff. destruct (Z.eqb_spec i j); [lia|]. destruct (Z.ltb_spec i n); [|lia].
    cbn [app]. do 2 f_equal. f_equal. f_equal. ring.
Qed.
Lemma brace_face_drop n j : (j <= n)%nat -> brace_face (Z.of_nat n) (Z.of_nat j) = dropb 1 j (zrange 2 (Z.of_nat n + 2)).
Proof. intros Hj. unfold brace_face. fold (bff (Z.of_nat n) (Z.of_nat j)). apply (bff_drop (Z.of_nat n) (Z.of_nat j) j 0); lia. Qed.
Lemma zrange0_seq n : zrange 0 (Z.of_nat n) = map Z.of_nat (seq 0 n).
Proof. unfold zrange. rewrite Z.sub_0_r, Nat2Z.id. apply map_ext. intros; lia. Qed.
Lemma bfd_brace n g : 1 <= n -> bfd g (brace n) = ev g (map (fun j => (brace_face n j, sgn j)) (zrange 0 (n + 1))).
Proof.
  intros Hn. unfold brace. rewrite bfd_braced.
  - rewrite zrange_length. replace (Z.to_nat (n + 2 - 2)) with (Z.to_nat n) by lia. unfold ev. rewrite sumf_map.
    replace (n + 1) with (Z.of_nat (Datatypes.S (Z.to_nat n))) by lia. rewrite zrange0_seq, sumf_map. apply sumf_ext. intros j Hj. apply in_seq in Hj. cbn [fst snd].
    f_equal. rewrite <- (Z2Nat.id n) at 2 by lia. rewrite brace_face_drop by lia. rewrite Z2Nat.id by lia. reflexivity.
  - rewrite zrange_cons by lia. discriminate.
  - rewrite in_zrange. lia.
  - apply zrange_nodup.
Qed.
(** #C102_boundary# The boundary of the brace: every face deletes one of the letters 1, with alternating signs (for n = 0 the boundary
    is zero). *)
Lemma C102_boundary_l (dt n t : Z) : 0 <= n -> 0 <= t -> t <> 1 -> dt_ok dt t ->
  gives cls_surj (surj_boundary dt (mkElt [(brace n, 1)] t BF)) t BF
    (if n =? 0 then [] else map (fun j => (brace_face n j, sgn j)) (zrange 0 (n + 1))).
Proof.
  intros Hn Ht Nt Hdt. eapply (den_gives cls_surj ok_surj); [exact Ht|apply (surj_boundary_den dt t BF); auto; [now apply brace_wf|]|].
  - now left.
  - intros g _. cbn [data]. rewrite ev_cons, ev_nil, sd_BF, Z.mul_1_l, Z.add_0_r. apply eqm_eq. destruct (Z.eqb_spec n 0) as [->|]; [reflexivity|]. apply bfd_brace. lia.
Qed.

(** ** braces of an element *)
Lemma nc_braced a l : ~ In a l -> NoDup l -> nc (braced a l) = zlen l.
Proof.
  induction l as [|z l IH]; intros Na D; [reflexivity|]. inversion D as [|? ? Hz D']; subst. cbn [In] in Na. rewrite braced_cons, !nc_cons, IH by tauto.
  rewrite (mem_braced_out a l z) by (auto; intros ->; tauto). replace (mem a (z :: braced a l)) with true by (symmetry; apply mem_in; right; apply in_braced; now left). rewrite zlen_cons. ring.
Qed.
Lemma ev_mapapp g u s (l : list (list Z * Z)) : ev g (map (fun '(w, v) => (u ++ w, s * v)) l) = s * ev (fun w => g (u ++ w)) l.
Proof. unfold ev. rewrite sumf_map, <- sumf_scal. apply sumf_ext. intros [w v] _. cbn [fst snd]. ring. Qed.
Lemma ev_flat_map' {B} g (f : B -> list (list Z * Z)) l : ev g (flat_map f l) = sumf (fun b => ev g (f b)) l.
Proof. induction l as [|b l IH]; [reflexivity|]. cbn [flat_map]. now rewrite ev_app, IH, sumf_cons. Qed.
Lemma distribute_cons e c y zs g : ev g (distribute e (c :: y) zs) =
  sumf (fun q => sgn (Z.of_nat q * e) * ev (fun w => g (braced c (firstn q zs) ++ w)) (distribute (e + (if mem c y then 1 else 0)) y (skipn q zs))) (seq 0 (Datatypes.S (length zs))).
Proof. cbn [distribute]. rewrite ev_flat_map'. apply sumf_ext. intros q _. apply ev_mapapp. Qed.
Lemma distribute_nil e y : forall g, ev g (distribute e y []) = g y.
Proof.
  revert e. induction y as [|c y IH]; intros e g; [cbn [distribute]; rewrite ev_cons, ev_nil; ring|]. rewrite distribute_cons. cbn [length seq]. rewrite sumf_cons, sumf_nil.
  cbn [firstn skipn]. rewrite IH. change (sgn (Z.of_nat 0 * e)) with 1. unfold braced. cbn [flat_map app]. ring.
Qed.
Lemma distribute_Cc m zs : ~ In m zs -> NoDup zs -> forall y e g, ev g (distribute e y zs) = sgn (e * zlen zs) * Cc m g (braced m zs) y.
Proof.
  induction zs as [|z zs IH]; intros Nm D y e g.
  - rewrite distribute_nil. unfold braced. cbn [flat_map]. rewrite Cc_last by reflexivity. rewrite nc_nil, app_nil_r, zlen_nil, !Z.mul_0_r. change (sgn 0) with 1. ring.
  - inversion D as [|? ? Hz D']; subst. cbn [In] in Nm. revert e g. induction y as [|c y IHy]; intros e g.
    + cbn [distribute]. rewrite ev_nil, braced_cons, Cc_m_nil. replace (mem m (z :: braced m zs)) with true by (symmetry; apply mem_in; right; apply in_braced; now left). ring.
    + rewrite distribute_cons. cbn [length]. change (seq 0 (Datatypes.S (Datatypes.S (length zs)))) with (0%nat :: seq 1 (Datatypes.S (length zs))). rewrite <- seq_shift. rewrite sumf_cons, sumf_map.
      change (sgn (Z.of_nat 0 * e)) with 1. cbn [firstn skipn]. rewrite IHy.
      rewrite (sumf_ext _ (fun q => sgn e * (sgn (Z.of_nat q * e) * ev (fun w => g (c :: z :: braced c (firstn q zs) ++ w)) (distribute (e + (if mem c y then 1 else 0)) y (skipn q zs))))).
      2:{ intros q _. rewrite Nat2Z.inj_succ. replace (Z.succ (Z.of_nat q) * e) with (e + Z.of_nat q * e) by ring. rewrite sgn_add. rewrite Z.mul_assoc. reflexivity. }
      rewrite sumf_scal. rewrite <- (distribute_cons e c y zs (fun w => g (c :: z :: w))). rewrite IH by tauto.
      rewrite (braced_cons m z zs). rewrite Cc_m_cons. replace (mem m (z :: braced m zs)) with true by (symmetry; apply mem_in; right; apply in_braced; now left).
      rewrite (Cc_other m _ z) by (intros ->; tauto). rewrite <- (braced_cons m z zs). rewrite nc_braced by (auto; cbn [In]; tauto).
      unfold braced at 1. cbn [flat_map app]. rewrite zlen_cons. destruct (mem c y).
      * replace ((e + 1) * (zlen zs + 1)) with (e * (zlen zs + 1) + (zlen zs + 1)) by ring. replace (e * (zlen zs + 1)) with (e + e * zlen zs) by ring. rewrite !sgn_add. ring.
      * rewrite Z.add_0_r. replace (e * (zlen zs + 1)) with (e + e * zlen zs) by ring. rewrite !sgn_add. ring.
Qed.
Lemma lift_brace n s : map (lift1 0 1 s) (brace n) = braced 0 (zrange (s + 1) (s + n + 1)).
Proof.
  unfold brace. rewrite braced_map. rewrite lift1_i. f_equal. unfold zrange. replace (s + n + 1 - (s + 1)) with (n + 2 - 2) by ring. rewrite map_map. apply map_ext. intros q.
  unfold lift1, up. destruct (Z.eqb_spec (2 + Z.of_nat q) 1); [lia|]. destruct (Z.ltb_spec (2 + Z.of_nat q) 1); lia.
Qed.
Lemma sh1 y : map (sh 1) y = y.
Proof. rewrite <- (map_id y) at 2. apply map_ext. intros c. unfold sh. ring. Qed.
Lemma Pc_brace n s g y : 0 <= n -> 1 <= s -> Pc 1 s g (brace n) y = ev g (distribute 0 y (zrange (s + 1) (s + n + 1))).
Proof.
  intros Hn Hs. rewrite (Pc_Cc 0 1 s g _ y (n + 1)) by (try lia; now apply brace_onto). rewrite lift_brace, sh1. rewrite (distribute_Cc 0); [|rewrite in_zrange; lia|apply zrange_nodup].
  rewrite Z.mul_0_l. change (sgn 0) with 1. ring.
Qed.
(** #C102_brace# The brace of an element y of arity s: its composite at 1 with the brace of arity n + 1 is the sum over all the ways to
    distribute the letters s + 1, ..., s + n, in their order, over the letters of the words of y. *)
Lemma C102_brace_l (dt n s : Z) (y : surj) : 0 <= n -> 1 <= s -> wf cls_surj y -> torsion y <> 1 -> dt_ok dt (torsion y) -> keys_in (onto s) y ->
  gives cls_surj (surj_compose dt (mkElt [(brace n, 1)] (torsion y) BF) y 1) (torsion y) BF
    (extend (fun w => distribute 0 w (zrange (s + 1) (s + n + 1))) y).
Proof.
  intros Hn Hs Wy Nt Hdt Ky. pose proof (proj1 Wy) as Ht. eapply (den_gives cls_surj ok_surj); [exact Ht|apply (surj_compose_den_o dt (torsion y) BF s 1); auto|].
  - now left.
  - now apply brace_wf.
  - intros k v [[= <- <-]|[]]. apply brace_onto; lia.
  - intros g _. cbn [data]. rewrite ev_cons, ev_nil, Z.mul_1_l, Z.add_0_r, ev_extend. apply eqm_eq. apply ev_ext. intros k v _. now apply Pc_brace.
Qed.

(** ** single words *)
Lemma gives_single t k (r : res surj) : 0 <= t -> t <> 1 -> surj_bad k = Ok false -> gives cls_surj r t BF [(k, 1)] -> r = Ok (mkElt [(k, 1)] t BF).
Proof.
  intros Ht Nt Hb ([d t' a] & E & Wz & Tz & Az & Rz). cbn [torsion attr] in *. subst t' a. rewrite E. f_equal. f_equal. destruct Wz as [_ [Kd Cd]]. cbn [torsion data] in *.
  unfold represents in Rz. cbn [torsion data] in Rz.
  assert (U : forall k' v, In (k', v) d -> k' = k /\ v = 1).
  { intros k' v Hin. destruct (Cd _ _ Hin) as [[V1 V2] B]. pose proof (Rz k' B) as R. rewrite (dget_in _ _ _ Kd Hin) in R. unfold coef, zsum in R. cbn [map fst snd] in R.
    cbn [zsum fold_right] in R. destruct (keqb k k') eqn:Ek.
    - apply keqb_eq in Ek. split; [congruence|]. destruct R as [q R]. destruct (Z.eq_dec t 0) as [->|]; [rewrite Z.mul_0_r in R; lia|]. specialize (V2 ltac:(lia)). assert (q = 0) as -> by (destruct (Z_lt_le_dec q 0); [|destruct (Z.eq_dec q 0)]; nia). lia.
    - exfalso. destruct R as [q R]. destruct (Z.eq_dec t 0) as [->|]; [rewrite Z.mul_0_r in R; lia|]. specialize (V2 ltac:(lia)). assert (q = 0) as -> by (destruct (Z_lt_le_dec q 0); [|destruct (Z.eq_dec q 0)]; nia). lia. }
  destruct d as [|[k1 v1] d].
  - exfalso. pose proof (Rz k Hb) as R. unfold coef, zsum in R. cbn [map fst snd zsum fold_right] in R. rewrite (proj2 (keqb_eq k k) eq_refl) in R. destruct R as [q R]. change (dget [] k) with 0 in R. apply Nt, Z.divide_1_r_nonneg; [exact Ht|]. exists (- q). lia.
  - destruct (U k1 v1 (or_introl eq_refl)) as [-> ->]. destruct d as [|[k2 v2] d]; [reflexivity|]. exfalso. destruct (U k2 v2 (or_intror (or_introl eq_refl))) as [-> _].
    cbn [dkeys map fst kdistinct] in Kd. destruct Kd as [Kd _]. specialize (Kd k (or_introl eq_refl)). rewrite (proj2 (keqb_eq k k) eq_refl) in Kd. discriminate.
Qed.
Lemma compose_single dt t n1 n2 i k1 k2 w : 0 <= t -> t <> 1 -> dt_ok dt t -> 1 <= i <= n1 -> 1 <= n2 -> onto n1 k1 -> onto n2 k2 -> surj_bad k1 = Ok false ->
  surj_bad w = Ok false -> (forall g, Pc i n2 g k1 k2 = g w) ->
  surj_compose dt (mkElt [(k1, 1)] t BF) (mkElt [(k2, 1)] t BF) i = Ok (mkElt [(w, 1)] t BF).
Proof.
  intros Ht Nt Hdt Hi Hn O1 O2 B1 Bw E. apply gives_single; auto. eapply (den_gives cls_surj ok_surj); [exact Ht|apply (surj_compose_den_o dt t BF n2 i); auto|].
  - now left.
  - now apply wf_basis_gen.
  - intros k v [[= <- <-]|[]]. apply O1. lia.
  - intros k v [[= <- <-]|[]]. exact O2.
  - intros g _. cbn [data]. rewrite !ev_cons, !ev_nil, !Z.mul_1_l, !Z.add_0_r. apply eqm_eq. apply E.
Qed.
Lemma Cc_once m u1 u2 y : mem m u1 = false -> mem m u2 = false -> forall g, Cc m g (u1 ++ m :: u2) y = sgn (nc y * nc u2) * g (u1 ++ y ++ u2).
Proof.
  induction u1 as [|a u1 IH]; intros M1 M2 g; [cbn [app]; now rewrite Cc_last by exact M2|]. cbn [mem existsb] in M1. apply orb_false_iff in M1. destruct M1 as [E M1].
  cbn [app]. rewrite Cc_other by (apply Z.eqb_neq in E; congruence). now rewrite IH.
Qed.
Lemma group_single dt t n g k : 0 <= t -> t <> 1 -> dt_ok dt t -> 1 <= n -> perm n g -> onto n k -> surj_bad k = Ok false -> surj_bad (map (image g) k) = Ok false ->
  group_mul_surj dt g (mkElt [(k, 1)] t BF) = Ok (mkElt [(map (image g) k, 1)] t BF).
Proof.
  intros Ht Nt Hdt Hn Hg Ok Bk Bw. apply gives_single; auto.
  assert (W : wf cls_surj (mkElt [(k, 1)] t BF)) by now apply wf_basis_gen.
  destruct (C73_surjection_l dt n g g (mkElt [(k, 1)] t BF) Hn Hg Hg W Hdt (or_introl eq_refl)) as [G _].
  - intros k' v [[= <- <-]|[]]. exact Ok.
  - apply G. intros E. unfold is_zero in E. cbn in E. discriminate.
Qed.
Lemma braced_app a l1 z l2 : braced a (l1 ++ z :: l2) = braced a l1 ++ z :: braced a l2.
Proof. induction l1 as [|b l1 IH]; [reflexivity|]. cbn [app]. rewrite !braced_cons, IH. reflexivity. Qed.
Lemma dropb_mid a l1 z z' l2 : dropb a (Datatypes.S (length l1)) (l1 ++ z :: z' :: l2) = braced a l1 ++ z :: z' :: braced a l2.
Proof. induction l1 as [|b l1 IH]; [reflexivity|]. cbn [app length]. rewrite braced_cons. change (dropb a (Datatypes.S (Datatypes.S (length l1))) (b :: l1 ++ z :: z' :: l2)) with (a :: b :: dropb a (Datatypes.S (length l1)) (l1 ++ z :: z' :: l2)). now rewrite IH. Qed.
Lemma dropb_end a l1 z : dropb a (Datatypes.S (length l1)) (l1 ++ [z]) = braced a l1 ++ [z].
Proof. induction l1 as [|b l1 IH]; [reflexivity|]. cbn [app length]. rewrite braced_cons. change (dropb a (Datatypes.S (Datatypes.S (length l1))) (b :: l1 ++ [z])) with (a :: b :: dropb a (Datatypes.S (length l1)) (l1 ++ [z])). now rewrite IH. Qed.
Lemma adj_hd z w : adj w = false -> (forall c v, w = c :: v -> c <> z) -> adj (z :: w) = false.
Proof. intros A Hd. destruct w as [|c v]; [reflexivity|]. rewrite adj_cons2, A, orb_false_r. apply Z.eqb_neq. specialize (Hd c v eq_refl). congruence. Qed.
Lemma in_dropb_sub a l : forall j c, In c (dropb a j l) -> c = a \/ In c l.
Proof.
  induction l as [|z l IH]; intros [|j] c; cbn [dropb In]; [tauto|intuition|rewrite in_braced; intuition|]. intros [-> | [-> | Hc]]; auto. destruct (IH _ _ Hc); auto.
Qed.
Lemma in_dropb a l : l <> [] -> forall j c, (j <= length l)%nat -> (In c (dropb a j l) <-> c = a \/ In c l).
Proof.
  intros Nl j c Hj. split; [apply in_dropb_sub|]. revert j Hj. destruct l as [|z l]; [congruence|]. clear Nl. revert z. induction l as [|z' l IH]; intros z [|j] Hj; cbn [dropb].
  - cbn. intuition.
  - cbn in Hj. cbn. intuition.
  - cbn [In]. rewrite in_braced. cbn [In]. tauto.
  - cbn [In] in *. cbn [length] in *. intros [-> | [-> | Hc]]; auto. right. right. apply IH; [lia|]. tauto.
Qed.
Lemma adj_dropb a l : ~ In a l -> NoDup l -> forall j, adj (dropb a j l) = false.
Proof.
  induction l as [|z l IH]; intros Na D [|j]; [reflexivity|reflexivity| |]; inversion D as [|? ? Hz D']; subst; cbn [In] in Na; cbn [dropb].
  - apply adj_hd; [apply adj_braced; tauto|]. intros c v E. unfold braced in E. injection E as <- _. intros ->. tauto.
  - apply adj_hd; [|intros c v E; injection E as <- _; intros ->; tauto]. apply adj_hd; [apply IH; tauto|]. intros c v E.
    assert (Hc : In c (dropb a j l)) by (rewrite E; now left). apply in_dropb_sub in Hc. intros ->. destruct Hc as [-> | Hc]; tauto.
Qed.
Lemma brace_face_good n j : 1 <= n -> 0 <= j <= n -> surj_bad (brace_face n j) = Ok false /\ onto (n + 1) (brace_face n j).
Proof.
  intros Hn Hj. assert (E : brace_face n j = dropb 1 (Z.to_nat j) (zrange 2 (n + 2))).
  { rewrite <- (Z2Nat.id n) at 1 by lia. rewrite <- (Z2Nat.id j) at 1 by lia. rewrite brace_face_drop by lia. rewrite Z2Nat.id by lia. reflexivity. }
  assert (O : onto (n + 1) (brace_face n j)). { intros c. rewrite E, in_dropb; [rewrite in_zrange; lia|rewrite zrange_cons by lia; discriminate|rewrite zrange_length; lia]. }
  split; [|exact O]. rewrite (surj_bad_onto (n + 1)) by (auto; lia). f_equal. rewrite E. apply adj_dropb; [rewrite in_zrange; lia|apply zrange_nodup].
Qed.
Lemma brace_face_mid n j : 1 <= j < n -> brace_face n j = braced 1 (zrange 2 (j + 1)) ++ (j + 1) :: (j + 2) :: braced 1 (zrange (j + 3) (n + 2)).
Proof.
  intros Hj. rewrite <- (Z2Nat.id n) at 1 by lia. rewrite <- (Z2Nat.id j) at 1 by lia. rewrite brace_face_drop by lia. rewrite Z2Nat.id by lia.
  rewrite (zrange_app 2 (j + 1) (n + 2)) by lia. rewrite (zrange_cons (j + 1)) by lia. rewrite (zrange_cons (j + 1 + 1)) by lia.
  replace (Z.to_nat j) with (Datatypes.S (length (zrange 2 (j + 1)))) by (rewrite zrange_length; lia). rewrite dropb_mid. do 2 f_equal. f_equal; [ring|]. f_equal. f_equal. ring.
Qed.
Lemma brace_face_last n : 1 <= n -> brace_face n n = brace (n - 1) ++ [n + 1].
Proof.
  intros Hj. rewrite <- (Z2Nat.id n) at 1 2 by lia. rewrite brace_face_drop by lia. rewrite Z2Nat.id by lia. unfold brace. replace (n - 1 + 2) with (n + 1) by ring.
  rewrite (zrange_app 2 (n + 1) (n + 2)) by lia. rewrite (zrange_cons (n + 1)) by lia. rewrite (zrange_nil (n + 1 + 1)) by lia.
  replace (Z.to_nat n) with (Datatypes.S (length (zrange 2 (n + 1)))) by (rewrite zrange_length; lia). apply dropb_end.
Qed.
Lemma brace_face_first n : 1 <= n -> brace_face n 0 = 2 :: braced 1 (zrange 3 (n + 2)).
Proof.
  intros Hj. rewrite <- (Z2Nat.id n) at 1 by lia. change 0 with (Z.of_nat 0). rewrite brace_face_drop by lia. rewrite Z2Nat.id by lia. rewrite (zrange_cons 2) by lia. reflexivity.
Qed.
Lemma onto12 : onto 2 [1; 2]. Proof. intros c. cbn. lia. Qed.
Lemma good12 : surj_bad [1; 2] = Ok false. Proof. reflexivity. Qed.
Lemma map_shift f d a b : (forall c, a <= c < b -> f c = c + d) -> map f (zrange a b) = zrange (a + d) (b + d).
Proof.
  intros E. unfold zrange. rewrite map_map. replace (b + d - (a + d)) with (b - a) by ring. apply map_ext_in. intros q Hq. apply in_seq in Hq. rewrite E by lia. ring.
Qed.
Lemma up_id i s a b : b <= i -> map (lift1 0 i s) (zrange a b) = zrange a b.
Proof. intros Hb. rewrite (map_shift _ 0); [f_equal; ring|]. intros c Hc. unfold lift1, up. destruct (Z.eqb_spec c i); [lia|]. destruct (Z.ltb_spec c i); lia. Qed.
Lemma up_shift i s a b : i < a -> map (lift1 0 i s) (zrange a b) = zrange (a + (s - 1)) (b + (s - 1)).
Proof. intros Hb. apply map_shift. intros c Hc. unfold lift1, up. destruct (Z.eqb_spec c i); [lia|]. destruct (Z.ltb_spec c i); lia. Qed.
Lemma lift1_lo i s : 1 < i -> lift1 0 i s 1 = 1. Proof. intros. unfold lift1, up. destruct (Z.eqb_spec 1 i); [lia|]. destruct (Z.ltb_spec 1 i); lia. Qed.
Lemma mem0_braced a l : 0 <> a -> ~ In 0 l -> mem 0 (braced a l) = false. Proof. apply mem_braced_out. Qed.
Lemma Pc_face_mid n j g : 1 <= j < n -> Pc (j + 1) 2 g (brace (n - 1)) [1; 2] = g (brace_face n j).
Proof.
  intros Hj. rewrite (Pc_Cc 0 (j + 1) 2 g _ _ n); [|lia|lia|lia|replace n with (n - 1 + 1) at 1 by ring; apply brace_onto; lia]. unfold brace. replace (n - 1 + 2) with (n + 1) by ring.
  rewrite (zrange_app 2 (j + 1) (n + 1)) by lia. rewrite (zrange_cons (j + 1)) by lia. rewrite braced_map, map_app. cbn [map]. rewrite lift1_i, up_id, up_shift, lift1_lo by lia.
  rewrite braced_app. rewrite Cc_once; [|apply mem0_braced; [lia|rewrite in_zrange; lia]|apply mem0_braced; [lia|rewrite in_zrange; lia]].
  unfold sh. replace (1 + (j + 1) - 1) with (j + 1) by ring. replace (2 + (j + 1) - 1) with (j + 2) by ring. rewrite !nc_cons, nc_nil. cbn [mem existsb]. destruct (Z.eqb_spec (j + 2) (j + 1)); [lia|]. destruct (Z.eqb_spec (j + 1) (j + 2)); [lia|]. cbn [orb].
  rewrite !Z.add_0_l, Z.mul_0_l. change (sgn 0) with 1. rewrite Z.mul_1_l. f_equal. rewrite brace_face_mid by lia. cbn [app]. do 4 f_equal. f_equal; ring.
Qed.
Lemma Pc_face_last n g : 1 <= n -> Pc 1 n g [1; 2] (brace (n - 1)) = g (brace_face n n).
Proof.
  intros Hn. rewrite (Pc_Cc 0 1 n g _ _ 2) by (try lia; apply onto12). rewrite sh1. cbn [map]. rewrite lift1_i.
  assert (L : lift1 0 1 n 2 = n + 1) by (unfold lift1, up; change (2 =? 1) with false; change (2 <? 1) with false; cbv iota; ring). rewrite L. rewrite Cc_last.
  - rewrite nc_cons, nc_nil. cbn [mem existsb]. rewrite Z.add_0_l, Z.mul_0_r. change (sgn 0) with 1. rewrite Z.mul_1_l. f_equal. now rewrite brace_face_last by lia.
  - cbn [mem existsb]. destruct (Z.eqb_spec (n + 1) 0); [lia|]. destruct (Z.eqb_spec 0 (n + 1)); [lia|reflexivity].
Qed.
Lemma Pc_face_first n g : 1 <= n -> Pc 2 n g [1; 2] (brace (n - 1)) = g (1 :: braced 2 (zrange 3 (n + 2))).
Proof.
  intros Hn. rewrite (Pc_Cc 0 2 n g _ _ 2) by (try lia; apply onto12). cbn [map]. rewrite lift1_i. change (lift1 0 2 n 1) with 1. change ([1; 0]) with ([1] ++ 0 :: []). rewrite Cc_once by reflexivity.
  rewrite nc_nil, Z.mul_0_r. change (sgn 0) with 1. rewrite Z.mul_1_l, app_nil_r. f_equal. cbn [app]. f_equal. unfold brace. rewrite braced_map. change (sh 2 1) with 2. f_equal.
  rewrite (map_shift _ 1) by (intros; unfold sh; ring). f_equal; ring.
Qed.
Lemma zrange_nth a b q d : (q < Z.to_nat (b - a))%nat -> nth q (zrange a b) d = a + Z.of_nat q.
Proof.
  intros Hq. unfold zrange. rewrite (nth_indep _ d (a + Z.of_nat 0)) by (rewrite map_length, seq_length; exact Hq).
  rewrite (map_nth (fun i => a + Z.of_nat i)), seq_nth by exact Hq. reflexivity.
Qed.
(** #C102_faces# The faces of the brace in terms of the product P = (1 2) and the operad structure: the inner faces multiply two
    neighbouring arguments, the two outer ones multiply the brace of one argument less by the last, or from the left by the first,
    argument. *)
Lemma C102_faces_l (dt n t : Z) : 1 <= n -> 0 <= t -> t <> 1 -> dt_ok dt t ->
  let E m := mkElt [(brace m, 1)] t BF in let P := mkElt [([1; 2], 1)] t BF in let face j := Ok (mkElt [(brace_face n j, 1)] t BF) in
  (forall j, 1 <= j < n -> surj_compose dt (E (n - 1)) P (j + 1) = face j) /\
  surj_compose dt P (E (n - 1)) 1 = face n /\
  (let! w := surj_compose dt P (E (n - 1)) 2 in group_mul_surj dt (2 :: 1 :: zrange 3 (n + 2)) w) = face 0.
Proof.
  intros Hn Ht Nt Hdt E P face. subst E P face. cbv beta.
  assert (O1 : onto n (brace (n - 1))) by (replace n with (n - 1 + 1) at 1 by ring; apply brace_onto; lia).
  assert (B1 : surj_bad (brace (n - 1)) = Ok false) by (apply brace_good; lia).
  split; [|split].
  - intros j Hj. apply (compose_single dt t n 2); auto; try lia; [apply onto12|apply brace_face_good; lia|]. intros g. now apply Pc_face_mid.
  - apply (compose_single dt t 2 n); auto; try lia; [apply onto12|apply brace_face_good; lia|]. intros g. now apply Pc_face_last.
  - assert (B2 : surj_bad (1 :: braced 2 (zrange 3 (n + 2))) = Ok false /\ onto (n + 1) (1 :: braced 2 (zrange 3 (n + 2)))).
    { assert (O : onto (n + 1) (1 :: braced 2 (zrange 3 (n + 2)))) by (intros c; cbn [In]; rewrite in_braced, in_zrange; lia). split; [|exact O].
      rewrite (surj_bad_onto (n + 1)) by (auto; lia). f_equal. apply adj_hd; [apply adj_braced; rewrite in_zrange; lia|]. intros c v Q. injection Q as <- _. lia. }
    rewrite (compose_single dt t 2 n 2 [1; 2] (brace (n - 1)) (1 :: braced 2 (zrange 3 (n + 2)))); auto; try lia; [|apply onto12|tauto|intros g; now apply Pc_face_first]. cbn [bind].
    assert (I : map (image (2 :: 1 :: zrange 3 (n + 2))) (1 :: braced 2 (zrange 3 (n + 2))) = brace_face n 0).
    { rewrite brace_face_first by lia. cbn [map]. rewrite braced_map. change (image (2 :: 1 :: zrange 3 (n + 2)) 1) with 2. change (image (2 :: 1 :: zrange 3 (n + 2)) 2) with 1. do 2 f_equal.
      rewrite (map_shift _ 0); [f_equal; ring|]. intros c Hc. unfold image. replace (Z.to_nat (c - 1)) with (Datatypes.S (Datatypes.S (Z.to_nat (c - 3)))) by lia. cbn [nth].
      rewrite zrange_nth; lia. }
    rewrite <- I. apply (group_single dt t (n + 1)); auto; try lia; try tauto.
    + apply perm_of_nodup; [lia|rewrite !zlen_cons, zlen_zrange; lia| |].
      * constructor; [cbn [In]; rewrite in_zrange; lia|]. constructor; [rewrite in_zrange; lia|apply zrange_nodup].
      * intros i. cbn [In]. rewrite in_zrange. lia.
    + rewrite I. apply brace_face_good; lia.
Qed.
Lemma adj_braced_app a l c w : ~ In a l -> c <> a -> adj (c :: w) = false -> adj (braced a l ++ c :: w) = false.
Proof.
  intros Na N A. induction l as [|z l IH]; cbn [In] in Na.
  - unfold braced. cbn [flat_map app]. apply adj_hd; [exact A|]. intros d v Q. injection Q as <- _. exact N.
  - rewrite braced_cons. cbn [app]. apply adj_hd; [|intros d v Q; injection Q as <- _; intros ->; tauto]. apply adj_hd; [apply IH; tauto|]. intros d v Q. unfold braced in Q. cbn [app] in Q. injection Q as <- _. intros ->. tauto.
Qed.
Lemma distribute12 zs g : ev g (distribute 0 [1; 2] zs) = sumf (fun q => g (braced 1 (firstn q zs) ++ braced 2 (skipn q zs))) (seq 0 (Datatypes.S (length zs))).
Proof.
  rewrite distribute_cons. change (if mem 1 [2] then 1 else 0) with 0. apply sumf_ext. intros q _. rewrite Z.mul_0_r. change (sgn 0) with 1. rewrite Z.mul_1_l. rewrite Z.add_0_r.
  set (us := skipn q zs). set (h := fun w => g (braced 1 (firstn q zs) ++ w)). rewrite distribute_cons. change (if mem 2 [] then 1 else 0) with 0.
  rewrite (sumf_ext _ (fun p => if (p =? length us)%nat then h (braced 2 us) else 0)).
  - rewrite seq_S, sumf_app. rewrite sumf_0.
    + cbn [sumf]. rewrite sumf_cons, sumf_nil, Nat.eqb_refl. unfold h. ring.
    + intros p Hp. apply in_seq in Hp. destruct (Nat.eqb_spec p (length us)); [lia|reflexivity].
  - intros p Hp. apply in_seq in Hp. rewrite Z.mul_0_r. change (sgn 0) with 1. rewrite Z.mul_1_l. destruct (Nat.eqb_spec p (length us)) as [->|Np].
    + rewrite firstn_all, skipn_all. cbn [distribute]. rewrite ev_cons, ev_nil, app_nil_r. ring.
    + destruct (skipn p us) eqn:Es; [|reflexivity]. apply (f_equal (@length Z)) in Es. rewrite skipn_length in Es. cbn in Es. lia.
Qed.

Lemma firstn_zrange a b q : (q <= Z.to_nat (b - a))%nat -> firstn q (zrange a b) = zrange a (a + Z.of_nat q) /\ skipn q (zrange a b) = zrange (a + Z.of_nat q) b.
Proof.
  intros Hq. assert (L : length (zrange a (a + Z.of_nat q)) = q) by (rewrite zrange_length; lia). destruct (Nat.eq_dec q 0) as [->|N].
  - rewrite Z.add_0_r. cbn. rewrite zrange_nil by lia. now split.
  - rewrite (zrange_app a (a + Z.of_nat q) b) by lia. rewrite firstn_app, skipn_app, L, Nat.sub_diag. cbn [firstn skipn]. rewrite app_nil_r. 
    pose proof (firstn_all (zrange a (a + Z.of_nat q))) as F. pose proof (skipn_all (zrange a (a + Z.of_nat q))) as G. rewrite L in F, G. now rewrite F, G.
Qed.
(** #C102_product# The brace of a product: the composite of the brace of arity n + 1 with the product at 1 is the sum over
    i = 0, ..., n, without signs, of the words 1 3 1 ... (i+2) 1 2 (i+3) 2 ... (n+2) 2, and each of these words is the product of the braces of
    arities i + 1 and n - i + 1, with its arguments renumbered. *)
Lemma C102_product_l (dt n t : Z) : 0 <= n -> 0 <= t -> t <> 1 -> dt_ok dt t ->
  let E m := mkElt [(brace m, 1)] t BF in let P := mkElt [([1; 2], 1)] t BF in
  let word i := braced 1 (zrange 3 (i + 3)) ++ braced 2 (zrange (i + 3) (n + 3)) in
  gives cls_surj (surj_compose dt (E n) P 1) t BF (map (fun i => (word i, 1)) (zrange 0 (n + 1))) /\
  forall i, 0 <= i <= n ->
    (let! a := surj_compose dt P (E i) 1 in let! b := surj_compose dt a (E (n - i)) (i + 2) in
     group_mul_surj dt (1 :: zrange 3 (i + 3) ++ 2 :: zrange (i + 3) (n + 3)) b) = Ok (mkElt [(word i, 1)] t BF).
Proof.
  intros Hn Ht Nt Hdt E P word. split.
  - unfold E, P. eapply (den_gives cls_surj ok_surj); [exact Ht|apply (surj_compose_den_o dt t BF 2 1); auto; try lia|].
    + now left.
    + now apply brace_wf.
    + intros k v [[= <- <-]|[]]. apply brace_onto; lia.
    + intros k v [[= <- <-]|[]]. apply onto12.
    + intros g _. cbn [data]. rewrite !ev_cons, !ev_nil, !Z.mul_1_l, !Z.add_0_r. apply eqm_eq. rewrite Pc_brace by lia. rewrite distribute12, zrange_length. unfold ev. rewrite sumf_map.
      replace (Z.to_nat (2 + n + 1 - (2 + 1))) with (Z.to_nat n) by lia. replace (n + 1) with (Z.of_nat (Datatypes.S (Z.to_nat n))) by lia. rewrite zrange0_seq, sumf_map. apply sumf_ext. intros q Hq.
      apply in_seq in Hq. cbn [fst snd]. rewrite Z.mul_1_l. destruct (firstn_zrange (2 + 1) (2 + n + 1) q ltac:(lia)) as [-> ->]. unfold word. do 3 f_equal; f_equal; lia.
  - intros i Hi. unfold E, P.
    assert (O1 : onto (i + 2) (brace i ++ [i + 2])) by (intros c; rewrite in_app_iff; unfold brace; rewrite in_braced, in_zrange; cbn [In]; lia).
    assert (B1 : surj_bad (brace i ++ [i + 2]) = Ok false).
    { rewrite (surj_bad_onto (i + 2)) by (auto; lia). f_equal. apply adj_braced_app; [rewrite in_zrange; lia|lia|reflexivity]. }
    set (w := brace i ++ braced (i + 2) (zrange (i + 3) (n + 3))).
    assert (Ow : onto (n + 2) w) by (intros c; unfold w; rewrite in_app_iff; unfold brace; rewrite !in_braced, !in_zrange; lia).
    assert (Bw : surj_bad w = Ok false).
    { rewrite (surj_bad_onto (n + 2)) by (auto; lia). f_equal. apply adj_braced_app; [rewrite in_zrange; lia|lia|]. apply adj_braced. rewrite in_zrange. lia. }
    rewrite (compose_single dt t 2 (i + 1) 1 [1; 2] (brace i) (brace i ++ [i + 2])); auto; try lia; [|apply onto12|apply brace_onto; lia|].
    2:{ intros g. pose proof (Pc_face_last (i + 1) g ltac:(lia)) as Q. rewrite brace_face_last in Q by lia. replace (i + 1 - 1) with i in Q by ring. replace (i + 1 + 1) with (i + 2) in Q by ring. exact Q. }
    cbn [bind].
    rewrite (compose_single dt t (i + 2) (n - i + 1) (i + 2) (brace i ++ [i + 2]) (brace (n - i)) w); auto; try lia; [|apply brace_onto; lia|].
    2:{ intros g. rewrite (Pc_Cc 0 (i + 2) (n - i + 1) g _ _ (i + 2)) by (auto; lia). rewrite map_app. cbn [map]. rewrite lift1_i. unfold brace at 1. rewrite braced_map, up_id, lift1_lo by lia.
        rewrite Cc_once; [|apply mem0_braced; [lia|rewrite in_zrange; lia]|reflexivity]. rewrite nc_nil, Z.mul_0_r. change (sgn 0) with 1. rewrite Z.mul_1_l, app_nil_r. f_equal. unfold w, brace. f_equal.
        rewrite braced_map. unfold sh at 1. replace (1 + (i + 2) - 1) with (i + 2) by ring. f_equal. rewrite (map_shift _ (i + 1)) by (intros; unfold sh; ring). f_equal; ring. }
    cbn [bind].
    set (s := 1 :: zrange 3 (i + 3) ++ 2 :: zrange (i + 3) (n + 3)).
    assert (I : map (image s) w = word i).
    { unfold w, word, brace. rewrite map_app, !braced_map. change (image s 1) with 1.
      assert (L : length (zrange 3 (i + 3)) = Z.to_nat i) by (rewrite zrange_length; lia).
      assert (I2 : image s (i + 2) = 2).
      { unfold image, s. replace (Z.to_nat (i + 2 - 1)) with (Datatypes.S (Z.to_nat i)) by lia. cbn [nth]. rewrite app_nth2 by lia. rewrite L, Nat.sub_diag. reflexivity. }
      rewrite I2. f_equal; f_equal.
      - rewrite (map_shift _ 1); [f_equal; ring|]. intros c Hc. unfold image, s. replace (Z.to_nat (c - 1)) with (Datatypes.S (Z.to_nat (c - 2))) by lia. cbn [nth]. rewrite app_nth1 by lia. rewrite zrange_nth; lia.
      - rewrite (map_shift _ 0); [f_equal; ring|]. intros c Hc. unfold image, s. replace (Z.to_nat (c - 1)) with (Datatypes.S (Z.to_nat i + Datatypes.S (Z.to_nat (c - i - 3)))) by lia. cbn [nth].
        rewrite app_nth2 by lia. rewrite L. replace (Z.to_nat i + Datatypes.S (Z.to_nat (c - i - 3)) - Z.to_nat i)%nat with (Datatypes.S (Z.to_nat (c - i - 3))) by lia. cbn [nth]. rewrite zrange_nth; lia. }
    rewrite <- I. apply (group_single dt t (n + 2)); auto; try lia.
    + apply perm_of_incl; [lia|unfold s; rewrite zlen_cons, zlen_app, zlen_cons, !zlen_zrange; lia|]. intros c Hc. unfold s. cbn [In]. rewrite in_app_iff. cbn [In]. rewrite !in_zrange. lia.
    + rewrite I. assert (Oi : onto (n + 2) (word i)) by (intros c; unfold word; rewrite in_app_iff, !in_braced, !in_zrange; lia).
      rewrite (surj_bad_onto (n + 2)) by (auto; lia). f_equal. apply adj_braced_app; [rewrite in_zrange; lia|lia|]. apply adj_braced. rewrite in_zrange. lia.
Qed.
(** #C102_example# *)
Example C102_example_l : brace 3 = [1; 2; 1; 3; 1; 4; 1] /\ surj_cell 4 3 (brace 3) /\ brace_face 3 1 = [1; 2; 3; 1; 4; 1] /\
  wf cls_surj (mkElt [([1; 2; 1], 1)] 0 BF) /\ keys_in (onto 2) (mkElt [([1; 2; 1], 1)] 0 BF) /\
  surj_compose 0 (mkElt [(brace 1, 1)] 0 BF) (mkElt [([1; 2; 1], 1)] 0 BF) 1
    = Ok (mkElt [([1; 3; 1; 2; 1], 1); ([1; 2; 3; 2; 1], -1); ([1; 2; 1; 3; 1], -1)] 0 BF) /\
  distribute 0 [1; 2; 1] [3] = [([1; 2; 1; 3; 1], -1); ([1; 2; 3; 2; 1], -1); ([1; 3; 1; 2; 1], 1)].
Proof.
  split; [reflexivity|]. split; [apply (brace_cell 3); lia|]. split; [reflexivity|]. split; [apply wf_basis_gen; [lia|lia|reflexivity]|]. split; [|split; reflexivity].
  intros k v [[= <- <-]|[]]. intros c. cbn. lia.
Qed.
