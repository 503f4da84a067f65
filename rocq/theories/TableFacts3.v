(** * Table reduction: the code.  Proof library. *)
From Coq Require Import Setoid Morphisms.
From Verif Require Import PyBase Dict FreeModule Symmetric Simplicial Utils Surjection BarrattEccles Eqm Spec SpecOperad SpecSurj SpecUtils FreeModuleFacts FreeModuleLaws ListFacts
  ClassFacts LinearFacts SymmetricFacts CycleFacts SymmetricLaws RingFacts TensorAct LoopFacts BEFacts EZ SurjFacts SurjBoundary SurjLaws SurjCompose SurjCompose2 SurjCompose3 SurjCompose4 SurjLaws4 UtilsLaws TableFacts.

Definition fl (rm r : list Z) : list Z := filter (fun j => negb (mem j rm)) r.
Lemma fl_ext rm rm' r : (forall c, mem c rm = mem c rm') -> fl rm r = fl rm' r.
Proof. intros E. unfold fl. apply filter_ext. intros c. now rewrite E. Qed.
Lemma mem_appb c u v : mem c (u ++ v) = mem c u || mem c v. Proof. unfold mem. apply existsb_app. Qed.
Lemma fl_app rm rm' r : fl rm' (fl rm r) = fl (rm ++ rm') r.
Proof. unfold fl. induction r as [|c r IH]; [reflexivity|]. cbn [filter]. rewrite mem_appb, negb_orb. destruct (negb (mem c rm)); cbn [filter andb]; rewrite IH; reflexivity. Qed.
Lemma fl_one b r : fl [b] r = del b r.
Proof. unfold fl, del. apply filter_ext. intros c. cbn [mem existsb]. now rewrite orb_false_r, Z.eqb_sym. Qed.
Lemma fl_nil r : fl [] r = r. Proof. unfold fl. cbn [mem existsb negb]. induction r as [|a r IH]; [reflexivity|]. cbn [filter]. now rewrite IH. Qed.
Lemma tw_TL rows : forall rm, table_words rm rows = TL (map (fl rm) rows).
Proof.
  induction rows as [|r rows IH]; intros rm; [reflexivity|]. destruct rows as [|s rest]; [cbn [map]; now rewrite TL_one|].
  cbn [table_words map]. fold (fl rm r). fold (fl rm s).
  assert (G : forall f rm, flat_map (fun '(A, b, _) => map (fun w => A ++ b :: w) (table_words (A ++ rm) (s :: rest))) (cuts f) = TL (f :: map (fl rm) (s :: rest))).
  2:{ apply (G (fl rm r) rm). }
  clear rm. induction f as [|b f IHf]; intros rm; [reflexivity|]. cbn [cuts flat_map map]. rewrite TL_cons. f_equal.
  - cbn [app]. now rewrite IH.
  - specialize (IHf (rm ++ [b])).
    assert (E : map (fl (rm ++ [b])) (s :: rest) = map (del b) (map (fl rm) (s :: rest))) by (rewrite map_map; apply map_ext; intros c; now rewrite <- fl_one, fl_app). 
    cbn [map] in E, IHf. rewrite E in IHf. cbn [map]. rewrite <- IHf. rewrite flat_map_concat_map, map_map, (flat_map_concat_map _ (cuts f)), concat_map, map_map. f_equal.
    apply map_ext. intros [[A c] B]. rewrite map_map. rewrite !IH. cbn [app]. f_equal. f_equal. apply map_ext. intros l. apply fl_ext. intros d. 
    change (b :: A ++ rm) with ([b] ++ (A ++ rm)). rewrite !mem_appb. now rewrite orb_comm, orb_assoc.
Qed.

(** ** partitions *)
Fixpoint comps (k : nat) (n : Z) : list (list Z) :=
  match k with O => [[n]] | S k' => flat_map (fun j => map (cons (j + 1)) (comps k' (n - j))) (zrange 0 n) end.
Lemma comps_in k : forall n p, 1 <= n -> (In p (comps k n) <-> zlen p = Z.of_nat k + 1 /\ zsum p = n + Z.of_nat k /\ forall i, In i p -> 1 <= i).
Proof.
  induction k as [|k IH]; intros n p Hn.
  - cbn [comps In]. split.
    + intros [<-|[]]. split; [reflexivity|]. split; [cbn; lia|]. intros i [<-|[]]. exact Hn.
    + intros (L & S & _). left. destruct p as [|a [|b p]]; [discriminate L| |rewrite !zlen_cons in L; pose proof (zlen_nonneg p); lia]. cbn in S. f_equal. lia.
  - cbn [comps]. rewrite in_flat_map. split.
    + intros (j & Hj & Hp). apply in_zrange in Hj. apply in_map_iff in Hp. destruct Hp as (q & <- & Hq). apply IH in Hq; [|lia]. destruct Hq as (L & S & B). rewrite zlen_cons. cbn [zsum fold_right].
      change (fold_right Z.add 0 q) with (zsum q). split; [lia|]. split; [lia|]. intros i [<-|Hi]; [lia|auto].
    + intros (L & S & B). destruct p as [|a p]; [exfalso; change (zlen (@nil Z)) with 0 in L; lia|]. rewrite zlen_cons in L. change (zsum (a :: p)) with (a + zsum p) in S.
      assert (Ha : 1 <= a) by (apply B; now left). assert (Sp : zlen p <= zsum p).
      { assert (B' : forall i, In i p -> 1 <= i) by (intros; apply B; now right). clear -B'. induction p as [|c p IHp]; [reflexivity|]. rewrite zlen_cons. change (zsum (c :: p)) with (c + zsum p). specialize (IHp ltac:(intros; apply B'; now right)). specialize (B' c (or_introl eq_refl)). lia. }
      exists (a - 1). split; [apply in_zrange; lia|]. apply in_map_iff. exists p. split; [f_equal; lia|]. apply IH; [lia|]. split; [lia|]. split; [lia|]. intros; apply B; now right.
Qed.
Lemma comps_nodup k : forall n, NoDup (comps k n).
Proof.
  induction k as [|k IH]; intros n; [repeat constructor; intros []|]. cbn [comps]. generalize (NoDup_zrange 0 n). generalize (zrange 0 n) as l. induction l as [|j l IHl]; intros ND; [constructor|].
  inversion_clear ND as [|? ? Nj ND']. cbn [flat_map]. apply NoDup_app_i; [|now apply IHl|].
  - apply FinFun.Injective_map_NoDup; [intros x y E; congruence|apply IH].
  - intros p Hp Hp'. apply in_map_iff in Hp. destruct Hp as (q & <- & _). apply in_flat_map in Hp'. destruct Hp' as (j' & Hj' & Hp'). apply in_map_iff in Hp'. destruct Hp' as (q' & E & _). apply Nj. replace j with j'; [exact Hj'|]. injection E. lia.
Qed.

(** ** one partition *)
Fixpoint word_of (pi : list Z) (rows : list (list Z)) (rm : list Z) : list Z :=
  match pi, rows with
  | i :: pi', r :: rows' => slice_to (fl rm r) i ++ word_of pi' rows' (rm ++ slice_to (fl rm r) (i - 1))
  | _, _ => []
  end.
Fixpoint good (pi : list Z) (rows : list (list Z)) (rm : list Z) : Prop :=
  match pi, rows with
  | i :: pi', r :: rows' => 1 <= i <= zlen (fl rm r) /\ good pi' rows' (rm ++ slice_to (fl rm r) (i - 1))
  | [], [] => True
  | _, _ => False
  end.
Lemma adj_join u a v : adj (u ++ a :: a :: v) = true.
Proof. apply adj_app_r. now rewrite adj_cons2, Z.eqb_refl. Qed.
Lemma py_get_last {B} (l : list B) a : py_get (l ++ [a]) (-1) = Ok a.
Proof.
  unfold py_get. rewrite zlen_app. change (zlen [a]) with 1. pose proof (zlen_nonneg l). cbn [Z.ltb Z.compare]. destruct (Z.ltb_spec (-1 + (zlen l + 1)) 0); [lia|]. 
  rewrite nth_error_app2 by (unfold zlen in *; lia). replace (Z.to_nat (-1 + (zlen l + 1)) - length l)%nat with 0%nat by (unfold zlen in *; lia). reflexivity.
Qed.
Lemma table_row_code pi : forall rows done k2 rm, good pi rows rm -> (done <> [] -> k2 <> []) ->
  table_row (zlen done) pi (done ++ rows) k2 rm = Ok (Some (k2 ++ word_of pi rows rm)) \/
  table_row (zlen done) pi (done ++ rows) k2 rm = Ok None /\ adj (k2 ++ word_of pi rows rm) = true.
Proof.
  induction pi as [|i pi IH]; intros rows done k2 rm Hg Hk; [left; cbn [word_of table_row]; now rewrite app_nil_r|].
  destruct rows as [|r rows]; [destruct Hg|]. destruct Hg as [Hi Hg]. cbn [table_row word_of]. rewrite py_get_app. cbn [bind]. fold (fl rm r).
  set (f := fl rm r) in *. destruct f as [|a f'] eqn:Ef; [change (zlen (@nil Z)) with 0 in Hi; lia|]. rewrite <- Ef in *.
  assert (Es : exists w, slice_to f i = a :: w). { rewrite slice_to_firstn by lia. rewrite Ef. replace (Z.to_nat i) with (S (Z.to_nat (i - 1))) by lia. cbn [firstn]. eauto. }
  assert (ER : (if 1 <? i then rm ++ slice_to f (i - 1) else rm) = rm ++ slice_to f (i - 1)).
  { destruct (Z.ltb_spec 1 i); [reflexivity|]. replace (i - 1) with 0 by lia. rewrite slice_to_firstn by lia. cbn [Z.to_nat firstn]. now rewrite app_nil_r. }
  rewrite ER. assert (GO : table_row (zlen done + 1) pi (done ++ r :: rows) (k2 ++ slice_to f i) (rm ++ slice_to f (i - 1)) =
      table_row (zlen (done ++ [r])) pi ((done ++ [r]) ++ rows) (k2 ++ slice_to f i) (rm ++ slice_to f (i - 1))).
  { rewrite zlen_app. change (zlen [r]) with 1. now rewrite <- app_assoc. }
  specialize (IH rows (done ++ [r]) (k2 ++ slice_to f i) (rm ++ slice_to f (i - 1)) Hg).
  assert (Hne : done ++ [r] <> [] -> k2 ++ slice_to f i <> []) by (intros _ E; apply app_eq_nil in E; destruct E as [_ E]; destruct Es as (w & Es); congruence).
  specialize (IH Hne). rewrite <- (app_assoc k2) in IH.
  destruct (Z.ltb_spec 0 (zlen done)) as [Hd|Hd].
  - assert (Nk : k2 <> []) by (apply Hk; intros ->; change (zlen (@nil (list Z))) with 0 in Hd; lia). destruct (exists_last Nk) as (k2' & l & ->). rewrite py_get_last. cbn [bind].
    assert (G0 : py_get f 0 = Ok a) by (now rewrite Ef). rewrite G0. cbn [bind]. destruct (Z.eqb_spec l a) as [->|N].
    + right. split; [reflexivity|]. destruct Es as (w & ->). rewrite <- !app_assoc. cbn [app]. apply adj_join.
    + rewrite GO. exact IH.
  - cbn [bind]. rewrite GO. exact IH.
Qed.

(** ** all partitions *)
Lemma fl_perm rm r r' : Permutation r r' -> zlen (fl rm r) = zlen (fl rm r').
Proof. intros P. unfold zlen. f_equal. apply Permutation_length. unfold fl. clear - P. induction P; cbn [filter]; repeat (destruct (negb _)); eauto using Permutation. Qed.
Lemma fl_notin rm r : (forall c, In c r -> ~ In c rm) -> fl rm r = r.
Proof.
  intros N. induction r as [|a r IH]; [reflexivity|]. unfold fl. cbn [filter]. rewrite (proj2 (mem_notin a rm)) by (apply N; now left). cbn [negb]. f_equal. apply IH. intros; apply N; now right.
Qed.
Lemma fl_in rm r : (forall c, In c r -> In c rm) -> fl rm r = [].
Proof.
  intros N. induction r as [|a r IH]; [reflexivity|]. unfold fl. cbn [filter]. rewrite (proj2 (mem_in a rm)) by (apply N; now left). cbn [negb]. apply IH. intros; apply N; now right.
Qed.
Lemma fl_appr rm l l' : fl rm (l ++ l') = fl rm l ++ fl rm l'. Proof. apply filter_app. Qed.
Lemma NoDup_app_disj {B} (l l' : list B) c : NoDup (l ++ l') -> In c l -> In c l' -> False.
Proof. induction l as [|a l IH]; intros ND H1 H2; [destruct H1|]. cbn [app] in ND. inversion_clear ND as [|? ? Na ND']. destruct H1 as [->|H1]; [apply Na, in_or_app; now right|auto]. Qed.
Lemma fl_cut rm r l1 b l2 : NoDup r -> fl rm r = l1 ++ b :: l2 -> fl (rm ++ l1) r = b :: l2.
Proof.
  intros ND E. rewrite <- fl_app, E, fl_appr. assert (ND' : NoDup (l1 ++ b :: l2)) by (rewrite <- E; now apply NoDup_filter).
  rewrite fl_in by auto. cbn [app]. apply fl_notin. intros c Hc Hc1. apply (NoDup_app_disj l1 (b :: l2) c); auto.
Qed.
Lemma table_sum rows : forall rm r rest g, rows = r :: rest -> NoDup r -> (forall r', In r' rest -> Permutation r r') -> fl rm r <> [] ->
  (forall pi, In pi (comps (length rest) (zlen (fl rm r))) -> good pi rows rm) /\
  sumf (fun pi => g (word_of pi rows rm)) (comps (length rest) (zlen (fl rm r))) = TT g (map (fl rm) rows).
Proof.
  induction rows as [|r0 rows IH]; intros rm r rest g E ND HP Ne; [discriminate|]. injection E as -> ->.
  assert (Nz : 1 <= zlen (fl rm r)) by (destruct (fl rm r); [congruence|]; rewrite zlen_cons; pose proof (zlen_nonneg l); lia).
  unfold TT. rewrite <- tw_TL. destruct rest as [|s rest].
  - cbn [comps length]. split.
    + intros pi [<-|[]]. cbn [good]. lia.
    + rewrite sumf_cons, sumf_nil. cbn [word_of table_words]. rewrite slice_to_all by lia. rewrite app_nil_r. rewrite sumf_cons, sumf_nil. reflexivity.
  - cbn [length comps]. assert (Ps : Permutation r s) by (apply HP; now left).
    assert (NDs : NoDup s) by (now apply (Permutation_NoDup Ps)). assert (HP' : forall r', In r' rest -> Permutation s r') by (intros r' Hr; rewrite <- Ps; apply HP; now right).
    assert (KEY : forall l1 b l2, fl rm r = l1 ++ b :: l2 -> zlen (fl (rm ++ l1) s) = zlen (fl rm r) - zlen l1 /\ fl (rm ++ l1) s <> []).
    { intros l1 b l2 Ec. pose proof (fl_perm (rm ++ l1) r s Ps) as EL. rewrite (fl_cut rm r l1 b l2 ND Ec) in EL. split; [rewrite <- EL, Ec, zlen_app; lia|]. intros E0. rewrite E0, zlen_cons in EL. change (zlen (@nil Z)) with 0 in EL. pose proof (zlen_nonneg l2). lia. }
    split.
    + intros pi Hpi. apply in_flat_map in Hpi. destruct Hpi as (j & Hj & Hpi). apply in_map_iff in Hpi. destruct Hpi as (q & <- & Hq).
      destruct (in_zrange_splits _ _ Hj) as (l1 & b & l2 & Ec & ->). destruct (KEY _ _ _ Ec) as [EL NE]. cbn [good]. apply in_zrange in Hj. split; [lia|].
      rewrite Z.add_simpl_r. rewrite Ec at 1. rewrite slice_to_app. rewrite <- EL in Hq.
      exact (proj1 (IH (rm ++ l1) s rest g eq_refl NDs HP' NE) q Hq).
    + rewrite sumf_flat_map, sumf_zrange_splits. cbn [table_words]. fold (fl rm r). fold (table_words). rewrite sumf_flat_map, cuts_splits. apply sumf_ext. intros [[l1 b] l2] Hin. apply splits_in in Hin.
      destruct (KEY _ _ _ Hin) as [EL NE]. cbn [fst snd]. rewrite !sumf_map. rewrite <- EL.
      change (sumf (fun x => g (word_of (zlen l1 + 1 :: x) (r :: s :: rest) rm)) (comps (length rest) (zlen (fl (rm ++ l1) s))) = sumf (fun x => g (l1 ++ b :: x)) (table_words (l1 ++ rm) (s :: rest))).
      rewrite tw_TL. rewrite (map_ext (fl (l1 ++ rm)) (fl (rm ++ l1))) by (intros l; apply fl_ext; intros d; rewrite !mem_appb; apply orb_comm).
      change (sumf (fun x => g (l1 ++ b :: x)) (TL (map (fl (rm ++ l1)) (s :: rest)))) with (TT (fun x => g (l1 ++ b :: x)) (map (fl (rm ++ l1)) (s :: rest))).
      rewrite <- (proj2 (IH (rm ++ l1) s rest (fun x => g (l1 ++ b :: x)) eq_refl NDs HP' NE)). apply sumf_ext. intros q _. f_equal.
      cbn [word_of]. rewrite Z.add_simpl_r, Hin. rewrite slice_to_app_S, slice_to_app. rewrite <- app_assoc. reflexivity.
Qed.

(** ** the operator *)
Lemma killadj_adm g : adm cls_surj g -> killadj g.
Proof.
  intros [_ Hg] w Hw. apply Hg. destruct w as [|a w]; [discriminate|]. change (bad cls_surj (a :: w)) with (surj_bad (a :: w)). destruct (py_max (a :: w)) as [m|] eqn:E; [|discriminate].
  rewrite (surj_bad_spec _ m E), Hw. now rewrite orb_true_r.
Qed.
Lemma good_ne pi rows rm : good pi rows rm -> rows <> [] -> word_of pi rows rm <> [].
Proof.
  destruct rows as [|r rows]; [congruence|]. destruct pi as [|i pi]; [intros []|]. intros [Hi _] _ E. cbn [word_of] in E. apply app_eq_nil in E. destruct E as [E _].
  rewrite slice_to_firstn in E by lia. destruct (fl rm r) as [|a f]; [change (zlen (@nil Z)) with 0 in Hi; lia|]. replace (Z.to_nat i) with (S (Z.to_nat (i - 1))) in E by lia. discriminate.
Qed.
Lemma table_den dt t n (x : bee) : 1 <= n -> 0 <= t -> dt_ok dt t -> wf cls_be x -> torsion x = t -> keys_in (be_simplex n) x ->
  returns (be_table_reduction dt x) (den cls_surj t BF (fun g => ev (TT g) (data x))).
Proof.
  intros Hn Ht Hdt Wx Tx Kx. unfold be_table_reduction. rewrite Tx.
  eapply returns_bind; [apply (new_den cls_surj ok_surj dt t (Some t) BF []); auto; [exact I|intros k []]|]. intros y0 Hy0.
  eapply returns_bind.
  - apply (loop_den cls_surj ok_surj t BF (data x) _ (fun k g => TT g k)); [|exact Hy0].
    intros k v F y Hin Hy. pose proof (Kx _ _ Hin) as Hk. assert (Hb : bad cls_be k = Ok false) by apply (proj2 (proj2 Wx) _ _ Hin).
    destruct k as [|r rest]; [discriminate Hb|]. change (py_get (r :: rest) 0) with (Ok r). cbn [bind]. assert (Hr : perm n r) by (apply Hk; now left).
    rewrite (perm_max n r Hn Hr). cbn [bind]. rewrite zlen_cons, Z.add_simpl_r.
    destruct (C56_partitions_l (zlen rest + n) (zlen rest + 1) 1 None true) as (ps & -> & ND & HP); [pose proof (zlen_nonneg rest); lia|]. cbn [bind]. cbn zeta in HP.
    assert (NDr : NoDup r) by (eapply perm_nodup; eauto). assert (PR : forall r', In r' rest -> Permutation r r').
    { intros r' Hr'. apply NoDup_Permutation; [exact NDr|eapply perm_nodup; apply Hk; now right|]. intros c. rewrite (perm_in n r c Hr), (perm_in n r' c) by (apply Hk; now right). reflexivity. }
    assert (Lr : zlen (fl [] r) = n) by (rewrite fl_nil; apply perm_len; [lia|exact Hr]).
    assert (NE : fl [] r <> []) by (intros E; rewrite E in Lr; change (zlen (@nil Z)) with 0 in Lr; lia).
    assert (PP : Permutation ps (comps (length rest) (zlen (fl [] r)))).
    { apply NoDup_Permutation; [exact ND|apply comps_nodup|]. intros p. rewrite HP, comps_in by lia. rewrite Lr. unfold summands. change (Z.of_nat (length rest)) with (zlen rest). split.
      - intros [(L & S & B) _]. split; [lia|]. split; [lia|]. intros i Hi. apply B in Hi. lia.
      - intros (L & S & B). split; [|discriminate]. split; [lia|]. split; [lia|]. intros i Hi. split; [now apply B|]. 
        assert (G : forall l, (forall i, In i l -> 1 <= i) -> forall i, In i l -> i <= zsum l).
        { clear. induction l as [|a l IHl]; intros B i Hi; [destruct Hi|]. change (zsum (a :: l)) with (a + zsum l). assert (0 <= zsum l).
          { assert (B' : forall i, In i l -> 1 <= i) by (intros; apply B; now right). clear -B'. induction l as [|c l IH]; [reflexivity|]. change (zsum (c :: l)) with (c + zsum l). specialize (IH ltac:(intros; apply B'; now right)). specialize (B' c (or_introl eq_refl)). lia. }
          destruct Hi as [->|Hi]; [lia|]. specialize (IHl ltac:(intros; apply B; now right) i Hi). specialize (B a (or_introl eq_refl)). lia. }
        specialize (G p B i Hi). lia. }
    destruct (table_sum (r :: rest) [] r rest (fun _ => 0) eq_refl NDr PR NE) as [GD _].
    eapply returns_mono.
    + apply (for_den cls_surj t ps _ (fun pi g => v * g (word_of pi (r :: rest) [])) BF); [|exact Hy].
      intros pi F' z Hpi Hz. assert (Hg : good pi (r :: rest) []) by (apply GD; now apply (Permutation_in _ PP)).
      pose proof (table_row_code pi (r :: rest) [] [] [] Hg ltac:(congruence)) as TC. cbn [app] in TC. change (zlen (@nil (list Z))) with 0 in TC. destruct TC as [-> |[-> Ha]]; cbn [bind app].
      * eapply returns_mono; [eapply (add_term_den cls_surj ok_surj dt t); eauto|].
        -- exact (proj1 Hz).
        -- apply surj_okey, good_ne; [exact Hg|discriminate].
        -- intros z2 Hz2. exact Hz2.
      * apply returns_ok. eapply den_ext; [|exact Hz]. intros g Hg'. cbn beta. rewrite (killadj_adm g Hg' _ Ha). apply eqm_eq. ring.
    + intros z Hz. eapply den_ext; [|exact Hz]. intros g _. cbn beta. apply eqm_eq. f_equal. rewrite sumf_scal. f_equal. rewrite (sumf_perm _ _ _ PP).
      rewrite (proj2 (table_sum (r :: rest) [] r rest g eq_refl NDr PR NE)). f_equal. rewrite (map_ext (fl []) (fun l => l)) by apply fl_nil. apply map_id.
  - intros y Hy. cbn beta. pose proof Hy as (H1 & H2 & H3 & H4). 
    assert (OK : forall k v, In (k, v) (data y) -> okey cls_surj k) by (intros k v Hin; destruct H3 as [_ H3]; exists false; apply (H3 _ _ Hin)).
    rewrite pref_ok by (intros k Hk; apply in_map_iff in Hk; destruct Hk as ([k' v] & <- & Hin); eapply OK; eauto). cbn [bind].
    rewrite H1. rewrite (prefd_id cls_surj t (data y)) by assumption. apply returns_ok. eapply den_ext; [|split; [reflexivity|split; [exact H2|split; [exact H3|exact H4]]]].
    intros g _. cbn beta. apply eqm_eq. rewrite ev_nil. apply Z.add_0_l.
Qed.
