(** * Table reduction, letter by letter.  Proof library. *)
From Coq Require Import Setoid Morphisms.
From Verif Require Import PyBase Dict FreeModule Symmetric Simplicial Utils Surjection BarrattEccles Eqm Spec SpecOperad SpecSurj FreeModuleFacts FreeModuleLaws ListFacts
  ClassFacts LinearFacts SymmetricFacts CycleFacts SymmetricLaws RingFacts TensorAct LoopFacts BEFacts EZ SurjFacts SurjBoundary SurjCompose SurjCompose2.

Definition del (b : Z) (l : list Z) : list Z := filter (fun c => negb (c =? b)) l.
Lemma in_del b l c : In c (del b l) <-> In c l /\ c <> b.
Proof. unfold del. rewrite filter_In, negb_true_iff, Z.eqb_neq. reflexivity. Qed.
Lemma del_notin b l : ~ In b l -> del b l = l.
Proof.
  induction l as [|c l IH]; intros N; [reflexivity|]. cbn [del filter]. destruct (Z.eqb_spec c b) as [->|]; [exfalso; apply N; now left|]. cbn [negb]. f_equal. apply IH. intros H. apply N. now right.
Qed.
Lemma del_cons b c l : del b (c :: l) = if c =? b then del b l else c :: del b l.
Proof. cbn [del filter]. now destruct (c =? b). Qed.
Lemma del_del a b l : del a (del b l) = del b (del a l).
Proof. induction l as [|c l IH]; [reflexivity|]. rewrite (del_cons b), (del_cons a). destruct (c =? b) eqn:E1, (c =? a) eqn:E2; rewrite ?del_cons, ?E1, ?E2, ?IH; reflexivity. Qed.
Lemma NoDup_del b l : NoDup l -> NoDup (del b l). Proof. apply NoDup_filter. Qed.

(** the words *)
Fixpoint Tn (n : nat) : list Z -> list (list Z) -> list (list Z) :=
  match n with
  | O => fun f _ => [f]
  | S n' => fix J (f : list Z) (rest : list (list Z)) {struct f} :=
      match f, rest with
      | b :: f', s :: rest' => map (cons b) (Tn n' s rest') ++ map (cons b) (J f' (map (del b) rest))
      | _, _ => []
      end
  end.
Definition TL (rows : list (list Z)) : list (list Z) := match rows with [] => [] | f :: rest => Tn (length rest) f rest end.
Lemma TL_nil : TL [] = []. Proof. reflexivity. Qed.
Lemma TL_one f : TL [f] = [f]. Proof. reflexivity. Qed.
Lemma TL_empty s rest : TL ([] :: s :: rest) = []. Proof. reflexivity. Qed.
Lemma TL_cons b f s rest : TL ((b :: f) :: s :: rest) = map (cons b) (TL (s :: rest)) ++ map (cons b) (TL (f :: map (del b) (s :: rest))).
Proof. cbn [TL length map]. rewrite map_length. reflexivity. Qed.
Definition TT (g : list Z -> Z) (rows : list (list Z)) : Z := sumf g (TL rows).
Lemma TT_nil g : TT g [] = 0. Proof. reflexivity. Qed.
Lemma TT_one g f : TT g [f] = g f. Proof. unfold TT. rewrite TL_one, sumf_cons, sumf_nil. ring. Qed.
Lemma TT_empty g s rest : TT g ([] :: s :: rest) = 0. Proof. reflexivity. Qed.
Lemma TT_cons g b f s rest : TT g ((b :: f) :: s :: rest) = TT (fun w => g (b :: w)) (s :: rest) + TT (fun w => g (b :: w)) (f :: map (del b) (s :: rest)).
Proof. unfold TT. rewrite TL_cons, sumf_app, !sumf_map. reflexivity. Qed.
Opaque TL.
Lemma TT_ext g h rows : (forall w, In w (TL rows) -> g w = h w) -> TT g rows = TT h rows. Proof. apply sumf_ext. Qed.
Lemma TT_ext_all g h rows : (forall w, g w = h w) -> TT g rows = TT h rows. Proof. intros; now apply TT_ext. Qed.
Lemma TT_add g h rows : TT (fun w => g w + h w) rows = TT g rows + TT h rows. Proof. apply sumf_add. Qed.
Lemma TT_sub g h rows : TT (fun w => g w - h w) rows = TT g rows - TT h rows. Proof. apply sumf_sub. Qed.
Lemma TT_scal n g rows : TT (fun w => n * g w) rows = n * TT g rows. Proof. apply sumf_scal. Qed.
Lemma TT_0 rows : TT (fun _ => 0) rows = 0. Proof. now apply sumf_0. Qed.
Lemma TT_zero g rows : (forall w, In w (TL rows) -> g w = 0) -> TT g rows = 0. Proof. intros. now apply sumf_0. Qed.

(** all rows list the same letters *)
Definition rws (S : Z -> Prop) (rows : list (list Z)) : Prop := forall r, In r rows -> NoDup r /\ forall c, In c r <-> S c.
Definition sdel (b : Z) (S : Z -> Prop) : Z -> Prop := fun c => S c /\ c <> b.
Lemma rws_del b S rows : rws S rows -> rws (sdel b S) (map (del b) rows).
Proof.
  intros H r Hr. apply in_map_iff in Hr. destruct Hr as (r' & <- & Hr). destruct (H _ Hr) as [H1 H2]. split; [now apply NoDup_del|]. intros c. rewrite in_del, H2. reflexivity.
Qed.
Lemma rws_tl S r rows : rws S (r :: rows) -> rws S rows. Proof. intros H x Hx. apply H. now right. Qed.
Lemma rws_next b S f rows : rws S ((b :: f) :: rows) -> rws (sdel b S) (f :: map (del b) rows).
Proof.
  intros H. pose proof (rws_del b S _ (rws_tl _ _ _ H)) as H1. destruct (H (b :: f) (or_introl eq_refl)) as [ND HS]. inversion_clear ND as [|? ? Nb Nf].
  intros r [<-|Hr]; [|now apply H1]. split; [exact Nf|]. intros c. unfold sdel. rewrite <- HS. cbn [In]. split; [intros Hc; split; [now right|intros ->; contradiction]|intros [[->|Hc] N]; [congruence|exact Hc]].
Qed.
Lemma rws_ext S S' rows : (forall c, S c <-> S' c) -> rws S rows -> rws S' rows.
Proof. intros E H r Hr. destruct (H r Hr) as [H1 H2]. split; [exact H1|]. intros c. now rewrite H2. Qed.

(** induction over rows *)
Lemma rows_ind (P : (Z -> Prop) -> list (list Z) -> Prop) :
  (forall S, P S []) ->
  (forall S f, rws S [f] -> P S [f]) ->
  (forall S s rest, rws S ([] :: s :: rest) -> P S ([] :: s :: rest)) ->
  (forall S b f s rest, rws S ((b :: f) :: s :: rest) -> P S (s :: rest) -> P (sdel b S) (f :: map (del b) (s :: rest)) -> P S ((b :: f) :: s :: rest)) ->
  forall S rows, rws S rows -> P S rows.
Proof.
  intros H0 H1 H2 H3 S rows. remember (length rows) as n eqn:En. revert S rows En. induction n as [|n IH]; intros S rows En HR.
  - destruct rows; [apply H0|discriminate].
  - destruct rows as [|f rest]; [discriminate|]. injection En as En. revert S rest En HR. induction f as [|b f IHf]; intros S rest En HR.
    + destruct rest as [|s rest]; [now apply H1|now apply H2].
    + destruct rest as [|s rest]; [now apply H1|]. apply H3; [exact HR|apply IH; [exact En|eapply rws_tl; eauto]|]. apply IHf; [now rewrite map_length|]. now apply rws_next.
Qed.
Lemma TL_in S rows : rws S rows -> forall w, In w (TL rows) -> forall c, In c w <-> S c.
Proof.
  revert S rows. apply (rows_ind (fun S rows => forall w, In w (TL rows) -> forall c, In c w <-> S c)).
  - intros S w [].
  - intros S f HR w Hw. rewrite TL_one in Hw. destruct Hw as [<-|[]]. apply HR. now left.
  - intros S s rest _ w [].
  - intros S b f s rest HR IH1 IH2 w Hw c. rewrite TL_cons, in_app_iff, !in_map_iff in Hw.
    destruct (HR (b :: f) (or_introl eq_refl)) as [_ HS]. assert (Sb : S b) by (apply HS; now left).
    destruct Hw as [(w' & <- & Hw)|(w' & <- & Hw)]; cbn [In].
    + rewrite (IH1 _ Hw). split; [intros [<-|H]; auto|auto].
    + rewrite (IH2 _ Hw). unfold sdel. split; [intros [<-|[H _]]; auto|]. intros H. destruct (Z.eq_dec b c); auto.
Qed.
Lemma TL_nc S rows : rws S rows -> forall w, In w (TL rows) -> nc w = zlen rows - 1.
Proof.
  revert S rows. apply (rows_ind (fun S rows => forall w, In w (TL rows) -> nc w = zlen rows - 1)).
  - intros S w [].
  - intros S f HR w Hw. rewrite TL_one in Hw. destruct Hw as [<-|[]]. destruct (HR f (or_introl eq_refl)) as [ND _]. clear HR. change (zlen [f]) with 1.
    induction ND as [|a l Na ND IH]; [reflexivity|]. rewrite nc_cons, IH. apply mem_notin in Na. rewrite Na. lia.
  - intros S s rest _ w [].
  - intros S b f s rest HR IH1 IH2 w Hw. rewrite TL_cons, in_app_iff, !in_map_iff in Hw.
    destruct (HR (b :: f) (or_introl eq_refl)) as [_ HS]. assert (Sb : S b) by (apply HS; now left).
    destruct Hw as [(w' & <- & Hw)|(w' & <- & Hw)]; rewrite nc_cons.
    + rewrite (IH1 _ Hw). rewrite (proj2 (mem_in b w')) by (apply (TL_in S (s :: rest) (rws_tl _ _ _ HR) _ Hw); exact Sb). rewrite !zlen_cons. lia.
    + rewrite (IH2 _ Hw). assert (E : mem b w' = false). { apply mem_notin. intros H. apply (TL_in _ _ (rws_next _ _ _ _ HR) _ Hw) in H. destruct H as [_ H]. congruence. }
      rewrite E. unfold zlen. cbn [length]. rewrite map_length. cbn [length]. lia.
Qed.
Lemma TL_head S b f rest : rws S ((b :: f) :: rest) -> forall w, In w (TL ((b :: f) :: rest)) -> exists w', w = b :: w'.
Proof.
  intros HR w Hw. destruct rest as [|s rest].
  - rewrite TL_one in Hw. destruct Hw as [<-|[]]. now exists f.
  - rewrite TL_cons, in_app_iff, !in_map_iff in Hw. destruct Hw as [(w' & <- & _)|(w' & <- & _)]; now exists w'.
Qed.
(** words in which [b] occurs once *)
Lemma TT_U S b rows : rws S rows -> S b -> forall h, TT (U b h) rows = TT h (map (del b) rows).
Proof.
  revert S rows. apply (rows_ind (fun S rows => S b -> forall h, TT (U b h) rows = TT h (map (del b) rows))).
  - reflexivity.
  - intros S f HR Sb h. cbn [map]. rewrite !TT_one. destruct (HR f (or_introl eq_refl)) as [ND HS]. apply HS in Sb. clear HR HS. apply in_split in Sb. destruct Sb as (l1 & l2 & ->).
    apply NoDup_remove_2 in ND. assert (N1 : ~ In b l1) by (intros H; apply ND, in_or_app; now left). assert (N2 : ~ In b l2) by (intros H; apply ND, in_or_app; now right).
    rewrite (U_some b h _ (l1 ++ l2)) by (now apply uniq_app). f_equal. unfold del. rewrite filter_app. cbn [filter]. rewrite Z.eqb_refl. cbn [negb]. change (l1 ++ l2 = del b l1 ++ del b l2). now rewrite !del_notin.
  - intros S s rest HR Sb h. exfalso. destruct (HR [] (or_introl eq_refl)) as [_ HS]. now apply HS in Sb.
  - intros S a f s rest HR IH1 IH2 Sb h. rewrite TT_cons. destruct (Z.eq_dec a b) as [->|N].
    + pose proof (HR (b :: f) (or_introl eq_refl)) as [ND _]. inversion_clear ND as [|? ? Nb _].
      rewrite (TT_zero _ (s :: rest)).
      2:{ intros w Hw. rewrite U_cons, Z.eqb_refl. rewrite (proj2 (mem_in b w)); [reflexivity|]. now apply (TL_in S (s :: rest) (rws_tl _ _ _ HR) _ Hw). }
      rewrite (TT_ext (fun w => U b h (b :: w)) h).
      2:{ intros w Hw. rewrite U_cons, Z.eqb_refl. assert (E : mem b w = false). { apply mem_notin. intros H. apply (TL_in _ _ (rws_next _ _ _ _ HR) _ Hw) in H. destruct H as [_ H]. congruence. } now rewrite E. }
      rewrite Z.add_0_l. f_equal. cbn [map]. rewrite del_cons, Z.eqb_refl. f_equal. now rewrite del_notin.
    + assert (E : forall w, U b h (a :: w) = U b (fun u => h (a :: u)) w) by (intros w; rewrite U_cons, (proj2 (Z.eqb_neq _ _) N); reflexivity).
      rewrite (TT_ext_all _ (U b (fun u => h (a :: u))) (s :: rest)) by exact E. rewrite (TT_ext_all _ (U b (fun u => h (a :: u))) (f :: _)) by exact E.
      rewrite IH1 by exact Sb. rewrite IH2 by (split; auto). cbn [map]. rewrite (del_cons b a f), (proj2 (Z.eqb_neq _ _) N), TT_cons. f_equal. cbn [map]. f_equal. f_equal. f_equal; [apply del_del|].
      rewrite !map_map. apply map_ext. intros. apply del_del.
Qed.
Lemma TT_step g b f u : TT g ((b :: f) :: u) = TT (fun w => g (b :: w)) u + TT (fun w => g (b :: w)) (f :: map (del b) u).
Proof. destruct u as [|s rest]; [|apply TT_cons]. cbn [map]. rewrite !TT_one, TT_nil. ring. Qed.
Lemma fdB_map (f : list Z -> list Z) rows : forall g, fdB g (map f rows) = fdB (fun u => g (map f u)) rows.
Proof. induction rows as [|r rows IH]; intros g; [reflexivity|]. cbn [map]. rewrite !fdB_cons, IH. reflexivity. Qed.
Lemma rws_empty S s rest : rws S ([] :: s :: rest) -> s = [] /\ forall r, In r rest -> r = [].
Proof.
  intros HR. destruct (HR [] (or_introl eq_refl)) as [_ H0].
  assert (E : forall r, In r ([] :: s :: rest) -> r = []). { intros r Hr. destruct (HR r Hr) as [_ H1]. destruct r as [|c r]; [reflexivity|]. exfalso. apply (H0 c), H1. now left. }
  split; [apply E; right; now left|]. intros r Hr. apply E. right. now right.
Qed.
Lemma TT_chain S rows : rws S rows -> forall g, TT (bfd g) rows = fdB (TT g) rows.
Proof.
  revert S rows. apply (rows_ind (fun S rows => forall g, TT (bfd g) rows = fdB (TT g) rows)).
  - reflexivity.
  - intros S f HR g. rewrite TT_one, fdB_cons, fdB_nil, TT_nil. destruct (HR f (or_introl eq_refl)) as [ND _]. clear HR. rewrite Z.sub_0_r.
    revert g. induction ND as [|a l Na ND IH]; intros g; [reflexivity|]. rewrite bfd_cons. apply mem_notin in Na. rewrite Na. apply IH.
  - intros S s rest HR g. rewrite TT_empty. destruct (rws_empty _ _ _ HR) as [-> HE]. clear HR. rewrite !fdB_cons. destruct rest as [|r rest]; [rewrite fdB_nil; ring|].
    rewrite (HE r) by now left. rewrite !TT_empty. symmetry. rewrite !Z.sub_0_l, Z.opp_involutive. apply ev_zero. intros u v _. apply TT_empty.
  - intros S b f s rest HR IH1 IH2 g. rewrite fdB_cons. 
    rewrite (fdB_ext (fun u => TT g ((b :: f) :: u)) (fun u => TT (fun w => g (b :: w)) u + TT (fun w => g (b :: w)) (f :: map (del b) u))) by (intros; apply TT_step).
    rewrite fdB_add, <- IH1. pose proof (fdB_map (del b) (s :: rest) (fun u => TT (fun w => g (b :: w)) (f :: u))) as EM. cbn beta in EM. rewrite <- EM. clear EM.
    specialize (IH2 (fun w => g (b :: w))). rewrite fdB_cons in IH2.
    destruct (HR (b :: f) (or_introl eq_refl)) as [_ HS]. assert (Sb : S b) by (apply HS; now left).
    rewrite TT_cons. 
    rewrite (TT_ext (fun w => bfd g (b :: w)) (fun w => g w - bfd (fun u => g (b :: u)) w - U b (fun u => g (b :: u)) w) (s :: rest)).
    2:{ intros w Hw. rewrite bfd_cons. rewrite (proj2 (mem_in b w)); [reflexivity|]. now apply (TL_in S (s :: rest) (rws_tl _ _ _ HR) _ Hw). }
    rewrite (TT_ext (fun w => bfd g (b :: w)) (bfd (fun u => g (b :: u))) (f :: map (del b) (s :: rest))).
    2:{ intros w Hw. rewrite bfd_cons. assert (E : mem b w = false). { apply mem_notin. intros H. apply (TL_in _ _ (rws_next _ _ _ _ HR) _ Hw) in H. destruct H as [_ H]. congruence. } now rewrite E. }
    rewrite !TT_sub, (TT_U S b (s :: rest) (rws_tl _ _ _ HR) Sb), IH2. change (fun w => g w) with g.
    match goal with |- ?A - ?B - ?C + (?C - ?D) = ?A - (?B + ?D') => change D' with D; ring end.
Qed.
(** relabelling *)
Lemma TT_map S (f : Z -> Z) rows : rws S rows -> (forall a b, S a -> S b -> f a = f b -> a = b) -> forall g, TT g (map (map f) rows) = TT (fun w => g (map f w)) rows.
Proof.
  revert S rows. apply (rows_ind (fun S rows => (forall a b, S a -> S b -> f a = f b -> a = b) -> forall g, TT g (map (map f) rows) = TT (fun w => g (map f w)) rows)).
  - reflexivity.
  - intros S r HR Hf g. cbn [map]. now rewrite !TT_one.
  - intros S s rest HR Hf g. reflexivity.
  - intros S b r s rest HR IH1 IH2 Hf g. cbn [map]. rewrite !TT_cons.
    change (map f s :: map (map f) rest) with (map (map f) (s :: rest)). rewrite IH1 by exact Hf. f_equal.
    etransitivity; [|exact (IH2 ltac:(intros a c [Sa _] [Sc _]; now apply Hf) (fun w => g (f b :: w)))]. cbn [map]. f_equal. f_equal.
    assert (ED : forall l, In l (s :: rest) -> del (f b) (map f l) = map f (del b l)).
    { intros l Hl. destruct (HR l (or_intror Hl)) as [_ HS]. destruct (HR (b :: r) (or_introl eq_refl)) as [_ HS']. assert (Sb : S b) by (apply HS'; now left).
      assert (Hin : forall c, In c l -> S c) by (intros; now apply HS). clear HS HS' Hl. induction l as [|c l IHl]; [reflexivity|]. cbn [map]. rewrite !del_cons, IHl by (intros; apply Hin; now right).
      destruct (Z.eqb_spec c b) as [->|N]; [now rewrite Z.eqb_refl|]. destruct (Z.eqb_spec (f c) (f b)) as [E|_]; [|reflexivity]. exfalso. apply N. apply Hf; auto. apply Hin. now left. }
    f_equal; [apply ED; now left|]. rewrite !map_map. apply map_ext_in. intros l Hl. apply ED. now right.
Qed.
(** repeated rows *)
Fixpoint rep_row (rows : list (list Z)) : Prop := match rows with r :: ((r' :: _) as rows') => r = r' \/ rep_row rows' | _ => False end.
Lemma rep_row_map (f : list Z -> list Z) rows : rep_row rows -> rep_row (map f rows).
Proof. induction rows as [|r rows IH]; [auto|]. destruct rows as [|r' rows]; [auto|]. cbn [map rep_row]. intros [->|H]; [now left|right; now apply IH]. Qed.
Definition killadj (g : list Z -> Z) : Prop := forall w, adj w = true -> g w = 0.
Lemma killadj_cons g b : killadj g -> killadj (fun w => g (b :: w)).
Proof. intros H w Hw. apply H. destruct w as [|c w]; [discriminate|]. rewrite adj_cons2, Hw. apply orb_true_r. Qed.
Lemma kill_head g b w : killadj g -> g (b :: b :: w) = 0.
Proof. intros H. apply H. now rewrite adj_cons2, Z.eqb_refl. Qed.
Lemma TT_rep S rows : rws S rows -> rep_row rows -> forall g, killadj g -> TT g rows = 0.
Proof.
  revert S rows. apply (rows_ind (fun S rows => rep_row rows -> forall g, killadj g -> TT g rows = 0)).
  - intros S [].
  - intros S f _ [].
  - intros S s rest _ _ g _. apply TT_empty.
  - intros S b f s rest HR IH1 IH2 Hr g Hg. rewrite TT_cons. cbn [rep_row] in Hr. pose proof (killadj_cons g b Hg) as Hg'. destruct Hr as [<-|Hr].
    + rewrite (IH2); [| |exact Hg'].
      * rewrite Z.add_0_r. apply TT_zero. intros w Hw. destruct (TL_head _ _ _ _ (rws_tl _ _ _ HR) _ Hw) as (w' & ->). now apply kill_head.
      * cbn [map rep_row]. left. destruct (HR (b :: f) (or_introl eq_refl)) as [ND _]. inversion_clear ND. rewrite del_cons, Z.eqb_refl. now rewrite del_notin.
    + rewrite IH1, IH2; auto. cbn [map rep_row]. right. now apply (rep_row_map (del b) (s :: rest)).
Qed.
