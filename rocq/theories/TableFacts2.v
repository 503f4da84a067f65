(** * Table reduction and composition.  Proof library. *)
From Coq Require Import Setoid Morphisms.
From Verif Require Import PyBase Dict FreeModule Symmetric Simplicial Utils Surjection BarrattEccles Eqm Spec SpecOperad SpecSurj FreeModuleFacts FreeModuleLaws ListFacts
  ClassFacts LinearFacts SymmetricFacts CycleFacts SymmetricLaws RingFacts TensorAct LoopFacts BEFacts EZ BECompose SurjFacts SurjBoundary SurjCompose SurjCompose2 TableFacts.

Definition sub (m : Z) (r h : list Z) : list Z := flat_map (fun c => if c =? m then h else [c]) r.
Lemma sub_cons m c r h : sub m (c :: r) h = (if c =? m then h else [c]) ++ sub m r h. Proof. reflexivity. Qed.
Lemma sub_notin m r h : ~ In m r -> sub m r h = r.
Proof. induction r as [|c r IH]; intros N; [reflexivity|]. rewrite sub_cons, IH by (intros H; apply N; now right). destruct (Z.eqb_spec c m) as [->|]; [exfalso; apply N; now left|reflexivity]. Qed.
Lemma sub_nil m r : sub m r [] = del m r.
Proof. induction r as [|c r IH]; [reflexivity|]. rewrite sub_cons, del_cons, IH. now destruct (c =? m). Qed.
Lemma del_app a l l' : del a (l ++ l') = del a l ++ del a l'. Proof. apply filter_app. Qed.
Lemma del_sub_u m a r h : a <> m -> ~ In a h -> del a (sub m r h) = sub m (del a r) h.
Proof.
  intros N Na. induction r as [|c r IH]; [reflexivity|]. rewrite sub_cons, del_app, IH, del_cons. destruct (Z.eqb_spec c m) as [->|Nc].
  - rewrite (proj2 (Z.eqb_neq m a)) by congruence. rewrite sub_cons, Z.eqb_refl. now rewrite del_notin.
  - rewrite del_cons. change (del a []) with (@nil Z). destruct (Z.eqb_spec c a); [reflexivity|]. rewrite sub_cons, (proj2 (Z.eqb_neq c m) Nc). reflexivity.
Qed.
Lemma del_sub_y m b r h : (forall c, In c r -> c = m \/ c <> b) -> del b (sub m r h) = sub m r (del b h).
Proof.
  induction r as [|c r IH]; intros Hr; [reflexivity|]. rewrite !sub_cons, del_app, IH by (intros; apply Hr; now right). destruct (Z.eqb_spec c m) as [->|Nc]; [reflexivity|].
  rewrite del_cons. destruct (Z.eqb_spec c b) as [->|]; [|reflexivity]. destruct (Hr b (or_introl eq_refl)); congruence.
Qed.
Lemma EE_natural {X Y W W'} (f : X -> Y -> W) (k : W -> W') A : forall B g, EE f (fun w => g (map k w)) A B = EE (fun x y => k (f x y)) g A B.
Proof.
  induction A as [|a A IHA]; intros B; [reflexivity|]. induction B as [|b B IHB]; intros g; [reflexivity|]. rewrite !EE_cons. cbn [map]. rewrite (IHA (b :: B) (fun w => g (k (f a b) :: w))), (IHB (fun w => g (k (f a b) :: w))). reflexivity.
Qed.
Lemma EE_hom {X Y W} (f : X -> Y -> W) (k : W -> W) (p : X -> X) (q : Y -> Y) A B g :
  (forall a b, In a A -> In b B -> k (f a b) = f (p a) (q b)) -> EE f (fun w => g (map k w)) A B = EE f g (map p A) (map q B).
Proof. intros E. rewrite EE_natural, EE_map. now apply EE_fun. Qed.

Section Morph.
Variable m : Z.
Definition GG (g : list Z -> Z) (F H : list (list Z)) : Z := EE (sub m) (TT g) F H.
Definition PP (g : list Z -> Z) (F H : list (list Z)) : Z := TT (fun u => TT (fun y => Cc m g u y) H) F.
Record st (SU SY : Z -> Prop) (F H : list (list Z)) : Prop := {
  st_u : rws SU F; st_y : rws SY H; st_m : SU m; st_my : ~ SY m; st_dj : forall c, SU c -> c <> m -> ~ SY c }.
(** ending the first row or going on *)
Lemma GG_step g b r F f0 ru h0 ry F' H' : sub m f0 h0 = b :: r -> F = f0 :: ru ->
  TT (fun w => g (b :: w)) [] = 0 ->
  (forall x y, In x F -> In y (h0 :: ry) -> del b (sub m x y) = sub m (F' x) (H' y)) -> sub m (F' f0) (H' h0) = r -> (H' h0 :: map H' ry = map H' (h0 :: ry)) ->
  GG g F (h0 :: ry) = GG (fun w => g (b :: w)) ru (h0 :: ry) + sgn (zlen ru) * GG (fun w => g (b :: w)) F ry + GG (fun w => g (b :: w)) (map F' F) (map H' (h0 :: ry)).
Proof.
  intros E0 EF T0 Hd Er _. subst F. unfold GG. rewrite EE_cons, E0, TT_step, T0.
  rewrite (EE_ext (sub m) (fun w => TT g ((b :: r) :: w)) (fun w => TT (fun w => g (b :: w)) w + TT (fun w => g (b :: w)) (r :: map (del b) w)) ru (h0 :: ry)) by (intros; apply TT_step).
  rewrite (EE_ext (sub m) (fun w => TT g ((b :: r) :: w)) (fun w => TT (fun w => g (b :: w)) w + TT (fun w => g (b :: w)) (r :: map (del b) w)) (f0 :: ru) ry) by (intros; apply TT_step).
  rewrite !EE_add. cbn [map]. rewrite (EE_cons (sub m) (TT (fun w => g (b :: w))) (F' f0)), Er.
  rewrite (EE_hom (sub m) (del b) F' H' ru (h0 :: ry) (fun w => TT (fun w => g (b :: w)) (r :: w))) by (intros x y Hx Hy; apply Hd; [now right|exact Hy]).
  rewrite (EE_hom (sub m) (del b) F' H' (f0 :: ru) ry (fun w => TT (fun w => g (b :: w)) (r :: w))) by (intros x y Hx Hy; apply Hd; [exact Hx|now right]).
  cbn [map]. replace (zlen (map F' ru)) with (zlen ru) by (unfold zlen; now rewrite map_length).
  replace (one (map F' ru) (map H' ry)) with (one ru ry) by (now destruct ru, ry). ring.
Qed.
Lemma GG_kill_head g a f ru H : a <> m -> (forall w, g (a :: w) = 0) -> GG g ((a :: f) :: ru) H = 0.
Proof.
  intros N Hg. unfold GG. destruct H as [|h ry]; [apply EE_nil_r|]. apply ev_zero. intros w s Hin. apply grid_in in Hin. destruct Hin as (_ & _ & a' & A' & b' & B' & w' & [= <- <-] & [= <- <-] & ->).
  rewrite sub_cons, (proj2 (Z.eqb_neq a m) N). cbn [app]. apply TT_zero. intros w Hw. 
  assert (E : exists w0, w = a :: w0). { destruct w' as [|r w']; [rewrite TL_one in Hw; destruct Hw as [<-|[]]; eauto|]. rewrite TL_cons, in_app_iff, !in_map_iff in Hw. destruct Hw as [(w0 & <- & _)|(w0 & <- & _)]; eauto. }
  destruct E as (w0 & ->). apply Hg.
Qed.
Lemma GG_u g a f ru H SU SY : killadj g -> a <> m -> st SU SY ((a :: f) :: ru) H -> H <> [] ->
  GG g ((a :: f) :: ru) H = GG (fun w => g (a :: w)) ru H + GG (fun w => g (a :: w)) (f :: map (del a) ru) H.
Proof.
  intros Hg N [RU RY Sm NSm Dj] NH. destruct H as [|h ry]; [congruence|].
  destruct (RU (a :: f) (or_introl eq_refl)) as [ND HS]. inversion_clear ND as [|? ? Na NDf]. assert (Sa : SU a) by (apply HS; now left).
  assert (Ny : forall y, In y (h :: ry) -> ~ In a y) by (intros y Hy H; apply (RY y Hy) in H; now apply (Dj a)).
  rewrite (GG_step g a (sub m f h) ((a :: f) :: ru) (a :: f) ru h ry (del a) (fun y => y)); try reflexivity.
  - rewrite (GG_kill_head _ a f ru ry N) by (intros w; now apply kill_head). rewrite map_id. cbn [map]. rewrite del_cons, Z.eqb_refl, del_notin by exact Na. ring.
  - rewrite sub_cons, (proj2 (Z.eqb_neq a m) N). reflexivity.
  - intros x y Hx Hy. apply del_sub_u; auto.
  - rewrite del_cons, Z.eqb_refl, del_notin by exact Na. reflexivity.
Qed.
Lemma GG_y g b f ru h ry SU SY : st SU SY ((m :: f) :: ru) ((b :: h) :: ry) ->
  GG g ((m :: f) :: ru) ((b :: h) :: ry) = GG (fun w => g (b :: w)) ru ((b :: h) :: ry) + sgn (zlen ru) * GG (fun w => g (b :: w)) ((m :: f) :: ru) ry
    + GG (fun w => g (b :: w)) ((m :: f) :: ru) (h :: map (del b) ry).
Proof.
  intros [RU RY Sm NSm Dj]. destruct (RY (b :: h) (or_introl eq_refl)) as [ND HS]. inversion_clear ND as [|? ? Nb NDh]. assert (Sb : SY b) by (apply HS; now left).
  destruct (RU (m :: f) (or_introl eq_refl)) as [NDm _]. inversion_clear NDm as [|? ? Nm NDf].
  rewrite (GG_step g b (h ++ f) ((m :: f) :: ru) (m :: f) ru (b :: h) ry (fun x => x) (del b)); try reflexivity.
  - rewrite map_id. cbn [map]. rewrite del_cons, Z.eqb_refl, del_notin by exact Nb. reflexivity.
  - rewrite sub_cons, Z.eqb_refl, sub_notin by exact Nm. reflexivity.
  - intros x y Hx Hy. apply del_sub_y. intros c Hc. apply (RU x Hx) in Hc. destruct (Z.eq_dec c m) as [->|Nc]; [now left|]. right. intros ->. now apply (Dj b).
  - rewrite del_cons, Z.eqb_refl, del_notin by exact Nb. rewrite sub_cons, Z.eqb_refl, sub_notin by exact Nm. reflexivity.
Qed.
Lemma rep_row_repeats rows : repeats rows -> rep_row rows.
Proof.
  intros (l1 & p & l2 & ->). induction l1 as [|r l1 IH]; [now left|]. cbn [app]. destruct (l1 ++ p :: p :: l2) as [|r' l] eqn:E; [now destruct l1|]. right. exact IH.
Qed.
Lemma GG_done g F : F <> [] -> GG g F [[]] = TT g (map (del m) F).
Proof. intros N. unfold GG. rewrite EE_single_r. destruct F; [congruence|]. f_equal. apply map_ext. intros. apply sub_nil. Qed.
Lemma GG_lost g F h ry SU SY : killadj g -> st SU SY F ([] :: h :: ry) -> GG g F ([] :: h :: ry) = 0.
Proof.
  intros Hg [RU RY Sm NSm Dj]. destruct (rws_empty _ _ _ RY) as [-> HE]. unfold GG. apply ev_zero. intros w s Hin.
  apply (TT_rep (sdel m SU)); [|apply rep_row_repeats; eapply grid_repeats_r; [|exact Hin]; now exists [], [], ry|exact Hg].
  intros r Hr. apply grid_in in Hin. destruct Hin as (_ & Hin & _). destruct (Hin r Hr) as (a & b & Ha & Hb & ->).
  assert (b = []) as -> by (destruct Hb as [<-|[<-|Hb]]; auto). rewrite sub_nil. apply (rws_del m SU F RU). now apply in_map.
Qed.
(** the same recursion on the other side *)
Lemma PP_u g a f ru H : a <> m -> PP g ((a :: f) :: ru) H = PP (fun w => g (a :: w)) ru H + PP (fun w => g (a :: w)) (f :: map (del a) ru) H.
Proof.
  intros N. unfold PP. rewrite TT_step. f_equal; apply TT_ext_all; intros u; apply TT_ext_all; intros y; now apply Cc_other.
Qed.
Lemma PP_y g b f ru h ry SU SY : st SU SY ((m :: f) :: ru) ((b :: h) :: ry) ->
  PP g ((m :: f) :: ru) ((b :: h) :: ry) = PP (fun w => g (b :: w)) ru ((b :: h) :: ry) + sgn (zlen ru) * PP (fun w => g (b :: w)) ((m :: f) :: ru) ry
    + PP (fun w => g (b :: w)) ((m :: f) :: ru) (h :: map (del b) ry).
Proof.
  intros [RU RY Sm NSm Dj]. destruct (RY (b :: h) (or_introl eq_refl)) as [_ HS]. assert (Sb : SY b) by (apply HS; now left).
  set (gb := fun w => g (b :: w)).
  assert (INN : forall u, In (m :: u) (TL ((m :: f) :: ru)) -> TT (fun y => Cc m g (m :: u) y) ((b :: h) :: ry) =
     (if mem m u then TT (fun y => Cc m gb u y) ((b :: h) :: ry) else 0) + sgn (zlen ru) * TT (fun y => Cc m gb (m :: u) y) ry + TT (fun y => Cc m gb (m :: u) y) (h :: map (del b) ry)).
  { intros u Hu. pose proof (TL_nc SU _ RU _ Hu) as En. rewrite zlen_cons, Z.add_simpl_r in En. rewrite !TT_step.
    rewrite (TT_ext (fun w => Cc m g (m :: u) (b :: w)) (fun w => (if mem m u then Cc m gb u (b :: w) else 0) + sgn (zlen ru) * Cc m gb (m :: u) w) ry).
    2:{ intros w Hw. rewrite Cc_m_cons. rewrite (proj2 (mem_in b w)); [now rewrite En|]. now apply (TL_in SY ry (rws_tl _ _ _ RY) _ Hw). }
    rewrite (TT_ext (fun w => Cc m g (m :: u) (b :: w)) (fun w => (if mem m u then Cc m gb u (b :: w) else 0) + Cc m gb (m :: u) w) (h :: map (del b) ry)).
    2:{ intros w Hw. rewrite Cc_m_cons. assert (E : mem b w = false). { apply mem_notin. intros H. apply (TL_in _ _ (rws_next _ _ _ _ RY) _ Hw) in H. destruct H as [_ H]. congruence. } rewrite E. unfold gb. ring. }
    rewrite !TT_add, TT_scal. destruct (mem m u); cbv iota; change (fun y : list Z => Cc m gb (m :: u) y) with (Cc m gb (m :: u)); [ring|]. rewrite !TT_0. ring. }
  unfold PP. fold gb.
  rewrite (TT_ext _ (fun u => (match u with [] => 0 | _ :: u' => if mem m u' then TT (fun y => Cc m gb u' y) ((b :: h) :: ry) else 0 end) + sgn (zlen ru) * TT (fun y => Cc m gb u y) ry + TT (fun y => Cc m gb u y) (h :: map (del b) ry))).
  2:{ intros u Hu. destruct (TL_head _ _ _ _ RU _ Hu) as (u' & ->). now apply INN. }
  rewrite !TT_add, TT_scal. f_equal. f_equal. rewrite TT_step.
  rewrite (TT_ext _ (fun u => TT (fun y => Cc m gb u y) ((b :: h) :: ry)) ru).
  2:{ intros u Hu. cbn beta. rewrite (proj2 (mem_in m u)); [reflexivity|]. now apply (TL_in SU ru (rws_tl _ _ _ RU) _ Hu). }
  rewrite (TT_zero _ (f :: _)); [apply Z.add_0_r|]. intros u Hu. cbn beta. assert (E : mem m u = false). { apply mem_notin. intros H. apply (TL_in _ _ (rws_next _ _ _ _ RU) _ Hu) in H. destruct H as [_ H]. congruence. } now rewrite E.
Qed.
Lemma PP_done g F SU : rws SU F -> SU m -> PP g F [[]] = TT g (map (del m) F).
Proof.
  intros RU Sm. unfold PP. rewrite <- (TT_U SU m F RU Sm). apply TT_ext. intros u Hu. rewrite TT_one. apply Cc_empty. apply mem_in. now apply (TL_in SU F RU u Hu).
Qed.
Lemma PP_lost g F h ry : PP g F ([] :: h :: ry) = 0.
Proof. unfold PP. apply TT_zero. intros u _. apply TT_empty. Qed.

Definition size (F : list (list Z)) : nat := list_sum (map (@length Z) F).
Lemma del_le b l : (length (del b l) <= length l)%nat. Proof. induction l as [|c l IH]; [auto|]. rewrite del_cons. destruct (c =? b); cbn [length]; lia. Qed.
Lemma size_del b F : (size (map (del b) F) <= size F)%nat.
Proof. unfold size. induction F as [|f F IH]; [auto|]. cbn [map list_sum fold_right]. pose proof (del_le b f). unfold list_sum in *. lia. Qed.
Lemma size_cons f F : size (f :: F) = (length f + size F)%nat. Proof. reflexivity. Qed.
Theorem GG_PP n : forall SU SY F H g, (size F + size H <= n)%nat -> st SU SY F H -> killadj g -> GG g F H = PP g F H.
Proof.
  induction n as [|n IH]; intros SU SY F H g Hn ST Hg.
  - destruct F as [|f ru]; [reflexivity|]. destruct ST as [RU _ Sm _ _]. destruct (RU f (or_introl eq_refl)) as [_ HS]. apply HS in Sm. rewrite size_cons in Hn. destruct f; [destruct Sm|cbn in Hn; lia].
  - destruct F as [|f ru]; [reflexivity|]. destruct H as [|h ry]; [unfold GG; rewrite EE_nil_r; symmetry; apply TT_zero; reflexivity|].
    destruct h as [|b h].
    + destruct ry as [|h1 ry]; [|rewrite PP_lost; eapply GG_lost; eauto]. rewrite GG_done by discriminate. destruct ST as [RU _ Sm _ _]. symmetry. eapply PP_done; eauto.
    + destruct ST as [RU RY Sm NSm Dj] eqn:EST. clear EST. pose proof ST as ST0. rewrite !size_cons in Hn. destruct (RU f (or_introl eq_refl)) as [ND HS]. destruct f as [|a f]; [apply HS in Sm; destruct Sm|].
      cbn [length] in Hn. destruct (Z.eq_dec a m) as [->|N].
      * rewrite (GG_y g b f ru h ry SU SY ST0), (PP_y g b f ru h ry SU SY ST0). pose proof (killadj_cons g b Hg) as Hg'. f_equal; [f_equal; [|f_equal]|].
        -- apply (IH SU SY); auto; [rewrite !size_cons; cbn [length]; lia|]. split; auto. eapply rws_tl; eauto.
        -- apply (IH SU SY); auto; [rewrite !size_cons; cbn [length]; lia|]. split; auto. eapply rws_tl; eauto.
        -- apply (IH SU (sdel b SY)); auto; [pose proof (size_del b ry); rewrite !size_cons; cbn [length]; lia|]. split; auto; [now apply rws_next|intros [H _]; auto|]. intros c Hc Nc [H _]. now apply (Dj c).
      * rewrite (GG_u g a f ru _ SU SY) by (auto; discriminate). rewrite PP_u by exact N. pose proof (killadj_cons g a Hg) as Hg'. f_equal.
        -- apply (IH SU SY); auto; [rewrite !size_cons; cbn [length]; lia|]. split; auto. eapply rws_tl; eauto.
        -- apply (IH (sdel a SU) SY); auto; [pose proof (size_del a ru); rewrite !size_cons; cbn [length]; lia|]. split; auto; [now apply rws_next|split; auto|]. intros c [Hc _] Nc. now apply Dj.
Qed.
End Morph.
