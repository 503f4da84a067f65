(** * Surjections: composition, letter by letter.  Proof library. *)
From Coq Require Import Setoid Morphisms.
From Verif Require Import PyBase Dict FreeModule Symmetric Simplicial Utils Surjection Eqm Spec SpecOperad SpecSurj FreeModuleFacts FreeModuleLaws ListFacts
  ClassFacts LinearFacts SymmetricFacts CycleFacts SymmetricLaws RingFacts TensorAct LoopFacts SurjFacts SurjBoundary.

(** number of caesuras *)
Definition nc (u : list Z) : Z := caesuras_in u [].
Lemma nc_cons a u : nc (a :: u) = (if mem a u then 1 else 0) + nc u.
Proof. unfold nc. cbn [caesuras_in]. now rewrite app_nil_r. Qed.
Lemma nc_nil : nc [] = 0. Proof. reflexivity. Qed.

Section Compose0.
Variable m : Z.   (* the letter to be replaced *)

Fixpoint Cc (g : list Z -> Z) (u y : list Z) {struct u} : Z :=
  match u with
  | [] => g []
  | a :: u' =>
      if a =? m then
        (fix J (g : list Z -> Z) (y : list Z) {struct y} : Z :=
           match y with
           | [] => if mem m u' then 0 else g u'
           | b :: y' => (if mem m u' then Cc (fun v => g (b :: v)) u' (b :: y') else 0)
                        + (if mem b y' then sgn (nc u) else 1) * J (fun v => g (b :: v)) y'
           end) g y
      else Cc (fun v => g (a :: v)) u' y
  end.
Fixpoint Cl (u y : list Z) {struct u} : list (list Z * Z) :=
  match u with
  | [] => [([], 1)]
  | a :: u' =>
      if a =? m then
        (fix J (y : list Z) {struct y} : list (list Z * Z) :=
           match y with
           | [] => if mem m u' then [] else [(u', 1)]
           | b :: y' => (if mem m u' then map (fun p => (b :: fst p, snd p)) (Cl u' (b :: y')) else [])
                        ++ map (fun p => (b :: fst p, (if mem b y' then sgn (nc u) else 1) * snd p)) (J y')
           end) y
      else map (fun p => (a :: fst p, snd p)) (Cl u' y)
  end.
Lemma Cc_nil g y : Cc g [] y = g []. Proof. reflexivity. Qed.
Lemma Cc_other g a u y : a <> m -> Cc g (a :: u) y = Cc (fun v => g (a :: v)) u y.
Proof. intros N. cbn [Cc]. now rewrite (proj2 (Z.eqb_neq _ _) N). Qed.
Lemma Cc_m_nil g u : Cc g (m :: u) [] = if mem m u then 0 else g u.
Proof. cbn [Cc]. now rewrite Z.eqb_refl. Qed.
Lemma Cc_m_cons g u b y : Cc g (m :: u) (b :: y) =
  (if mem m u then Cc (fun v => g (b :: v)) u (b :: y) else 0) + (if mem b y then sgn (nc (m :: u)) else 1) * Cc (fun v => g (b :: v)) (m :: u) y.
Proof. cbn [Cc]. now rewrite Z.eqb_refl. Qed.
Lemma Cl_other a u y : a <> m -> Cl (a :: u) y = map (fun p => (a :: fst p, snd p)) (Cl u y).
Proof. intros N. cbn [Cl]. now rewrite (proj2 (Z.eqb_neq _ _) N). Qed.
Lemma Cl_m_nil u : Cl (m :: u) [] = if mem m u then [] else [(u, 1)].
Proof. cbn [Cl]. now rewrite Z.eqb_refl. Qed.
Lemma Cl_m_cons u b y : Cl (m :: u) (b :: y) =
  (if mem m u then map (fun p => (b :: fst p, snd p)) (Cl u (b :: y)) else [])
  ++ map (fun p => (b :: fst p, (if mem b y then sgn (nc (m :: u)) else 1) * snd p)) (Cl (m :: u) y).
Proof. cbn [Cl]. now rewrite Z.eqb_refl. Qed.
Opaque Cc Cl.

Lemma ev_mapcons g b n (l : list (list Z * Z)) : ev g (map (fun p => (b :: fst p, n * snd p)) l) = n * ev (fun v => g (b :: v)) l.
Proof. unfold ev. rewrite sumf_map, <- sumf_scal. apply sumf_ext. intros [w s] _. cbn [fst snd]. ring. Qed.
Lemma ev_mapcons1 g b (l : list (list Z * Z)) : ev g (map (fun p => (b :: fst p, snd p)) l) = ev (fun v => g (b :: v)) l.
Proof. unfold ev. now rewrite sumf_map. Qed.
Lemma Cc_ev u : forall y g, Cc g u y = ev g (Cl u y).
Proof.
  induction u as [|a u IH]; intros y g; [rewrite Cc_nil; cbn [Cl]; rewrite ev_cons, ev_nil; ring|].
  destruct (Z.eq_dec a m) as [->|N].
  - revert g. induction y as [|b y IHy]; intros g.
    + rewrite Cc_m_nil, Cl_m_nil. destruct (mem m u); rewrite ?ev_cons, ev_nil; ring.
    + rewrite Cc_m_cons, Cl_m_cons, ev_app, ev_mapcons, <- IHy. f_equal. destruct (mem m u); [|now rewrite ev_nil]. now rewrite ev_mapcons1, IH.
  - now rewrite Cc_other, Cl_other, ev_mapcons1, IH.
Qed.
Lemma Cc_ext u y g h : (forall w s, In (w, s) (Cl u y) -> g w = h w) -> Cc g u y = Cc h u y.
Proof. intros E. rewrite !Cc_ev. apply ev_ext. exact E. Qed.
Lemma Cc_ext_all u y g h : (forall w, g w = h w) -> Cc g u y = Cc h u y.
Proof. intros E. apply Cc_ext. auto. Qed.
Lemma Cc_add u y g h : Cc (fun w => g w + h w) u y = Cc g u y + Cc h u y. Proof. rewrite !Cc_ev. apply ev_add. Qed.
Lemma Cc_sub u y g h : Cc (fun w => g w - h w) u y = Cc g u y - Cc h u y. Proof. rewrite !Cc_ev. apply ev_sub. Qed.
Lemma Cc_scal u y n g : Cc (fun w => n * g w) u y = n * Cc g u y. Proof. rewrite !Cc_ev. apply ev_scal. Qed.
Lemma Cc_0 u y : Cc (fun _ => 0) u y = 0. Proof. rewrite Cc_ev. now apply ev_zero. Qed.

(** disjoint alphabets *)
Definition dj (u y : list Z) : Prop := (forall c, In c u -> c <> m -> ~ In c y) /\ ~ In m y.
Lemma dj_tl a u y : dj (a :: u) y -> dj u y.
Proof. intros [H1 H2]. split; [|exact H2]. intros c Hc. apply H1. now right. Qed.
Lemma dj_tly u b y : dj u (b :: y) -> dj u y.
Proof. intros [H1 H2]. split; [intros c Hc Hm Hy; apply (H1 c Hc Hm)|intros Hy; apply H2]; now right. Qed.
Lemma dj_supp u u' y y' : (forall c, In c u' -> In c u) -> (forall c, In c y' -> In c y) -> dj u y -> dj u' y'.
Proof. intros S1 S2 [H1 H2]. split; auto. intros c Hc Hm Hy. apply (H1 c); auto. Qed.

Lemma in_cons {B} (c b : B) l : In c (b :: l) <-> c = b \/ In c l.
Proof. cbn. intuition congruence. Qed.
Lemma Cl_in u : forall y w s, dj u y -> In (w, s) (Cl u y) ->
  (forall c, In c w <-> (In c u /\ c <> m) \/ (In m u /\ In c y)).
Proof.
  induction u as [|a u IH]; intros y w s D Hin.
  - destruct Hin as [[= <- <-]|[]]. cbn. tauto.
  - destruct (Z.eq_dec a m) as [->|N].
    + revert w s Hin. induction y as [|b y IHy]; intros w s Hin.
      * rewrite Cl_m_nil in Hin. destruct (mem m u) eqn:Em; [destruct Hin|]. destruct Hin as [[= <- <-]|[]]. apply mem_notin in Em. intros c. rewrite !in_cons. split; [|intros [?|[_ []]]; intuition congruence]. intros Hc. left. split; [now right|intros ->; tauto].
      * rewrite Cl_m_cons in Hin. apply in_app_iff in Hin. destruct Hin as [Hin|Hin].
        -- destruct (mem m u) eqn:Em; [|destruct Hin]. apply mem_in in Em. apply in_map_iff in Hin. destruct Hin as ([w' s'] & E & Hin). cbn in E. injection E as <- <-.
           specialize (IH _ _ _ (dj_tl _ _ _ D) Hin). intros c. rewrite in_cons, IH, !in_cons. intuition congruence.
        -- apply in_map_iff in Hin. destruct Hin as ([w' s'] & E & Hin). cbn in E. injection E as <- <-.
           specialize (IHy (dj_tly _ _ _ D) _ _ Hin). intros c. rewrite in_cons, IHy, !in_cons. intuition congruence.
    + rewrite Cl_other in Hin by exact N. apply in_map_iff in Hin. destruct Hin as ([w' s'] & E & Hin). cbn in E. injection E as <- <-.
      specialize (IH _ _ _ (dj_tl _ _ _ D) Hin). intros c. rewrite !in_cons, IH. intuition congruence.
Qed.
Lemma mem_iff a l b : (In a l <-> b = true) -> mem a l = b.
Proof. intros E. apply eq_true_iff_eq. now rewrite mem_in. Qed.
(** letters of the outer word, of the inner word *)
Lemma Cl_mem_u u y w s a : dj (a :: u) y -> a <> m -> In (w, s) (Cl u y) -> mem a w = mem a u.
Proof.
  intros D N Hin. apply mem_iff. rewrite (Cl_in _ _ _ _ (dj_tl _ _ _ D) Hin), mem_in. pose proof (proj1 D a (or_introl eq_refl) N). tauto.
Qed.
Lemma Cl_mem_y u y w s b : dj u (b :: y) -> mem m u = true -> In (w, s) (Cl u y) -> mem b w = mem b y.
Proof.
  intros D Hm Hin. apply mem_in in Hm. apply mem_iff. rewrite (Cl_in _ _ _ _ (dj_tly _ _ _ D) Hin), mem_in.
  split; [|tauto]. intros [[H1 H2]|]; [|tauto]. exfalso. apply (proj1 D b H1 H2). now left.
Qed.
Lemma Cl_mem_head u y w s b : dj u (b :: y) -> mem m u = true -> In (w, s) (Cl u (b :: y)) -> mem b w = true.
Proof. intros D Hm Hin. apply mem_in in Hm. apply mem_in. apply (Cl_in _ _ _ _ D Hin). right. cbn. auto. Qed.
Lemma mem_self a (u : list Z) : mem a (a :: u) = true. Proof. cbn. now rewrite Z.eqb_refl. Qed.
Lemma mem_other a b (u : list Z) : a <> b -> mem a (b :: u) = mem a u.
Proof. intros N. cbn [mem existsb]. now rewrite (proj2 (Z.eqb_neq _ _) N). Qed.
Lemma Cl_nc u : forall y w s, dj u y -> In (w, s) (Cl u y) -> nc w = nc u + (if mem m u then nc y else 0).
Proof.
  induction u as [|a u IH]; intros y w s D Hin.
  - destruct Hin as [[= <- <-]|[]]. reflexivity.
  - destruct (Z.eq_dec a m) as [->|N].
    + rewrite mem_self. revert w s Hin. induction y as [|b y IHy]; intros w s Hin.
      * rewrite Cl_m_nil in Hin. destruct (mem m u) eqn:Em; [destruct Hin|]. destruct Hin as [[= <- <-]|[]]. rewrite nc_cons, Em, nc_nil. lia.
      * rewrite Cl_m_cons in Hin. apply in_app_iff in Hin. destruct Hin as [Hin|Hin].
        -- destruct (mem m u) eqn:Em; [|destruct Hin]. apply in_map_iff in Hin. destruct Hin as ([w' s'] & E & Hin). cbn in E. injection E as <- <-.
           rewrite !nc_cons, (Cl_mem_head u y w' s') by (auto; eapply dj_tl; eauto). rewrite (IH _ _ _ (dj_tl _ _ _ D) Hin), Em, nc_cons. lia.
        -- apply in_map_iff in Hin. destruct Hin as ([w' s'] & E & Hin). cbn in E. injection E as <- <-.
           rewrite (nc_cons b w'), (nc_cons b y), (Cl_mem_y (m :: u) y w' s' b) by (auto; apply mem_self). rewrite (IHy (dj_tly _ _ _ D) _ _ Hin). lia.
    + rewrite Cl_other in Hin by exact N. apply in_map_iff in Hin. destruct Hin as ([w' s'] & E & Hin). cbn in E. injection E as <- <-.
      rewrite !nc_cons, (Cl_mem_u u y w' s' a) by auto. rewrite (IH _ _ _ (dj_tl _ _ _ D) Hin), (mem_other m a) by congruence. lia.
Qed.

(** without the letter *)
Lemma Cc_notin u : forall g y, mem m u = false -> Cc g u y = g u.
Proof.
  induction u as [|a u IH]; intros g y E; [reflexivity|]. cbn [mem existsb] in E. apply orb_false_iff in E. destruct E as [E1 E2]. apply Z.eqb_neq in E1.
  rewrite Cc_other by congruence. now apply IH.
Qed.
(** the last occurrence of the letter *)
Lemma Cc_last u : mem m u = false -> forall y g, Cc g (m :: u) y = sgn (nc y * nc u) * g (y ++ u).
Proof.
  intros E y. induction y as [|b y IH]; intros g.
  - rewrite Cc_m_nil, E. cbn [app]. rewrite nc_nil, Z.mul_0_l, sgn_0. ring.
  - rewrite Cc_m_cons, E, IH, Z.add_0_l, !nc_cons, E. cbn [app]. destruct (mem b y).
    + replace ((1 + nc y) * nc u) with (nc u + nc y * nc u) by ring. rewrite Z.add_0_l, sgn_add. ring.
    + rewrite Z.add_0_l. ring.
Qed.
(** the empty inner word *)
Lemma Cc_empty u : mem m u = true -> forall g, Cc g u [] = U m g u.
Proof.
  induction u as [|a u IH]; intros E g; [discriminate|]. rewrite U_cons. destruct (Z.eqb_spec a m) as [->|N].
  - now rewrite Cc_m_nil.
  - rewrite Cc_other by exact N. rewrite mem_other in E by congruence. now apply IH.
Qed.
End Compose0.
Section Compose.
Variable m : Z.
Local Notation dj := (dj m).
Opaque Cc Cl.

(** deleting the only occurrence of a letter *)
Lemma uniq_nc a u : forall v, uniq a u = Some v -> nc v = nc u.
Proof.
  induction u as [|b u IH]; intros v E; [discriminate|]. cbn [uniq] in E. rewrite nc_cons. destruct (Z.eqb_spec b a) as [->|N].
  - destruct (mem a u) eqn:Em; [discriminate|]. injection E as <-. lia.
  - destruct (uniq a u) as [u'|] eqn:Eu; [|discriminate]. injection E as <-. rewrite nc_cons, (IH _ eq_refl). now rewrite (uniq_mem a u u' b Eu N).
Qed.
Lemma U_app a h y u : mem a u = false -> U a h (y ++ u) = U a (fun y' => h (y' ++ u)) y.
Proof.
  intros E. revert h. induction y as [|b y IH]; intros h; cbn [app]; [now rewrite U_notin|]. rewrite !U_cons. destruct (b =? a).
  - rewrite mem_app, E, orb_false_r. reflexivity.
  - apply IH.
Qed.
Lemma U_app_r a h y u : mem a y = false -> U a h (y ++ u) = U a (fun u' => h (y ++ u')) u.
Proof.
  revert h. induction y as [|b y IH]; intros h E; cbn [app]; [reflexivity|]. cbn [mem existsb] in E. apply orb_false_iff in E. destruct E as [E1 E2].
  rewrite U_cons. rewrite Z.eqb_sym in E1. rewrite E1. now apply IH.
Qed.
Lemma Cc_U_y a u : a <> m -> mem a u = false -> mem m u = true -> forall y h, dj u y -> Cc m (U a h) u y = U a (fun z => Cc m h u z) y.
Proof.
  intros Na. induction u as [|c u IH]; intros Ea Em y h D; [discriminate|].
  cbn [mem existsb] in Ea. apply orb_false_iff in Ea. destruct Ea as [Ea1 Ea2]. apply Z.eqb_neq in Ea1. fold (mem a u) in Ea2.
  destruct (Z.eq_dec c m) as [->|N].
  - destruct (mem m u) eqn:Emu.
    + specialize (IH Ea2 eq_refl). revert h. induction y as [|b y IHy]; intros h.
      * rewrite Cc_m_nil, Emu. unfold U. reflexivity.
      * rewrite Cc_m_cons, Emu, U_cons. destruct (Z.eqb_spec b a) as [->|Nb].
        -- rewrite (Cc_ext m u (a :: y) _ (fun _ => 0)), Cc_0.
           2:{ intros w s Hin. rewrite U_cons, Z.eqb_refl. now rewrite (Cl_mem_head m u y w s a (dj_tl _ _ _ _ D) Emu Hin). }
           rewrite (Cc_ext m (m :: u) y _ (fun w => if mem a y then 0 else h w)).
           2:{ intros w s Hin. rewrite U_cons, Z.eqb_refl. now rewrite (Cl_mem_y m (m :: u) y w s a D (mem_self _ _) Hin). }
           destruct (mem a y); [rewrite Cc_0; ring|rewrite Z.add_0_l, Z.mul_1_l; reflexivity].
        -- rewrite (Cc_ext_all m u (b :: y) _ (U a (fun v => h (b :: v)))) by (intros w; rewrite U_cons; now rewrite (proj2 (Z.eqb_neq _ _) Nb)).
           rewrite (Cc_ext_all m (m :: u) y _ (U a (fun v => h (b :: v)))) by (intros w; rewrite U_cons; now rewrite (proj2 (Z.eqb_neq _ _) Nb)).
           rewrite (IHy (dj_tly _ _ _ _ D)). rewrite IH by (eapply dj_tl; eauto). rewrite U_cons, (proj2 (Z.eqb_neq _ _) Nb), <- U_scal, <- U_add.
           apply U_ext. intros v Ev. rewrite Cc_m_cons, Emu. now rewrite (uniq_mem a y v b Ev Nb).
    + rewrite (Cc_last m u Emu), (U_app a h y u Ea2). rewrite <- U_scal. apply U_ext. intros v Ev. now rewrite (Cc_last m u Emu), (uniq_nc _ _ _ Ev).
  - rewrite mem_other in Em by congruence. rewrite Cc_other by exact N.
    rewrite (Cc_ext_all m u y _ (U a (fun v => h (c :: v)))) by (intros w; rewrite U_cons; now rewrite (proj2 (Z.eqb_neq c a) ltac:(congruence))).
    rewrite IH by (auto; eapply dj_tl; eauto). apply U_ext. intros v _. now rewrite Cc_other.
Qed.
Lemma Cc_U_u a : a <> m -> forall u y h, mem a y = false -> dj u y -> Cc m (U a h) u y = U a (fun v => Cc m h v y) u.
Proof.
  intros Na. induction u as [|c u IH]; intros y h Ea D; [reflexivity|]. rewrite U_cons. destruct (Z.eq_dec c m) as [->|N].
  - rewrite (proj2 (Z.eqb_neq m a) ltac:(congruence)). revert h. induction y as [|b y IHy]; intros h.
    + rewrite Cc_m_nil. destruct (mem m u) eqn:Em.
      * rewrite (U_ext _ _ (fun _ => 0)), U_0; [reflexivity|]. intros v Ev. rewrite Cc_m_nil, (uniq_mem a u v m Ev), Em; congruence.
      * apply U_ext. intros v Ev. rewrite Cc_m_nil, (uniq_mem a u v m Ev), Em; congruence.
    + cbn [mem existsb] in Ea. apply orb_false_iff in Ea. destruct Ea as [Ea1 Ea2]. apply Z.eqb_neq in Ea1. fold (mem a y) in Ea2.
      rewrite Cc_m_cons.
      rewrite (Cc_ext_all m u (b :: y) _ (U a (fun v => h (b :: v)))) by (intros w; rewrite U_cons; now rewrite (proj2 (Z.eqb_neq b a) ltac:(congruence))).
      rewrite (Cc_ext_all m (m :: u) y _ (U a (fun v => h (b :: v)))) by (intros w; rewrite U_cons; now rewrite (proj2 (Z.eqb_neq b a) ltac:(congruence))).
      rewrite (IHy Ea2 (dj_tly _ _ _ _ D)). rewrite IH.
      2:{ cbn [mem existsb]. rewrite (proj2 (Z.eqb_neq a b) ltac:(congruence)). exact Ea2. }
      2:{ eapply dj_tl; eauto. }
      rewrite <- U_scal. destruct (mem m u) eqn:Em.
      * rewrite <- U_add. apply U_ext. intros v Ev. rewrite Cc_m_cons, (uniq_mem a u v m Ev), Em by congruence. rewrite !nc_cons, (uniq_mem a u v m Ev), (uniq_nc _ _ _ Ev) by congruence. reflexivity.
      * rewrite Z.add_0_l. apply U_ext. intros v Ev. rewrite Cc_m_cons, (uniq_mem a u v m Ev), Em by congruence. rewrite !nc_cons, (uniq_mem a u v m Ev), (uniq_nc _ _ _ Ev) by congruence. ring.
  - rewrite Cc_other by exact N. destruct (Z.eqb_spec c a) as [->|Nc].
    + rewrite (Cc_ext m u y _ (fun w => if mem a u then 0 else h w)).
      * destruct (mem a u); [apply Cc_0|reflexivity].
      * intros w s Hin. rewrite U_cons, Z.eqb_refl. now rewrite (Cl_mem_u m u y w s a D Na Hin).
    + rewrite (Cc_ext_all m u y _ (U a (fun v => h (c :: v)))) by (intros w; rewrite U_cons; now rewrite (proj2 (Z.eqb_neq _ _) Nc)).
      rewrite IH by (auto; eapply dj_tl; eauto). apply U_ext. intros v _. now rewrite Cc_other.
Qed.

(** the boundary of a concatenation *)
Lemma bfl_nc u : forall v s, In (v, s) (bfl u) -> nc v = nc u - 1.
Proof.
  induction u as [|a u IH]; intros v s; cbn [bfl]; [intros []|]. rewrite nc_cons. destruct (mem a u) eqn:Em.
  - intros [[= <- <-]|Hin]; [lia|]. apply in_app_iff in Hin. destruct Hin as [Hin|Hin].
    + apply in_map_iff in Hin. destruct Hin as ([v' s'] & E & Hin). cbn in E. injection E as <- <-. rewrite nc_cons, (IH _ _ Hin).
      rewrite (mem_supp a v' u), Em by (now apply bfl_in in Hin). lia.
    + destruct (uniq a u) as [u'|] eqn:Eu; [|destruct Hin]. destruct Hin as [[= <- <-]|[]]. rewrite nc_cons, (uniq_mem_a _ _ _ Eu), (uniq_nc _ _ _ Eu). lia.
  - intros Hin. apply in_map_iff in Hin. destruct Hin as ([v' s'] & E & Hin). cbn in E. injection E as <- <-. rewrite nc_cons, (IH _ _ Hin).
    rewrite (mem_supp a v' u), Em by (now apply bfl_in in Hin). lia.
Qed.
Lemma bfd_app y u : (forall c, In c y -> ~ In c u) -> forall g, bfd g (y ++ u) = bfd (fun z => g (z ++ u)) y + sgn (nc y) * bfd (fun v => g (y ++ v)) u.
Proof.
  induction y as [|b y IH]; intros D g; cbn [app].
  - cbn [bfd]. rewrite nc_nil, sgn_0. rewrite Z.mul_1_l. reflexivity.
  - assert (D' : forall c, In c y -> ~ In c u) by (intros; apply D; now right). assert (Nb : mem b u = false) by (apply mem_notin, D; now left).
    rewrite !bfd_cons, mem_app, Nb, orb_false_r, nc_cons, (IH D'). destruct (mem b y).
    + rewrite (U_app b _ y u Nb), sgn_S'. cbn [app]. ring.
    + rewrite Z.add_0_l. reflexivity.
Qed.
Lemma U_local a g h w : (forall v, ~ In a v -> g v = h v) -> U a g w = U a h w.
Proof. intros E. apply U_ext. intros v Ev. apply E. rewrite (uniq_in _ _ _ Ev). tauto. Qed.

(** the Leibniz rule *)
Lemma Cc_leibniz u : forall y g, dj u y -> Cc m (bfd g) u y = bfd (fun v => Cc m g v y) u + (if mem m u then sgn (nc u) * bfd (fun z => Cc m g u z) y else 0).
Proof.
  induction u as [|a u IH]; intros y g D; [rewrite Cc_nil; reflexivity|]. pose proof (dj_tl _ _ _ _ D) as D1.
  destruct (Z.eq_dec a m) as [->|N].
  - rewrite mem_self, (bfd_cons _ m u). destruct (mem m u) eqn:Em.
    + (* more occurrences *)
      revert g. induction y as [|b y IHy]; intros g.
      * rewrite Cc_m_nil, Em. rewrite (Cc_empty m u Em).
        rewrite (bfd_ext_supp (fun v => Cc m g (m :: v) []) (fun _ => 0)), bfd_0.
        2:{ intros v Hv. now rewrite Cc_m_nil, (mem_supp m v u Hv), Em. }
        rewrite (U_local m (fun v => Cc m g (m :: v) []) g).
        2:{ intros v Hv. rewrite Cc_m_nil. apply mem_notin in Hv. now rewrite Hv. }
        cbn [bfd]. ring.
      * specialize (IHy (dj_tly _ _ _ _ D) (dj_tly _ _ _ _ D1)).
        assert (Nbu : forall c, In c u -> c <> m -> c <> b). { intros c Hc Nc ->. apply (proj1 D1 b Hc Nc). now left. }
        assert (Nbm : b <> m). { intros ->. apply (proj2 D). now left. }
        assert (Eb : mem b u = false). { apply mem_notin. intros Hb. now apply (Nbu b). }
        set (h := fun v => g (b :: v)).
        rewrite Cc_m_cons, Em.
        rewrite (Cc_ext m u (b :: y) _ (fun w => g w - bfd h w - U b h w)).
        2:{ intros w s Hin. rewrite bfd_cons. now rewrite (Cl_mem_head m u y w s b D1 Em Hin). }
        rewrite !Cc_sub, (IH (b :: y) h D1), (Cc_U_y b u Nbm Eb Em (b :: y) h D1), (U_cons b b), Z.eqb_refl.
        rewrite (bfd_ext_all (fun v => Cc m g (m :: v) (b :: y)) (fun v => (if mem m v then Cc m h v (b :: y) else 0) + (if mem b y then sgn (nc (m :: v)) else 1) * Cc m h (m :: v) y)) by (intros v; apply Cc_m_cons).
        rewrite bfd_add.
        rewrite (bfd_ext_supp (fun v => if mem m v then Cc m h v (b :: y) else 0) (fun v => Cc m h v (b :: y)) u) by (intros v Hv; now rewrite (mem_supp m v u Hv), Em).
        rewrite (bfd_ext (fun v => (if mem b y then sgn (nc (m :: v)) else 1) * Cc m h (m :: v) y) (fun v => (if mem b y then sgn (nc u) else 1) * Cc m h (m :: v) y)).
        2:{ intros v s Hin. rewrite nc_cons, (mem_supp m v u) by (now apply bfl_in in Hin). rewrite Em, (bfl_nc _ _ _ Hin). now replace (1 + (nc u - 1)) with (nc u) by lia. }
        rewrite bfd_scal.
        rewrite (U_ext m (fun v => Cc m g (m :: v) (b :: y)) (fun v => (if mem b y then sgn (nc u) else 1) * Cc m h (m :: v) y)).
        2:{ intros v Ev. rewrite Cc_m_cons, (uniq_mem_a _ _ _ Ev), Z.add_0_l. rewrite nc_cons, (uniq_mem_a _ _ _ Ev), (uniq_nc _ _ _ Ev), Z.add_0_l. reflexivity. }
        rewrite U_scal. rewrite (bfd_cons (fun z => Cc m g (m :: u) z) b y). rewrite nc_cons, Em, sgn_S'.
        rewrite (bfd_cons (fun z => Cc m h u z) b y).
        rewrite (bfd_ext_supp (fun z => Cc m g (m :: u) (b :: z)) (fun z => Cc m h u (b :: z) + (if mem b y then sgn (nc (m :: u)) else 1) * Cc m h (m :: u) z) y).
        2:{ intros z Hz. rewrite Cc_m_cons, Em, (mem_supp b z y Hz). reflexivity. }
        rewrite bfd_add, bfd_scal. destruct (mem b y) eqn:Eby.
        -- rewrite (Cc_ext m (m :: u) y _ (fun w => g w - bfd h w - U b h w)).
           2:{ intros w s Hin. rewrite bfd_cons. rewrite (Cl_mem_y m (m :: u) y w s b D (mem_self _ _) Hin). now rewrite Eby. }
           rewrite !Cc_sub, IHy. rewrite (Cc_U_y b (m :: u) Nbm) by (first [apply mem_self | eapply dj_tly; exact D | rewrite mem_other by exact Nbm; exact Eb]).
           rewrite (U_local b (fun z => Cc m g (m :: u) (b :: z)) (fun z => Cc m h u (b :: z) + Cc m h (m :: u) z)).
           2:{ intros z Hz. apply mem_notin in Hz. rewrite Cc_m_cons, Em, Hz. fold h. ring. }
           rewrite U_add, nc_cons, Em, sgn_S'. pose proof (sgn_sq (nc u)) as S2. change (fun z => Cc m h (m :: u) z) with (Cc m h (m :: u)). destruct (sgn_cases (nc u)) as [-> | ->]; ring.
        -- rewrite (Cc_ext m (m :: u) y _ (bfd h)).
           2:{ intros w s Hin. rewrite bfd_cons. rewrite (Cl_mem_y m (m :: u) y w s b D (mem_self _ _) Hin). now rewrite Eby. }
           rewrite IHy, nc_cons, Em, sgn_S'. change (fun z => Cc m h (m :: u) z) with (Cc m h (m :: u)). ring.
    + (* the last one *)
      rewrite (Cc_last m u Em). rewrite (bfd_app y u).
      2:{ intros c Hc Hu. apply (proj1 D1 c Hu); [|exact Hc]. intros ->. now apply (proj2 D). }
      rewrite (bfd_ext (fun v => Cc m g (m :: v) y) (fun v => sgn (nc y * nc u) * sgn (nc y) * g (y ++ v))).
      2:{ intros v s Hin. rewrite (Cc_last m v) by (rewrite (mem_supp m v u); [exact Em|now apply bfl_in in Hin]). rewrite (bfl_nc _ _ _ Hin).
          replace (nc y * (nc u - 1)) with (nc y * nc u - nc y) by ring. now rewrite sgn_sub. }
      rewrite (bfd_ext (fun z => Cc m g (m :: u) z) (fun z => sgn (nc y * nc u) * sgn (nc u) * g (z ++ u)) y).
      2:{ intros z s Hin. rewrite (Cc_last m u Em). rewrite (bfl_nc _ _ _ Hin). replace ((nc y - 1) * nc u) with (nc y * nc u - nc u) by ring. now rewrite sgn_sub. }
      rewrite !bfd_scal, nc_cons, Em, Z.add_0_l. pose proof (sgn_sq (nc u)) as S2. destruct (sgn_cases (nc u)) as [-> | ->]; ring.
  - rewrite mem_other by congruence. rewrite Cc_other by exact N. rewrite (bfd_cons _ a u), nc_cons.
    assert (Ea : mem a y = false). { apply mem_notin. apply (proj1 D); [now left|exact N]. }
    set (h := fun v => g (a :: v)).
    rewrite (bfd_ext_all (fun v => Cc m g (a :: v) y) (fun v => Cc m h v y)) by (intros v; now apply Cc_other).
    rewrite (bfd_ext_all (fun z => Cc m g (a :: u) z) (fun z => Cc m h u z)) by (intros z; now apply Cc_other).
    destruct (mem a u) eqn:Eau.
    + rewrite (Cc_ext m u y _ (fun w => g w - bfd h w - U a h w)).
      2:{ intros w s Hin. rewrite bfd_cons. now rewrite (Cl_mem_u m u y w s a D N Hin), Eau. }
      rewrite !Cc_sub, (IH y h D1), (Cc_U_u a N u y h Ea D1).
      rewrite (U_ext a (fun v => Cc m g (a :: v) y) (fun v => Cc m h v y)) by (intros v _; now apply Cc_other).
      rewrite sgn_S'. destruct (mem m u); ring.
    + rewrite (Cc_ext m u y _ (bfd h)).
      2:{ intros w s Hin. rewrite bfd_cons. now rewrite (Cl_mem_u m u y w s a D N Hin), Eau. }
      rewrite (IH y h D1), Z.add_0_l. reflexivity.
Qed.
End Compose.
