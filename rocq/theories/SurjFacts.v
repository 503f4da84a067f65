(** * Surjections: the boundary.  Proof library. *)
From Coq Require Import Setoid Morphisms.
From Verif Require Import PyBase Dict FreeModule Symmetric Simplicial Utils Surjection Eqm Spec SpecOperad SpecSurj FreeModuleFacts FreeModuleLaws ListFacts
  ClassFacts LinearFacts SymmetricFacts CycleFacts SymmetricLaws RingFacts TensorAct LoopFacts.

(** ** the only occurrence of a letter *)
Fixpoint uniq (a : Z) (w : list Z) : option (list Z) :=
  match w with
  | [] => None
  | b :: w' => if b =? a then (if mem a w' then None else Some w') else option_map (cons b) (uniq a w')
  end.
Definition U (a : Z) (h : list Z -> Z) (w : list Z) : Z := match uniq a w with Some u => h u | None => 0 end.
Lemma U_some a h w v : uniq a w = Some v -> U a h w = h v. Proof. unfold U. now intros ->. Qed.
Lemma U_none a h w : uniq a w = None -> U a h w = 0. Proof. unfold U. now intros ->. Qed.
Lemma uniq_none a w : mem a w = false -> uniq a w = None.
Proof.
  induction w as [|b w IH]; [reflexivity|]. cbn [mem existsb uniq]. fold (mem a w). rewrite orb_false_iff. intros [E1 E2].
  rewrite Z.eqb_sym, E1. now rewrite IH.
Qed.
Lemma uniq_some a w : forall u, uniq a w = Some u -> exists w1 w2, w = w1 ++ a :: w2 /\ u = w1 ++ w2 /\ ~ In a w1 /\ ~ In a w2.
Proof.
  induction w as [|b w IH]; [discriminate|]. intros u. cbn [uniq]. destruct (Z.eqb_spec b a) as [->|N].
  - destruct (mem a w) eqn:E; [discriminate|]. intros [= <-]. exists [], w. apply mem_notin in E. auto.
  - destruct (uniq a w) as [u'|]; [|discriminate]. cbn. intros [= <-]. destruct (IH _ eq_refl) as (w1 & w2 & -> & -> & N1 & N2).
    exists (b :: w1), w2. cbn. intuition.
Qed.
Lemma uniq_app a w1 w2 : ~ In a w1 -> ~ In a w2 -> uniq a (w1 ++ a :: w2) = Some (w1 ++ w2).
Proof.
  intros N1 N2. induction w1 as [|b w1 IH]; cbn [app uniq].
  - rewrite Z.eqb_refl. apply mem_notin in N2. now rewrite N2.
  - destruct (Z.eqb_spec b a) as [->|N]; [exfalso; apply N1; now left|]. rewrite IH; [reflexivity|]. intros C. apply N1. now right.
Qed.
Lemma uniq_in a w u : uniq a w = Some u -> forall c, In c u <-> In c w /\ c <> a.
Proof.
  intros E. destruct (uniq_some _ _ _ E) as (w1 & w2 & -> & -> & N1 & N2). intros c. rewrite !in_app_iff. cbn [In]. split.
  - intros [Hc|Hc]; (split; [tauto|intros ->; tauto]).
  - intros [[Hc|[Hc|Hc]] N]; [tauto|congruence|tauto].
Qed.
Lemma uniq_mem a w u b : uniq a w = Some u -> b <> a -> mem b u = mem b w.
Proof.
  intros E N. apply eq_true_iff_eq. rewrite !mem_in, (uniq_in _ _ _ E). tauto.
Qed.
Lemma uniq_mem_a a w u : uniq a w = Some u -> mem a u = false.
Proof. intros E. apply mem_notin. rewrite (uniq_in _ _ _ E). tauto. Qed.
Lemma uniq_len a w u : uniq a w = Some u -> zlen u = zlen w - 1.
Proof. intros E. destruct (uniq_some _ _ _ E) as (w1 & w2 & -> & -> & _). rewrite !zlen_app, zlen_cons. lia. Qed.
Definition obind {B C} (o : option B) (f : B -> option C) : option C := match o with Some b => f b | None => None end.
Lemma uniq_comm a b w : a <> b -> obind (uniq a w) (uniq b) = obind (uniq b w) (uniq a).
Proof.
  intros N. induction w as [|c w IH]; [reflexivity|]. cbn [uniq]. destruct (Z.eqb_spec c a) as [->|Na].
  - destruct (Z.eqb_spec a b) as [|_]; [congruence|]. destruct (mem a w) eqn:Ea.
    + cbn. destruct (uniq b w) as [u|] eqn:Eb; [|reflexivity]. cbn. rewrite Z.eqb_refl. now rewrite (uniq_mem _ _ _ _ Eb), Ea by auto.
    + cbn [obind]. destruct (uniq b w) as [u|] eqn:Eb; [|reflexivity]. cbn. rewrite Z.eqb_refl. now rewrite (uniq_mem _ _ _ _ Eb), Ea by auto.
  - destruct (Z.eqb_spec c b) as [->|Nb].
    + destruct (mem b w) eqn:Eb; cbn [obind].
      * destruct (uniq a w) as [u|] eqn:Ea; [|reflexivity]. cbn. rewrite Z.eqb_refl. now rewrite (uniq_mem _ _ _ _ Ea), Eb by auto.
      * destruct (uniq a w) as [u|] eqn:Ea; [|reflexivity]. cbn. rewrite Z.eqb_refl. now rewrite (uniq_mem _ _ _ _ Ea), Eb by auto.
    + destruct (uniq a w) as [u|] eqn:Ea; destruct (uniq b w) as [v|] eqn:Eb; cbn [obind option_map uniq] in *;
        rewrite ?(proj2 (Z.eqb_neq c b) Nb), ?(proj2 (Z.eqb_neq c a) Na).
      * now rewrite IH.
      * now rewrite IH.
      * now rewrite <- IH.
      * reflexivity.
Qed.
Lemma U_comm a b h w : a <> b -> U a (U b h) w = U b (U a h) w.
Proof.
  intros N. pose proof (uniq_comm a b w N) as E. unfold U. destruct (uniq a w), (uniq b w); cbn [obind] in E; try rewrite E; try rewrite <- E; reflexivity.
Qed.
Lemma U_cons a b h w : U a h (b :: w) = if b =? a then (if mem a w then 0 else h w) else U a (fun u => h (b :: u)) w.
Proof. unfold U. cbn [uniq]. destruct (b =? a); [destruct (mem a w); reflexivity|]. destruct (uniq a w); reflexivity. Qed.
Lemma U_notin a h w : mem a w = false -> U a h w = 0.
Proof. intros E. unfold U. now rewrite uniq_none. Qed.
Lemma U_ext a g h w : (forall u, uniq a w = Some u -> g u = h u) -> U a g w = U a h w.
Proof. intros E. unfold U. destruct (uniq a w); auto. Qed.
Lemma U_add a g h w : U a (fun u => g u + h u) w = U a g w + U a h w. Proof. unfold U. destruct (uniq a w); ring. Qed.
Lemma U_scal a n h w : U a (fun u => n * h u) w = n * U a h w. Proof. unfold U. destruct (uniq a w); ring. Qed.
Lemma U_0 a w : U a (fun _ => 0) w = 0. Proof. unfold U. now destruct (uniq a w). Qed.

(** ** the Berger-Fresse boundary, letter by letter *)
Fixpoint bfd (g : list Z -> Z) (w : list Z) : Z :=
  match w with
  | [] => 0
  | a :: w' => if mem a w' then g w' - bfd (fun u => g (a :: u)) w' - U a (fun u => g (a :: u)) w'
               else bfd (fun u => g (a :: u)) w'
  end.
Lemma bfd_cons g a w : bfd g (a :: w) = if mem a w then g w - bfd (fun u => g (a :: u)) w - U a (fun u => g (a :: u)) w else bfd (fun u => g (a :: u)) w.
Proof. reflexivity. Qed.
(** its terms *)
Fixpoint bfl (w : list Z) : list (list Z * Z) :=
  match w with
  | [] => []
  | a :: w' => if mem a w' then (w', 1) :: map (fun p => (a :: fst p, - snd p)) (bfl w') ++ match uniq a w' with Some u => [(a :: u, -1)] | None => [] end
               else map (fun p => (a :: fst p, snd p)) (bfl w')
  end.
Lemma bfd_ev w : forall g, bfd g w = ev g (bfl w).
Proof.
  induction w as [|a w IH]; intros g; [reflexivity|]. rewrite bfd_cons. cbn [bfl].
  assert (E : forall n l, ev g (map (fun p : list Z * Z => (a :: fst p, n * snd p)) l) = n * ev (fun u => g (a :: u)) l).
  { intros n l. unfold ev. rewrite sumf_map, <- sumf_scal. apply sumf_ext. intros [u c] _. cbn [fst snd]. ring. }
  destruct (mem a w).
  - rewrite ev_cons, ev_app. rewrite (map_ext (fun p : list Z * Z => (a :: fst p, - snd p)) (fun p => (a :: fst p, (-1) * snd p))) by (intros; f_equal; ring).
    rewrite E, <- IH. unfold U. destruct (uniq a w); rewrite ?ev_cons, ?ev_nil; ring.
  - rewrite (map_ext (fun p : list Z * Z => (a :: fst p, snd p)) (fun p => (a :: fst p, 1 * snd p))) by (intros; f_equal; ring).
    rewrite E, <- IH. ring.
Qed.
Lemma bfl_in w : forall u s, In (u, s) (bfl w) -> zlen u = zlen w - 1 /\ (forall c, In c u <-> In c w).
Proof.
  induction w as [|a w IH]; intros u s; cbn [bfl]; [intros []|]. destruct (mem a w) eqn:Em.
  - apply mem_in in Em. intros [[= <- <-]|Hin].
    + rewrite zlen_cons. split; [lia|]. intros c. cbn. split; [auto|]. intros [<-|]; auto.
    + apply in_app_iff in Hin. destruct Hin as [Hin|Hin].
      * apply in_map_iff in Hin. destruct Hin as ([v t] & [= <- <-] & Hin). destruct (IH _ _ Hin) as [L S]. rewrite !zlen_cons. split; [lia|].
        intros c. cbn. now rewrite S.
      * destruct (uniq a w) as [v|] eqn:Eu; [|destruct Hin]. destruct Hin as [[= <- <-]|[]]. rewrite !zlen_cons, (uniq_len _ _ _ Eu). split; [lia|].
        intros c. cbn [In]. rewrite (uniq_in _ _ _ Eu). split; [tauto|]. intros [->|Hc]; [now left|]. destruct (Z.eq_dec a c); [now left|right; split; auto].
  - intros Hin. apply in_map_iff in Hin. destruct Hin as ([v t] & [= <- <-] & Hin). destruct (IH _ _ Hin) as [L S]. rewrite !zlen_cons. split; [lia|].
    intros c. cbn. now rewrite S.
Qed.
Lemma bfd_ext g h w : (forall u s, In (u, s) (bfl w) -> g u = h u) -> bfd g w = bfd h w.
Proof. intros E. rewrite !bfd_ev. apply ev_ext. exact E. Qed.
Lemma bfd_ext_all g h w : (forall u, g u = h u) -> bfd g w = bfd h w.
Proof. intros E. apply bfd_ext. auto. Qed.
Lemma bfd_ext_supp g h w : (forall u, (forall c, In c u <-> In c w) -> g u = h u) -> bfd g w = bfd h w.
Proof. intros E. apply bfd_ext. intros u s Hin. apply E. now apply bfl_in in Hin. Qed.
Lemma bfd_add g h w : bfd (fun u => g u + h u) w = bfd g w + bfd h w. Proof. rewrite !bfd_ev. apply ev_add. Qed.
Lemma bfd_scal n g w : bfd (fun u => n * g u) w = n * bfd g w. Proof. rewrite !bfd_ev. apply ev_scal. Qed.
Lemma bfd_sub g h w : bfd (fun u => g u - h u) w = bfd g w - bfd h w. Proof. rewrite !bfd_ev. apply ev_sub. Qed.
Lemma bfd_0 w : bfd (fun _ => 0) w = 0. Proof. rewrite bfd_ev. now apply ev_zero. Qed.

Lemma mem_supp a u w : (forall c, In c u <-> In c w) -> mem a u = mem a w.
Proof. intros S. apply eq_true_iff_eq. rewrite !mem_in. apply S. Qed.
(** deleting the only occurrence of [a] commutes with the boundary *)
Lemma bfd_U a w : forall h, bfd (U a h) w = U a (bfd h) w.
Proof.
  induction w as [|b w IH]; intros h; [reflexivity|]. rewrite bfd_cons. rewrite (U_cons a b (bfd h)). destruct (Z.eqb_spec b a) as [->|N].
  - destruct (mem a w) eqn:Em.
    + rewrite (bfd_ext_supp _ (fun _ => 0)), bfd_0.
      2:{ intros u S. rewrite U_cons, Z.eqb_refl, (mem_supp _ _ _ S), Em. reflexivity. }
      rewrite (U_ext a (fun u => U a h (a :: u)) h); [ring|]. intros u Eu. rewrite U_cons, Z.eqb_refl. now rewrite (uniq_mem_a _ _ _ Eu).
    + apply bfd_ext_supp. intros u S. rewrite U_cons, Z.eqb_refl. now rewrite (mem_supp _ _ _ S), Em.
  - rewrite (bfd_ext_all _ (U a (fun u => h (b :: u)))) by (intros u; rewrite U_cons; now destruct (Z.eqb_spec b a)).
    rewrite (U_ext b (fun u => U a h (b :: u)) (U a (fun u => h (b :: u)))) by (intros u _; rewrite U_cons; now destruct (Z.eqb_spec b a)).
    rewrite IH. rewrite (U_comm b a) by auto. destruct (uniq a w) as [v|] eqn:Ea.
    + rewrite !(U_some a _ w v Ea). rewrite bfd_cons, (uniq_mem _ _ _ b Ea) by auto. reflexivity.
    + rewrite !(U_none a _ w Ea). destruct (mem b w); ring.
Qed.
Lemma bfd_bfd w : forall g, bfd (bfd g) w = 0.
Proof.
  induction w as [|a w IH]; intros g; [reflexivity|]. rewrite bfd_cons. destruct (mem a w) eqn:Em.
  - rewrite (bfd_ext_supp (fun u => bfd g (a :: u)) (fun u => g u - bfd (fun v => g (a :: v)) u - U a (fun v => g (a :: v)) u)).
    2:{ intros u S. rewrite bfd_cons, (mem_supp _ _ _ S), Em. reflexivity. }
    rewrite !bfd_sub, IH, bfd_U. rewrite (U_ext a (fun u => bfd g (a :: u)) (bfd (fun v => g (a :: v)))).
    2:{ intros u Eu. rewrite bfd_cons, (uniq_mem_a _ _ _ Eu). reflexivity. }
    ring.
  - rewrite (bfd_ext_supp (fun u => bfd g (a :: u)) (bfd (fun v => g (a :: v)))), IH; [reflexivity|].
    intros u S. now rewrite bfd_cons, (mem_supp _ _ _ S), Em.
Qed.
(** ** degenerate words *)
Definition adj (w : list Z) : bool := existsb (fun p => fst p =? snd p) (pairwise w).
Lemma adj_cons2 a b w : adj (a :: b :: w) = (a =? b) || adj (b :: w).
Proof. unfold adj. rewrite pairwise_cons. reflexivity. Qed.
Lemma adj_tl a w : adj w = true -> adj (a :: w) = true.
Proof. destruct w as [|b w]; [discriminate|]. rewrite adj_cons2. intros ->. apply orb_true_r. Qed.
Lemma adj_uniq a w u : uniq a w = Some u -> adj w = true -> adj u = true.
Proof.
  revert u. induction w as [|b w IH]; intros u Eu Ha; [discriminate|]. cbn [uniq] in Eu. destruct (Z.eqb_spec b a) as [->|N].
  - destruct (mem a w) eqn:Em; [discriminate|]. injection Eu as <-. destruct w as [|c w]; [discriminate|]. rewrite adj_cons2 in Ha.
    cbn [mem existsb] in Em. destruct (a =? c); [discriminate|]. exact Ha.
  - destruct (uniq a w) as [v|] eqn:Ev; [|discriminate]. injection Eu as <-. destruct w as [|c w]; [discriminate|]. rewrite adj_cons2 in Ha.
    destruct (Z.eqb_spec b c) as [->|N'].
    + cbn [uniq] in Ev. destruct (Z.eqb_spec c a); [congruence|]. destruct (uniq a w) as [v'|]; [|discriminate]. injection Ev as <-. rewrite adj_cons2, Z.eqb_refl. reflexivity.
    + apply adj_tl. apply IH; auto.
Qed.
Lemma bfd_adj w : forall g, (forall u, adj u = true -> (forall c, In c u <-> In c w) -> g u = 0) -> adj w = true -> bfd g w = 0.
Proof.
  induction w as [|a w IH]; intros g Hg Ha; [discriminate|]. destruct w as [|b w]; [discriminate|]. rewrite adj_cons2 in Ha. rewrite bfd_cons.
  destruct (Z.eqb_spec a b) as [<-|N]; cbn [orb] in Ha.
  - replace (mem a (a :: w)) with true by (cbn [mem existsb]; now rewrite Z.eqb_refl). rewrite bfd_cons, U_cons, Z.eqb_refl.
    rewrite (bfd_ext_supp (fun u => g (a :: a :: u)) (fun _ => 0)), bfd_0.
    2:{ intros u S. apply Hg; [rewrite adj_cons2, Z.eqb_refl; reflexivity|]. intros c. cbn [In]. rewrite S. tauto. }
    destruct (mem a w) eqn:Em; [|ring]. rewrite (U_ext a _ (fun _ => 0)), U_0; [ring|].
    intros u Eu. apply Hg; [rewrite adj_cons2, Z.eqb_refl; reflexivity|]. intros c. cbn [In]. rewrite (uniq_in _ _ _ Eu).
    split; [tauto|]. intros [->|[->|Hc]]; auto. destruct (Z.eq_dec c a) as [->|]; auto.
  - assert (E1 : bfd (fun u => g (a :: u)) (b :: w) = 0).
    { apply IH; [|exact Ha]. intros u Hu S. apply Hg; [now apply adj_tl|]. intros c. cbn [In]. rewrite (S c). cbn [In]. tauto. }
    rewrite E1. destruct (mem a (b :: w)) eqn:Em; [|reflexivity]. apply mem_in in Em. rewrite Hg; [|exact Ha|intros c; cbn [In]; split; [tauto|]; intros [<-|Hc]; auto].
    rewrite (U_ext a _ (fun _ => 0)), U_0; [ring|]. intros u Eu. apply Hg; [apply adj_tl; eapply adj_uniq; eauto|].
    intros c. cbn [In]. pose proof (uniq_in _ _ _ Eu c) as S. cbn [In] in S. rewrite S. split; [tauto|]. intros [->|[->|Hc]]; auto; destruct (Z.eq_dec c a) as [->|]; auto.
Qed.
(** ** relabelling *)
Lemma mem_map_inj (f : Z -> Z) a w : (forall b, In b w -> f b = f a -> b = a) -> mem (f a) (map f w) = mem a w.
Proof.
  intros Hf. apply eq_true_iff_eq. rewrite !mem_in, in_map_iff. split.
  - intros (b & E & Hb). now rewrite <- (Hf b Hb E).
  - intros Hb. eauto.
Qed.
Lemma uniq_map (f : Z -> Z) a w : (forall b, In b w -> f b = f a -> b = a) -> uniq (f a) (map f w) = option_map (map f) (uniq a w).
Proof.
  induction w as [|b w IH]; intros Hf; [reflexivity|]. cbn [map uniq]. rewrite IH by (intros; apply Hf; auto; now right).
  rewrite mem_map_inj by (intros; apply Hf; auto; now right). destruct (Z.eqb_spec b a) as [->|N].
  - rewrite Z.eqb_refl. now destruct (mem a w).
  - destruct (Z.eqb_spec (f b) (f a)) as [E|_]; [exfalso; apply N, Hf; auto; now left|]. now destruct (uniq a w).
Qed.
Lemma bfd_map (f : Z -> Z) w : (forall a b, In a w -> In b w -> f a = f b -> a = b) -> forall g, bfd g (map f w) = bfd (fun u => g (map f u)) w.
Proof.
  induction w as [|a w IH]; intros Hf g; [reflexivity|]. cbn [map]. rewrite !bfd_cons.
  rewrite mem_map_inj by (intros b Hb E; apply Hf; cbn; auto). rewrite IH by (intros; apply Hf; cbn; auto).
  unfold U. rewrite uniq_map by (intros b Hb E; apply Hf; cbn; auto). destruct (uniq a w); reflexivity.
Qed.
(** ** agreement with the explicit formula for the faces *)
Definition faceval (sg : list Z -> Z -> list Z -> Z) (g : list Z -> Z) (w : list Z) : Z :=
  sumf (fun '(l1, a, l2) => if mem a (l1 ++ l2) then sg l1 a l2 * g (l1 ++ l2) else 0) (splits w).
Lemma faceval_ext sg sg' g w : (forall l1 a l2, w = l1 ++ a :: l2 -> mem a (l1 ++ l2) = true -> sg l1 a l2 = sg' l1 a l2) -> faceval sg g w = faceval sg' g w.
Proof.
  intros E. apply sumf_ext. intros [[l1 a] l2] Hin. apply splits_in in Hin. destruct (mem a (l1 ++ l2)) eqn:Em; [|reflexivity]. now rewrite E.
Qed.
Lemma sum_uniq a w : forall h, sumf (fun '(l1, b, l2) => if (b =? a) && negb (mem a l1) && negb (mem a l2) then h (l1 ++ l2) else 0) (splits w) = U a h w.
Proof.
  induction w as [|b w IH]; intros h; [reflexivity|]. rewrite splits_cons, sumf_cons, sumf_map. rewrite U_cons. cbn [mem existsb app negb].
  rewrite (sumf_ext _ (fun s : list Z * Z * list Z => if b =? a then 0 else
     (let '(l1, c, l2) := s in if (c =? a) && negb (mem a l1) && negb (mem a l2) then h (b :: l1 ++ l2) else 0))).
  2:{ intros [[l1 c] l2] _. cbn [fst snd]. cbn [mem existsb]. rewrite (Z.eqb_sym a b). fold (mem a l1). destruct (b =? a); cbn [orb negb]; [now rewrite andb_false_r|reflexivity]. }
  destruct (Z.eqb_spec b a) as [->|N]; cbn [andb].
  - rewrite sumf_0 by reflexivity. destruct (mem a w); cbn [negb]; ring.
  - rewrite <- IH, Z.add_0_l. apply sumf_ext. intros [[l1 c] l2] _. reflexivity.
Qed.
Lemma before_last_mem a l : mem a l = true -> l = before_last a l ++ skipn (length (before_last a l)) l.
Proof.
  induction l as [|b l IH]; [discriminate|]. intros E. cbn [before_last]. destruct (mem a l) eqn:Em; [|reflexivity]. cbn [length skipn app]. now rewrite <- IH.
Qed.
Lemma caesuras_cons b u v : caesuras_in (b :: u) v = (if mem b (u ++ v) then 1 else 0) + caesuras_in u v. Proof. reflexivity. Qed.
Lemma bf_face_cons a l1 b l2 : mem b (l1 ++ l2) = true ->
  bf_face_sign (a :: l1) b l2 = (if mem a (l1 ++ b :: l2) then -1 else 1) * bf_face_sign l1 b l2.
Proof.
  intros E. unfold bf_face_sign. destruct (mem b l2) eqn:E2.
  - rewrite caesuras_cons, sgn_add. destruct (mem a (l1 ++ b :: l2)); reflexivity.
  - rewrite mem_app, E2, orb_false_r in E. cbn [before_last]. rewrite E. cbn [length skipn]. rewrite caesuras_cons, sgn_add.
    rewrite app_assoc, <- before_last_mem by assumption. destruct (mem a (l1 ++ b :: l2)); rewrite ?sgn_1, ?sgn_0; ring.
Qed.
Lemma bfd_faces w : forall g, faceval bf_face_sign g w = bfd g w.
Proof.
  induction w as [|a w IH]; intros g; [reflexivity|]. unfold faceval. rewrite splits_cons, sumf_cons, sumf_map. cbn [app]. rewrite bfd_cons.
  rewrite (sumf_ext _ (fun s : list Z * Z * list Z => (if mem a w then -1 else 1) * (let '(l1, b, l2) := s in if mem b (l1 ++ l2) then bf_face_sign l1 b l2 * g (a :: l1 ++ l2) else 0)
     + - (let '(l1, b, l2) := s in if (b =? a) && negb (mem a l1) && negb (mem a l2) then g (a :: l1 ++ l2) else 0))).
  - rewrite sumf_add, sumf_opp, sumf_scal. fold (faceval bf_face_sign (fun u => g (a :: u)) w). rewrite IH, (sum_uniq a w (fun u => g (a :: u))).
    destruct (mem a w) eqn:Em.
    + unfold bf_face_sign. rewrite Em. cbn [caesuras_in]. rewrite sgn_0. ring.
    + rewrite U_notin by assumption. ring.
  - intros [[l1 b] l2] Hin. apply splits_in in Hin. cbn [fst snd app]. cbn [mem existsb]. fold (mem b (l1 ++ l2)).
    destruct (Z.eqb_spec b a) as [->|N].
    + cbn [orb andb]. destruct (mem a (l1 ++ l2)) eqn:E.
      * rewrite bf_face_cons by assumption. subst w. rewrite mem_app in E. destruct (mem a l1); cbn [negb andb]; [ring|]. cbn [orb] in E. rewrite E. cbn [negb]. ring.
      * rewrite mem_app, orb_false_iff in E. destruct E as [E1 E2]. rewrite E1, E2. cbn [negb andb]. unfold bf_face_sign. rewrite E2. cbn [before_last]. rewrite E1. cbn [length skipn caesuras_in]. rewrite sgn_0. ring.
    + cbn [orb andb]. destruct (mem b (l1 ++ l2)) eqn:E; [|ring]. rewrite bf_face_cons by assumption. subst w. ring.
Qed.
(** ** the signs computed by the code *)
Definition code_sign (l1 : list Z) (a : Z) (l2 : list Z) : Z := if mem a (l1 ++ l2) then bf_face_sign l1 a l2 else 0.
Lemma caesuras_snoc u a v : caesuras_in (u ++ [a]) v = caesuras_in u (a :: v) + (if mem a v then 1 else 0).
Proof.
  induction u as [|b u IH]; cbn [app caesuras_in]; [ring|]. rewrite IH. rewrite <- app_assoc. cbn [app]. ring.
Qed.

Lemma for_enum_inv {B T} (l : list B) (body : T -> Z * B -> res T) (I : list B -> T -> Prop) :
  (forall l1 b l2 s, l = l1 ++ b :: l2 -> I l1 s -> exists s', body s (zlen l1, b) = Ok s' /\ I (l1 ++ [b]) s') ->
  forall s, I [] s -> exists s', for_ (enumerate l) s body = Ok s' /\ I l s'.
Proof.
  intros Hb. assert (G : forall l2 l1 s, l = l1 ++ l2 -> I l1 s -> exists s', for_ (map (fun p => (fst p + zlen l1, snd p)) (enumerate l2)) s body = Ok s' /\ I l s').
  { induction l2 as [|b l2 IH]; intros l1 s E Hs.
    - rewrite app_nil_r in E. subst l1. eexists. split; [reflexivity|exact Hs].
    - rewrite enumerate_cons. cbn [map fst snd for_]. rewrite Z.add_0_l. destruct (Hb l1 b l2 s E Hs) as (s1 & E1 & Hs1). rewrite E1. cbn [bind].
      destruct (IH (l1 ++ [b]) s1) as (s2 & E2 & Hs2); [rewrite <- app_assoc; exact E|exact Hs1|]. exists s2. split; [|exact Hs2]. rewrite <- E2. f_equal.
      rewrite map_map. apply map_ext. intros [i c]. cbn [fst snd]. rewrite zlen_app, zlen_cons, zlen_nil. f_equal. lia. }
  intros s Hs. destruct (G l [] s eq_refl Hs) as (s' & E & Hs'). exists s'. split; [|exact Hs']. rewrite <- E. f_equal. rewrite <- (map_id (enumerate l)) at 1.
  apply map_ext. intros [i c]. cbn [fst snd]. rewrite zlen_nil. f_equal. lia.
Qed.
Lemma enumerate_in {B} (l1 : list B) b l2 : In (zlen l1, b) (enumerate (l1 ++ b :: l2)).
Proof.
  induction l1 as [|c l1 IH]; cbn [app]; rewrite enumerate_cons; [now left|]. right. apply in_map_iff. exists (zlen l1, b). split; [|exact IH]. cbn [fst snd]. now rewrite zlen_cons.
Qed.
Lemma app_split_le {B} (u1 u2 v1 v2 : list B) a : u1 ++ a :: u2 = v1 ++ a :: v2 -> ~ In a v2 -> zlen u1 <= zlen v1.
Proof.
  revert v1. induction u1 as [|b u1 IH]; intros v1 E N; [apply zlen_nonneg|]. destruct v1 as [|c v1]; cbn [app] in E; injection E as -> E.
  - exfalso. apply N. rewrite <- E. apply in_app_iff. right. now left.
  - rewrite !zlen_cons. specialize (IH _ E N). lia.
Qed.
Lemma last_index u a v : ~ In a v -> py_max (map fst (filter (fun pj => a =? snd pj) (enumerate (u ++ a :: v)))) = Ok (zlen u).
Proof.
  intros N. apply py_max_spec. split.
  - apply in_map_iff. exists (zlen u, a). split; [reflexivity|]. apply filter_In. split; [apply enumerate_in|]. cbn. apply Z.eqb_refl.
  - intros b Hb. apply in_map_iff in Hb. destruct Hb as ([i c] & <- & Hb). apply filter_In in Hb. cbn [fst snd] in *. destruct Hb as [Hb E].
    apply Z.eqb_eq in E. subst c. apply in_enumerate in Hb. destruct Hb as (l1 & l2 & E & ->). symmetry in E. eapply app_split_le; eauto.
Qed.
Lemma last_split a l : mem a l = true -> exists u v, l = u ++ a :: v /\ ~ In a v /\ before_last a l = u.
Proof.
  induction l as [|b l IH]; [discriminate|]. intros E. cbn [before_last]. destruct (mem a l) eqn:Em.
  - destruct (IH eq_refl) as (u & v & -> & N & E2). exists (b :: u), v. rewrite E2. auto.
  - cbn [mem existsb] in E. fold (mem a l) in E. rewrite Em, orb_false_r in E. apply Z.eqb_eq in E. subst b. exists [], l. apply mem_notin in Em. auto.
Qed.
Definition sigk (k : list Z) (i : Z) : Z := match skipn (Z.to_nat i) k with a :: l2 => code_sign (firstn (Z.to_nat i) k) a l2 | [] => 0 end.
Lemma sigk_app l1 a l2 : sigk (l1 ++ a :: l2) (zlen l1) = code_sign l1 a l2.
Proof.
  unfold sigk. unfold zlen. rewrite Nat2Z.id, firstn_app, firstn_all, Nat.sub_diag, skipn_app, skipn_all, Nat.sub_diag. cbn [firstn skipn app]. now rewrite app_nil_r.
Qed.
Lemma py_get_zrange {B} (f : Z -> B) n m : 0 <= m < n -> py_get (map f (zrange 0 n)) m = Ok (f m).
Proof.
  intros H. rewrite (py_get_in (f m)) by (rewrite zlen_map, zlen_zrange; lia). unfold znth. rewrite (map_nth f). f_equal. f_equal.
  rewrite (zrange_app 0 m n), (zrange_cons m n) by lia. rewrite app_nth2 by (rewrite zrange_length; lia). rewrite zrange_length. now replace (Z.to_nat m - Z.to_nat (m - 0))%nat with O by lia.
Qed.
Lemma bf_signs_ok k : bf_signs k = Ok (map (sigk k) (zrange 0 (zlen k))).
Proof.
  unfold bf_signs.
  match goal with |- context [for_ (enumerate k) ([], 1) ?b] => set (body := b) end.
  destruct (for_enum_inv k body (fun l1 s => s = (map (sigk k) (zrange 0 (zlen l1)), sgn (caesuras_in l1 (skipn (length l1) k))))) with (s := (@nil Z, 1)) as (s' & E & ->).
  - intros l1 a l2 s Ek ->. unfold body. assert (El : zlen (l1 ++ [a]) = zlen l1 + 1) by (rewrite zlen_app; reflexivity). rewrite El, (zrange_snoc 0 (zlen l1)) by apply zlen_nonneg. rewrite map_app. cbn [map].
    subst k. rewrite sigk_app, slice_from_app_S, slice_to_app. rewrite skipn_app, skipn_all, Nat.sub_diag. cbn [skipn app].
    rewrite app_length. cbn [length]. rewrite skipn_app, (skipn_all2 l1) by lia. replace (length l1 + 1 - length l1)%nat with 1%nat by lia. cbn [skipn app].
    rewrite caesuras_snoc, sgn_add. unfold code_sign. rewrite mem_app. destruct (mem a l2) eqn:E2.
    + rewrite orb_true_r. eexists. split; [reflexivity|]. unfold bf_face_sign. rewrite E2. f_equal. rewrite sgn_1. ring.
    + rewrite orb_false_r. destruct (mem a l1) eqn:E1.
      * destruct (last_split _ _ E1) as (u & v & -> & N & EB). rewrite last_index by assumption. cbn [bind].
        rewrite py_get_zrange by (rewrite zlen_app, zlen_cons; pose proof (zlen_nonneg u); pose proof (zlen_nonneg v); lia). cbn [bind].
        eexists. split; [reflexivity|]. rewrite sgn_0, Z.mul_1_r. f_equal. f_equal. f_equal. rewrite <- app_assoc. cbn [app]. rewrite sigk_app. unfold code_sign, bf_face_sign.
        rewrite E2, EB. rewrite !mem_app. cbn [mem existsb]. rewrite Z.eqb_refl. cbn [orb]. rewrite !orb_true_r. 
        rewrite skipn_app, skipn_all, Nat.sub_diag. reflexivity.
      * eexists. split; [reflexivity|]. rewrite sgn_0, Z.mul_1_r. reflexivity.
  - reflexivity.
  - rewrite E. reflexivity.
Qed.
