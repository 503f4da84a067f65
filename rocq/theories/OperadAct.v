(** * Cutting simplices along composites of words.  Proof library. *)
From Coq Require Import Setoid Morphisms.
From Verif Require Import PyBase Dict FreeModule Symmetric Simplicial Utils Surjection Eqm Spec SpecChain SpecOperad SpecSurj SpecAction FreeModuleFacts FreeModuleLaws ListFacts
  ClassFacts LinearFacts BilFacts SymmetricFacts CycleFacts SymmetricLaws RingFacts Tensor TensorAct LoopFacts AW SimplicialFacts SimplicialDiag SurjFacts SurjBoundary SurjLaws SuspFacts
  SurjCompose SurjCompose2 SurjCompose3 SurjCompose4 ActFacts ActSign ActCore.

Definition St := Z -> list Z.
Definition feed (a : Z) (p : list Z) (st : St) : St := fun j => if j =? a then st j ++ p else st j.
(** Sum over the ways to cut [s] along the word [k]; the pieces are appended to the state. *)
Fixpoint A (k : list Z) (s : list Z) (F : St -> Z) (st : St) : Z :=
  match k with
  | [] => F st
  | a :: k' => match k' with [] => F (feed a s st) | _ => aw (fun f b => A k' b F (feed a f st)) s end
  end.
Lemma A_1 a s F st : A [a] s F st = F (feed a s st). Proof. reflexivity. Qed.
Lemma A_cons a k s F st : k <> [] -> A (a :: k) s F st = aw (fun f b => A k b F (feed a f st)) s.
Proof. destruct k; [congruence|reflexivity]. Qed.
Definition eqv (st st' : St) : Prop := forall j, st j = st' j.
Definition off (m : Z) (st st' : St) : Prop := forall j, j <> m -> st j = st' j.
Definition pr (E : St -> St -> Prop) (F : St -> Z) : Prop := forall st st', E st st' -> F st = F st'.
Lemma A_ext (E : St -> St -> Prop) k : (forall a p st st', In a k -> E st st' -> E (feed a p st) (feed a p st')) ->
  forall s F F' st st', (k = [] \/ forall st st', E st st' -> F st = F' st') -> (k = [] -> F st = F' st') -> E st st' -> A k s F st = A k s F' st'.
Proof.
  induction k as [|a k IH]; intros HE s F F' st st' HF H0 Hst; [now apply H0|]. destruct HF as [HF|HF]; [discriminate|].
  destruct k as [|b k]; [cbn [A]; apply HF, HE; [now left|exact Hst]|]. rewrite !A_cons by discriminate. apply aw_ext. intros l1 c l2 _.
  apply IH; [intros a' p s1 s2 Ha; apply HE; now right|now right|discriminate|apply HE; [now left|exact Hst]].
Qed.
Lemma A_ext' (E : St -> St -> Prop) k s F F' st st' : (forall a p st st', In a k -> E st st' -> E (feed a p st) (feed a p st')) ->
  (forall st st', E st st' -> F st = F' st') -> E st st' -> A k s F st = A k s F' st'.
Proof. intros HE HF Hst. apply (A_ext E); auto. Qed.
Lemma feed_eqv a p st st' : eqv st st' -> eqv (feed a p st) (feed a p st').
Proof. intros H j. unfold feed. now rewrite H. Qed.
Lemma feed_off m a p st st' : off m st st' -> off m (feed a p st) (feed a p st').
Proof. intros H j Nj. unfold feed. now rewrite H. Qed.
Lemma A_eqv k s F : pr eqv F -> pr eqv (A k s F).
Proof. intros HF st st' H. apply (A_ext' eqv); auto using feed_eqv. Qed.
Lemma A_off m k s F : pr (off m) F -> pr (off m) (A k s F).
Proof. intros HF st st' H. apply (A_ext' (off m)); auto using feed_off. Qed.
Lemma off_eqv m F : pr (off m) F -> pr eqv F.
Proof. intros H st st' E. apply H. intros j _. apply E. Qed.
Lemma A_sumf {B} k (G : B -> St -> Z) (l : list B) : forall s st, A k s (fun st => sumf (fun b => G b st) l) st = sumf (fun b => A k s (G b) st) l.
Proof.
  induction k as [|a k IH]; intros s st; [reflexivity|]. destruct k as [|b k]; [reflexivity|]. rewrite A_cons by discriminate.
  rewrite (sumf_ext (fun b0 => A (a :: b :: k) s (G b0) st) (fun b0 => aw (fun f b' => A (b :: k) b' (G b0) (feed a f st)) s)) by (intros; now rewrite A_cons by discriminate).
  rewrite <- aw_sumf. apply aw_ext. intros l1 c l2 _. apply IH.
Qed.
Lemma A_aw k (G : list Z -> list Z -> St -> Z) y s st : A k s (fun st => aw (fun f b => G f b st) y) st = aw (fun f b => A k s (G f b) st) y.
Proof.
  unfold aw. pose proof (A_sumf k (fun '(l1, a, l2) st => G (l1 ++ [a]) (a :: l2) st) (splits y) s st) as E.
  transitivity (A k s (fun st0 => sumf (fun b => (fun '(l1, a, l2) st1 => G (l1 ++ [a]) (a :: l2) st1) b st0) (splits y)) st); [|rewrite E; apply sumf_ext; now intros [[l1 a] l2] _].
  apply (A_ext' eq); [intros; congruence| |reflexivity]. intros s1 s2 ->. apply sumf_ext. now intros [[l1 a] l2] _.
Qed.
Lemma aw_exch {B D} (H : list B -> list B -> list D -> list D -> Z) s y : aw (fun f b => aw (fun f' b' => H f b f' b') y) s = aw (fun f' b' => aw (fun f b => H f b f' b') s) y.
Proof.
  unfold aw. transitivity (sumf (fun p => sumf (fun q => H (fst (fst p) ++ [snd (fst p)]) (snd (fst p) :: snd p) (fst (fst q) ++ [snd (fst q)]) (snd (fst q) :: snd q)) (splits y)) (splits s)).
  - apply sumf_ext. intros [[l1 a] l2] _. apply sumf_ext. now intros [[m1 c] m2] _.
  - rewrite sumf_exch. apply sumf_ext. intros [[m1 c] m2] _. apply sumf_ext. now intros [[l1 a] l2] _.
Qed.
Lemma aw_split {B} (H : list B -> list B -> Z) l m : aw H (l ++ m) = aw (fun f b => H f (b ++ m)) l + aw (fun f b => H (l ++ f) b) m.
Proof.
  unfold aw. rewrite sumf_splits_app. f_equal. apply sumf_ext. intros [[l1 b] l2] _. now rewrite app_assoc.
Qed.
(** concatenated words *)
Lemma A_app k1 k2 : k1 <> [] -> k2 <> [] -> forall s F st, A (k1 ++ k2) s F st = aw (fun f b => A k1 f (fun st => A k2 b F st) st) s.
Proof.
  intros N1 N2. induction k1 as [|a k1 IH]; intros s F st; [congruence|]. cbn [app]. destruct k1 as [|a' k1].
  - cbn [app]. rewrite A_cons by exact N2. reflexivity.
  - rewrite A_cons by discriminate. 
    transitivity (aw (fun f1 c => aw (fun f2 b => A (a' :: k1) f2 (fun st0 => A k2 b F st0) (feed a f1 st)) c) s).
    + apply aw_ext. intros l1 c l2 _. apply IH. discriminate.
    + rewrite <- (aw_coassoc (fun f1 f2 b => A (a' :: k1) f2 (fun st0 => A k2 b F st0) (feed a f1 st))). apply aw_ext. intros l1 c l2 _. now rewrite A_cons by discriminate.
Qed.
(** concatenated simplices *)
Lemma A_cut y : y <> [] -> forall B J F st, pr eqv F -> A y (B ++ J) F st = aw (fun Y1 Y2 => A Y1 B (fun st' => A Y2 J F st') st) y.
Proof.
  intros N. induction y as [|a y IH]; intros B J F st HF; [congruence|]. destruct y as [|a' y].
  - rewrite aw_cons, aw_nil, Z.add_0_r, !A_1. apply HF. intros j. unfold feed. destruct (j =? a); [now rewrite app_assoc|reflexivity].
  - rewrite A_cons by discriminate. rewrite aw_split, aw_cons, A_1, Z.add_comm. f_equal.
    + rewrite A_cons by discriminate. apply aw_ext. intros l1 c l2 _. apply A_eqv; [exact HF|]. intros j. unfold feed. destruct (j =? a); [now rewrite app_assoc|reflexivity].
    + transitivity (aw (fun f b => aw (fun Y1 Y2 => A Y1 b (fun st' => A Y2 J F st') (feed a f st)) (a' :: y)) B).
      { apply aw_ext. intros l1 c l2 _. apply IH; [discriminate|exact HF]. }
      rewrite (aw_exch (fun f b Y1 Y2 => A Y1 b (fun st' => A Y2 J F st') (feed a f st))). apply aw_ext. intros l1 c l2 _. rewrite A_cons; [reflexivity|now destruct l1].
Qed.
(** disjoint letters *)
Lemma feed_comm a b p q st : a <> b -> eqv (feed a p (feed b q st)) (feed b q (feed a p st)).
Proof. intros N j. unfold feed. destruct (Z.eqb_spec j a), (Z.eqb_spec j b); try reflexivity; congruence. Qed.
Lemma A_comm a p k s F st : ~ In a k -> pr eqv F -> A k s F (feed a p st) = A k s (fun st => F (feed a p st)) st.
Proof.
  intros Na HF. apply (A_ext' (fun s1 s2 => eqv s1 (feed a p s2))).
  - intros b q s1 s2 Hb E j. rewrite (feed_eqv b q _ _ E j). apply feed_comm. congruence.
  - intros s1 s2 E. now apply HF.
  - intros j. reflexivity.
Qed.
Lemma A_fubini k1 k2 : (forall c, In c k1 -> ~ In c k2) -> forall s1 s2 H st, pr eqv H -> A k1 s1 (fun st => A k2 s2 H st) st = A k2 s2 (fun st => A k1 s1 H st) st.
Proof.
  induction k1 as [|a k1 IH]; intros D s1 s2 H st HH; [reflexivity|]. pose proof (D a (or_introl eq_refl)) as Da. destruct k1 as [|a' k1].
  - rewrite A_1. now apply A_comm.
  - rewrite A_cons by discriminate. transitivity (aw (fun f b => A k2 s2 (fun st => A (a' :: k1) b H (feed a f st)) st) s1).
    + apply aw_ext. intros l1 c l2 _. rewrite IH by (auto; intros c' Hc; apply D; now right). rewrite A_comm by (auto using A_eqv). reflexivity.
    + rewrite <- (A_aw k2 (fun f b st => A (a' :: k1) b H (feed a f st))). apply (A_ext' eq); [intros; congruence| |reflexivity]. intros s3 s4 ->. now rewrite A_cons by discriminate.
Qed.

(** ** composites without signs *)
Fixpoint NC (m : Z) (g : list Z -> Z) (u y : list Z) : Z :=
  match u with
  | [] => g []
  | a :: u' =>
      if a =? m then (if mem m u' then aw (fun Y1 Y2 => NC m (fun w => g (Y1 ++ w)) u' Y2) y else g (y ++ u'))
      else NC m (fun w => g (a :: w)) u' y
  end.
Lemma Cc_NC m u : forall g y, eqm 2 (Cc m g u y) (NC m g u y).
Proof.
  induction u as [|a u IH]; intros g y; [now rewrite Cc_nil|]. cbn [NC]. destruct (Z.eqb_spec a m) as [->|Na]; [|rewrite Cc_other by exact Na; apply IH].
  destruct (mem m u) eqn:E.
  - rewrite Cc_unroll by exact E. unfold aw. apply sumf_eqm. intros [[Y1 b] Y2] _. rewrite sgn_eqm2, Z.mul_1_l, IH. 
    apply eqm_eq. assert (X : forall v g g', (forall w, g w = g' w) -> forall y, NC m g v y = NC m g' v y).
    { clear. induction v as [|a v IH]; intros g g' H y; [apply H|]. cbn [NC]. destruct (a =? m); [destruct (mem m v); [apply aw_ext; intros; apply IH; intros; apply H|apply H]|apply IH; intros; apply H]. }
    apply X. intros w. now rewrite <- app_assoc.
  - rewrite Cc_last by exact E. now rewrite sgn_eqm2, Z.mul_1_l.
Qed.
Lemma A_inv_ext (I : St -> Prop) k s F F' st : (forall a p st, In a k -> I st -> I (feed a p st)) -> I st -> (forall st, I st -> F st = F' st) -> A k s F st = A k s F' st.
Proof.
  intros HI H0 HF. apply (A_ext' (fun s1 s2 => s1 = s2 /\ I s1)); [intros a p s1 s2 Ha [-> E]; split; auto|intros s1 s2 [-> E]; auto|auto].
Qed.
Lemma feed_other m a p st : a <> m -> feed a p st m = st m. Proof. intros N. unfold feed. now rewrite (proj2 (Z.eqb_neq _ _)) by congruence. Qed.
Lemma pr_at m Y F : pr (off m) F -> pr eqv (fun st => A Y (st m) F st).
Proof. intros HF s1 s2 E. rewrite (E m). apply A_eqv; [eapply off_eqv; eauto|exact E]. Qed.
Lemma NC_ext_ne m v : forall g g' y', (forall w, w <> [] -> g w = g' w) -> mem m v = true -> y' <> [] -> NC m g v y' = NC m g' v y'.
Proof.
  induction v as [|a v IH]; intros g g' y H Hv Ny; [discriminate|]. cbn [NC]. cbn [mem existsb] in Hv. destruct (Z.eqb_spec a m) as [->|N].
  - destruct (mem m v) eqn:E; [apply aw_ext; intros l1 c l2 _; apply IH; [intros w Nw; apply H; now destruct l1|reflexivity|discriminate]|apply H; now destruct y].
  - rewrite (proj2 (Z.eqb_neq m a)) in Hv by congruence. apply IH; auto. intros w Nw. apply H. discriminate.
Qed.
Lemma NC_aw m v : forall (G : list Z -> list Z -> list Z -> Z) (y' s' : list Z), NC m (fun w => aw (fun B t => G B t w) s') v y' = aw (fun B t => NC m (G B t) v y') s'.
Proof.
  induction v as [|a v IH]; intros G y' s'; [reflexivity|]. cbn [NC]. destruct (a =? m); [destruct (mem m v)|].
  - rewrite (aw_exch (fun B t Y1 Y2 => NC m (fun w => G B t (Y1 ++ w)) v Y2)). apply aw_ext. intros l1 c l2 _. apply (IH (fun B t w => G B t ((l1 ++ [c]) ++ w))).
  - reflexivity.
  - apply (IH (fun B t w => G B t (a :: w))).
Qed.
Lemma NC_A m k v : forall (y' s1 : list Z) (st0 : St) (G : list Z -> St -> Z), NC m (fun w => A k s1 (G w) st0) v y' = A k s1 (fun st1 => NC m (fun w => G w st1) v y') st0.
Proof.
  induction v as [|a v IH]; intros y' s1 st0 G; [reflexivity|]. cbn [NC]. destruct (a =? m); [destruct (mem m v)|].
  - rewrite (A_aw k (fun Y1 Y2 st1 => NC m (fun w => G (Y1 ++ w) st1) v Y2)). apply aw_ext. intros l1 c l2 _. apply (IH _ _ _ (fun w => G ((l1 ++ [c]) ++ w))).
  - reflexivity.
  - apply (IH _ _ _ (fun w => G (a :: w))).
Qed.
(** Cutting along a composite is cutting along [u], collecting the pieces of the
    letter [m], and cutting these along [y]. *)
Lemma NC_act m F : pr (off m) F -> forall u, mem m u = true -> forall y s st, dj m u y -> y <> [] -> st m = [] ->
  NC m (fun w => A w s F st) u y = A u s (fun st => A y (st m) F st) st.
Proof.
  intros HF. pose proof (off_eqv m F HF) as HFe. induction u as [|a u IH]; intros Hm y s st D Ny Hst; [discriminate|]. cbn [NC].
  assert (Dy : ~ In m y) by apply D.
  destruct (Z.eqb_spec a m) as [->|Na].
  - destruct (mem m u) eqn:E.
    + assert (Nu : u <> []) by (intros ->; discriminate).
      rewrite A_cons by exact Nu.
      transitivity (aw (fun Y1 Y2 => aw (fun B t => A Y1 B (fun st => A u t (fun st => A Y2 (st m) F st) st) st) s) y).
      * apply aw_ext. intros l1 b l2 Ey.
        assert (D2 : dj m u (b :: l2)) by (eapply dj_supp; [| |exact D]; [intros; now right|intros c Hc; rewrite Ey; apply in_app_iff; now right]).
        rewrite (NC_ext_ne m u (fun w => A ((l1 ++ [b]) ++ w) s F st) (fun w => aw (fun B t => A (l1 ++ [b]) B (fun st => A w t F st) st) s)); [|intros w Nw; apply A_app; [now destruct l1|exact Nw]|exact E|discriminate].
        rewrite (NC_aw m u (fun B t w => A (l1 ++ [b]) B (fun st => A w t F st) st)). apply aw_ext. intros p1 c p2 _.
        rewrite (NC_A m (l1 ++ [b]) u (b :: l2) (p1 ++ [c]) st (fun w st => A w (c :: p2) F st)).
        apply (A_inv_ext (fun st => st m = [])); [|exact Hst|intros st1 H1; apply IH; auto; discriminate].
        intros a' p st1 Ha H1. rewrite feed_other; [exact H1|]. intros ->. apply Dy. rewrite Ey. apply in_app_iff in Ha. apply in_app_iff. destruct Ha as [Ha|[<-|[]]]; [now left|right; now left].
      * rewrite (aw_exch (fun Y1 Y2 B t => A Y1 B (fun st => A u t (fun st => A Y2 (st m) F st) st) st)). apply aw_ext. intros p1 c p2 _.
        set (B := p1 ++ [c]). set (t := c :: p2).
        transitivity (A u t (fun st => A y (B ++ st m) F st) st).
        -- transitivity (A u t (fun st => aw (fun Y1 Y2 => A Y1 B (fun st => A Y2 (st m) F st) st) y) st).
           ++ rewrite (A_aw u (fun Y1 Y2 st => A Y1 B (fun st => A Y2 (st m) F st) st)). apply aw_ext. intros l1 b l2 Ey.
              symmetry. apply A_fubini; [|now apply pr_at]. intros c' Hc Hc'. assert (In c' y) by (rewrite Ey; apply in_app_iff in Hc'; apply in_app_iff; destruct Hc' as [?|[<-|[]]]; [now left|right; now left]).
              destruct (Z.eq_dec c' m) as [->|N]; [contradiction|]. apply (proj1 D c'); auto. now right.
           ++ apply (A_inv_ext (fun _ => True)); auto. intros st1 _. rewrite A_cut by assumption. apply aw_ext. intros l1 b l2 Ey.
              apply (A_inv_ext (fun st => st m = st1 m)); [|reflexivity|now intros st2 ->]. intros a' p st2 Ha H2. rewrite feed_other; [exact H2|]. intros ->. apply Dy. rewrite Ey. apply in_app_iff in Ha. apply in_app_iff. destruct Ha as [Ha|[<-|[]]]; [now left|right; now left].
        -- apply (A_ext' (fun s1 s2 => off m s1 s2 /\ s2 m = B ++ s1 m)).
           ++ intros a' p s1 s2 _ [E1 E2]. split; [now apply feed_off|]. unfold feed. rewrite E2. destruct (m =? a'); [now rewrite app_assoc|reflexivity].
           ++ intros s1 s2 [E1 E2]. rewrite E2. now apply (A_off m).
           ++ split; [intros j Nj; unfold feed; now rewrite (proj2 (Z.eqb_neq _ _) Nj)|]. unfold feed. now rewrite Z.eqb_refl, Hst, app_nil_r.
    + destruct u as [|a' u'].
      * rewrite app_nil_r, A_1. replace (feed m s st m) with s by (unfold feed; now rewrite Z.eqb_refl, Hst). apply (A_off m); [exact HF|]. intros j Nj. unfold feed. now rewrite (proj2 (Z.eqb_neq _ _) Nj).
      * set (u := a' :: u') in *. rewrite A_app, A_cons by (auto; discriminate). apply aw_ext. intros p1 c p2 _.
        rewrite <- A_fubini; [|intros c' Hc Hy|exact HFe].
        2:{ destruct (Z.eq_dec c' m) as [->|N]; [contradiction|]. apply (proj1 D c'); auto. now right. }
        apply (A_ext' (fun s1 s2 => off m s1 s2 /\ s2 m = p1 ++ [c])).
        -- intros b p s1 s2 Hb [E1 E2]. split; [now apply feed_off|]. rewrite feed_other; [exact E2|]. intros ->. apply mem_in in Hb. congruence.
        -- intros s1 s2 [E1 E2]. rewrite E2. now apply (A_off m).
        -- split; [intros j Nj; unfold feed; now rewrite (proj2 (Z.eqb_neq _ _) Nj)|]. unfold feed. now rewrite Z.eqb_refl, Hst.
  - cbn [mem existsb] in Hm. rewrite (proj2 (Z.eqb_neq m a)) in Hm by congruence. cbn [orb] in Hm. change (mem m u = true) in Hm.
    assert (Nu : u <> []) by (intros ->; discriminate). rewrite A_cons by exact Nu.
    rewrite (NC_ext_ne m u _ (fun w => aw (fun f b => A w b F (feed a f st)) s)); [|intros w Nw; now apply A_cons|exact Hm|exact Ny].
    rewrite (NC_aw m u (fun f b w => A w b F (feed a f st))). apply aw_ext. intros p1 c p2 _. apply IH; auto; [eapply dj_tl; eauto|]. now rewrite feed_other.
Qed.
Lemma A_rel (E : St -> St -> Prop) f t k : (forall a p st st', In a k -> E st st' -> E (feed a p st) (feed (f a) p st')) ->
  forall s F F' st st', (forall st st', E st st' -> eqm t (F st) (F' st')) -> E st st' -> eqm t (A k s F st) (A (map f k) s F' st').
Proof.
  induction k as [|a k IH]; intros HE s F F' st st' HF Hst; [now apply HF|].
  destruct k as [|b k]; [cbn [A map]; apply HF, HE; [now left|exact Hst]|]. cbn [map]. rewrite !A_cons by discriminate. unfold aw. apply sumf_eqm. intros [[l1 c] l2] _.
  apply (IH ltac:(intros a' p s1 s2 Ha; apply HE; now right)); auto. apply HE; [now left|exact Hst].
Qed.
Lemma A_S k : k <> [] -> forall s F st, pr eqv F -> S (length k - 1) (fun u => F (fun j => st j ++ joined j (combine k u))) s = A k s F st.
Proof.
  intros N. induction k as [|a k IH]; intros s F st HF; [congruence|]. destruct k as [|b k].
  - cbn [length Nat.sub S A]. apply HF. intros j. cbn [combine]. rewrite joined_cons. unfold joined. cbn [filter map concat]. unfold feed. rewrite app_nil_r, (Z.eqb_sym a j). destruct (j =? a); [reflexivity|now rewrite app_nil_r].
  - rewrite A_cons by discriminate. cbn [length]. replace (Datatypes.S (Datatypes.S (length k)) - 1)%nat with (Datatypes.S (length k)) by lia.
    change (S (Datatypes.S (length k)) ?G s) with (aw (fun f c => S (length k) (fun u => G (f :: u)) c) s). apply aw_ext. intros l1 c l2 _. rewrite <- IH by (auto; discriminate).
    cbn [length]. replace (Datatypes.S (length k) - 1)%nat with (length k) by lia. apply S_ext. intros u. apply HF. intros j. cbn [combine]. rewrite joined_cons. unfold feed. rewrite (Z.eqb_sym a j).
    destruct (j =? a); [now rewrite app_assoc|reflexivity].
Qed.
Lemma Phi_A r coord g k l1 s l2 : k <> [] -> zlen l1 = coord - 1 ->
  eqm 2 (Phi r coord g k (l1 ++ s :: l2)) (A k s (fun st => g (l1 ++ map st (zrange 1 (r + 1)) ++ l2)) (fun _ => [])).
Proof.
  intros Nk E1. rewrite Phi_app by exact E1. rewrite sgn_eqm2, Z.mul_1_l.
  rewrite <- A_S; [|exact Nk|intros s1 s2 Es; f_equal; f_equal; f_equal; apply map_ext; intros; apply Es].
  rewrite !S_sum. apply sumf_eqm. intros u _. unfold T1. rewrite sgn_eqm2, Z.mul_1_l. reflexivity.
Qed.
Lemma NC_eqm t m v : forall g g' y', (forall w, w <> [] -> eqm t (g w) (g' w)) -> mem m v = true -> y' <> [] -> eqm t (NC m g v y') (NC m g' v y').
Proof.
  induction v as [|a v IH]; intros g g' y H Hv Ny; [discriminate|]. cbn [NC]. cbn [mem existsb] in Hv. destruct (Z.eqb_spec a m) as [->|N].
  - destruct (mem m v) eqn:E; [unfold aw; apply sumf_eqm; intros [[l1 c] l2] _; apply IH; [intros w Nw; apply H; now destruct l1|reflexivity|discriminate]|apply H; now destruct y].
  - rewrite (proj2 (Z.eqb_neq m a)) in Hv by congruence. apply IH; auto. intros w Nw. apply H. discriminate.
Qed.
Lemma zrange_shift c a b : map (fun j => j + c) (zrange a b) = zrange (a + c) (b + c).
Proof. unfold zrange. rewrite map_map. replace (b + c - (a + c)) with (b - a) by lia. apply map_ext. intros; lia. Qed.
(** The action of a composite is the composite of the actions, modulo 2. *)
Lemma Phi_compose n1 n2 i co g k1 k2 K : 1 <= i <= n1 -> 1 <= n2 -> onto n1 k1 -> onto n2 k2 -> 1 <= co <= zlen K ->
  eqm 2 (Pc i n2 (fun w => Phi (n1 + n2 - 1) co g w K) k1 k2) (Phi n1 co (fun L => Phi n2 (co + i - 1) g k2 L) k1 K).
Proof.
  intros Hi Hn2 O1 O2 Hco. destruct (split_at K (co - 1)) as (l1 & s & l2 & -> & E1); [lia|]. clear Hco.
  assert (N1 : k1 <> []) by (apply (onto_ne n1); auto; lia). assert (N2 : k2 <> []) by (apply (onto_ne n2); auto; lia).
  rewrite (Pc_Cc 0 i n2 _ k1 k2 n1) by (auto; lia). rewrite Cc_NC.
  set (U := map (lift1 0 i n2) k1). set (Y := map (sh i) k2).
  set (F := fun st : St => g (l1 ++ map st (zrange 1 (n1 + n2 - 1 + 1)) ++ l2)).
  assert (HF : pr (off 0) F). { intros s1 s2 Es. unfold F. f_equal. f_equal. f_equal. apply map_ext_in. intros j Hj. apply in_zrange in Hj. apply Es. lia. }
  assert (MU : mem 0 U = true). { unfold U. rewrite lift1_mem; [|lia|lia|lia|eapply onto_pos; eauto]. apply (mem_onto n1); auto. }
  assert (NY : Y <> []) by (unfold Y; destruct k2; [congruence|discriminate]).
  rewrite (NC_eqm 2 0 U _ (fun w => A w s F (fun _ => []))); [|intros w Nw; now apply Phi_A|exact MU|exact NY].
  rewrite (NC_act 0 F HF U MU Y s (fun _ => [])); [|apply (lift_dj 0 i n2 k1 k2 n1); auto; lia|exact NY|reflexivity].
  rewrite (Phi_A n1 co) by auto. symmetry.
  set (E := fun st st' : St => (forall a, 1 <= a <= n1 -> st' (lift1 0 i n2 a) = st a) /\ (forall c, 1 <= c <= n2 -> st' (sh i c) = [])).
  apply (A_rel E (lift1 0 i n2) 2 k1).
  - intros a p st st' Ha [H1 H2]. apply O1 in Ha. split.
    + intros b Hb. unfold feed. rewrite (H1 b Hb). destruct (Z.eqb_spec b a) as [->|N]; [now rewrite Z.eqb_refl|].
      destruct (Z.eqb_spec (lift1 0 i n2 b) (lift1 0 i n2 a)) as [Eq|]; [|reflexivity]. exfalso. apply N. apply (lift1_inj 0 i n2); auto; lia.
    + intros c Hc. unfold feed. rewrite (H2 c Hc). destruct (Z.eqb_spec (sh i c) (lift1 0 i n2 a)) as [Eq|]; [|reflexivity].
      exfalso. unfold sh, lift1, up in Eq. destruct (Z.eqb_spec a i); [lia|]. destruct (Z.ltb_spec a i); lia.
  - intros st st' [H1 H2].
    rewrite (zrange_split 1 (n1 + 1) i) by lia. rewrite map_app. cbn [map].
    replace (l1 ++ (map st (zrange 1 i) ++ st i :: map st (zrange (i + 1) (n1 + 1))) ++ l2) with ((l1 ++ map st (zrange 1 i)) ++ st i :: (map st (zrange (i + 1) (n1 + 1)) ++ l2)) by (rewrite <- !app_assoc; reflexivity).
    rewrite (Phi_A n2 (co + i - 1)) by (auto; rewrite zlen_app, zlen_map, zlen_zrange; lia).
    replace (st i) with (st' 0) by (rewrite <- (H1 i) by lia; now rewrite lift1_i).
    apply (A_rel (fun s1 s2 => (forall c, 1 <= c <= n2 -> s2 (sh i c) = s1 c) /\ (forall j, (forall c, 1 <= c <= n2 -> j <> sh i c) -> s2 j = st' j)) (sh i) 2 k2).
    + intros a p s1 s2 Ha [G1 G2]. apply O2 in Ha. split.
      * intros c Hc. unfold feed. rewrite (G1 c Hc). destruct (Z.eqb_spec c a) as [->|N]; [now rewrite Z.eqb_refl|]. destruct (Z.eqb_spec (sh i c) (sh i a)) as [Eq|]; [|reflexivity]. apply sh_inj in Eq. congruence.
      * intros j Hj. unfold feed. rewrite (proj2 (Z.eqb_neq _ _) (Hj a Ha)). now apply G2.
    + intros s1 s2 [G1 G2]. apply eqm_eq. unfold F. f_equal. rewrite <- app_assoc. f_equal.
      rewrite (zrange_app 1 i (n1 + n2 - 1 + 1)), (zrange_app i (i + n2) (n1 + n2 - 1 + 1)) by lia. rewrite !map_app, <- !app_assoc.
      assert (M1 : map st (zrange 1 i) = map s2 (zrange 1 i)).
      { apply map_ext_in. intros j Hj. apply in_zrange in Hj. rewrite G2 by (intros c Hc; unfold sh; lia). rewrite <- (H1 j) by lia. f_equal. unfold lift1, up. destruct (Z.eqb_spec j i); [lia|]. destruct (Z.ltb_spec j i); lia. }
      assert (M2 : map s1 (zrange 1 (n2 + 1)) = map s2 (zrange i (i + n2))).
      { replace (zrange i (i + n2)) with (zrange (1 + (i - 1)) (n2 + 1 + (i - 1))) by (f_equal; lia). rewrite <- zrange_shift, map_map. apply map_ext_in. intros c Hc. apply in_zrange in Hc. rewrite <- (G1 c) by lia. f_equal. unfold sh. lia. }
      assert (M3 : map st (zrange (i + 1) (n1 + 1)) = map s2 (zrange (i + n2) (n1 + n2 - 1 + 1))).
      { replace (zrange (i + n2) (n1 + n2 - 1 + 1)) with (zrange (i + 1 + (n2 - 1)) (n1 + 1 + (n2 - 1))) by (f_equal; lia). rewrite <- (zrange_shift (n2 - 1)), map_map. apply map_ext_in. intros j Hj. apply in_zrange in Hj.
        rewrite G2 by (intros c Hc; unfold sh; lia). rewrite <- (H1 j) by lia. f_equal. unfold lift1, up. destruct (Z.eqb_spec j i); [lia|]. destruct (Z.ltb_spec j i); lia. }
      rewrite M1, M2, M3. reflexivity.
    + split; [|auto]. intros c Hc. now apply H2.
  - split; reflexivity.
Qed.
