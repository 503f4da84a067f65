(** * The complexity filtration of the Barratt-Eccles operad (C82) *)
From Verif Require Import PyBase Dict FreeModule Symmetric Simplicial Utils Surjection BarrattEccles Eqm Spec SpecChain SpecOperad SpecSurj FreeModuleFacts FreeModuleLaws ListFacts
  ClassFacts LinearFacts SymmetricFacts CycleFacts RingFacts BEFacts BELaws BELaws2 EZ BECompose BELaws4 SurjFacts SurjBoundary SurjLaws SurjLaws3 TableFacts TableFacts3 TableLaws.

(** ** the order of two letters *)
Fixpoint ord (i j : Z) (l : list Z) : bool :=
  match l with [] => false | a :: l' => if a =? i then true else if a =? j then false else ord i j l' end.
Lemma position_pos l v : In v l -> 1 <= position l v.
Proof. induction l as [|a l IH]; [intros []|]. cbn [position]. destruct (Z.eqb_spec a v); [lia|]. intros [->|Hv]; [congruence|]. specialize (IH Hv). lia. Qed.
Lemma before_ord i j l : i <> j -> In i l -> In j l -> before i j l = ord i j l.
Proof.
  intros N. induction l as [|a l IH]; [intros []|]. intros Hi Hj. unfold before in *. cbn [position ord]. destruct (Z.eqb_spec a i) as [->|Ni].
  - destruct (Z.eqb_spec i j); [contradiction|]. destruct Hj as [->|Hj]; [congruence|]. apply position_pos in Hj. apply Z.ltb_lt. lia.
  - destruct Hi as [->|Hi]; [congruence|]. destruct (Z.eqb_spec a j) as [->|Nj].
    + apply position_pos in Hi. apply Z.ltb_ge. lia.
    + destruct Hj as [->|Hj]; [congruence|]. rewrite <- (IH Hi Hj). destruct (Z.ltb_spec (position l i) (position l j)); [apply Z.ltb_lt|apply Z.ltb_ge]; lia.
Qed.
Lemma ord_app i j u v : ord i j (u ++ v) = if existsb (fun a => (a =? i) || (a =? j)) u then ord i j u else ord i j v.
Proof. induction u as [|a u IH]; [reflexivity|]. cbn [app ord existsb]. destruct (a =? i); [reflexivity|]. destruct (a =? j); [reflexivity|]. cbn [orb]. exact IH. Qed.
Lemma ord_map (f : Z -> Z) i j l : (forall a, In a l -> (f a = f i <-> a = i) /\ (f a = f j <-> a = j)) -> ord (f i) (f j) (map f l) = ord i j l.
Proof.
  induction l as [|a l IH]; intros H; [reflexivity|]. cbn [map ord]. destruct (H a (or_introl eq_refl)) as [H1 H2]. rewrite IH by (intros; apply H; now right).
  destruct (Z.eqb_spec (f a) (f i)), (Z.eqb_spec a i); try tauto. destruct (Z.eqb_spec (f a) (f j)), (Z.eqb_spec a j); tauto.
Qed.
Fixpoint bch (l : list bool) : Z := match l with a :: ((b :: _) as l') => (if Bool.eqb a b then 0 else 1) + bch l' | _ => 0 end.
Lemma oc_bch i j k : order_changes i j k = bch (map (before i j) k).
Proof. induction k as [|p [|q k] IH]; try reflexivity. cbn [map] in *. change (order_changes i j (p :: q :: k)) with ((if Bool.eqb (before i j p) (before i j q) then 0 else 1) + order_changes i j (q :: k)). now rewrite IH. Qed.
Lemma oc_ord i j k : i <> j -> (forall p, In p k -> In i p /\ In j p) -> order_changes i j k = bch (map (ord i j) k).
Proof. intros N H. rewrite oc_bch. f_equal. apply map_ext_in. intros p Hp. apply before_ord; [exact N| |]; now apply H. Qed.
Lemma bch_nonneg l : 0 <= bch l.
Proof. induction l as [|a [|b l] IH]; try (cbn; lia). change (bch (a :: b :: l)) with ((if Bool.eqb a b then 0 else 1) + bch (b :: l)). destruct (Bool.eqb a b); lia. Qed.
Lemma bch_cons2 a b l : bch (a :: b :: l) = (if Bool.eqb a b then 0 else 1) + bch (b :: l). Proof. reflexivity. Qed.
Lemma bch_hd a b l : bch (a :: l) <= (if Bool.eqb a b then 0 else 1) + bch (b :: l).
Proof. destruct l as [|c l]; [destruct a, b; cbn; lia|]. rewrite !bch_cons2. destruct a, b, c; cbn [Bool.eqb]; lia. Qed.
Lemma bch_tl a l : bch l <= bch (a :: l).
Proof. destruct l as [|c l]; [cbn; lia|]. rewrite bch_cons2. destruct (Bool.eqb a c); lia. Qed.
Lemma bch_del u : forall a v, bch (u ++ v) <= bch (u ++ a :: v).
Proof.
  induction u as [|b u IH]; intros a v; [apply bch_tl|]. destruct u as [|c u].
  - cbn [app]. rewrite bch_cons2. apply bch_hd.
  - cbn [app]. rewrite !bch_cons2. specialize (IH a v). cbn [app] in IH. lia.
Qed.

(** ** lattice paths *)
Section Paths.
Context {X Y W : Type}.
Variables (f : X -> Y -> W) (beta : W -> bool).
Lemma path_l (alpha : X -> bool) A : forall B, (forall a b, In a A -> In b B -> beta (f a b) = alpha a) -> forall w s, In (w, s) (grid_paths f A B) -> bch (map beta w) = bch (map alpha A).
Proof.
  induction A as [|a A IHA]; [intros B _ w s []|]. induction B as [|b B IHB]; intros H w s Hin; [destruct Hin|].
  cbn [grid_paths] in Hin. apply in_app_iff in Hin. destruct Hin as [Hin|Hin]; [|apply in_app_iff in Hin; destruct Hin as [Hin|Hin]].
  - destruct A; [|destruct Hin]. destruct B; [|destruct Hin]. destruct Hin as [[= <- _]|[]]. reflexivity.
  - apply in_map_iff in Hin. destruct Hin as ([w' s'] & [= <- _] & Hin). pose proof (grid_in f A (b :: B) w' s' Hin) as (_ & _ & a' & A' & b' & B' & w'' & EA & EB & Ew). injection EB as <- <-. subst A w'.
    specialize (IHA (b :: B) ltac:(intros; apply H; [now right|assumption]) _ _ Hin). cbn [map] in *. rewrite !bch_cons2, IHA, !H by (cbn; tauto). reflexivity.
  - apply in_map_iff in Hin. destruct Hin as ([w' s'] & [= <- _] & Hin). pose proof (grid_in f (a :: A) B w' s' Hin) as (_ & _ & a' & A' & b' & B' & w'' & EA & EB & Ew). injection EA as <- <-. subst B w'.
    specialize (IHB ltac:(intros; apply H; [assumption|now right]) _ _ Hin). cbn [map] in *. rewrite bch_cons2, IHB, !H by (cbn; tauto). now rewrite Bool.eqb_reflx.
Qed.
Lemma path_r (alpha : Y -> bool) A : forall B, (forall a b, In a A -> In b B -> beta (f a b) = alpha b) -> forall w s, In (w, s) (grid_paths f A B) -> bch (map beta w) = bch (map alpha B).
Proof.
  induction A as [|a A IHA]; [intros B _ w s []|]. induction B as [|b B IHB]; intros H w s Hin; [destruct Hin|].
  cbn [grid_paths] in Hin. apply in_app_iff in Hin. destruct Hin as [Hin|Hin]; [|apply in_app_iff in Hin; destruct Hin as [Hin|Hin]].
  - destruct A; [|destruct Hin]. destruct B; [|destruct Hin]. destruct Hin as [[= <- _]|[]]. reflexivity.
  - apply in_map_iff in Hin. destruct Hin as ([w' s'] & [= <- _] & Hin). pose proof (grid_in f A (b :: B) w' s' Hin) as (_ & _ & a' & A' & b' & B' & w'' & EA & EB & Ew). injection EB as <- <-. subst A w'.
    specialize (IHA (b :: B) ltac:(intros; apply H; [now right|assumption]) _ _ Hin). cbn [map] in *. rewrite bch_cons2, IHA, !H by (cbn; tauto). now rewrite Bool.eqb_reflx.
  - apply in_map_iff in Hin. destruct Hin as ([w' s'] & [= <- _] & Hin). pose proof (grid_in f (a :: A) B w' s' Hin) as (_ & _ & a' & A' & b' & B' & w'' & EA & EB & Ew). injection EA as <- <-. subst B w'.
    specialize (IHB ltac:(intros; apply H; [assumption|now right]) _ _ Hin). cbn [map] in *. rewrite !bch_cons2, IHB, !H by (cbn; tauto). reflexivity.
Qed.
End Paths.

(** ** letters of a composite *)
Definition collapse (i n a : Z) : Z := if a <? i then a else if a <? i + n then i else a - n + 1.
Lemma in_graft b n i c a : perm n b -> zlen b = n -> 1 <= i -> 1 <= n -> (In a (graft b i c) <-> collapse i n a = c).
Proof.
  intros Hb Lb Hi Hn. unfold graft, collapse. destruct (Z.eqb_spec c i) as [->|Nc].
  - rewrite in_map_iff. split.
    + intros (y & <- & Hy). apply (perm_in n b y Hb) in Hy. destruct (Z.ltb_spec (y + i - 1) i); [lia|]. destruct (Z.ltb_spec (y + i - 1) (i + n)); lia.
    + intros E. exists (a - i + 1). split; [lia|]. apply (perm_in n b _ Hb). destruct (Z.ltb_spec a i); [lia|]. destruct (Z.ltb_spec a (i + n)); lia.
  - destruct (Z.ltb_spec i c); cbn [In]; rewrite ?Lb; destruct (Z.ltb_spec a i), (Z.ltb_spec a (i + n)); split; intros; try (left; lia); try lia; destruct H0 as [H0|[]]; lia.
Qed.
Lemma ord_graft_out b n i c a a' : perm n b -> zlen b = n -> 1 <= i -> 1 <= n -> collapse i n a <> collapse i n a' ->
  existsb (fun x => (x =? a) || (x =? a')) (graft b i c) = ((c =? collapse i n a) || (c =? collapse i n a')) /\
  (c = collapse i n a -> ord a a' (graft b i c) = true) /\ (c = collapse i n a' -> ord a a' (graft b i c) = false).
Proof.
  intros Hb Lb Hi Hn N. pose proof (fun x => in_graft b n i c x Hb Lb Hi Hn) as G.
  assert (O : forall l, (In a l -> ~ In a' l -> ord a a' l = true) /\ (~ In a l -> ord a a' l = false)).
  { induction l as [|x l [IH1 IH2]]; [split; [intros []|reflexivity]|]. cbn [ord In]. split.
    - intros Ha Na. destruct (Z.eqb_spec x a); [reflexivity|]. destruct (Z.eqb_spec x a'); [tauto|]. apply IH1; tauto.
    - intros Na. destruct (Z.eqb_spec x a); [tauto|]. destruct (Z.eqb_spec x a'); [reflexivity|]. apply IH2; tauto. }
  split; [|split].
  - destruct (existsb _ (graft b i c)) eqn:E.
    + apply existsb_exists in E. destruct E as (x & Hx & E). apply orb_prop in E. symmetry. apply orb_true_iff. destruct E as [E|E]; apply Z.eqb_eq in E; subst x; apply G in Hx; subst c; rewrite Z.eqb_refl; auto.
    + symmetry. apply orb_false_iff. split; apply Z.eqb_neq; intros ->.
      * assert (In a (graft b i (collapse i n a))) as Ha by now apply G. assert (X : existsb (fun x => (x =? a) || (x =? a')) (graft b i (collapse i n a)) = true) by (apply existsb_exists; exists a; split; [exact Ha|now rewrite Z.eqb_refl]). congruence.
      * assert (In a' (graft b i (collapse i n a'))) as Ha by now apply G. assert (X : existsb (fun x => (x =? a) || (x =? a')) (graft b i (collapse i n a')) = true) by (apply existsb_exists; exists a'; split; [exact Ha|rewrite Z.eqb_refl; apply orb_true_r]). congruence.
  - intros E. apply (O (graft b i c)); rewrite G; congruence.
  - intros E. apply (O (graft b i c)); rewrite G; congruence.
Qed.
Lemma ord_out a b n i x x' : perm n b -> zlen b = n -> 1 <= i -> 1 <= n -> collapse i n x <> collapse i n x' ->
  ord x x' (insert_at i a b) = ord (collapse i n x) (collapse i n x') a.
Proof.
  intros Hb Lb Hi Hn N. unfold insert_at. induction a as [|c a IH]; [reflexivity|]. cbn [flat_map ord]. rewrite ord_app, IH.
  destruct (ord_graft_out b n i c x x' Hb Lb Hi Hn N) as (E1 & E2 & E3). rewrite E1. destruct (Z.eqb_spec c (collapse i n x)); [cbn [orb]; auto|]. destruct (Z.eqb_spec c (collapse i n x')); cbn [orb]; auto.
Qed.
Lemma ord_in a b n i x x' : perm n b -> zlen b = n -> 1 <= i -> 1 <= n -> In i a -> collapse i n x = i -> collapse i n x' = i -> 
  ord x x' (insert_at i a b) = ord (x - i + 1) (x' - i + 1) b.
Proof.
  intros Hb Lb Hi Hn Ia Ex Ex'. unfold insert_at. induction a as [|c a IH]; [destruct Ia|]. cbn [flat_map]. rewrite ord_app.
  destruct (Z.eq_dec c i) as [->|Nc].
  - assert (Hx : In x (graft b i i)) by now apply (in_graft b n i i x). 
    assert (X : existsb (fun u => (u =? x) || (u =? x')) (graft b i i) = true) by (apply existsb_exists; exists x; split; [exact Hx|now rewrite Z.eqb_refl]). rewrite X.
    unfold graft. rewrite Z.eqb_refl. replace x with ((fun y => y + i - 1) (x - i + 1)) at 1 by lia. replace x' with ((fun y => y + i - 1) (x' - i + 1)) at 1 by lia. apply (ord_map (fun y => y + i - 1)). intros u _. cbn beta. lia.
  - destruct Ia as [Ia|Ia]; [contradiction|]. rewrite (IH Ia). assert (X : existsb (fun u => (u =? x) || (u =? x')) (graft b i c) = false).
    { destruct (existsb _ (graft b i c)) eqn:E; [|reflexivity]. apply existsb_exists in E. destruct E as (u & Hu & E). apply (in_graft b n i c u Hb Lb Hi Hn) in Hu. apply orb_prop in E. destruct E as [E|E]; apply Z.eqb_eq in E; subst u; congruence. }
    now rewrite X.
Qed.

(** ** table reduction *)
Lemma ord_del b i j l : b <> i -> b <> j -> ord i j (del b l) = ord i j l.
Proof. intros Ni Nj. induction l as [|a l IH]; [reflexivity|]. rewrite del_cons. cbn [ord]. destruct (Z.eqb_spec a b) as [->|N]; [destruct (Z.eqb_spec b i); [congruence|]; destruct (Z.eqb_spec b j); [congruence|]; exact IH|]. cbn [ord]. now rewrite IH. Qed.
Definition fij (i j : Z) (w : list Z) : list Z := filter (fun a => (a =? i) || (a =? j)) w.
Definition start (i : Z) (l : list Z) : bool := match l with a :: _ => a =? i | [] => false end.
Lemma two_words i j l : i <> j -> NoDup l -> In i l -> In j l -> changes (fij i j l) = 1 /\ start i (fij i j l) = ord i j l.
Proof.
  intros N. induction l as [|a l IH]; [intros _ []|]. intros ND Hi Hj. inversion ND as [|? ? Na ND']; subst. unfold fij in *. cbn [filter ord].
  assert (C : forall x y, In y l -> ~ In x l -> x <> y -> changes (x :: filter (fun a => (a =? x) || (a =? y)) l) = 1 /\ changes (x :: filter (fun a => (a =? y) || (a =? x)) l) = 1).
  { intros x y Hy Nx Nxy. assert (F : filter (fun a => (a =? x) || (a =? y)) l = filter (fun a => a =? y) l).
    { apply filter_ext_in. intros b Hb. destruct (Z.eqb_spec b x); [congruence|reflexivity]. }
    assert (F' : filter (fun a => (a =? y) || (a =? x)) l = filter (fun a => a =? y) l).
    { apply filter_ext_in. intros b Hb. destruct (Z.eqb_spec b x); [congruence|apply orb_false_r]. }
    rewrite F, F'. assert (G : changes (x :: filter (fun a => a =? y) l) = 1); [|tauto].
    destruct (filter (fun a => a =? y) l) as [|b m] eqn:E. { assert (In y (filter (fun a => a =? y) l)) as Q by (apply filter_In; split; [exact Hy|apply Z.eqb_refl]). rewrite E in Q. destruct Q. }
    assert (B : forall c, In c (b :: m) -> c = y) by (intros c Hc; rewrite <- E in Hc; apply filter_In in Hc; now apply Z.eqb_eq). 
    change (changes (x :: b :: m)) with ((if x =? b then 0 else 1) + changes (b :: m)). rewrite (changes_const y (b :: m) B). rewrite (B b (or_introl eq_refl)). destruct (Z.eqb_spec x y); [contradiction|reflexivity]. }
  destruct (Z.eqb_spec a i) as [->|Ni]; cbn [orb].
  - destruct Hj as [Hj|Hj]; [congruence|]. split; [now apply (C i j)|]. cbn [start]. apply Z.eqb_refl.
  - destruct Hi as [Hi|Hi]; [congruence|]. destruct (Z.eqb_spec a j) as [->|Nj].
    + split; [apply (C j i); auto|]. cbn [start]. now destruct (Z.eqb_spec j i).
    + destruct Hj as [Hj|Hj]; [congruence|]. now apply IH.
Qed.
Lemma changes_start i j l : i <> j -> l <> [] -> (forall a, In a l -> a = i \/ a = j) -> changes (i :: l) = changes l + (if start i l then 0 else 1) /\ changes (j :: l) = changes l + (if start i l then 1 else 0).
Proof.
  intros N NE H. destruct l as [|a l]; [congruence|]. cbn [start]. rewrite !changes_cons2. destruct (H a (or_introl eq_refl)) as [E|E]; subst a; rewrite ?Z.eqb_refl.
  - destruct (Z.eqb_spec j i); [congruence|]. lia.
  - destruct (Z.eqb_spec i j); [congruence|]. destruct (Z.eqb_spec j i); [congruence|]. lia.
Qed.
Lemma fij_two i j w a : In a (fij i j w) -> a = i \/ a = j.
Proof. unfold fij. rewrite filter_In. intros [_ E]. apply orb_prop in E. destruct E as [E|E]; apply Z.eqb_eq in E; auto. Qed.
Lemma fij_in i j w : In i w \/ In j w -> fij i j w <> [].
Proof. intros H E. assert (Q : forall a, ~ In a (fij i j w)) by (rewrite E; auto). destruct H as [H|H]; eapply Q; apply filter_In; (split; [exact H|]); rewrite Z.eqb_refl; auto using orb_true_r. Qed.
Definition beq (a b : bool) : Z := if Bool.eqb a b then 0 else 1.
Lemma beq_tri a b c : beq a c <= beq a b + beq b c. Proof. destruct a, b, c; cbn; lia. Qed.
Lemma TL_changes i j S rows : i <> j -> rws S rows -> S i -> S j -> forall w, In w (TL rows) ->
  changes (fij i j w) + beq (start i (fij i j w)) (ord i j (hd [] rows)) <= bch (map (ord i j) rows) + 1.
Proof.
  intros N R. revert S rows R. 
  apply (rows_ind (fun S rows => S i -> S j -> forall w, In w (TL rows) -> changes (fij i j w) + beq (start i (fij i j w)) (ord i j (hd [] rows)) <= bch (map (ord i j) rows) + 1)).
  - intros S _ _ w [].
  - intros S f R Si Sj w Hw. destruct Hw as [<-|[]]. destruct (R f (or_introl eq_refl)) as [ND HS]. destruct (two_words i j f N ND) as [E1 E2]; [now apply HS|now apply HS|]. rewrite E1, E2. cbn [hd map bch]. unfold beq. rewrite Bool.eqb_reflx. lia.
  - intros S s rest R Si _ w Hw. rewrite TL_empty in Hw. destruct Hw.
  - intros S b f s rest R IH1 IH2 Si Sj w Hw. rewrite TL_cons in Hw. apply in_app_iff in Hw.
    assert (Rt : rws S (s :: rest)) by (eapply rws_tl; eauto). pose proof (rws_next b S f (s :: rest) R) as Rn.
    cbn [hd] in *. change (map (ord i j) ((b :: f) :: s :: rest)) with (ord i j (b :: f) :: ord i j s :: map (ord i j) rest). rewrite bch_cons2. fold (beq (ord i j (b :: f)) (ord i j s)).
    destruct Hw as [Hw|Hw]; apply in_map_iff in Hw; destruct Hw as (w1 & <- & Hw).
    + specialize (IH1 Si Sj w1 Hw). change (map (ord i j) (s :: rest)) with (ord i j s :: map (ord i j) rest) in IH1.
      assert (NE : fij i j w1 <> []) by (apply fij_in; left; now apply (TL_in S _ Rt w1 Hw)).
      destruct (changes_start i j (fij i j w1) N NE (fij_two i j w1)) as [C1 C2]. unfold fij in *. cbn [filter]. cbn [ord]. destruct (Z.eqb_spec b i) as [->|Ni]; cbn [orb]; [|destruct (Z.eqb_spec b j) as [->|Nj]].
      * rewrite C1. cbn [start]. rewrite Z.eqb_refl. change (beq true true) with 0. assert (E : (if start i (filter (fun a => (a =? i) || (a =? j)) w1) then 0 else 1) = beq (start i (filter (fun a => (a =? i) || (a =? j)) w1)) true) by (now destruct (start _ _)).
        rewrite E. pose proof (beq_tri (start i (filter (fun a => (a =? i) || (a =? j)) w1)) (ord i j s) true). assert (beq (ord i j s) true = beq true (ord i j s)) by (now destruct (ord i j s)). lia.
      * rewrite C2. cbn [start]. destruct (Z.eqb_spec j i); [congruence|]. change (beq false false) with 0. assert (E : (if start i (filter (fun a => (a =? i) || (a =? j)) w1) then 1 else 0) = beq (start i (filter (fun a => (a =? i) || (a =? j)) w1)) false) by (now destruct (start _ _)).
        rewrite E. pose proof (beq_tri (start i (filter (fun a => (a =? i) || (a =? j)) w1)) (ord i j s) false). assert (beq (ord i j s) false = beq false (ord i j s)) by (now destruct (ord i j s)). lia.
      * pose proof (beq_tri (start i (filter (fun a => (a =? i) || (a =? j)) w1)) (ord i j s) (ord i j f)). assert (beq (ord i j s) (ord i j f) = beq (ord i j f) (ord i j s)) by (now destruct (ord i j s), (ord i j f)). lia.
    + pose proof (bch_nonneg (map (ord i j) (s :: rest))) as Pn. change (map (ord i j) (s :: rest)) with (ord i j s :: map (ord i j) rest) in Pn. assert (Pb : forall x y, 0 <= beq x y) by (intros [] []; cbn; lia).
      pose proof (Pb (ord i j (b :: f)) (ord i j s)) as Pb1.
      assert (LAST : forall x y, x <> y -> b = x -> (x = i /\ y = j) \/ (x = j /\ y = i) -> changes (x :: fij i j w1) <= 1).
      { intros x y Nxy Ebx Hxy. assert (B : forall c, In c (fij i j w1) -> c = y).
        { intros c Hc. pose proof (fij_two _ _ _ _ Hc) as Hc2. apply filter_In in Hc. destruct Hc as [Hc _]. apply (TL_in _ _ Rn w1 Hw) in Hc. unfold sdel in Hc. destruct Hc as [_ Hc]. subst x. destruct Hxy as [[-> ->]|[-> ->]], Hc2; congruence. }
        destruct (fij i j w1) as [|c m]; [cbn; lia|]. rewrite changes_cons2, (changes_const y _ B). destruct (x =? c); lia. }
      unfold fij in *. cbn [filter]. cbn [ord] in *. destruct (Z.eqb_spec b i) as [->|Ni]; cbn [orb]; [|destruct (Z.eqb_spec b j) as [->|Nj]].
      * cbn [start]. rewrite Z.eqb_refl. change (beq true true) with 0. specialize (LAST i j N eq_refl ltac:(auto)). lia.
      * cbn [start]. destruct (Z.eqb_spec j i); [congruence|]. change (beq false false) with 0. specialize (LAST j i ltac:(auto) eq_refl ltac:(auto)). lia.
      * specialize (IH2 (conj Si (not_eq_sym Ni)) (conj Sj (not_eq_sym Nj)) w1 Hw). cbn [map] in IH2. rewrite map_map in IH2. rewrite ord_del in IH2 by congruence. rewrite (map_ext (fun x => ord i j (del b x)) (ord i j)) in IH2 by (intros; now apply ord_del).
        rewrite bch_cons2 in IH2. exact IH2.
Qed.

(** ** the theorems *)
(** #C82_boundary# The basis elements in the boundary change the order of no
    two letters more often than the basis element they come from. *)
Lemma C82_boundary_l (dt : Z) (x y : bee) : wf cls_be x -> dt_ok dt (torsion x) -> be_boundary dt x = Ok y ->
  forall k v, In (k, v) (data y) -> exists k0 v0, In (k0, v0) (data x) /\ forall i j, order_changes i j k <= order_changes i j k0.
Proof.
  intros Wx Hdt E k v Hin. pose proof (C34_boundary_formula_l dt x Wx Hdt) as G. destruct (gives_keys _ _ _ _ _ _ _ _ G E Hin) as (k' & s & Hl & Hk). apply keqb_eq in Hk. subst k'.
  unfold extend in Hl. apply in_flat_map in Hl. destruct Hl as ([k0 v0] & Hin0 & Hl). apply in_map_iff in Hl. destruct Hl as ([k1 s1] & [= <- _] & Hf).
  exists k0, v0. split; [exact Hin0|]. intros i j. unfold be_faces in Hf. apply in_map_iff in Hf. destruct Hf as ([[l1 p] l2] & [= <- _] & Hc). rewrite TensorAct.cuts_splits in Hc. apply splits_in in Hc. cbn [fst] in Hc. subst k0. rewrite !oc_bch, !map_app. cbn [map]. apply bch_del.
Qed.
(** #C82_action# A permutation only renames the letters. *)
Lemma C82_action_l (dt n : Z) (a : ring) (x y : bee) :
  1 <= n -> wf cls_ring a -> wf cls_be x -> torsion a = torsion x -> dt_ok dt (torsion x) ->
  keys_in (fun k => is_sge k = true /\ perm n (kval k)) a -> keys_in (be_simplex n) x -> ~ is_zero a -> ~ is_zero x -> be_act dt a x = Ok y ->
  forall k v, In (k, v) (data y) -> exists p c k0 v0, In (p, c) (data a) /\ In (k0, v0) (data x) /\
    forall i j, 1 <= i < j -> j <= n -> order_changes (image (kval p) i) (image (kval p) j) k = order_changes i j k0.
Proof.
  intros Hn Wa Wx Ta Hdt Ka Kx Na Nx E k v Hin. pose proof (C35_action_formula_l dt n a x Hn Wa Wx Ta Hdt Ka Kx Na Nx) as G. destruct (gives_keys _ _ _ _ _ _ _ _ G E Hin) as (k' & s & Hl & Hk). apply keqb_eq in Hk. subst k'.
  unfold extend2 in Hl. apply in_flat_map in Hl. destruct Hl as ([p v0] & Hin0 & Hl). apply in_flat_map in Hl. destruct Hl as ([k0 v1] & Hin1 & Hl).
  apply in_map_iff in Hl. destruct Hl as ([k1 s1] & [= <- _] & Hf). destruct Hf as [[= <- _]|[]]. cbn [fst] in *.
  exists p, v0, k0, v1. split; [exact Hin0|]. split; [exact Hin1|]. pose proof (proj2 (Ka _ _ Hin0)) as Hp. pose proof (Kx _ _ Hin1) as Hs. intros i j Hi Hj.
  assert (INJ : forall u w, 1 <= u <= n -> 1 <= w <= n -> image (kval p) u = image (kval p) w -> u = w) by (intros u w Hu Hw; now apply (image_inj n)).
  rewrite !oc_ord.
  - unfold be_move. rewrite map_map. f_equal. apply map_ext_in. intros q Hq. apply ord_map. intros u Hu. apply (perm_in n q u (Hs q Hq)) in Hu. split; (split; [intros; apply INJ; [lia|lia|assumption]|congruence]).
  - lia.
  - intros q Hq. split; apply (perm_in n q _ (Hs q Hq)); lia.
  - intros EQ. apply INJ in EQ; lia.
  - intros q Hq. unfold be_move in Hq. apply in_map_iff in Hq. destruct Hq as (q' & <- & Hq). split; apply in_map; apply (perm_in n q' _ (Hs q' Hq)); lia.
Qed.
(** #C82_compose# The elements in which no two letters change their order more
    than [m] times are closed under composition: a suboperad. *)
Lemma C82_compose_l (dt n1 n2 p q i m : Z) (x y z : bee) :
  1 <= n1 -> 1 <= n2 -> 1 <= i <= n1 -> wf cls_be x -> wf cls_be y -> torsion y = torsion x -> dt_ok dt (torsion x) ->
  keys_in (be_cell n1 p) x -> keys_in (be_cell n2 q) y -> ~ is_zero x -> ~ is_zero y ->
  keys_in (fun k => forall a b, 1 <= a < b -> b <= n1 -> order_changes a b k <= m) x ->
  keys_in (fun k => forall a b, 1 <= a < b -> b <= n2 -> order_changes a b k <= m) y ->
  be_compose dt x y i = Ok z ->
  keys_in (fun k => forall a b, 1 <= a < b -> b <= n1 + n2 - 1 -> order_changes a b k <= m) z.
Proof.
  intros Hn1 Hn2 Hi Wx Wy Ty Hdt Kx Ky Nx Ny Mx My E k v Hin a b Ha Hb. pose proof (C37_compose_formula_l dt n1 n2 p q i x y Hn1 Hn2 Hi Wx Wy Ty Hdt Kx Ky Nx Ny) as G.
  pose proof (C37_compose_degree_l dt n1 n2 p q i x y Hn1 Hn2 Hi Wx Wy Ty Hdt Kx Ky Nx Ny) as (z' & E' & _ & _ & Kz). assert (z' = z) as -> by congruence. pose proof (proj1 (Kz _ _ Hin)) as Hs. clear E' Kz.
  destruct (gives_keys _ _ _ _ _ _ _ _ G E Hin) as (k' & s & Hl & Hk). apply keqb_eq in Hk. subst k'.
  unfold extend2 in Hl. apply in_flat_map in Hl. destruct Hl as ([k1 v1] & Hin1 & Hl). apply in_flat_map in Hl. destruct Hl as ([k2 v2] & Hin2 & Hl).
  apply in_map_iff in Hl. destruct Hl as ([k3 s3] & [= <- _] & Hf). cbn [fst] in *. pose proof (proj1 (Kx _ _ Hin1)) as S1. pose proof (proj1 (Ky _ _ Hin2)) as S2.
  rewrite oc_ord; [|lia|intros r Hr; split; apply (perm_in (n1 + n2 - 1) r _ (Hs r Hr)); lia].
  assert (Lc : collapse i n2 a <= collapse i n2 b /\ 1 <= collapse i n2 a /\ collapse i n2 b <= n1).
  { unfold collapse. destruct (Z.ltb_spec a i), (Z.ltb_spec b i), (Z.ltb_spec a (i + n2)), (Z.ltb_spec b (i + n2)); lia. }
  destruct (Z.eq_dec (collapse i n2 a) (collapse i n2 b)) as [EQ|NE].
  - assert (Ca : collapse i n2 a = i /\ i <= a < i + n2 /\ i <= b < i + n2).
    { revert EQ. unfold collapse. destruct (Z.ltb_spec a i), (Z.ltb_spec b i), (Z.ltb_spec a (i + n2)), (Z.ltb_spec b (i + n2)); lia. }
    rewrite (path_r (insert_at i) (ord a b) (ord (a - i + 1) (b - i + 1)) k1 k2) with (s := s3); [|intros u w Hu Hw; apply (ord_in u w n2)|exact Hf]; try lia.
    + rewrite <- oc_ord; [|lia|intros r Hr; split; apply (perm_in n2 r _ (S2 r Hr)); lia]. apply (My _ _ Hin2); lia.
    + now apply S2.
    + apply (perm_len n2); [lia|now apply S2].
    + apply (perm_in n1 u _ (S1 u Hu)). lia.
  - rewrite (path_l (insert_at i) (ord a b) (ord (collapse i n2 a) (collapse i n2 b)) k1 k2) with (s := s3); [|intros u w Hu Hw; apply (ord_out u w n2)|exact Hf]; try lia.
    + rewrite <- oc_ord; [|lia|intros r Hr; split; apply (perm_in n1 r _ (S1 r Hr)); lia]. apply (Mx _ _ Hin1); lia.
    + now apply S2.
    + apply (perm_len n2); [lia|now apply S2].
Qed.
(** #C82_table# In the words of the table reduction two letters alternate at
    most once more than they change their order: the table reduction respects
    the two complexity filtrations. *)
Lemma C82_table_l (dt n : Z) (x : bee) (y : surj) : 1 <= n -> wf cls_be x -> dt_ok dt (torsion x) -> keys_in (be_simplex n) x -> be_table_reduction dt x = Ok y ->
  forall w v, In (w, v) (data y) -> exists k v0, In (k, v0) (data x) /\ forall i j, 1 <= i < j -> j <= n -> switches i j w <= order_changes i j k + 1.
Proof.
  intros Hn Wx Hdt Kx E w v Hin. pose proof (C39_table_formula_l dt n x Hn Wx Hdt Kx) as G. destruct (gives_keys _ _ _ _ _ _ _ _ G E Hin) as (k' & s & Hl & Hk). apply keqb_eq in Hk. subst k'.
  unfold extend in Hl. apply in_flat_map in Hl. destruct Hl as ([k0 v0] & Hin0 & Hl). apply in_map_iff in Hl. destruct Hl as ([k1 s1] & [= <- _] & Hf).
  exists k0, v0. split; [exact Hin0|]. intros i j Hi Hj. pose proof (Kx _ _ Hin0) as Hs. rewrite oc_ord; [|lia|intros r Hr; split; apply (perm_in n r _ (Hs r Hr)); lia].
  cbn [fst] in *. apply in_map_iff in Hf. destruct Hf as (w' & [= <- _] & Hw). rewrite tw_TL in Hw. rewrite (map_ext (fl []) (fun l => l)) in Hw by apply fl_nil. rewrite map_id in Hw.
  pose proof (TL_changes i j (fun c => 1 <= c <= n) k0 ltac:(lia) (rws_sim n k0 Hs) ltac:(cbn beta; lia) ltac:(cbn beta; lia) w' Hw) as T. unfold switches. unfold fij in T. unfold beq in T. destruct (Bool.eqb _ _) in T; lia.
Qed.
(** #C82_table_complexity# In terms of the methods: the complexity of the table
    reduction exceeds that of the argument by at most one. *)
Lemma C82_table_complexity_l (dt n : Z) (x : bee) : 1 <= n -> wf cls_be x -> dt_ok dt (torsion x) -> keys_in (be_simplex n) x ->
  exists y c c', be_table_reduction dt x = Ok y /\ be_complexity x = Ok c /\ surj_complexity y = Ok c' /\ c' <= c + 1.
Proof.
  intros Hn Wx Hdt Kx. pose proof (C39_table_formula_l dt n x Hn Wx Hdt Kx) as G. pose proof G as (y & E & Wy & _). pose proof (C82_table_l dt n x y Hn Wx Hdt Kx E) as T. exists y.
  destruct (C43_value_l n x Hn Wx Kx) as (c & Ec & Hc0 & _). destruct (C54_complexity_value_l y Wy) as (c' & Ec' & _ & H2). exists c, c'. split; [exact E|]. split; [exact Ec|]. split; [exact Ec'|].
  destruct H2 as [->|(k & v & i & j & Hin & Hij & Hi & Hj & <-)]; [lia|]. destruct (T k v Hin) as (k0 & v0 & Hin0 & H).
  assert (Hjn : j <= n).
  { destruct (gives_keys _ _ _ _ _ _ _ _ G E Hin) as (k' & s & Hl & Hk). apply keqb_eq in Hk. subst k'.
    unfold extend in Hl. apply in_flat_map in Hl. destruct Hl as ([k1 v1] & Hin1 & Hl). apply in_map_iff in Hl. destruct Hl as ([k2 s1] & [= <- _] & Hf). cbn [fst] in *. apply in_map_iff in Hf. destruct Hf as (w' & [= <- _] & Hw). rewrite tw_TL in Hw. rewrite (map_ext (fl []) (fun l => l)) in Hw by apply fl_nil. rewrite map_id in Hw.
    apply (TL_in _ _ (rws_sim n k1 (Kx _ _ Hin1)) w' Hw) in Hj. lia. }
  specialize (H i j Hij Hjn). pose proof (C43_upper_bound_l n c x Hn Wx Kx Ec k0 v0 i j Hin0 Hij Hjn). lia.
Qed.
(** #C82_example# The square of the one-cell ((1,2),(2,1)) under composition: two
    terms of degree 2 and arity 3, no two letters change their order twice. And
    ((1,2),(2,1),(1,2)) has complexity 2, its table reduction (1,2,1,2) complexity 3. *)
Example C82_example_l :
  let x := mkElt [([[1; 2]; [2; 1]], 1)] 0 tt in
  wf cls_be x /\ keys_in (be_cell 2 1) x /\
  exists z, be_compose 0 x x 1 = Ok z /\ zlen (data z) = 2 /\
    keys_in (fun k => forall a b, 1 <= a < b -> b <= 3 -> order_changes a b k <= 1) z /\
  let u := mkElt [([[1; 2]; [2; 1]; [1; 2]], 1)] 0 tt in
  exists y, be_complexity u = Ok 2 /\ be_table_reduction 0 u = Ok y /\ data y = [([1; 2; 1; 2], 1)] /\ surj_complexity y = Ok 3.
Proof.
  cbn zeta. assert (W : wf cls_be (mkElt [([[1; 2]; [2; 1]], 1)] 0 tt)) by (apply wfb_wf; reflexivity).
  assert (K : keys_in (be_cell 2 1) (mkElt [([[1; 2]; [2; 1]], 1)] 0 tt)).
  { intros k v [[= <- <-]|[]]. split; [|reflexivity]. intros p [<-|[<-|[]]]; permtac. }
  assert (M : keys_in (fun k => forall a b, 1 <= a < b -> b <= 2 -> order_changes a b k <= 1) (mkElt [([[1; 2]; [2; 1]], 1)] 0 tt)).
  { intros k v [[= <- <-]|[]] a b Ha Hb. assert (a = 1) as -> by lia. assert (b = 2) as -> by lia. vm_compute. discriminate. }
  split; [exact W|]. split; [exact K|]. destruct (be_compose 0 (mkElt [([[1; 2]; [2; 1]], 1)] 0 tt) (mkElt [([[1; 2]; [2; 1]], 1)] 0 tt) 1) as [z|] eqn:E; [|vm_compute in E; discriminate].
  exists z. split; [reflexivity|]. split; [vm_compute in E; injection E as <-; reflexivity|]. split.
  - refine (C82_compose_l 0 2 2 1 1 1 1 _ _ z _ _ _ W W eq_refl _ K K _ _ M M E); try lia; try (intros C; discriminate C). unfold dt_ok; cbn; lia.
  - eexists. split; [vm_compute; reflexivity|]. split; [vm_compute; reflexivity|]. split; vm_compute; reflexivity.
Qed.
