(** * Lattice paths: the shuffle product (Eilenberg-Zilber).  Proof library. *)
From Coq Require Import Setoid Morphisms.
From Verif Require Import PyBase Dict FreeModule Eqm Spec SpecOperad FreeModuleFacts FreeModuleLaws ListFacts LinearFacts.

Section EZ.
Context {X Y W : Type}.
Variable f : X -> Y -> W.
Definition EE (g : list W -> Z) (A : list X) (B : list Y) : Z := ev g (grid_paths f A B).
Lemma grid_cons a A b B : grid_paths f (a :: A) (b :: B) =
  match A, B with [], [] => [([f a b], 1)] | _, _ => [] end ++
  map (fun '(w, s) => (f a b :: w, s)) (grid_paths f A (b :: B)) ++
  map (fun '(w, s) => (f a b :: w, sgn (zlen A) * s)) (grid_paths f (a :: A) B).
Proof. reflexivity. Qed.
Lemma EE_nil_l g B : EE g [] B = 0. Proof. reflexivity. Qed.
Lemma EE_nil_r g A : EE g A [] = 0. Proof. now destruct A. Qed.
Definition one (A : list X) (B : list Y) : Z := match A, B with [], [] => 1 | _, _ => 0 end.
Lemma EE_cons g a A b B : EE g (a :: A) (b :: B) =
  one A B * g [f a b] + EE (fun w => g (f a b :: w)) A (b :: B) + sgn (zlen A) * EE (fun w => g (f a b :: w)) (a :: A) B.
Proof.
  unfold EE. rewrite grid_cons, !ev_app. assert (E : ev g (match A, B with [], [] => [([f a b], 1)] | _, _ => [] end : list (list W * Z)) = one A B * g [f a b]).
  { destruct A as [|a' A]; [destruct B as [|b' B]|]; cbn [one]; rewrite ?ev_cons, ?ev_nil; ring. }
  assert (M : forall n l, ev g (map (fun '(w, s) => (f a b :: w, n * s)) l) = n * ev (fun w => g (f a b :: w)) l).
  { intros n l. unfold ev. rewrite sumf_map, <- sumf_scal. apply sumf_ext. intros [w s] _. cbn [fst snd]. ring. }
  rewrite E, M. rewrite (map_ext (fun '(w, s) => (f a b :: w, s)) (fun '(w, s) => (f a b :: w, 1 * s))) by (intros [w s]; f_equal; ring). rewrite M. ring.
Qed.
Lemma EE_ext g h A B : (forall w, g w = h w) -> EE g A B = EE h A B. Proof. intros. now apply ev_ext_all. Qed.
Lemma EE_add g h A B : EE (fun w => g w + h w) A B = EE g A B + EE h A B. Proof. apply ev_add. Qed.
Lemma EE_scal n g A B : EE (fun w => n * g w) A B = n * EE g A B.
Proof. unfold EE, ev. rewrite <- sumf_scal. apply sumf_ext. intros; ring. Qed.
Lemma EE_sub g h A B : EE (fun w => g w - h w) A B = EE g A B - EE h A B.
Proof. unfold EE, ev. rewrite <- sumf_sub. apply sumf_ext. intros; ring. Qed.
Lemma EE_0 A B : EE (fun _ => 0) A B = 0. Proof. now apply ev_zero. Qed.

(** the vertices of a path *)
Lemma grid_in A : forall B w s, In (w, s) (grid_paths f A B) ->
  zlen w = zlen A + zlen B - 1 /\ (forall c, In c w -> exists a b, In a A /\ In b B /\ c = f a b) /\
  exists a A' b B' w', A = a :: A' /\ B = b :: B' /\ w = f a b :: w'.
Proof.
  induction A as [|a A IHA]; intros B; [intros ? ? []|]. induction B as [|b B IHB]; intros w s Hin; [destruct Hin|].
  rewrite grid_cons in Hin. rewrite !in_app_iff, !in_map_iff in Hin. destruct Hin as [Hin|[([w' s'] & [= <- <-] & Hin)|([w' s'] & [= <- <-] & Hin)]].
  - destruct A; [|destruct Hin]. destruct B; [|destruct Hin]. destruct Hin as [[= <- <-]|[]]. split; [reflexivity|]. split.
    + intros c [<-|[]]. exists a, b. cbn. auto.
    + now exists a, [], b, [], [].
  - destruct (IHA _ _ _ Hin) as (L & C & _). split; [rewrite !zlen_cons in *; lia|]. split.
    + intros c [<-|Hc]; [exists a, b; cbn; auto|]. destruct (C _ Hc) as (a' & b' & H1 & H2 & ->). exists a', b'. cbn. auto.
    + eauto 10.
  - destruct (IHB _ _ Hin) as (L & C & _). split; [rewrite !zlen_cons in *; lia|]. split.
    + intros c [<-|Hc]; [exists a, b; cbn; auto|]. destruct (C _ Hc) as (a' & b' & H1 & H2 & ->). exists a', b'. cbn in *. tauto.
    + eauto 10.
Qed.
Lemma EE_len g h A B : (forall w, zlen w = zlen A + zlen B - 1 -> g w = h w) -> EE g A B = EE h A B.
Proof. intros E. apply ev_ext. intros w s Hin. apply E. now apply grid_in in Hin. Qed.
(** repetitions *)
Lemma repeats_cons {B} (c : B) w : repeats w -> repeats (c :: w).
Proof. intros (l1 & p & l2 & ->). now exists (c :: l1), p, l2. Qed.
Lemma repeats_inv {B} (c : B) w : repeats (c :: w) -> (exists w', w = c :: w') \/ repeats w.
Proof.
  intros (l1 & p & l2 & E). destruct l1 as [|c' l1]; cbn in E; injection E as -> ->; [left; eauto|right; now exists l1, p, l2].
Qed.
Lemma grid_repeats_l A : forall B w s, repeats A -> In (w, s) (grid_paths f A B) -> repeats w.
Proof.
  induction A as [|a A IHA]; intros B; [intros ? ? _ []|]. induction B as [|b B IHB]; intros w s HA Hin; [destruct Hin|].
  rewrite grid_cons in Hin. rewrite !in_app_iff, !in_map_iff in Hin. destruct Hin as [Hin|[([w' s'] & [= <- <-] & Hin)|([w' s'] & [= <- <-] & Hin)]].
  - destruct A; [|destruct Hin]. destruct HA as (l1 & p & l2 & E). destruct l1 as [|? [|? ?]]; discriminate.
  - apply repeats_inv in HA. destruct HA as [[A' ->]|HA].
    + destruct (grid_in _ _ _ _ Hin) as (_ & _ & a1 & A1 & b1 & B1 & w1 & [= <- <-] & [= <- <-] & ->). exists [], (f a b), w1. reflexivity.
    + apply repeats_cons. eapply IHA; eauto.
  - apply repeats_cons. eapply IHB; eauto.
Qed.
Lemma grid_repeats_r A : forall B w s, repeats B -> In (w, s) (grid_paths f A B) -> repeats w.
Proof.
  induction A as [|a A IHA]; intros B; [intros ? ? _ []|]. induction B as [|b B IHB]; intros w s HA Hin; [destruct Hin|].
  rewrite grid_cons in Hin. rewrite !in_app_iff, !in_map_iff in Hin. destruct Hin as [Hin|[([w' s'] & [= <- <-] & Hin)|([w' s'] & [= <- <-] & Hin)]].
  - destruct A; [|destruct Hin]. destruct B; [|destruct Hin]. destruct HA as (l1 & p & l2 & E). destruct l1 as [|? [|? ?]]; discriminate.
  - apply repeats_cons. eapply IHA; eauto.
  - apply repeats_inv in HA. destruct HA as [[B' ->]|HA].
    + destruct (grid_in _ _ _ _ Hin) as (_ & _ & a1 & A1 & b1 & B1 & w1 & [= <- <-] & [= <- <-] & ->). exists [], (f a b), w1. reflexivity.
    + apply repeats_cons. eapply IHB; eauto.
Qed.
(** recursion at the end of the path *)
Lemma one_snoc_l A a B : one (A ++ [a]) B = 0. Proof. now destruct A. Qed.
Lemma one_snoc_r A b B : one A (B ++ [b]) = 0. Proof. now destruct A, B. Qed.
Lemma EE_snoc_aux n : forall A B a b g, (length A + length B <= n)%nat -> EE g (A ++ [a]) (B ++ [b]) =
  one A B * g [f a b] + sgn (zlen B) * EE (fun w => g (w ++ [f a b])) A (B ++ [b]) + EE (fun w => g (w ++ [f a b])) (A ++ [a]) B.
Proof.
  induction n as [|n IH]; intros A B a b g L.
  - destruct A; [|cbn in L; lia]. destruct B; [|cbn in L; lia]. cbn [app]. rewrite EE_cons, !EE_nil_l, !EE_nil_r. cbn [one]. ring.
  - destruct A as [|a1 A]; destruct B as [|b1 B]; cbn [length] in L.
    + cbn [app]. rewrite EE_cons, !EE_nil_l, !EE_nil_r. cbn [one]. ring.
    + specialize (IH [] B a b (fun w => g (f a b1 :: w))). cbn [app] in *. rewrite EE_cons, IH, !EE_nil_l, one_snoc_r by (cbn; lia).
      rewrite EE_cons, EE_nil_l. change (zlen (@nil X)) with 0. rewrite sgn_0. cbn [app]. destruct B; cbn [one]; ring.
    + specialize (IH A [] a b (fun w => g (f a1 b :: w))). cbn [app] in *. rewrite EE_cons, IH, !EE_nil_r, one_snoc_l by (cbn; lia).
      rewrite EE_cons, EE_nil_r. change (zlen (@nil Y)) with 0. rewrite sgn_0. cbn [app]. destruct A; cbn [one]; ring.
    + pose proof (IH A (b1 :: B) a b (fun w => g (f a1 b1 :: w))) as H1. pose proof (IH (a1 :: A) B a b (fun w => g (f a1 b1 :: w))) as H2. cbn [app length] in *.
      rewrite EE_cons, H1, H2, one_snoc_l by lia. rewrite !EE_cons, one_snoc_l, one_snoc_r. cbn [app]. rewrite !zlen_app, !zlen_cons, (@zlen_nil X). cbn [one]. rewrite !sgn_add.
      rewrite ?sgn_0, ?sgn_1. replace (one A (b1 :: B)) with 0 by now destruct A. ring.
Qed.
Lemma EE_snoc A B a b g : EE g (A ++ [a]) (B ++ [b]) =
  one A B * g [f a b] + sgn (zlen B) * EE (fun w => g (w ++ [f a b])) A (B ++ [b]) + EE (fun w => g (w ++ [f a b])) (A ++ [a]) B.
Proof. now apply (EE_snoc_aux (length A + length B)). Qed.

(** singletons *)
Lemma EE_single_l a B : forall g, EE g [a] B = match B with [] => 0 | _ => g (map (f a) B) end.
Proof.
  induction B as [|b B IH]; intros g; [apply EE_nil_r|]. rewrite EE_cons, EE_nil_l, IH. change (zlen (@nil X)) with 0. rewrite sgn_0.
  destruct B; cbn [one map]; ring.
Qed.
Lemma EE_single_r A b : forall g, EE g A [b] = match A with [] => 0 | _ => g (map (fun a => f a b) A) end.
Proof.
  induction A as [|a A IH]; intros g; [reflexivity|]. rewrite EE_cons, EE_nil_r, IH.
  destruct A; cbn [one map]; ring.
Qed.
Lemma EE_in g h A B : (forall w s, In (w, s) (grid_paths f A B) -> g w = h w) -> EE g A B = EE h A B.
Proof. intros E. apply ev_ext. intros w s Hin. eapply E. exact Hin. Qed.
Lemma grid_ne A B w s : In (w, s) (grid_paths f A B) -> w <> [].
Proof. intros Hin. destruct (grid_in _ _ _ _ Hin) as (_ & _ & a & A' & b & B' & w' & _ & _ & ->). discriminate. Qed.
End EZ.

(** ** faces of a list *)
Fixpoint fd {X} (g : list X -> Z) (s : list X) : Z :=
  match s with [] => 0 | v :: w => g w - fd (fun u => g (v :: u)) w end.
Lemma fd_nil {X} (g : list X -> Z) : fd g [] = 0. Proof. reflexivity. Qed.
Lemma fd_cons {X} (g : list X -> Z) v w : fd g (v :: w) = g w - fd (fun u => g (v :: u)) w. Proof. reflexivity. Qed.
Lemma fd_len {X} (s : list X) : forall g h, (forall u, zlen u = zlen s - 1 -> g u = h u) -> fd g s = fd h s.
Proof.
  induction s as [|v w IH]; intros g h E; [reflexivity|]. rewrite !fd_cons, (E w) by (rewrite zlen_cons; lia). f_equal. apply IH.
  intros u Hu. apply E. rewrite !zlen_cons. lia.
Qed.
Lemma fd_add {X} (s : list X) : forall g h, fd (fun u => g u + h u) s = fd g s + fd h s.
Proof. induction s as [|v w IH]; intros g h; [reflexivity|]. rewrite !fd_cons, (IH (fun u => g (v :: u)) (fun u => h (v :: u))). ring. Qed.
Lemma fd_scal {X} (s : list X) : forall n g, fd (fun u => n * g u) s = n * fd g s.
Proof. induction s as [|v w IH]; intros n g; [cbn; ring|]. rewrite !fd_cons, (IH n (fun u => g (v :: u))). ring. Qed.
Lemma fd_0 {X} (s : list X) : fd (fun _ => 0) s = 0.
Proof. induction s as [|v w IH]; [reflexivity|]. rewrite fd_cons, IH. ring. Qed.

Section Chain.
Context {X Y W : Type}.
Variable f : X -> Y -> W.
Notation EE := (EE f).
Definition sing (A : list X) (B : list Y) : Z := match A, B with [_], [_] => 1 | _, _ => 0 end.
Lemma fd_one_l A (B : list Y) c : fd (fun u : list X => one u B * c) A = match A, B with [_], [] => c | _, _ => 0 end.
Proof.
  destruct A as [|a A]; [reflexivity|]. rewrite fd_cons. rewrite (fd_len A (fun u => one (a :: u) B * c) (fun _ => 0)) by (intros; cbn [one]; ring).
  rewrite fd_0. destruct A, B; cbn [one]; ring.
Qed.
Lemma fd_one_r (A : list X) (B : list Y) c : fd (fun u : list Y => one A u * c) B = match A, B with [], [_] => c | _, _ => 0 end.
Proof.
  destruct B as [|b B]; [now destruct A|]. rewrite fd_cons. rewrite (fd_len B (fun u => one A (b :: u) * c) (fun _ => 0)) by (intros; destruct A; cbn [one]; ring).
  rewrite fd_0. destruct A, B; cbn [one]; ring.
Qed.
Lemma EE_chain_aux n : forall A B g, (length A + length B <= n)%nat ->
  EE (fd g) A B = fd (fun u => EE g u B) A + sgn (zlen A - 1) * fd (fun u => EE g A u) B + sing A B * g [].
Proof.
  induction n as [|n IH]; intros A B g L.
  - destruct A; [|cbn in L; lia]. destruct B; [|cbn in L; lia]. reflexivity.
  - destruct A as [|a A].
    { rewrite EE_nil_l, (fd_len B (fun u => EE g [] u) (fun _ => 0)), fd_0 by (intros; apply EE_nil_l). cbn [fd sing]. ring. }
    destruct B as [|b B].
    { rewrite EE_nil_r, (fd_len (a :: A) (fun u => EE g u []) (fun _ => 0)), fd_0 by (intros; apply EE_nil_r). cbn [fd sing]. destruct A; ring. }
    cbn [length] in L. set (gc := fun w => g (f a b :: w)).
    pose proof (IH A (b :: B) gc ltac:(cbn [length]; lia)) as H1. pose proof (IH (a :: A) B gc ltac:(cbn [length]; lia)) as H2.
    rewrite fd_cons in H1. rewrite fd_cons in H2. 
    rewrite EE_cons.
    assert (E1 : forall A B, EE (fun w => fd g (f a b :: w)) A B = EE g A B - EE (fd gc) A B).
    { intros A1 B1. rewrite <- EE_sub. now apply EE_ext. }
    rewrite !E1, H1, H2, !fd_cons.
    rewrite (fd_len A (fun u => EE g (a :: u) (b :: B)) (fun u => one u B * g [f a b] + EE gc u (b :: B) + sgn (zlen A - 1) * EE gc (a :: u) B)).
    2:{ intros u Hu. rewrite EE_cons, Hu. reflexivity. }
    rewrite (fd_len B (fun u => EE g (a :: A) (b :: u)) (fun u => one A u * g [f a b] + EE gc A (b :: u) + sgn (zlen A) * EE gc (a :: A) u)).
    2:{ intros u Hu. rewrite EE_cons. reflexivity. }
    rewrite !fd_add, !fd_scal, fd_one_l, fd_one_r. change (fd (EE gc (a :: A)) B) with (fd (fun u => EE gc (a :: A) u) B). rewrite !zlen_cons. replace (zlen A + 1 - 1) with (zlen A) by lia. rewrite (sgn_sub (zlen A)), sgn_1.
    assert (ES : sgn (zlen A) * sgn (zlen A) = 1) by apply sgn_sq.
    change (fd g [f a b]) with (g [] - 0). change (g [f a b]) with (gc []).
    destruct A as [|a1 [|a2 A]]; destruct B as [|b1 [|b2 B]]; cbn [one sing]; change (zlen (@nil X)) with 0; rewrite ?sgn_0; rewrite ?EE_nil_l, ?EE_nil_r; rewrite ?fd_nil; ring.
Qed.
Lemma EE_chain A B g : EE (fd g) A B = fd (fun u => EE g u B) A + sgn (zlen A - 1) * fd (fun u => EE g A u) B + sing A B * g [].
Proof. now apply (EE_chain_aux (length A + length B)). Qed.
End Chain.

(** ** associativity *)
Section Assoc.
Context {X Y V U W : Type}.
Definition all3 (A : list X) (B : list Y) (C : list V) : Z := match A, B, C with [], [], [] => 1 | _, _, _ => 0 end.
Section L.
Variable f1 : X -> Y -> U.
Variable f2 : U -> V -> W.
Definition LL g A B C := EE f1 (fun w => EE f2 g w C) A B.
Lemma LL_nil g A B C : A = [] \/ B = [] \/ C = [] -> LL g A B C = 0.
Proof.
  unfold LL. intros [-> |[-> | ->]].
  - apply EE_nil_l.
  - apply EE_nil_r.
  - rewrite (EE_ext f1 _ (fun _ => 0)) by (intros; apply EE_nil_r). apply EE_0.
Qed.
Lemma LL_cons g a A b B c C : let go := fun w => g (f2 (f1 a b) c :: w) in
  LL g (a :: A) (b :: B) (c :: C) = all3 A B C * g [f2 (f1 a b) c] + LL go A (b :: B) (c :: C) + sgn (zlen A) * LL go (a :: A) B (c :: C)
    + sgn (zlen A + zlen B) * LL go (a :: A) (b :: B) C.
Proof.
  intros go. unfold LL. rewrite EE_cons. set (x := f1 a b) in *.
  assert (E1 : forall A' B', zlen A' + zlen B' = 1 + zlen A + zlen B -> EE f1 (fun w => EE f2 g (x :: w) (c :: C)) A' B' =
    EE f1 (fun w => EE f2 go w (c :: C)) A' B' + sgn (zlen A + zlen B) * EE f1 (fun w => EE f2 go (x :: w) C) A' B').
  { intros A' B' L. rewrite <- EE_scal, <- EE_add. apply EE_in. intros w s Hin. rewrite EE_cons. pose proof (grid_ne _ _ _ _ _ Hin) as NE.
    destruct (grid_in _ _ _ _ _ Hin) as (Lw & _). replace (zlen w) with (zlen A + zlen B) by lia. destruct w as [|w0 w]; [congruence|]. cbn [one]. unfold go. ring. }
  rewrite !E1 by (rewrite zlen_cons; lia). rewrite EE_cons, (EE_nil_l f2). rewrite (EE_cons f1 (fun w => EE f2 go w C)). fold x. change (zlen (@nil U)) with 0. rewrite sgn_0, sgn_add.
  change (fun w => g (f2 x c :: w)) with go.
  destruct A as [|a1 A]; destruct B as [|b1 B]; cbn [one all3]; try change (zlen (@nil X)) with 0; try change (zlen (@nil Y)) with 0; rewrite ?sgn_0, ?EE_nil_l, ?EE_nil_r;
    destruct C; cbn [one all3]; ring.
Qed.
End L.
Section R.
Variable e1 : Y -> V -> U.
Variable e2 : X -> U -> W.
Definition RR g A B C := EE e1 (fun w => EE e2 g A w) B C.
Lemma RR_nil g A B C : A = [] \/ B = [] \/ C = [] -> RR g A B C = 0.
Proof.
  unfold RR. intros [-> |[-> | ->]].
  - rewrite (EE_ext e1 _ (fun _ => 0)) by (intros; apply EE_nil_l). apply EE_0.
  - apply EE_nil_l.
  - apply EE_nil_r.
Qed.
Lemma RR_cons g a A b B c C : let go := fun w => g (e2 a (e1 b c) :: w) in
  RR g (a :: A) (b :: B) (c :: C) = all3 A B C * g [e2 a (e1 b c)] + RR go A (b :: B) (c :: C) + sgn (zlen A) * RR go (a :: A) B (c :: C)
    + sgn (zlen A + zlen B) * RR go (a :: A) (b :: B) C.
Proof.
  intros go. unfold RR. rewrite EE_cons. set (y := e1 b c) in *.
  assert (E1 : forall B' C', EE e1 (fun w => EE e2 g (a :: A) (y :: w)) B' C' =
    EE e1 (fun w => EE e2 go A (y :: w)) B' C' + sgn (zlen A) * EE e1 (fun w => EE e2 go (a :: A) w) B' C').
  { intros B' C'. rewrite <- EE_scal, <- EE_add. apply EE_in. intros w s Hin. rewrite EE_cons. pose proof (grid_ne _ _ _ _ _ Hin) as NE.
    destruct w as [|w0 w]; [congruence|]. destruct A; cbn [one]; unfold go; ring. }
  rewrite !E1. rewrite EE_cons, (EE_nil_r e2). rewrite (EE_cons e1 (fun w => EE e2 go A w)). fold y. rewrite sgn_add.
  change (fun w => g (e2 a y :: w)) with go.
  destruct B as [|b1 B]; destruct C as [|c1 C]; cbn [one all3]; try change (zlen (@nil X)) with 0; try change (zlen (@nil Y)) with 0; rewrite ?sgn_0, ?EE_nil_l, ?EE_nil_r;
    destruct A; cbn [one all3]; ring.
Qed.
End R.
End Assoc.
Lemma EE_assoc {X Y V U U' W} (f1 : X -> Y -> U) (f2 : U -> V -> W) (e1 : Y -> V -> U') (e2 : X -> U' -> W) n :
  forall A B C g, (length A + length B + length C <= n)%nat ->
  (forall a b c, In a A -> In b B -> In c C -> f2 (f1 a b) c = e2 a (e1 b c)) -> LL f1 f2 g A B C = RR e1 e2 g A B C.
Proof.
  induction n as [|n IH]; intros A B C g L E.
  - rewrite LL_nil, RR_nil; [reflexivity| |]; left; destruct A; auto; cbn in L; lia.
  - destruct A as [|a A]; [rewrite LL_nil, RR_nil; auto|]. destruct B as [|b B]; [rewrite LL_nil, RR_nil; auto|]. destruct C as [|c C]; [rewrite LL_nil, RR_nil; auto|].
    rewrite LL_cons, RR_cons. cbn [length] in L. rewrite <- !E by (now left).
    rewrite !IH; [reflexivity|..]; try (cbn [length]; lia); intros; apply E; cbn; tauto.
Qed.
Lemma EE_parallel {X Y V U U' W} (f1 : X -> Y -> U) (f2 : U -> V -> W) (e1 : X -> V -> U') (e2 : U' -> Y -> W) n :
  forall A B C g, (length A + length B + length C <= n)%nat ->
  (forall a b c, In a A -> In b B -> In c C -> f2 (f1 a b) c = e2 (e1 a c) b) ->
  LL f1 f2 g A B C = sgn ((zlen B - 1) * (zlen C - 1)) * LL e1 e2 g A C B.
Proof.
  induction n as [|n IH]; intros A B C g L E.
  - rewrite LL_nil, LL_nil; [ring| |]; left; destruct A; auto; cbn in L; lia.
  - destruct A as [|a A]; [rewrite LL_nil, LL_nil; [ring|auto|auto]|]. destruct B as [|b B]; [rewrite LL_nil, LL_nil; [ring|auto|auto]|]. destruct C as [|c C]; [rewrite LL_nil, LL_nil; [ring|auto|auto]|].
    rewrite !LL_cons. cbn [length] in L. rewrite <- !E by (now left).
    rewrite (IH A (b :: B) (c :: C)), (IH (a :: A) B (c :: C)), (IH (a :: A) (b :: B) C); try (cbn [length]; lia); try (intros; apply E; cbn; tauto).
    rewrite !zlen_cons. replace ((zlen B + 1 - 1) * (zlen C + 1 - 1)) with (zlen B * zlen C) by ring.
    replace ((zlen B - 1) * (zlen C + 1 - 1)) with (zlen B * zlen C - zlen C) by ring. replace ((zlen B + 1 - 1) * (zlen C - 1)) with (zlen B * zlen C - zlen B) by ring.
    rewrite !sgn_sub, !sgn_add. pose proof (sgn_sq (zlen B)) as SB. pose proof (sgn_sq (zlen C)) as SC.
    assert (E0 : all3 A B C = sgn (zlen B * zlen C) * all3 A C B).
    { destruct A, B, C; cbn [all3]; try ring. reflexivity. }
    rewrite E0. set (sB := sgn (zlen B)) in *. set (sC := sgn (zlen C)) in *. set (S := sgn (zlen B * zlen C)). set (sA := sgn (zlen A)).
    transitivity (S * (all3 A C B * g [f2 (f1 a b) c] + LL e1 e2 (fun w => g (f2 (f1 a b) c :: w)) A (c :: C) (b :: B) + sA * sC * LL e1 e2 (fun w => g (f2 (f1 a b) c :: w)) (a :: A) (c :: C) B
        + (sB * sB) * sA * LL e1 e2 (fun w => g (f2 (f1 a b) c :: w)) (a :: A) C (b :: B))); [ring|]. rewrite SB. ring.
Qed.
