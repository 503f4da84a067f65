(** * Faces, relabelling and squares for the action of words on cubes.  Proof library. *)
From Coq Require Import Setoid Morphisms.
From Verif Require Import PyBase Dict FreeModule Symmetric Simplicial Cubical Utils Surjection Eqm Spec SpecChain SpecOperad SpecSurj SpecAction SpecCube SpecCubAction SpecCup SpecCubCup FreeModuleFacts FreeModuleLaws ListFacts
  ClassFacts LinearFacts BilFacts SymmetricFacts CycleFacts SymmetricLaws RingFacts Tensor TensorAct KoszulFacts LoopFacts AW SimplicialFacts SimplicialDiag SimplicialLaws SurjFacts SurjBoundary SurjLaws SurjAct ActFacts ActSign ActCore
  CubicalFacts CubicalDiag CubicalJoin CubicalSerre CubActFacts CubActCore CubActLaws CartanSerre SurjMay CupI EquivAct.

(** ** faces *)
Definition subc : list Z -> list Z -> Prop := Forall2 (fun a b => a = 2 \/ a = b).
Lemma subc_refl c : subc c c. Proof. induction c; constructor; auto. Qed.
Lemma subc_trans a b c : subc a b -> subc b c -> subc a c.
Proof.
  intros H. revert c. induction H as [|x y a b Hxy H IH]; intros c H2; inversion H2 as [|? z ? c' Hyz H3]; subst; constructor; [|now apply IH].
  destruct Hxy as [->| ->]; auto.
Qed.
Lemma serre_pairs_sub c f b e : In (f, b, e) (serre_pairs c) -> subc c f /\ subc c b.
Proof.
  revert f b e. induction c as [|a w IH]; intros f b e Hin; cbn [serre_pairs] in Hin.
  - destruct Hin as [[= <- <- _]|[]]. split; constructor.
  - apply in_flat_map in Hin. destruct Hin as ([[f' b'] e'] & H1 & H2). apply IH in H1. destruct H1 as [H1 H3]. destruct (Z.eqb_spec a 2).
    + destruct H2 as [[= <- <- _]|[[= <- <- _]|[]]]; split; constructor; auto.
    + destruct H2 as [[= <- <- _]|[]]. split; constructor; auto.
Qed.
Lemma serre_sub t : forall s u e x, In (u, e) (serre t s) -> In x u -> subc s x.
Proof.
  induction t as [|t IH]; intros s u e x Hu Hx; cbn [serre] in Hu.
  - destruct Hu as [[= <- _]|[]]. destruct Hx as [<-|[]]. apply subc_refl.
  - apply in_flat_map in Hu. destruct Hu as ([[f d] e1] & H1 & H2). apply in_map_iff in H2. destruct H2 as ([u' e'] & [= <- _] & H2). apply serre_pairs_sub in H1. destruct H1 as [Hf Hd].
    destruct Hx as [<-|Hx]; [exact Hf|]. apply (subc_trans s d x Hd). now apply (IH d u' e').
Qed.
Lemma subc_app_inv c l1 a l2 : subc c (l1 ++ a :: l2) -> exists c1 x c2, c = c1 ++ x :: c2 /\ length c1 = length l1 /\ subc c1 l1 /\ (x = 2 \/ x = a) /\ subc c2 l2.
Proof.
  intros H. apply Forall2_app_inv_r in H. destruct H as (c1 & c' & H1 & H2 & ->). inversion H2 as [|x ? c2 ? Hx H3]; subst. exists c1, x, c2. split; [reflexivity|].
  split; [|auto]. clear -H1. induction H1; cbn; congruence.
Qed.
Lemma combine_splits {A} (l m : list A) : forall l1 x l2 m1 y m2, In ((l1, x, l2), (m1, y, m2)) (combine (splits l) (splits m)) -> length l1 = length m1.
Proof.
  revert m. induction l as [|a l IH]; intros m l1 x l2 m1 y m2 Hin; [destruct Hin|]. destruct m as [|b m]; [destruct Hin|]. rewrite !splits_cons in Hin. cbn [combine] in Hin.
  destruct Hin as [[= <- _ _ <- _ _]|Hin]; [reflexivity|]. 
  assert (E : forall (f g : list A * A * list A -> list A * A * list A) p q P Q, In (p, q) (combine (map f P) (map g Q)) -> exists p' q', In (p', q') (combine P Q) /\ p = f p' /\ q = g q').
  { clear. intros f g p q P. induction P as [|p0 P IH]; intros [|q0 Q] Hin; try destruct Hin as [Hin|Hin]; try (destruct Hin; fail).
    - injection Hin as <- <-. exists p0, q0. split; [now left|auto].
    - destruct (IH Q Hin) as (p' & q' & H1 & H2). exists p', q'. split; [now right|exact H2]. }
  apply E in Hin. destruct Hin as ([[p1 p2] p3] & [[q1 q2] q3] & Hin & [= -> _ _] & [= -> _ _]). cbn [length]. f_equal. eapply IH. exact Hin.
Qed.
Lemma join2_sub c x y v e : subc c x -> subc c y -> In (v, e) (join2 x y) -> subc c v.
Proof.
  intros Hx Hy Hin. unfold join2 in Hin. rewrite !cuts_splits, in_flat_map in Hin. destruct Hin as ([[[l1 a] l2] [[m1 b] m2]] & Hs & Hin).
  pose proof (in_combine_l _ _ _ _ Hs) as H1. pose proof (in_combine_r _ _ _ _ Hs) as H2. pose proof (combine_splits _ _ _ _ _ _ _ _ Hs) as L. apply splits_in in H1. apply splits_in in H2. subst x y.
  apply subc_app_inv in Hx, Hy. destruct Hx as (c1 & z & c2 & -> & L1 & S1 & Hz & S2), Hy as (d1 & z' & d2 & E & M1 & T1' & Hz' & T2).
  assert (E1 : c1 = d1 /\ z :: c2 = z' :: d2).
  { clear -E L L1 M1. assert (Q : length c1 = length d1) by lia. clear -E Q. revert d1 E Q. induction c1 as [|w c1 IH]; intros [|w' d1] E Q; try discriminate; [auto|]. injection E as -> E. destruct (IH d1 E) as [-> ->]; [cbn in Q; lia|]. auto. }
  destruct E1 as [<- [= <- <-]].
  assert (R : a <> b -> subc (c1 ++ z :: c2) (l1 ++ 2 :: m2)).
  { intros N. apply Forall2_app; [exact S1|]. constructor; [|exact T2]. left. destruct Hz as [?|Hz], Hz' as [?|Hz']; congruence. }
  destruct ((dim (a :: l2) =? 0) && (dim (m1 ++ [b]) =? 0)); [|destruct Hin].
  destruct ((a =? 0) && (b =? 1)) eqn:F.
  - apply andb_prop in F. destruct F as [F1 F2]. apply Z.eqb_eq in F1, F2. destruct Hin as [[= <- _]|[]]. apply R. lia.
  - clear F. destruct ((a =? 1) && (b =? 0)) eqn:F; [|destruct Hin]. apply andb_prop in F. destruct F as [F1 F2]. apply Z.eqb_eq in F1, F2. destruct Hin as [[= <- _]|[]]. apply R. lia.
Qed.
Lemma joins_sub c K v e : (forall x, In x K -> subc c x) -> In (v, e) (SpecCube.joins K) -> subc c v.
Proof.
  intros HK Hin. destruct K as [|b K]; [destruct Hin|]. unfold SpecCube.joins in Hin.
  assert (G : forall K acc, (forall x, In x K -> subc c x) -> (forall (b : list Z) (e : Z), In (b, e) acc -> subc c b) ->
    forall b e, In (b, e) (fold_left (fun acc c' => flat_map (fun '(b, e) => map (fun '(b', e') => (b', e * e')) (join2 b c')) acc) K acc) -> subc c b).
  { clear. induction K as [|d K IH]; intros acc HK Ha b e Hin; cbn [fold_left] in Hin; [eapply Ha; eauto|].
    eapply (IH _ (fun x Hx => HK x (or_intror Hx))); [|exact Hin]. intros b' e' Hb. apply in_flat_map in Hb. destruct Hb as ([b1 e1] & H1 & H2). apply in_map_iff in H2. destruct H2 as ([b2 e2] & [= <- _] & H2).
    eapply join2_sub; [eapply Ha; eauto|apply HK; now left|exact H2]. }
  eapply (G K [(b, 1)]); [intros; apply HK; now right| |exact Hin]. intros b' e' [[= <- _]|[]]. apply HK. now left.
Qed.
Lemma tensor_sub c (is : list Z) (L : list (Z * list Z)) w e : (forall p, In p L -> subc c (snd p)) -> In (w, e) (tensor_chains (map (fun i => SpecCube.joins (grouped i L)) is)) -> forall v, In v w -> subc c v.
Proof.
  intros HL. revert w e. induction is as [|i is IH]; intros w e Hin v Hv; cbn [map tensor_chains] in Hin.
  - destruct Hin as [[= <- _]|[]]. destruct Hv.
  - apply in_flat_map in Hin. destruct Hin as ([b e1] & H1 & H2). apply in_map_iff in H2. destruct H2 as ([w' e'] & [= <- _] & H2). destruct Hv as [<-|Hv]; [|eapply IH; eauto].
    eapply joins_sub; [|exact H1]. intros x Hx. unfold grouped in Hx. apply in_map_iff in Hx. destruct Hx as (p & <- & Hp). apply filter_In in Hp. now apply HL.
Qed.
Lemma actsC_sub r d k s w v : In (w, v) (cub_acts r d 1 k [s]) -> forall b, In b w -> subc s b.
Proof.
  intros Hin b Hb. apply actsC_in in Hin. destruct Hin as (l1 & s' & l2 & u & e & w' & e' & E & E1 & Hu & Hw & ->).
  destruct l1; [|rewrite zlen_cons in E1; pose proof (zlen_nonneg l1); lia]. cbn [app] in *. injection E as <- <-. rewrite app_nil_r in Hb.
  eapply tensor_sub; [|exact Hw|exact Hb]. intros [a c] Hp. cbn [snd]. apply in_combine_r in Hp. eapply serre_sub; eauto.
Qed.
Lemma subc_dim c b : subc c b -> cube_dim b <= cube_dim c.
Proof.
  induction 1 as [|x y c b Hxy H IH]; [reflexivity|]. rewrite !cube_dim_cons. destruct Hxy as [->| ->]; [|lia]. change (2 =? 2) with true. cbv iota. destruct (y =? 2); lia.
Qed.
Lemma subc_dim_eq c b : subc c b -> cube_dim b = cube_dim c -> b = c.
Proof.
  induction 1 as [|x y c b Hxy H IH]; [reflexivity|]. rewrite !cube_dim_cons. pose proof (subc_dim _ _ H). destruct Hxy as [->| ->].
  - change (2 =? 2) with true. cbv iota. destruct (Z.eqb_spec y 2) as [->|]; intros E; [|lia]. f_equal. apply IH. lia.
  - intros E. f_equal. apply IH. lia.
Qed.
Lemma X_sub X c b : cubical_set X -> subc c b -> is_cube b -> forall l, X (l ++ c) -> X (l ++ b).
Proof.
  intros HX H. induction H as [|x y c b Hxy H IH]; intros Cb l Hl; [exact Hl|]. assert (Cb' : is_cube b) by (intros a Ha; apply Cb; now right).
  change (y :: b) with ([y] ++ b). rewrite app_assoc. apply IH; [exact Cb'|]. rewrite <- app_assoc. cbn [app]. destruct Hxy as [->| ->]; [|exact Hl].
  assert (y = 0 \/ y = 1 \/ y = 2) as [E|[E|E]] by (apply Cb; now left); subst y; [| |exact Hl]; apply HX; auto.
Qed.
(** ** relabelling *)
Section Relabel.
Context {B : Type}.
Fixpoint AA (is : list Z) (F : Z -> dict B) (G : (Z -> B) -> Z) (h : Z -> B) : Z :=
  match is with [] => G h | i :: is' => ev (fun b => AA is' F G (fun j => if j =? i then b else h j)) (F i) end.
Definition depends (R : Z -> Prop) (G : (Z -> B) -> Z) : Prop := forall h h', (forall j, R j -> h j = h' j) -> G h = G h'.
Lemma AA_ext is F G G' h : (forall h', (forall j, ~ In j is -> h' j = h j) -> G h' = G' h') -> AA is F G h = AA is F G' h.
Proof.
  revert h. induction is as [|i is IH]; intros h E; cbn [AA]; [now apply E|]. apply ev_ext_all. intros b. apply IH. intros h' Hh. apply E. intros j Hj.
  rewrite Hh by (intros Hj'; apply Hj; now right). destruct (Z.eqb_spec j i) as [->|]; [|reflexivity]. exfalso. apply Hj. now left.
Qed.
Lemma AA_dep R is F G h h' : depends R G -> (forall j, R j -> h j = h' j) -> AA is F G h = AA is F G h'.
Proof.
  intros HG. revert h h'. induction is as [|i is IH]; intros h h' E; cbn [AA]; [now apply HG|]. apply ev_ext_all. intros b. apply IH. intros j Hj. destruct (j =? i); auto.
Qed.
Lemma AA_perm R is is' F G h : Permutation is is' -> NoDup is -> depends R G -> AA is F G h = AA is' F G h.
Proof.
  intros P ND HG. revert h ND. induction P as [|i is is' P IH|i j is|is1 is2 is3 P1 IH1 P2 IH2]; intros h ND; cbn [AA].
  - reflexivity.
  - inversion ND; subst. apply ev_ext_all. intros b. now apply IH.
  - inversion ND as [|? ? N1 ND1]; subst. rewrite (ev_exch (fun b c => AA is F G (fun j0 => if j0 =? i then c else if j0 =? j then b else h j0))). apply ev_ext_all. intros c. apply ev_ext_all. intros b.
    apply (AA_dep R); [exact HG|]. intros l _. destruct (Z.eqb_spec l i), (Z.eqb_spec l j); auto. subst. exfalso. apply N1. now left.
  - rewrite IH1, IH2; auto. eapply Permutation_NoDup; eauto.
Qed.
Lemma AA_relabel (R : Z -> Prop) (sg ta : Z -> Z) is F G h h' : (forall i j, In i is -> R j -> (ta j = i <-> j = sg i)) -> depends R G -> (forall j, R j -> h' j = h (ta j)) ->
  AA (map sg is) F G h' = AA is (fun i => F (sg i)) (fun h => G (fun j => h (ta j))) h.
Proof.
  intros Hst HG. revert h h'. induction is as [|i is IH]; intros h h' E; cbn [map AA]; [now apply HG|]. apply ev_ext_all. intros b. apply IH; [intros; apply Hst; auto; now right|].
  intros j Hj. destruct (Hst i j (or_introl eq_refl) Hj) as [H1 H2]. destruct (Z.eqb_spec j (sg i)), (Z.eqb_spec (ta j) i); auto; exfalso; auto.
Qed.
End Relabel.
Fixpoint TT (is : list Z) (F : Z -> dict (list Z)) (g : list (list Z) -> Z) : Z :=
  match is with [] => g [] | i :: is' => ev (fun b => TT is' F (fun w => g (b :: w))) (F i) end.
Lemma MJ_TT is g L : MJ is g L = TT is (fun i => SpecCube.joins (grouped i L)) g.
Proof. revert g. induction is as [|i is IH]; intros g; cbn [MJ TT]; [reflexivity|]. unfold Jg. apply ev_ext_all. intros b. apply IH. Qed.
Lemma TT_ext is F F' g : (forall i, In i is -> F i = F' i) -> TT is F g = TT is F' g.
Proof. revert g. induction is as [|i is IH]; intros g E; cbn [TT]; [reflexivity|]. rewrite (E i) by now left. apply ev_ext_all. intros b. apply IH. intros; apply E; now right. Qed.
Lemma TT_AA is F g h : NoDup is -> TT is F g = AA is F (fun h => g (map h is)) h.
Proof.
  revert g h. induction is as [|i is IH]; intros g h ND; cbn [TT AA]; [reflexivity|]. inversion ND; subst. apply ev_ext_all. intros b. erewrite IH by assumption. apply AA_ext. intros h' Hh. cbn [map].
  rewrite (Hh i) by assumption. now rewrite Z.eqb_refl.
Qed.
Lemma grouped_move r p k (u : list (list Z)) i : perm r p -> (forall a, In a k -> 1 <= a <= r) -> 1 <= i <= r -> grouped (image p i) (combine (map (image p) k) u) = grouped i (combine k u).
Proof.
  intros Hp Hk Hi. revert u. induction k as [|a k IH]; intros [|b u]; try reflexivity. cbn [map combine]. rewrite !grouped_cons, IH by (intros; apply Hk; now right). f_equal.
  destruct (Z.eqb_spec a i) as [->|N]; [now rewrite Z.eqb_refl|]. destruct (Z.eqb_spec (image p a) (image p i)) as [E|]; [|reflexivity]. exfalso. apply N. apply (image_inj r p); auto. apply Hk. now left.
Qed.
Lemma nth_zr d n : forall a b, 0 <= Z.of_nat n < b - a -> nth n (zrange a b) d = a + Z.of_nat n.
Proof.
  induction n as [|n IH]; intros a b Hn; rewrite zrange_cons by lia; cbn [nth]; [lia|]. rewrite IH by lia. lia.
Qed.
Lemma TC_move r p k g u : 1 <= r -> perm r p -> onto r k -> TC r (map (image p) k) g u = TC r k (fun w => g (placef p w)) u.
Proof.
  intros Hr Hp Hk. unfold TC. rewrite !MJ_TT. set (F := fun i => SpecCube.joins (grouped i (combine k u))). set (F' := fun i => SpecCube.joins (grouped i (combine (map (image p) k) u))).
  set (W := zrange 1 (r + 1)). rewrite !(TT_AA W _ _ (fun _ => [])) by apply NoDup_zrange.
  assert (DG : forall g, depends (fun j => 1 <= j <= r) (fun h : Z -> list Z => g (map h W))).
  { intros g' h h' E. f_equal. apply map_ext_in. intros j Hj. apply in_zrange in Hj. apply E. lia. }
  rewrite <- (AA_perm (fun j => 1 <= j <= r) (map (image p) W) W F'); [|unfold W; rewrite (perm_map_image r p) by (lia || assumption); exact Hp|unfold W; rewrite (perm_map_image r p) by (lia || assumption); eapply perm_nodup; eauto|apply DG].
  rewrite (AA_relabel (fun j => 1 <= j <= r) (image p) (posn p) W F' (fun h => g (map h W)) (fun _ => [])); [| |apply DG|reflexivity].
  - assert (EF : forall i, In i W -> F' (image p i) = F i).
    { intros i Hi. apply in_zrange in Hi. unfold F', F. f_equal. apply (grouped_move r); auto; [intros a Ha; now apply Hk|lia]. }
    clearbody F F'. transitivity (AA W F (fun h : Z -> list Z => g (map (fun j => h (posn p j)) W)) (fun _ => [])).
    + clear DG. generalize (fun h : Z -> list Z => g (map (fun j => h (posn p j)) W)). intros G. generalize (fun _ : Z => @nil Z). clearbody W. induction W as [|i is IH]; intros h; cbn [AA]; [reflexivity|]. rewrite (EF i) by now left. apply ev_ext_all. intros b. apply IH. intros; apply EF; now right.
    + apply AA_ext. intros h _. f_equal. unfold placef. rewrite (perm_len r) by (lia || assumption). fold W. apply map_ext_in. intros j Hj. apply in_zrange in Hj. unfold lab.
      assert (Hin : In j p) by (apply (Permutation_in j (Permutation_sym Hp)); apply in_zrange; lia). destruct (posn_index _ _ Hin) as (_ & Rp & _). rewrite (perm_len r) in Rp by (lia || assumption).
      unfold W. unfold znth. rewrite nth_indep with (d' := h 0) by (rewrite map_length, zrange_length; lia). rewrite map_nth with (d := 0). f_equal. rewrite nth_zr by lia. lia.
  - intros i j Hi Hj. apply in_zrange in Hi. split; [|intros ->; apply (posn_image r); auto; lia]. intros <-. assert (Hin : In j p) by (apply (Permutation_in j (Permutation_sym Hp)); apply in_zrange; lia).
    destruct (posn_index _ _ Hin) as (_ & _ & E). now rewrite E.
Qed.
Lemma PsiC_move r p k g s : 1 <= r -> perm r p -> onto r k -> PsiC r (map (image p) k) g s = PsiC r k (fun w => g (placef p w)) s.
Proof. intros Hr Hp Hk. unfold PsiC. rewrite map_length. rewrite !SC_sum. apply ev_ext_all. intros u. now apply TC_move. Qed.
(** ** inserting a constant coordinate *)
Fixpoint ins (i : nat) (a : Z) (l : list Z) : list Z := match i, l with Datatypes.S i', x :: l' => x :: ins i' a l' | _, _ => a :: l end.
Lemma dim_ins i a l : a <> 2 -> cube_dim (ins i a l) = cube_dim l.
Proof.
  intros N. revert l. induction i as [|i IH]; intros [|x l]; cbn [ins]; rewrite ?cube_dim_cons, ?IH; destruct (Z.eqb_spec a 2); try contradiction; try lia.
Qed.
Lemma e0_ins i a l : a <> 2 -> e0 (ins i a l) = e0 l.
Proof. intros N. unfold e0. now rewrite dim_ins. Qed.
Lemma se_ins i a H c : a <> 2 -> se H (ins i a c) = se (fun f b => H (ins i a f) (ins i a b)) c.
Proof.
  intros N. revert H c. induction i as [|i IH]; intros H c; cbn [ins].
  - now rewrite se_n.
  - destruct c as [|x c]; [rewrite se_n by exact N; reflexivity|]. destruct (Z.eq_dec x 2) as [->|Nx].
    + rewrite !se_2, !IH. f_equal. apply se_ext. intros f b _. now rewrite dim_ins.
    + rewrite !se_n by exact Nx. rewrite IH. reflexivity.
Qed.
Lemma SC_ins t i a G c : a <> 2 -> SC t G (ins i a c) = SC t (fun u => G (map (ins i a) u)) c.
Proof. intros N. revert G c. induction t as [|t IH]; intros G c; [reflexivity|]. cbn [SC]. rewrite se_ins by exact N. apply se_ext. intros f b _. now rewrite IH. Qed.
Lemma delta_self a : delta a a = 0. Proof. apply comp_delta. now left. Qed.
Lemma jj_ins i a G c1 c2 : a <> 2 -> length c1 = length c2 -> jj G (ins i a c1) (ins i a c2) = jj (fun v => G (ins i a v)) c1 c2.
Proof.
  intros N. revert G c1 c2. induction i as [|i IH]; intros G c1 c2 L; cbn [ins].
  - rewrite jj_nn by assumption. rewrite delta_self. ring.
  - destruct c1 as [|x c1], c2 as [|y c2]; try discriminate; [rewrite jj_nn by assumption; rewrite delta_self; cbn [jj]; ring|].
    cbn [jj]. destruct (y =? 2); [reflexivity|]. injection L as L. rewrite IH by exact L. rewrite !e0_cons, e0_ins by exact N. cbn [ins].
    destruct (Z.eq_dec (delta x y) 0) as [->|]; [ring|]. 
    destruct (x =? 2); ring.
Qed.
Lemma Jg_ins i a N : a <> 2 -> forall K G, (forall c, In c K -> length c = N) -> Jg G (map (ins i a) K) = Jg (fun v => G (ins i a v)) K.
Proof.
  intros Na K. remember (length K) as n eqn:En. revert K En. induction n as [|n IH]; intros K En G HK; destruct K as [|b K]; try discriminate; [reflexivity|].
  destruct K as [|c K]; cbn [map]; [now rewrite !Jg_1|]. rewrite !Jg_2, !join2_jj.
  assert (Lb : length b = N) by (apply HK; now left). assert (Lc : length c = N) by (apply HK; right; now left). rewrite jj_ins by (assumption || congruence).
  apply jj_ext; [|unfold zlen; congruence]. intros v Lv. change (ins i a v :: map (ins i a) K) with (map (ins i a) (v :: K)). apply IH; [cbn in *; lia|].
  intros x [<-|Hx]; [unfold zlen in Lv; lia|]. apply HK. right. now right.
Qed.
Lemma grouped_map {A B} (f : A -> B) i (L : list (Z * A)) : grouped i (map (fun p => (fst p, f (snd p))) L) = map f (grouped i L).
Proof. induction L as [|[a c] L IH]; [reflexivity|]. cbn [map fst snd]. rewrite !grouped_cons, IH, map_app. now destruct (a =? i). Qed.
Lemma combine_map_r {A B C} (f : B -> C) (k : list A) u : combine k (map f u) = map (fun p => (fst p, f (snd p))) (combine k u).
Proof. revert u. induction k as [|a k IH]; intros [|b u]; try reflexivity. cbn [map combine fst snd]. now rewrite IH. Qed.
Lemma MJ_ins i a N : a <> 2 -> forall is g L, (forall p, In p L -> length (snd p) = N) -> MJ is g (map (fun p => (fst p, ins i a (snd p))) L) = MJ is (fun w => g (map (ins i a) w)) L.
Proof.
  intros Na. induction is as [|j is IH]; intros g L HL; cbn [MJ]; [reflexivity|]. rewrite grouped_map. rewrite (Jg_ins i a N); [|exact Na|].
  - apply Jg_ext. intros v. now rewrite IH.
  - intros c Hc. unfold grouped in Hc. apply in_map_iff in Hc. destruct Hc as (p & <- & Hp). apply filter_In in Hp. now apply HL.
Qed.
Lemma PsiC_ins r k g i a s : a <> 2 -> PsiC r k g (ins i a s) = PsiC r k (fun w => g (map (ins i a) w)) s.
Proof.
  intros N. unfold PsiC. rewrite SC_ins by exact N. rewrite !SC_sum. apply ev_ext. intros u e Hu. unfold TC. rewrite combine_map_r. apply (MJ_ins i a (length s)); [exact N|].
  intros [b c] Hp. cbn [snd]. apply in_combine_r in Hp. pose proof (serre_eqc _ _ _ _ (zlen s) eq_refl Hu c Hp) as [L _]. unfold zlen in L. lia.
Qed.
(** ** squares *)
Lemma cell_len2 d s w v : In (w, v) (cub_acts 2 (zlen (altw 1 (d + 2)) - 2) 1 (altw 1 (d + 2)) [s]) -> exists x y, w = [x; y] /\ subc s x /\ subc s y /\ cube_dim x + cube_dim y = cube_dim s + Z.of_nat d.
Proof.
  intros Hin. pose proof (actsC_sub _ _ _ _ _ _ Hin) as Hs. assert (Q : kdegC 1 (cube_dim s) [s]) by (split; [reflexivity|]; rewrite tdeg_cons; change (tdeg cube_dim []) with 0; ring).
  destruct (actsC_deg 2 (Z.of_nat d) 1 (cube_dim s) 1 (altw 1 (d + 2)) [s] w v ltac:(lia) (altw_cell d) Q Hin) as [[Lw Dw] _].
  destruct w as [|x [|y [|z w]]]; rewrite ?zlen_cons, ?zlen_nil in Lw; try (pose proof (zlen_nonneg w)); try lia.
  exists x, y. rewrite !tdeg_cons in Dw. change (tdeg cube_dim []) with 0 in Dw. split; [reflexivity|]. split; [apply Hs; now left|]. split; [apply Hs; right; now left|]. lia.
Qed.
Lemma PhiC_low g d s : cube_dim s < Z.of_nat d -> PhiC 2 1 g (altw 1 (d + 2)) [s] = 0.
Proof.
  intros Hd. unfold PhiC. destruct (cub_acts _ _ _ _ _) as [|[w v] l] eqn:E; [reflexivity|]. exfalso.
  destruct (cell_len2 d s w v) as (x & y & _ & Sx & Sy & D); [rewrite E; now left|]. apply subc_dim in Sx, Sy. lia.
Qed.
Lemma PhiC_top d s : cube_dim s = Z.of_nat d -> exists n, forall g, PhiC 2 1 g (altw 1 (d + 2)) [s] = n * g [s; s].
Proof.
  intros Hd. exists (ev (fun _ => 1) (cub_acts 2 (zlen (altw 1 (d + 2)) - 2) 1 (altw 1 (d + 2)) [s])). intros g. unfold PhiC. rewrite Z.mul_comm, <- ev_scal. apply ev_ext. intros w v Hin.
  destruct (cell_len2 d s w v Hin) as (x & y & -> & Sx & Sy & D). pose proof (subc_dim _ _ Sx). pose proof (subc_dim _ _ Sy).
  rewrite (subc_dim_eq s x), (subc_dim_eq s y) by (assumption || lia). ring.
Qed.
Lemma collapse_twos n : forall o, collapse o (repeat 2 n) = Some (zrange o (o + Z.of_nat n + 1)).
Proof.
  induction n as [|n IH]; intros o; cbn [repeat collapse].
  - rewrite zrange_cons by lia. rewrite zrange_nil by lia. reflexivity.
  - change (2 =? 0) with false. cbv iota. rewrite IH. change (2 =? 2) with true. cbv iota. rewrite (zrange_cons o) by lia. f_equal. f_equal. f_equal. lia.
Qed.
Lemma zr_nodeg n : forall o, dupb (zrange o (o + Z.of_nat n)) = false.
Proof.
  induction n as [|n IH]; intros o; [rewrite zrange_nil by lia; reflexivity|]. rewrite zrange_cons by lia. destruct n as [|n]; [rewrite zrange_nil by lia; reflexivity|].
  specialize (IH (o + 1)). replace (o + 1 + Z.of_nat (Datatypes.S n)) with (o + Z.of_nat (Datatypes.S (Datatypes.S n))) in IH by lia. rewrite zrange_cons in IH |- * by lia. rewrite dupb_cons2, IH. destruct (Z.eqb_spec o (o + 1)); [lia|reflexivity].
Qed.
Lemma twos_dim n : cube_dim (repeat 2 n) = Z.of_nat n.
Proof. induction n as [|n IH]; [reflexivity|]. cbn [repeat]. rewrite cube_dim_cons, IH. change (2 =? 2) with true. cbv iota. lia. Qed.
Lemma PhiC_twos d g : eqm 2 (PhiC 2 1 g (altw 1 (d + 2)) [repeat 2 d]) (g [repeat 2 d; repeat 2 d]).
Proof.
  set (s := repeat 2 d). destruct (PhiC_top d s (twos_dim d)) as [n Hn]. rewrite Hn. set (z := zrange 0 (Z.of_nat d + 1)).
  assert (Ez : z = 0 :: zrange 1 (Z.of_nat d + 1)) by (unfold z; rewrite zrange_cons by lia; reflexivity).
  set (g0 := fun w : list (list Z) => if list_eq_dec (list_eq_dec Z.eq_dec) w [z; z] then 1 else 0).
  assert (Dz : dupb z = false) by (unfold z; pose proof (zr_nodeg (Datatypes.S d) 0) as Q; replace (0 + Z.of_nat (Datatypes.S d)) with (Z.of_nat d + 1) in Q by lia; exact Q).
  assert (A0 : adm cls_simplicial g0).
  { split; [intros k k' E; apply keqb_eq in E; now subst|]. intros k Hk. unfold g0. destruct (list_eq_dec _ k [z; z]) as [->|]; [|reflexivity]. exfalso. injection Hk as Hk. cbn [existsb] in Hk.
    assert (Fz : spx_is_degenerate z = false) by (rewrite deg_dupb, Dz, Ez; reflexivity). rewrite Fz in Hk. discriminate. }
  assert (En : eqm 2 n 1); [|now rewrite En, Z.mul_1_l].
  assert (Cs : is_cube s) by (intros a Ha; apply repeat_spec in Ha; auto). destruct (altw_cell d) as [Ho _]. assert (Nk : altw 1 (d + 2) <> []) by (rewrite Nat.add_comm; discriminate).
  pose proof (PhiC_DC 2 (altw 1 (d + 2)) 2 1 1 g0 [] s [] eq_refl Ho Nk Cs (adm_dup g0 A0)) as P. cbn [app] in P. rewrite Hn in P.
  assert (Cz : collapse 0 s = Some z) by (unfold s, z; rewrite collapse_twos; reflexivity).
  unfold DC in P. cbn [collapses] in P. rewrite Cz in P. rewrite Ez in P at 3. rewrite Phi_alt in P; [|exact A0|rewrite zrange_length; lia]. rewrite <- Ez in P.
  assert (L1 : (length (zrange 1 (Z.of_nat d + 1)) =? d)%nat = true) by (apply Nat.eqb_eq; rewrite zrange_length; lia). rewrite L1 in P.
  assert (G1 : g0 [z; z] = 1) by (unfold g0; destruct (list_eq_dec _ [z; z] [z; z]); congruence). rewrite G1 in P. rewrite Z.mul_1_r in P. rewrite P by (intros; apply sgn_eqm2).
  unfold alt_sign. rewrite (sgn_eqm2 (_ + _)). reflexivity.
Qed.
Lemma twos_or s : is_cube s -> s = repeat 2 (length s) \/ exists i a s', a <> 2 /\ s = ins i a s' /\ is_cube s'.
Proof.
  induction s as [|x s IH]; intros Cs; [now left|]. assert (Cs' : is_cube s) by (intros a Ha; apply Cs; now right). destruct (Z.eq_dec x 2) as [->|N].
  - destruct (IH Cs') as [->|(i & a & s' & Na & -> & C')].
    + left. cbn [length repeat]. now rewrite repeat_length.
    + right. exists (Datatypes.S i), a, (2 :: s'). split; [exact Na|]. split; [reflexivity|]. intros b [<-|Hb]; auto.
  - right. exists 0%nat, x, s. auto.
Qed.
Lemma ins_len i a l : length (ins i a l) = Datatypes.S (length l).
Proof. revert l. induction i as [|i IH]; intros [|x l]; cbn [ins length]; auto. Qed.
Lemma PhiC_square d g s : is_cube s -> cube_dim s = Z.of_nat d -> eqm 2 (PhiC 2 1 g (altw 1 (d + 2)) [s]) (g [s; s]).
Proof.
  remember (length s) as n eqn:En. revert g s En. induction n as [|n IH]; intros g s En Cs Ds; destruct (twos_or s Cs) as [E|(i & a & s' & Na & E & C')].
  - destruct s; [|discriminate]. change (cube_dim []) with 0 in Ds. assert (d = 0%nat) by lia. subst d. apply (PhiC_twos 0).
  - subst s. rewrite ins_len in En. discriminate.
  - rewrite <- En in E. subst s. rewrite twos_dim in Ds. assert (E : d = Datatypes.S n) by lia. rewrite E. apply PhiC_twos.
  - subst s. rewrite ins_len in En. rewrite dim_ins in Ds by exact Na. injection En as En.
    transitivity (PsiC 2 (altw 1 (d + 2)) (fun v => g ([] ++ v ++ [])) (ins i a s')); [apply (PhiC_mod2 2 1 g (altw 1 (d + 2)) [] (ins i a s') []); reflexivity|].
    rewrite PsiC_ins by exact Na. transitivity (PhiC 2 1 (fun v => g (map (ins i a) v)) (altw 1 (d + 2)) [s']).
    + symmetry. etransitivity; [apply (PhiC_mod2 2 1 (fun v => g (map (ins i a) v)) (altw 1 (d + 2)) [] s' []); reflexivity|]. apply eqm_eq. cbn [app].
      unfold PsiC. rewrite !SC_sum. apply ev_ext_all. intros u. unfold TC. apply MJ_ext. intros w. now rewrite !app_nil_r.
    + apply (IH (fun v => g (map (ins i a) v)) s' En C' Ds).
Qed.
