(** * The Adem relations for the Steenrod squares computed by the code (C91) *)
From Coq Require Import Setoid Morphisms.
From Verif Require Import PyBase Dict FreeModule Symmetric Simplicial Utils Surjection Eqm Spec SpecChain SpecOperad SpecSurj SpecAction SpecCochain SpecCup SpecSimpCup SpecSquares SpecAdem FreeModuleFacts FreeModuleLaws ListFacts
  ClassFacts LinearFacts BilFacts SymmetricFacts CycleFacts SymmetricLaws RingFacts Tensor TensorAct KoszulFacts LoopFacts AW SimplicialFacts SimplicialDiag SimplicialLaws BELaws BEDiag MayFacts SurjFacts SurjBoundary SurjLaws SurjAct SurjLaws2 ActFacts ActSign ActCore ActCode ActLaws
  EquivAct EquivLaws SurjMay SurjCompose SurjCompose2 SurjCompose3 SurjCompose4 SurjLaws6 CompEquiv OperadAct SteenrodAct CupI CupILaws SimpCupLaws SqHtpy SqCartan SqAct SqLaws AdemHtpy AdemWords AdemSum AdemSym AdemBin AdemAct.

Definition Vz (c : simp) (d : Z) (g : list (list Z) -> Z) : Z := if d <? 0 then 0 else V c (Z.to_nat d) g.
Lemma V_zero c d g : (forall w, g w = 0) -> V c d g = 0.
Proof.
  intros Q. unfold V. apply ev_zero. intros K v _. unfold U. rewrite (repF_ext 2 (Z.of_nat d) (W d) _ (fun _ => 0) (W_rep d)); [apply W_zero|]. intros k _. unfold Phi. apply ev_zero. intros w v' _. apply Q.
Qed.
Lemma Vz_zero c d g : (forall w, g w = 0) -> Vz c d g = 0.
Proof. intros Q. unfold Vz. destruct (d <? 0); [reflexivity|]. now apply V_zero. Qed.
(** the values of an iterated square *)
Lemma square_on_val dt dc k n i m e X (a f : list Z -> Z) (c : simp) : 0 <= m -> cochain m a -> dt_ok dt 2 -> wf cls_simplicial c -> torsion c = 2 -> keys_in (fun key => exists s, key = [s] /\ X s /\ zlen s - 1 = e) c ->
  is_square dt dc i m a f ->
  (exists v, square_on dt dc k n f c v) /\ forall v, square_on dt dc k n f c v -> eqm 2 v (Vz c (n - k) (simp_pair (Sqv i m a) (Sqv i m a))).
Proof.
  intros Hm Ha Hdt Wc Tc Kc Hf. pose proof (Kd_c e X c Kc) as Kd.
  assert (Q : forall S, surj_steenrod_operation dt dc 2 (- k) (- n) false (Some MS) = Ok S -> exists y, surj_call_simplicial dt S c 1 = Ok y /\ eqm 2 (simp_value (simp_pair f f) y) (Vz c (n - k) (simp_pair (Sqv i m a) (Sqv i m a)))).
  { intros S ES. unfold Vz. destruct (Z.ltb_spec (n - k) 0) as [L|L].
    - apply op2_low in ES; [|lia]. destruct (C50_zero_l dt 1 S c (or_introl ES)) as (y & Ey & Zy & _). exists y. split; [exact Ey|]. rewrite value_zero by exact Zy. reflexivity.
    - apply op2' in ES; [|exact Hdt|lia]. replace (- k - - n) with (n - k) in ES by ring.
      destruct (call_may dt 2 (Z.to_nat (n - k)) e S c ltac:(lia) Hdt ES Wc Tc Kd) as (y & Ey & Dy). exists y. split; [exact Ey|].
      assert (FE : forall s, s <> [] -> eqm 2 (f s) (Sqv i m a s)) by (intros s Ns; apply (square_val dt dc i m a s Hm Ha Hdt Ns); now apply Hf).
      rewrite (val_eqm y f f (Sqv i m a) (Sqv i m a) (den_wf cls_simplicial 2 tt _ y ltac:(lia) Dy) FE FE).
      change (simp_value ?g y) with (ev g (data y)). rewrite (den_ev cls_simplicial 2 tt _ y _ Dy); [reflexivity|]. apply pair_adm'; intros; now apply Sqv_deg. }
  split.
  - destruct (op2_ok dt dc (- k) (- n) Hdt) as [S ES]. destruct (Q S ES) as (y & Ey & _). exists (simp_value (simp_pair f f) y), S, y. auto.
  - intros v (S & y & ES & Ey & <-). destruct (Q S ES) as (y' & Ey' & E). rewrite Ey in Ey'. injection Ey' as <-. exact E.
Qed.
(** #C91_iterated_exists# The value of a square of a square on a chain is always defined, and
    modulo 2 it does not depend on the cochain chosen to represent the inner square. *)
Lemma C91_iterated_exists_l (dt e k n i m : Z) (dc : conv) (X : list Z -> Prop) (c : simp) (a f f' : list Z -> Z) :
  0 <= m -> cochain m a -> dt_ok dt 2 -> wf cls_simplicial c -> torsion c = 2 -> keys_in (fun key => exists s, key = [s] /\ X s /\ zlen s - 1 = e) c ->
  is_square dt dc i m a f -> is_square dt dc i m a f' ->
  (exists v, square_on dt dc k n f c v) /\ forall v v', square_on dt dc k n f c v -> square_on dt dc k n f' c v' -> congruent 2 v v'.
Proof.
  intros Hm Ha Hdt Wc Tc Kc Hf Hf'. destruct (square_on_val dt dc k n i m e X a f c Hm Ha Hdt Wc Tc Kc Hf) as [E1 E2]. destruct (square_on_val dt dc k n i m e X a f' c Hm Ha Hdt Wc Tc Kc Hf') as [_ E3].
  split; [exact E1|]. intros v v' Hv Hv'. change (eqm 2 v v'). rewrite (E2 v Hv), (E3 v' Hv'). reflexivity.
Qed.
(** #C91_adem# The Adem relations: for 0 <= r < 2 s and a cocycle modulo 2 of degree m, on
    every cycle, Sq^r(Sq^s(a)) is the sum over 0 <= i <= r/2 of C(s - i - 1, r - 2 i) times
    Sq^(r + s - i)(Sq^i(a)). *)
Lemma C91_adem_l (dt e m r s v : Z) (dc : conv) (X : list Z -> Prop) (c bc : simp) (a : list Z -> Z) (A : Z -> list Z -> Z) (w : Z -> Z) :
  0 <= e -> 0 <= m -> dt_ok dt 2 -> simplicial_set X -> wf cls_simplicial c -> torsion c = 2 ->
  keys_in (fun key => exists s, key = [s] /\ X s /\ zlen s - 1 = e) c -> simp_boundary dt c = Ok bc -> data bc = [] ->
  cochain m a -> (forall s, X s -> congruent 2 (simp_coboundary a s) 0) ->
  0 <= r < 2 * s -> (forall i, 0 <= i <= s -> is_square dt dc i m a (A i)) ->
  square_on dt dc r (m + s) (A s) c v -> (forall i, 0 <= i <= r / 2 -> square_on dt dc (r + s - i) (m + i) (A i) c (w i)) ->
  congruent 2 v (zsum (map (fun i => choose (Z.to_nat (s - i - 1)) (Z.to_nat (r - 2 * i)) * w i) (zrange 0 (r / 2 + 1)))).
Proof.
  intros He Hm Hdt HX Wc Tc Kc Eb Zb Ha Va Hr HA Hv Hw. assert (Hdc : dt_ok dt (torsion c)) by now rewrite Tc.
  assert (R2 : 2 * (r / 2) <= r < 2 * (r / 2) + 2) by (pose proof (Z.div_mod r 2 ltac:(lia)); pose proof (Z.mod_pos_bound r 2 ltac:(lia)); lia).
  set (val := fun k i => Vz c (m + i - k) (simp_pair (Sqv i m a) (Sqv i m a))).
  change (congruent 2) with (eqm 2). change (zsum (map ?f ?l)) with (sumf f l).
  rewrite (proj2 (square_on_val dt dc r (m + s) s m e X a (A s) c Hm Ha Hdt Wc Tc Kc (HA s ltac:(lia))) v Hv). fold (val r s).
  set (T := fun i => if (0 <=? i) && (i <=? r / 2) then choose (Z.to_nat (s - i - 1)) (Z.to_nat (r - 2 * i)) * val (r + s - i) i else 0).
  assert (TI : forall i, 0 <= i <= r / 2 -> T i = choose (Z.to_nat (s - i - 1)) (Z.to_nat (r - 2 * i)) * val (r + s - i) i).
  { intros i Hi. unfold T. destruct (Z.leb_spec 0 i); [|lia]. destruct (Z.leb_spec i (r / 2)); [|lia]. reflexivity. }
  assert (TO : forall i, ~ 0 <= i <= r / 2 -> T i = 0).
  { intros i Hi. unfold T. destruct (Z.leb_spec 0 i); [|reflexivity]. destruct (Z.leb_spec i (r / 2)); [lia|]. reflexivity. }
  transitivity (sumf T (zrange 0 (r / 2 + 1))).
  2:{ apply sumf_eqm. intros i Hi. apply in_zrange in Hi. rewrite TI by lia. rewrite (proj2 (square_on_val dt dc (r + s - i) (m + i) i m e X a (A i) c Hm Ha Hdt Wc Tc Kc (HA i ltac:(lia))) _ (Hw i ltac:(lia))). reflexivity. }
  assert (VL : forall k i, m + i - k < 0 -> val k i = 0) by (intros k i L; unfold val, Vz; destruct (Z.ltb_spec (m + i - k) 0); [reflexivity|lia]).
  assert (VH : forall k i, i < 0 \/ m < i -> val k i = 0).
  { intros k i L. apply Vz_zero. intros [|x [|y [|z q]]]; try reflexivity. cbn [simp_pair]. rewrite Sqv_high by auto. ring. }
  destruct (Z_lt_dec m s) as [Ls|Ls]; [|destruct (Z_lt_dec (m + s) r) as [Lr|Lr]].
  - rewrite VH by lia. rewrite sumf_0; [reflexivity|]. intros i Hi. apply in_zrange in Hi. rewrite TI by lia. destruct (Z_lt_dec m i); [rewrite VH by lia; ring|]. rewrite VL by lia. ring.
  - rewrite VL by lia. rewrite sumf_0; [reflexivity|]. intros i Hi. apply in_zrange in Hi. rewrite TI by lia. rewrite VL by lia. ring.
  - set (i0 := Z.to_nat (m - s)). set (q := Z.to_nat (3 * m - (r + s))).
    assert (Zi : Z.of_nat i0 = m - s) by lia. assert (Zq : Z.of_nat q = 3 * m - (r + s)) by lia.
    assert (Q2 : (2 * (q / 2) <= q < 2 * (q / 2) + 2)%nat) by (pose proof (Nat.div_mod_eq q 2); pose proof (Nat.mod_upper_bound q 2 ltac:(lia)); lia).
    assert (VD : forall k i j, Z.of_nat j = m - i -> 0 <= i -> Z.of_nat (q - 2 * j) = m + i - k -> DV c a q j = val k i).
    { intros k i j Ej Hi Ek. unfold DV, val, Vz. destruct (Z.ltb_spec (m + i - k) 0); [lia|]. rewrite <- Ek, Nat2Z.id. unfold Sqv. rewrite <- Ej, Nat2Z.id. destruct (Z.ltb_spec (Z.of_nat j) 0); [lia|]. reflexivity. }
    rewrite <- (VD r s i0) by lia.
    rewrite (adem_chains dt e m X c bc a He HX Wc Tc Hdc Kc Eb Zb Hm Ha Va q i0) by lia.
    rewrite <- (reindex (q / 2) (r / 2) m (Z.of_nat (q / 2) + r / 2 - m) T ltac:(lia)).
    + apply sumf_eqm. intros j Hj. apply in_seq in Hj. destruct (Z_lt_dec m (Z.of_nat j)) as [Lj|Lj].
      * rewrite TO by lia. unfold DV. rewrite V_zero; [apply eqm_eq; ring|]. intros [|x [|y [|z w']]]; try reflexivity. cbn [simp_pair]. rewrite (sq_high m a Hm Ha) by lia. ring.
      * unfold coe. destruct (Nat.leb_spec q (2 * j + i0)) as [L|L].
        -- rewrite TI by lia. rewrite cnv_gt by lia. rewrite (VD (r + s - (m - Z.of_nat j)) (m - Z.of_nat j) j) by lia. replace (j - i0 - 1)%nat with (Z.to_nat (s - (m - Z.of_nat j) - 1)) by lia. replace (2 * j + i0 - q)%nat with (Z.to_nat (r - 2 * (m - Z.of_nat j))) by lia. reflexivity.
        -- rewrite TO by lia. apply eqm_eq. ring.
    + intros i Hi. destruct (Z_le_dec 0 i) as [I1|I1]; [|apply TO; lia]. destruct (Z_le_dec i (r / 2)) as [I2|I2]; [|apply TO; lia]. rewrite TI by lia. destruct (Z_lt_dec m i); [rewrite VH by lia; ring|]. rewrite VL by lia. ring.
Qed.
(** #C91_vanishing# Sq^(2 s - 1)(Sq^s(a)) = 0 on every cycle. *)
Lemma C91_vanishing_l (dt e m s v : Z) (dc : conv) (X : list Z -> Prop) (c bc : simp) (a f : list Z -> Z) :
  0 <= e -> 0 <= m -> dt_ok dt 2 -> simplicial_set X -> wf cls_simplicial c -> torsion c = 2 ->
  keys_in (fun key => exists s, key = [s] /\ X s /\ zlen s - 1 = e) c -> simp_boundary dt c = Ok bc -> data bc = [] ->
  cochain m a -> (forall s, X s -> congruent 2 (simp_coboundary a s) 0) ->
  1 <= s -> is_square dt dc s m a f -> square_on dt dc (2 * s - 1) (m + s) f c v -> congruent 2 v 0.
Proof.
  intros He Hm Hdt HX Wc Tc Kc Eb Zb Ha Va Hs Hf Hv. assert (Hdc : dt_ok dt (torsion c)) by now rewrite Tc.
  set (A := fun i => if i =? s then f else Sqv i m a).
  assert (HA : forall i, is_square dt dc i m a (A i)).
  { intros i. unfold A. destruct (Z.eqb_spec i s) as [->|N]; [exact Hf|]. intros x Nx. destruct (square_val dt dc i m a x Hm Ha Hdt Nx) as [(u & (S & y & z & E1 & E2 & E3 & E4)) U]. exists S, y, z. repeat apply conj; auto.
    change (eqm 2 (simp_value (simp_pair a a) z) (Sqv i m a x)). change (eqm 2 (simp_value (simp_pair a a) z) u) in E4. rewrite E4. apply U. exists S, y, z. auto. }
  assert (D : (2 * s - 1) / 2 = s - 1) by (symmetry; apply (Z.div_unique _ _ _ 1); lia).
  assert (W : exists w, forall i, 0 <= i <= (2 * s - 1) / 2 -> square_on dt dc (2 * s - 1 + s - i) (m + i) (A i) c (w i)).
  { assert (G : forall n, exists w, forall i, 0 <= i < Z.of_nat n -> square_on dt dc (2 * s - 1 + s - i) (m + i) (A i) c (w i)).
    { induction n as [|n [w IH]]; [exists (fun _ => 0); intros; lia|]. destruct (proj1 (square_on_val dt dc (2 * s - 1 + s - Z.of_nat n) (m + Z.of_nat n) (Z.of_nat n) m e X a (A (Z.of_nat n)) c Hm Ha Hdt Wc Tc Kc (HA _))) as [u Hu].
      exists (fun i => if i =? Z.of_nat n then u else w i). intros i Hi. destruct (Z.eqb_spec i (Z.of_nat n)) as [->|N]; [exact Hu|]. apply IH. lia. }
    destruct (G (Z.to_nat s)) as [w Hw]. exists w. intros i Hi. apply Hw. lia. }
  destruct W as [w Hw]. assert (As : A s = f) by (unfold A; now rewrite Z.eqb_refl).
  pose proof (C91_adem_l dt e m (2 * s - 1) s v dc X c bc a A w He Hm Hdt HX Wc Tc Kc Eb Zb Ha Va ltac:(lia) (fun i _ => HA i) ltac:(now rewrite As) Hw) as E.
  change (congruent 2) with (eqm 2) in *. rewrite E. change (zsum (map ?f ?l)) with (sumf f l). rewrite sumf_0; [reflexivity|]. intros i Hi. apply in_zrange in Hi. rewrite ch_lt by lia. ring.
Qed.
(** #C91_example# The hypotheses hold on the real projective plane with six vertices, for the
    cocycle of degree 1 which is not a coboundary, r = 0 and s = 1; both sides are 1. *)
Example C91_example_l :
  let T := [[0; 1; 2]; [0; 2; 3]; [0; 3; 4]; [0; 4; 5]; [0; 1; 5]; [1; 2; 4]; [2; 3; 5]; [1; 3; 4]; [2; 4; 5]; [1; 3; 5]] in
  let X := fun s : list Z => s <> [] /\ existsb (fun t => forallb (fun v => existsb (Z.eqb v) t) s) T = true in
  let a := fun s => match s with [x; y] => if existsb (fun p => (fst p =? x) && (snd p =? y) || (fst p =? y) && (snd p =? x)) [(1, 3); (1, 4); (2, 4); (2, 5); (3, 5)] then 1 else 0 | _ => 0 end in
  exists c bc A v w, simp_new 2 (map (fun t => ([t], 1)) T) None = Ok c /\ dt_ok 2 2 /\ simplicial_set X /\ wf cls_simplicial c /\ torsion c = 2 /\
    keys_in (fun key => exists s, key = [s] /\ X s /\ zlen s - 1 = 2) c /\ simp_boundary 2 c = Ok bc /\ data bc = [] /\ cochain 1 a /\
    (forall s, X s -> congruent 2 (simp_coboundary a s) 0) /\ (forall i, is_square 2 BF i 1 a (A i)) /\
    square_on 2 BF 0 (1 + 1) (A 1) c v /\ (forall i, 0 <= i <= 0 / 2 -> square_on 2 BF (0 + 1 - i) (1 + i) (A i) c (w i)) /\ v = 1 /\ choose 0 0 * w 0 = 1.
Proof.
  intros T X a.
  assert (Dt : dt_ok 2 2) by (split; [lia|right; split; [lia|now exists 1]]).
  assert (Ca : cochain 1 a).
  { split; [|intros [|x [|y [|w s]]] L; try reflexivity; exfalso; apply L; reflexivity].
    intros [|x [|y l1]] v l2; [|reflexivity|destruct l1; reflexivity]. destruct l2; [|reflexivity]. cbn [app]. unfold a.
    assert (E : existsb (fun p => (fst p =? v) && (snd p =? v) || (fst p =? v) && (snd p =? v)) [(1, 3); (1, 4); (2, 4); (2, 5); (3, 5)] = false); [|now rewrite E].
    apply Bool.not_true_is_false. intros E. apply existsb_exists in E. destruct E as (p & Hp & E). rewrite orb_diag in E. apply andb_true_iff in E. destruct E as [E1 E2]. apply Z.eqb_eq in E1, E2. cbn in Hp. destruct Hp as [<- | [<- | [<- | [<- | [<- | []]]]]]; cbn in *; lia. }
  assert (HX : simplicial_set X).
  { split; intros l1 v l2 (N & E); [intros N'|]; (split; [try exact N'; destruct l1; discriminate|]); apply existsb_exists in E; destruct E as (t & Ht & E); apply existsb_exists; exists t; (split; [exact Ht|]); rewrite forallb_app in *; cbn [forallb] in *; apply andb_true_iff in E; destruct E as [E1 E]; apply andb_true_iff in E; destruct E as [E2 E3]; rewrite E1, E3, ?E2; reflexivity. }
  assert (Even : forall v, Z.even v = true -> congruent 2 v 0) by (intros v E; apply Zeven_bool_iff, Zeven_ex in E; destruct E as [q ->]; exists q; ring).
  assert (Va : forall s, X s -> congruent 2 (simp_coboundary a s) 0).
  { intros s (N & E). destruct (Z.eq_dec (zlen s) 3) as [L|L].
    - assert (Q : forallb (fun t => forallb (fun x => forallb (fun y => forallb (fun z => Z.even (simp_coboundary a [x; y; z])) t) t) t) T = true) by (vm_compute; reflexivity).
      apply existsb_exists in E. destruct E as (t & Ht & E). rewrite forallb_forall in Q. specialize (Q t Ht). destruct s as [|x [|y [|z [|w s]]]]; try discriminate L; [|exfalso; rewrite !zlen_cons in L; pose proof (zlen_nonneg s); lia].
      assert (I : forall v, In v [x; y; z] -> In v t). { intros v Hv. rewrite forallb_forall in E. specialize (E v Hv). apply existsb_exists in E. destruct E as (u & Hu & Eu). apply Z.eqb_eq in Eu. now subst. }
      apply Even. rewrite forallb_forall in Q. specialize (Q x (I x ltac:(cbn; tauto))). rewrite forallb_forall in Q. specialize (Q y (I y ltac:(cbn; tauto))). rewrite forallb_forall in Q. exact (Q z (I z ltac:(cbn; tauto))).
    - exists 0. rewrite (proj2 (proj1 (C80_coboundary_l 1 a ltac:(lia) Ca)) s) by lia. reflexivity. }
  set (sq := fun (m : Z) (f : list Z -> Z) (k : Z) (s : list Z) => match surj_steenrod_operation 2 BF 2 (- k) (- m) false (Some MS), simp_new 2 [([s], 1)] (Some 2) with
    | Ok S, Ok x => match surj_call_simplicial 2 S x 1 with Ok y => simp_value (simp_pair f f) y | Err _ => 0 end | _, _ => 0 end).
  assert (HS : forall m f k, 0 <= m -> cochain m f -> is_square 2 BF k m f (sq m f k)).
  { intros m f k Hm Hf s Ns. destruct (square_val 2 BF k m f s Hm Hf Dt Ns) as [(v & S & x & y & E1 & E2 & E3 & _) _]. exists S, x, y. repeat apply conj; auto. unfold sq. rewrite E1, E2, E3. exists 0. ring. }
  exists (mkElt (map (fun t => ([t], 1)) T) 2 tt), (mkElt [] 2 tt), (sq 1 a), 1, (fun _ => 1).
  split; [vm_compute; reflexivity|]. split; [exact Dt|]. split; [exact HX|]. split; [apply wfb_wf; reflexivity|]. split; [reflexivity|]. split.
  { intros k v Hk. cbn [data] in Hk. apply in_map_iff in Hk. destruct Hk as (t & [= <- <-] & Ht). exists t. split; [reflexivity|].
    assert (Q : forallb (fun t => existsb (fun t' => forallb (fun v => existsb (Z.eqb v) t') t) T && (zlen t - 1 =? 2)) T = true) by (vm_compute; reflexivity). rewrite forallb_forall in Q. specialize (Q t Ht). apply andb_true_iff in Q. destruct Q as [Q1 Q2]. apply Z.eqb_eq in Q2. split; [split; [|exact Q1]|exact Q2]. intros ->. discriminate Q2. }
  split; [vm_compute; reflexivity|]. split; [reflexivity|]. split; [exact Ca|]. split; [exact Va|].
  split; [intros i; apply HS; auto; lia|].
  split; [do 2 eexists; split; [vm_compute; reflexivity|]; split; vm_compute; reflexivity|].
  split; [intros i Hi; change (0 / 2) with 0 in Hi; replace i with 0 by lia; do 2 eexists; split; [vm_compute; reflexivity|]; split; vm_compute; reflexivity|].
  split; reflexivity.
Qed.
