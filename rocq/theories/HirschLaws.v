(** * Steenrod's formula for cup-1 products, the Hirsch formula and the pre-Lie identity (C99) *)
From Coq Require Import Setoid Morphisms.
From Verif Require Import PyBase Dict FreeModule Symmetric Simplicial Utils Surjection Eqm Spec SpecChain SpecOperad SpecSurj SpecAction SpecCochain SpecCup SpecSimpCup SpecCupAlg SpecHirsch FreeModuleFacts FreeModuleLaws ListFacts
  ClassFacts LinearFacts BilFacts SymmetricFacts CycleFacts SymmetricLaws RingFacts Tensor TensorAct KoszulFacts LoopFacts AW SimplicialFacts SimplicialDiag SimplicialLaws ActFacts ActCore ActLaws SurjMay CupI SimpCupLaws SqLaws CubCup2 CupAlgLaws HirschFacts.

Lemma cupi_code dt dc t d s : 0 <= t -> t <> 1 -> dt_ok dt t -> 0 <= d -> s <> [] -> exists S x y,
  surj_may_steenrod dt dc 2 d (Some t) (Some MS) = Ok S /\ simp_new dt [([s], 1)] (Some t) = Ok x /\ surj_call_simplicial dt S x 1 = Ok y /\
  forall a b a' b', neq t a a' -> neq t b b' -> nm a' -> nm b' -> eqm t (simp_value (simp_pair a b) y) (U (Z.to_nat d) (simp_pair a' b') [s]).
Proof.
  intros Ht Nt Hdt Hd Ns. assert (Eu : t = if t =? 0 then dt else t) by (destruct Hdt as [_ [E|[E _]]]; destruct (Z.eqb_spec t 0); lia).
  destruct (mayS_ok dt dc MS 2 (Z.to_nat d) (Some t) (Some MS) t Eu eq_refl ltac:(now right) ltac:(lia) Ht Nt Hdt) as (S0 & ES & DS). rewrite Z2Nat.id in ES by lia.
  destruct (one_ok dt t s Ht Ns) as (x & Ex & Dx & Kx). pose proof (den_wf cls_simplicial t tt _ x Ht Dx) as Wx. pose proof (proj1 Dx) as Tx.
  destruct (call_may dt t _ (zlen s - 1) S0 x Ht Hdt DS Wx Tx Kx) as (y & Ey & Dy). exists S0, x, y. split; [exact ES|]. split; [exact Ex|]. split; [exact Ey|].
  intros a b a' b' Ha Hb Na Nb. rewrite (val_eqm_t t y a b a' b' (den_wf cls_simplicial t tt _ y Ht Dy) Ha Hb).
  assert (A : adm cls_simplicial (simp_pair a' b')) by (apply pair_adm'; auto).
  change (simp_value ?g ?x) with (ev g (data x)). rewrite (den_ev cls_simplicial t tt _ y _ Dy A), (den_ev cls_simplicial t tt _ x _ Dx (U_adm _ _ A)). reflexivity.
Qed.
Lemma cupi_is_iff dt dc t d a b a' b' f : 0 <= t -> t <> 1 -> dt_ok dt t -> 0 <= d -> neq t a a' -> neq t b b' -> nm a' -> nm b' ->
  (cupi_is dt dc t d a b f <-> cochain_eq t f (fun s => U (Z.to_nat d) (simp_pair a' b') [s])).
Proof.
  intros Ht Nt Hdt Hd Ha Hb Na Nb. split; intros H s Ns; destruct (cupi_code dt dc t d s Ht Nt Hdt Hd Ns) as (S & x & y & ES & Ex & Ey & V); specialize (V a b a' b' Ha Hb Na Nb).
  - destruct (H s Ns) as (S' & x' & y' & ES' & Ex' & Ey' & V'). rewrite ES in ES'. injection ES' as <-. rewrite Ex in Ex'. injection Ex' as <-. rewrite Ey in Ey'. injection Ey' as <-.
    change (eqm t (f s) (U (Z.to_nat d) (simp_pair a' b') [s])). change (eqm t (simp_value (simp_pair a b) y) (f s)) in V'. rewrite <- V'. exact V.
  - exists S, x, y. split; [exact ES|]. split; [exact Ex|]. split; [exact Ey|]. change (eqm t (simp_value (simp_pair a b) y) (f s)). rewrite V. specialize (H s Ns). change (eqm t (f s) (U (Z.to_nat d) (simp_pair a' b') [s])) in H. now rewrite H.
Qed.
Lemma aw_sn (H : list Z -> list Z -> Z) : forall s, aw H s = sn (length s) (fun i => H (firstn (1 + i) s) (skipn i s)).
Proof.
  intros s. revert H. induction s as [|v w IH]; intros H; [reflexivity|]. rewrite aw_cons, IH. change (length (v :: w)) with (1 + length w)%nat. rewrite sn_app. f_equal. unfold sn. cbn [seq]. rewrite sumf_cons, sumf_nil. cbn [Nat.add firstn skipn]. ring.
Qed.
Lemma cup1_sn m n a c s : cup1 m n a c s = if (length s =? m + n)%nat then sn m (fun i => sgn (Z.of_nat i + Z.of_nat n * (Z.of_nat m - 1 - Z.of_nat i)) * (a (firstn (1 + i) s ++ skipn (i + n) s) * c (firstn (1 + n) (skipn i s)))) else 0.
Proof. reflexivity. Qed.
Lemma U1_cup1 (m n : nat) a c s : cochain (Z.of_nat m) a -> cochain (Z.of_nat n) c -> U 1 (simp_pair a c) [s] = cup1 m n a c s.
Proof.
  intros Ha Hc. assert (A : adm cls_simplicial (simp_pair a c)) by (apply (pair_adm (Z.of_nat m) (Z.of_nat n)); auto; lia).
  unfold U. rewrite FpS_alt'; [|now right|intros k Hk Ak; eapply Phi_adj; eauto]. change (two_sign MS (Z.of_nat 1)) with 1. rewrite Z.mul_1_l. change (altw 1 (1 + 2)) with [1; 2; 1].
  change [s] with ([] ++ s :: []). rewrite Phi_app by reflexivity. change (tdeg spx_dim []) with 0. rewrite Z.mul_0_l, sgn_0, Z.mul_1_l. replace (length [1; 2; 1]%Z - 1)%nat with 2%nat by reflexivity. cbn [AW.S].
  rewrite (aw_ext _ (fun f b => aw (fun f2 b2 => sgn (zlen f - 1 + (zlen f2 - 1) * (zlen b2 - 1)) * (a (f ++ b2) * c f2)) b)).
  2:{ intros l1 v l2 _. apply aw_ext. intros l3 v' l4 _. unfold T1, joins, wt. cbn [combine app map]. change (zrange 1 (2 + 1)) with [1; 2]. cbn [map]. unfold joined. cbn [filter fst snd Z.eqb Pos.eqb map concat simp_pair]. rewrite !app_nil_r. f_equal.
    cbn [action_exponent map zsum fold_right Z.ltb Z.compare Pos.compare Pos.compare_cont]. unfold spx_dim. generalize (zlen (l1 ++ [v]) - 1) (zlen (l3 ++ [v']) - 1) (zlen (v' :: l4) - 1). intros x y z. apply (HirschFacts.sgn_par _ _ (x + z)). ring. }
  rewrite aw_sn. rewrite cup1_sn.
  rewrite (sn_ext _ _ (fun i => if (length s =? m + n)%nat then if (i <? m)%nat then sgn (Z.of_nat i + Z.of_nat n * (Z.of_nat m - 1 - Z.of_nat i)) * (a (firstn (1 + i) s ++ skipn (i + n) s) * c (firstn (1 + n) (skipn i s))) else 0 else 0)).
  2:{ intros i Hi. rewrite (aw_pick _ n); [|intros f b Hf; rewrite (proj2 Hc f); [ring|unfold zlen; lia]]. rewrite skipn_length.
    change (Datatypes.S n) with (1 + n)%nat. destruct (Nat.eqb_spec (length s) (m + n)) as [E|E].
    - destruct (Nat.ltb_spec n (length s - i)), (Nat.ltb_spec i m); try lia. rewrite sk_sk. f_equal. f_equal. unfold zlen. rewrite skipn_length, !firstn_length, skipn_length. f_equal; [lia|f_equal; lia].
    - destruct (Nat.ltb_spec n (length s - i)); [|reflexivity]. rewrite (proj2 Ha); [ring|]. unfold zlen. rewrite app_length, firstn_length, !skipn_length. lia. }
  destruct (Nat.eqb_spec (length s) (m + n)) as [E|E]; [|apply sn_0; reflexivity]. rewrite E, sn_app. rewrite (sn_0 n) by (intros i Hi; destruct (Nat.ltb_spec (m + i) m); [lia|reflexivity]). rewrite Z.add_0_r. apply sn_ext. intros i Hi. destruct (Nat.ltb_spec i m); [reflexivity|lia].
Qed.
Lemma cup1_nm m n a c : cochain (Z.of_nat m) a -> cochain (Z.of_nat n) c -> nm (cup1 m n a c).
Proof.
  intros Ha Hc s Hs. rewrite <- (U1_cup1 m n a c s Ha Hc). apply U_adm; [apply (pair_adm (Z.of_nat m) (Z.of_nat n)); auto; lia|]. cbn [bad cls_simplicial existsb]. now rewrite Hs.
Qed.
Definition sup (k : nat) (f : list Z -> Z) : Prop := forall s, length s <> k -> f s = 0.
Lemma sup_co m a : cochain (Z.of_nat m) a -> sup (1 + m) a.
Proof. intros Ha s Hs. apply Ha. unfold zlen. lia. Qed.
Lemma sup_cup1 m n a c : sup (m + n) (cup1 m n a c).
Proof. intros s Hs. unfold cup1. destruct (Nat.eqb_spec (length s) (m + n)); [lia|reflexivity]. Qed.
Lemma cupf_len x y j k s : sup j x -> sup k y -> (length s + 1 <> j + k)%nat -> cupf x y s = 0.
Proof.
  intros Hx Hy L. unfold cupf. rewrite aw_sn. apply sn_0. intros i Hi. destruct (Nat.eq_dec (1 + i) j) as [E|E]; [rewrite (Hy (skipn i s)); [ring|rewrite skipn_length; lia]|rewrite (Hx (firstn _ s)); [ring|rewrite firstn_length; lia]].
Qed.
Lemma cupf_at x y j s : sup (1 + j) x -> (j < length s)%nat -> cupf x y s = x (firstn (1 + j) s) * y (skipn j s).
Proof.
  intros Hx L. unfold cupf. rewrite (aw_pick _ j); [|intros f b Hf; rewrite Hx; [ring|exact Hf]]. destruct (Nat.ltb_spec j (length s)); [reflexivity|lia].
Qed.
Lemma sup_cupf x y j k : sup (1 + j) x -> sup k y -> sup (j + k) (cupf x y).
Proof. intros Hx Hy s L. apply (cupf_len x y (1 + j) k); auto. lia. Qed.
Lemma cup1_at m n a c s : length s = (m + n)%nat -> cup1 m n a c s = sn m (fun i => sgn (Z.of_nat i + Z.of_nat n * (Z.of_nat m - 1 - Z.of_nat i)) * (a (firstn (1 + i) s ++ skipn (i + n) s) * c (firstn (1 + n) (skipn i s)))).
Proof. intros L. rewrite cup1_sn. now rewrite (proj2 (Nat.eqb_eq _ _) L). Qed.
Lemma cup1_0 n a c s : cup1 0 n a c s = 0.
Proof. unfold cup1. destruct (_ =? _)%nat; reflexivity. Qed.
Lemma cupf_0l x y s : (forall u, x u = 0) -> cupf x y s = 0.
Proof. intros E. unfold cupf. rewrite aw_sn. apply sn_0. intros i _. rewrite E. ring. Qed.
Lemma cupf_0r x y s : (forall u, y u = 0) -> cupf x y s = 0.
Proof. intros E. unfold cupf. rewrite aw_sn. apply sn_0. intros i _. rewrite E. ring. Qed.
Lemma hirsch m p n a b c s : sup (1 + m) a -> sup (1 + p) b -> sup (1 + n) c ->
  cup1 (m + p) n (cupf a b) c s = sgn (Z.of_nat m) * cupf a (cup1 p n b c) s + sgn (Z.of_nat n * Z.of_nat p) * cupf (cup1 m n a c) b s.
Proof.
  intros Ha Hb Hc. destruct (Nat.eq_dec (length s) (m + p + n)) as [L|L].
  2:{ rewrite (sup_cup1 _ _ _ _ s L), (cupf_len a _ (1 + m) (p + n)), (cupf_len _ b (m + n) (1 + p)) by (auto using sup_cup1; lia). ring. }
  rewrite cup1_at by exact L. rewrite sn_app, Z.add_comm. f_equal.
  - destruct p as [|p]; [rewrite (cupf_0r a) by (intros; apply cup1_0); rewrite Z.mul_0_r; reflexivity|].
    rewrite (cupf_at a _ m s) by (auto; lia). rewrite cup1_at by (rewrite skipn_length; lia). rewrite <- !sn_scal. apply sn_ext. intros i Hi.
    rewrite (cupf_at a b m) by (auto; rewrite app_length, firstn_length, skipn_length; lia).
    replace (firstn (1 + m) (firstn (1 + (m + i)) s ++ skipn (m + i + n) s)) with (firstn (1 + m) s) by slices.
    replace (skipn m (firstn (1 + (m + i)) s ++ skipn (m + i + n) s)) with (firstn (1 + i) (skipn m s) ++ skipn (i + n) (skipn m s)) by slices.
    rewrite !sk_sk. replace (sgn (Z.of_nat (m + i) + Z.of_nat n * (Z.of_nat (m + Datatypes.S p) - 1 - Z.of_nat (m + i)))) with (sgn (Z.of_nat m) * sgn (Z.of_nat i + Z.of_nat n * (Z.of_nat (Datatypes.S p) - 1 - Z.of_nat i))) by (rewrite <- sgn_add; f_equal; rewrite !Nat2Z.inj_add; ring). ring.
  - destruct m as [|m]; [rewrite (cupf_0l _ b) by (intros; apply cup1_0); rewrite Z.mul_0_r; reflexivity|].
    rewrite (cupf_at (cup1 (Datatypes.S m) n a c) b (m + n) s); [|exact (sup_cup1 (Datatypes.S m) n a c)|lia]. rewrite cup1_at by (rewrite firstn_length; lia).
    rewrite (Z.mul_comm (sn _ _)), <- !sn_scal. apply sn_ext. intros i Hi.
    rewrite (cupf_at a b (Datatypes.S m)) by (auto; rewrite app_length, firstn_length, skipn_length; lia).
    replace (firstn (1 + Datatypes.S m) (firstn (1 + i) s ++ skipn (i + n) s)) with (firstn (1 + i) (firstn (1 + (m + n)) s) ++ skipn (i + n) (firstn (1 + (m + n)) s)) by slices.
    replace (skipn (Datatypes.S m) (firstn (1 + i) s ++ skipn (i + n) s)) with (skipn (m + n) s) by slices.
    replace (firstn (1 + n) (skipn i (firstn (1 + (m + n)) s))) with (firstn (1 + n) (skipn i s)) by slices.
    replace (sgn (Z.of_nat i + Z.of_nat n * (Z.of_nat (Datatypes.S m + p) - 1 - Z.of_nat i))) with (sgn (Z.of_nat n * Z.of_nat p) * sgn (Z.of_nat i + Z.of_nat n * (Z.of_nat (Datatypes.S m) - 1 - Z.of_nat i))) by (rewrite <- sgn_add; f_equal; rewrite !Nat2Z.inj_add; ring). ring.
Qed.
Definition Ct (m n p : nat) (a b c : list Z -> Z) (s : list Z) : Z :=
  sn (Datatypes.S m) (fun j => sn (m - j) (fun k => sgn (Z.of_nat j + Z.of_nat n + Z.of_nat k + Z.of_nat p * (Z.of_nat m - 1 - Z.of_nat j - Z.of_nat k)) * sgn (Z.of_nat j + Z.of_nat n * (Z.of_nat m - Z.of_nat j)) *
    (a (firstn (1 + j) s ++ firstn (1 + k) (skipn (j + n) s) ++ skipn (j + n + k + p) s) * b (firstn (1 + n) (skipn j s)) * c (firstn (1 + p) (skipn (j + n + k) s))))).
Lemma split_sum m n p a b c s : length s = (m + n + p)%nat ->
  cup1 (m + n) p (cup1 (Datatypes.S m) n a b) c s = sgn (Z.of_nat m) * cup1 (Datatypes.S m) (n + p - 1) a (cup1 n p b c) s + (Ct m n p a b c s - sgn (Z.of_nat n * Z.of_nat p) * Ct m p n a c b s).
Proof.
  intros L. rewrite cup1_at by exact L.
  rewrite (sn_ext _ _ (fun i => sn (Datatypes.S m) (fun j => sgn (Z.of_nat i + Z.of_nat p * (Z.of_nat (m + n) - 1 - Z.of_nat i)) * sgn (Z.of_nat j + Z.of_nat n * (Z.of_nat m - Z.of_nat j)) *
    (a (firstn (1 + j) (firstn (1 + i) s ++ skipn (i + p) s) ++ skipn (j + n) (firstn (1 + i) s ++ skipn (i + p) s)) * b (firstn (1 + n) (skipn j (firstn (1 + i) s ++ skipn (i + p) s))) * c (firstn (1 + p) (skipn i s)))))).
  2:{ intros i Hi. rewrite cup1_at by (rewrite app_length, firstn_length, skipn_length; lia). rewrite (Z.mul_comm (sn _ _)), <- !sn_scal. apply sn_ext. intros j Hj.
    replace (Z.of_nat (Datatypes.S m) - 1 - Z.of_nat j) with (Z.of_nat m - Z.of_nat j) by lia. ring. }
  rewrite sn_exch.
  rewrite (sn_ext _ _ (fun j => sn n (fun k => sgn (Z.of_nat m) * (sgn (Z.of_nat j + Z.of_nat (n + p - 1) * (Z.of_nat m - Z.of_nat j)) * (a (firstn (1 + j) s ++ skipn (j + (n + p - 1)) s) *
      (sgn (Z.of_nat k + Z.of_nat p * (Z.of_nat n - 1 - Z.of_nat k)) * (b (firstn (1 + k) (firstn (1 + (n + p - 1)) (skipn j s)) ++ skipn (k + p) (firstn (1 + (n + p - 1)) (skipn j s))) * c (firstn (1 + p) (skipn k (firstn (1 + (n + p - 1)) (skipn j s)))))))))
    + (sn (m - j) (fun k => sgn (Z.of_nat j + Z.of_nat n + Z.of_nat k + Z.of_nat p * (Z.of_nat m - 1 - Z.of_nat j - Z.of_nat k)) * sgn (Z.of_nat j + Z.of_nat n * (Z.of_nat m - Z.of_nat j)) *
    (a (firstn (1 + j) s ++ firstn (1 + k) (skipn (j + n) s) ++ skipn (j + n + k + p) s) * b (firstn (1 + n) (skipn j s)) * c (firstn (1 + p) (skipn (j + n + k) s))))
    + sn j (fun i => sgn (Z.of_nat i + Z.of_nat p * (Z.of_nat (m + n) - 1 - Z.of_nat i)) * sgn (Z.of_nat j + Z.of_nat n * (Z.of_nat m - Z.of_nat j)) *
      (a (firstn (1 + i) s ++ firstn (j - i) (skipn (i + p) s) ++ skipn (j - 1 + n + p) s) * b (firstn (1 + n) (skipn (j - 1 + p) s)) * c (firstn (1 + p) (skipn i s))))))).
  2:{ intros j Hj. replace (m + n)%nat with (j + (n + (m - j)))%nat at 1 by lia. rewrite !sn_app. rewrite Z.add_comm, <- Z.add_assoc. f_equal; [|f_equal].
    - apply sn_ext. intros k Hk.
      replace (firstn (1 + j) (firstn (1 + (j + k)) s ++ skipn (j + k + p) s) ++ skipn (j + n) (firstn (1 + (j + k)) s ++ skipn (j + k + p) s)) with (firstn (1 + j) s ++ skipn (j + (n + p - 1)) s) by slices.
      replace (firstn (1 + n) (skipn j (firstn (1 + (j + k)) s ++ skipn (j + k + p) s))) with (firstn (1 + k) (firstn (1 + (n + p - 1)) (skipn j s)) ++ skipn (k + p) (firstn (1 + (n + p - 1)) (skipn j s))) by slices.
      replace (firstn (1 + p) (skipn (j + k) s)) with (firstn (1 + p) (skipn k (firstn (1 + (n + p - 1)) (skipn j s)))) by slices.
      assert (E : sgn (Z.of_nat (j + k) + Z.of_nat p * (Z.of_nat (m + n) - 1 - Z.of_nat (j + k))) * sgn (Z.of_nat j + Z.of_nat n * (Z.of_nat m - Z.of_nat j)) =
        sgn (Z.of_nat m) * (sgn (Z.of_nat j + Z.of_nat (n + p - 1) * (Z.of_nat m - Z.of_nat j)) * sgn (Z.of_nat k + Z.of_nat p * (Z.of_nat n - 1 - Z.of_nat k)))).
      { rewrite <- !sgn_add. f_equal. replace (Z.of_nat (n + p - 1)) with (Z.of_nat n + Z.of_nat p - 1) by lia. rewrite !Nat2Z.inj_add. ring. }
      rewrite E. ring.
    - apply sn_ext. intros k Hk. apply (f_equal2 Z.mul); [apply (f_equal2 Z.mul); [apply f_equal; rewrite !Nat2Z.inj_add; ring|reflexivity]|].
      apply (f_equal2 Z.mul); [apply (f_equal2 Z.mul); [apply f_equal; slices|apply f_equal; slices]|apply f_equal; slices].
    - apply sn_ext. intros i Hi. apply (f_equal2 Z.mul); [reflexivity|]. apply (f_equal2 Z.mul); [apply (f_equal2 Z.mul); [apply f_equal; slices|apply f_equal; slices]|reflexivity]. }
  rewrite !sn_add. match goal with |- _ = _ + (?x - ?y) => replace (x - y) with (x + - y) by ring end. f_equal; [|apply (f_equal2 Z.add); [reflexivity|]].
  - destruct n as [|n].
    { rewrite sn_0 by (intros; apply sn_0; intros; lia). rewrite cup1_sn. destruct (_ =? _)%nat; [|ring]. rewrite sn_0; [ring|]. intros i Hi. rewrite cup1_0. ring. }
    rewrite cup1_at by lia. rewrite <- sn_scal. apply sn_ext. intros j Hj. rewrite sn_scal, sn_scal. rewrite sn_scal. rewrite cup1_at by (rewrite firstn_length, skipn_length; lia).
    replace (Z.of_nat (Datatypes.S m) - 1 - Z.of_nat j) with (Z.of_nat m - Z.of_nat j) by lia. reflexivity.
  - rewrite (sn_tri (Datatypes.S m) (fun i j => sgn (Z.of_nat i + Z.of_nat p * (Z.of_nat (m + n) - 1 - Z.of_nat i)) * sgn (Z.of_nat j + Z.of_nat n * (Z.of_nat m - Z.of_nat j)) *
      (a (firstn (1 + i) s ++ firstn (j - i) (skipn (i + p) s) ++ skipn (j - 1 + n + p) s) * b (firstn (1 + n) (skipn (j - 1 + p) s)) * c (firstn (1 + p) (skipn i s))))).
    unfold Ct. rewrite <- Z.mul_opp_l, <- sn_scal. apply sn_ext. intros i Hi. replace (Datatypes.S m - 1 - i)%nat with (m - i)%nat by lia. rewrite <- sn_scal. apply sn_ext. intros k Hk.
    replace (i + 1 + k - i)%nat with (1 + k)%nat by lia. replace (i + 1 + k - 1 + n + p)%nat with (i + p + k + n)%nat by lia. replace (i + 1 + k - 1 + p)%nat with (i + p + k)%nat by lia.
    assert (E : sgn (Z.of_nat i + Z.of_nat p * (Z.of_nat (m + n) - 1 - Z.of_nat i)) * sgn (Z.of_nat (i + 1 + k) + Z.of_nat n * (Z.of_nat m - Z.of_nat (i + 1 + k))) =
      - sgn (Z.of_nat n * Z.of_nat p) * (sgn (Z.of_nat i + Z.of_nat p + Z.of_nat k + Z.of_nat n * (Z.of_nat m - 1 - Z.of_nat i - Z.of_nat k)) * sgn (Z.of_nat i + Z.of_nat p * (Z.of_nat m - Z.of_nat i)))).
    { rewrite <- sgn_S, <- !sgn_add. apply (HirschFacts.sgn_par _ _ (- Z.of_nat p)). rewrite !Nat2Z.inj_add. change (Z.of_nat 1) with 1. ring. }
    rewrite E. ring.
Qed.
Lemma prelie m n p a b c s : cup1 (Datatypes.S m + n - 1) p (cup1 (Datatypes.S m) n a b) c s - sgn (Z.of_nat m) * cup1 (Datatypes.S m) (n + p - 1) a (cup1 n p b c) s =
  - sgn (Z.of_nat n * Z.of_nat p) * (cup1 (Datatypes.S m + p - 1) n (cup1 (Datatypes.S m) p a c) b s - sgn (Z.of_nat m) * cup1 (Datatypes.S m) (p + n - 1) a (cup1 p n c b) s).
Proof.
  replace (Datatypes.S m + n - 1)%nat with (m + n)%nat by lia. replace (Datatypes.S m + p - 1)%nat with (m + p)%nat by lia. destruct (Nat.eq_dec (length s) (m + n + p)) as [L|L].
  - rewrite !split_sum by lia. rewrite (Z.mul_comm (Z.of_nat p) (Z.of_nat n)). pose proof (sgn_sq (Z.of_nat n * Z.of_nat p)) as Q. set (e := sgn (Z.of_nat n * Z.of_nat p)) in *. 
    transitivity (Ct m n p a b c s * (e * e) - e * Ct m p n a c b s); [rewrite Q|]; ring.
  - rewrite !(sup_cup1 (m + n) p _ _ s), !(sup_cup1 (m + p) n _ _ s) by lia.
    assert (Q : forall n p b c, length s <> (m + n + p)%nat -> cup1 (Datatypes.S m) (n + p - 1) a (cup1 n p b c) s = 0).
    { clear. intros n p b c L. destruct (Nat.eq_dec (n + p) 0) as [E|E]; [|apply sup_cup1; lia]. rewrite cup1_sn. destruct (_ =? _)%nat; [|reflexivity]. apply sn_0. intros i Hi. replace n with 0%nat by lia. rewrite cup1_0. ring. }
    rewrite !Q by lia. ring.
Qed.
Lemma cochain_cup1 m n a c : cochain (Z.of_nat m) a -> cochain (Z.of_nat n) c -> cochain (Z.of_nat (m + n - 1)) (cup1 m n a c).
Proof.
  intros Ha Hc. split; [intros l1 v l2; apply cup1_nm; auto; apply dup_deg|]. intros s Hs. destruct (Nat.eq_dec (length s) (m + n)) as [E|E]; [|now apply sup_cup1].
  unfold zlen in Hs. replace m with 0%nat by lia. apply cup1_0.
Qed.
Lemma cupi1_iff dt dc t m n a c a' c' f : 0 <= t -> t <> 1 -> dt_ok dt t -> neq t a a' -> neq t c c' -> cochain (Z.of_nat m) a' -> cochain (Z.of_nat n) c' ->
  (cupi_is dt dc t 1 a c f <-> cochain_eq t f (cup1 m n a' c')).
Proof.
  intros Ht Nt Hdt Ea Ec Ha Hc. assert (Na := nm_co _ a' (Zle_0_nat m) Ha). assert (Nc := nm_co _ c' (Zle_0_nat n) Hc). rewrite (cupi_is_iff dt dc t 1 a c a' c') by (auto; lia).
  split; intros H s Ns; specialize (H s Ns); cbn beta in *; change (Z.to_nat 1) with 1%nat in *; [rewrite <- (U1_cup1 m n) by auto|rewrite (U1_cup1 m n) by auto]; exact H.
Qed.
Lemma ceq_neq t f g : cochain_eq t f g -> neq t f g. Proof. intros H s Ns. exact (H s Ns). Qed.
(** #C99_zero# The cup-0 product is the cup product: whether it is computed by
    [may_steenrod_structure(2, 0)] or by the diagonal makes no difference. *)
Lemma C99_zero_l (dt t m n : Z) (dc : conv) (a b f : list Z -> Z) : 0 <= t -> t <> 1 -> dt_ok dt t -> 0 <= m -> 0 <= n -> cochain m a -> cochain n b ->
  cupi_is dt dc t 0 a b f <-> cup_is dt t a b f.
Proof.
  intros Ht Nt Hdt Hm Hn Ha Hb. assert (Na := nm_co _ a Hm Ha). assert (Nb := nm_co _ b Hn Hb). rewrite (cupi_is_iff dt dc t 0 a b a b) by (auto using neq_refl; lia). rewrite (cup_is_iff dt t a b a b) by auto using neq_refl.
  assert (E : forall s, U (Z.to_nat 0) (simp_pair a b) [s] = cupf a b s). { intros s. change (Z.to_nat 0) with 0%nat. rewrite U0_Sd. rewrite (Sd_app 1 1 _ [] s []) by reflexivity. cbn [AW.S app]. reflexivity. }
  split; intros H s Ns; specialize (H s Ns); cbn beta in *; [rewrite <- E|rewrite E]; exact H.
Qed.
(** #C99_formula# For cochains a, c of degrees m, n with coefficients in Z/t or Z, the cup-1
    product computed by the code is, up to congruence and only up to congruence, the
    cochain of degree m + n - 1 of Steenrod's formula. *)
Lemma C99_formula_l (dt t : Z) (dc : conv) (m n : nat) (a c : list Z -> Z) : 0 <= t -> t <> 1 -> dt_ok dt t -> cochain (Z.of_nat m) a -> cochain (Z.of_nat n) c ->
  cochain (Z.of_nat m + Z.of_nat n - 1) (cup1 m n a c) /\ forall f, cupi_is dt dc t 1 a c f <-> cochain_eq t f (cup1 m n a c).
Proof.
  intros Ht Nt Hdt Ha Hc. split; [|intros f; now apply cupi1_iff; auto using neq_refl].
  pose proof (cochain_cup1 m n a c Ha Hc) as [H1 H2]. split; [exact H1|]. intros s Hs. apply sup_cup1. unfold zlen in Hs. lia.
Qed.
(** #C99_hirsch# Hirsch's formula, on the nose for all cochains a, b, c of degrees m, p, n,
    over Z and every Z/t: (a u b) u_1 c = (-1)^m a u (b u_1 c) + (-1)^(np) (a u_1 c) u b. *)
Lemma C99_hirsch_l (dt t m p n : Z) (dc : conv) (a b c ab bc ac l r r' : list Z -> Z) : 0 <= t -> t <> 1 -> dt_ok dt t -> 0 <= m -> 0 <= p -> 0 <= n -> cochain m a -> cochain p b -> cochain n c ->
  cup_is dt t a b ab -> cupi_is dt dc t 1 b c bc -> cupi_is dt dc t 1 a c ac ->
  cupi_is dt dc t 1 ab c l -> cup_is dt t a bc r -> cup_is dt t ac b r' ->
  cochain_eq t l (fun s => sgn m * r s + sgn (n * p) * r' s).
Proof.
  intros Ht Nt Hdt Hm Hp Hn Ha Hb Hc Hab Hbc Hac Hl Hr Hr'.
  rewrite <- (Z2Nat.id m Hm), <- (Z2Nat.id p Hp), <- (Z2Nat.id n Hn) in *. set (M := Z.to_nat m) in *. set (P := Z.to_nat p) in *. set (N := Z.to_nat n) in *. clearbody M P N. clear m p n Hm Hp Hn.
  assert (Na := nm_co _ a (Zle_0_nat M) Ha). assert (Nb := nm_co _ b (Zle_0_nat P) Hb).
  apply (cup_is_iff dt t a b a b) in Hab; auto using neq_refl. apply (cupi1_iff dt dc t P N b c b c) in Hbc; auto using neq_refl. apply (cupi1_iff dt dc t M N a c a c) in Hac; auto using neq_refl.
  assert (Cab : cochain (Z.of_nat (M + P)) (cupf a b)).
  { rewrite Nat2Z.inj_add. destruct (cupm_cochain (Z.of_nat M) (Z.of_nat P) a b ltac:(lia) ltac:(lia) Ha Hb) as [H1 H2]. split; intros; rewrite (cupf_cupm (Z.of_nat M) (Z.of_nat P)) by (auto; lia); auto. }
  apply (cupi1_iff dt dc t (M + P) N ab c (cupf a b) c) in Hl; auto using neq_refl.
  apply (cup_is_iff dt t a bc a (cup1 P N b c)) in Hr; auto using neq_refl, cup1_nm. apply (cup_is_iff dt t ac b (cup1 M N a c) b) in Hr'; auto using neq_refl, cup1_nm.
  intros s Ns. specialize (Hl s Ns). specialize (Hr s Ns). specialize (Hr' s Ns). change (eqm t (l s) (sgn (Z.of_nat M) * r s + sgn (Z.of_nat N * Z.of_nat P) * r' s)).
  change (eqm t (l s) (cup1 (M + P) N (cupf a b) c s)) in Hl. change (eqm t (r s) (cupf a (cup1 P N b c) s)) in Hr. change (eqm t (r' s) (cupf (cup1 M N a c) b s)) in Hr'. rewrite Hl, Hr, Hr'. apply eqm_eq. apply hirsch; apply sup_co; assumption.
Qed.
Lemma prelie0 m n p a b c s : cup1 (m + n - 1) p (cup1 m n a b) c s + sgn (Z.of_nat m) * cup1 m (n + p - 1) a (cup1 n p b c) s =
  - sgn (Z.of_nat n * Z.of_nat p) * (cup1 (m + p - 1) n (cup1 m p a c) b s + sgn (Z.of_nat m) * cup1 m (p + n - 1) a (cup1 p n c b) s).
Proof.
  destruct m as [|m].
  - assert (Q : forall k l x y, (forall u, x u = 0) -> cup1 k l x y s = 0). { intros k l x y E. rewrite cup1_sn. destruct (_ =? _)%nat; [|reflexivity]. apply sn_0. intros i _. rewrite E. ring. }
    rewrite !cup1_0. rewrite !Q by (intros; apply cup1_0). ring.
  - rewrite Nat2Z.inj_succ. rewrite <- Z.add_1_r, sgn_S. pose proof (prelie m n p a b c s) as E. rewrite !Z.mul_opp_l, !Z.add_opp_r. rewrite E. ring.
Qed.
(** #C99_pre_lie# The cup-1 product of cochains is a graded pre-Lie product on the nose: for a, b, c
    of degrees m, n, p, over Z and every Z/t, the associator
    (a u_1 b) u_1 c + (-1)^m a u_1 (b u_1 c) changes by the sign -(-1)^(np) if b and c are exchanged. *)
Lemma C99_pre_lie_l (dt t m n p : Z) (dc : conv) (a b c ab ac bc cb l r l' r' : list Z -> Z) : 0 <= t -> t <> 1 -> dt_ok dt t -> 0 <= m -> 0 <= n -> 0 <= p -> cochain m a -> cochain n b -> cochain p c ->
  cupi_is dt dc t 1 a b ab -> cupi_is dt dc t 1 a c ac -> cupi_is dt dc t 1 b c bc -> cupi_is dt dc t 1 c b cb ->
  cupi_is dt dc t 1 ab c l -> cupi_is dt dc t 1 a bc r -> cupi_is dt dc t 1 ac b l' -> cupi_is dt dc t 1 a cb r' ->
  cochain_eq t (fun s => l s + sgn m * r s) (fun s => - sgn (n * p) * (l' s + sgn m * r' s)).
Proof.
  intros Ht Nt Hdt Hm Hn Hp Ha Hb Hc Hab Hac Hbc Hcb Hl Hr Hl' Hr'.
  rewrite <- (Z2Nat.id m Hm), <- (Z2Nat.id p Hp), <- (Z2Nat.id n Hn) in *. set (M := Z.to_nat m) in *. set (P := Z.to_nat p) in *. set (N := Z.to_nat n) in *. clearbody M P N. clear m p n Hm Hp Hn.
  apply (cupi1_iff dt dc t M N a b a b) in Hab; auto using neq_refl. apply (cupi1_iff dt dc t M P a c a c) in Hac; auto using neq_refl.
  apply (cupi1_iff dt dc t N P b c b c) in Hbc; auto using neq_refl. apply (cupi1_iff dt dc t P N c b c b) in Hcb; auto using neq_refl.
  apply (cupi1_iff dt dc t (M + N - 1) P ab c (cup1 M N a b) c) in Hl; auto using neq_refl, cochain_cup1. apply (cupi1_iff dt dc t (M + P - 1) N ac b (cup1 M P a c) b) in Hl'; auto using neq_refl, cochain_cup1.
  apply (cupi1_iff dt dc t M (N + P - 1) a bc a (cup1 N P b c)) in Hr; auto using neq_refl, cochain_cup1. apply (cupi1_iff dt dc t M (P + N - 1) a cb a (cup1 P N c b)) in Hr'; auto using neq_refl, cochain_cup1.
  intros s Ns. specialize (Hl s Ns). specialize (Hr s Ns). specialize (Hl' s Ns). specialize (Hr' s Ns).
  change (eqm t (l s + sgn (Z.of_nat M) * r s) (- sgn (Z.of_nat N * Z.of_nat P) * (l' s + sgn (Z.of_nat M) * r' s))).
  change (eqm t (l s) (cup1 (M + N - 1) P (cup1 M N a b) c s)) in Hl. change (eqm t (l' s) (cup1 (M + P - 1) N (cup1 M P a c) b s)) in Hl'.
  change (eqm t (r s) (cup1 M (N + P - 1) a (cup1 N P b c) s)) in Hr. change (eqm t (r' s) (cup1 M (P + N - 1) a (cup1 P N c b) s)) in Hr'.
  rewrite Hl, Hl', Hr, Hr'. apply eqm_eq. apply prelie0.
Qed.
(** #C99_example# The hypotheses hold with coefficients in Z/7 for a cochain of degree 2 and one of
    degree 1; no term of the two identities is 0. *)
Example C99_example_l :
  let a := fun s => match s with [x; y; z] => y * (y - x) * (z - y) | _ => 0 end in
  let b := fun s => match s with [x; y] => (1 + y * y * y) * (y - x) | _ => 0 end in
  cochain 2 a /\ cochain 1 b /\ dt_ok 0 7 /\
  cupi_is 0 BF 7 1 a b (cup1 2 1 a b) /\ cupi_is 0 BF 7 1 b a (cup1 1 2 b a) /\ cup_is 0 7 a b (fun s => match s with [x; y; z; w] => a [x; y; z] * b [z; w] | _ => 0 end) /\
  cup1 2 1 a b [1; 2; 4] = -556 /\ cup1 1 2 b a [1; 2; 4] = 780 /\ cup1 2 2 (cup1 2 1 a b) a [1; 2; 4; 9] = 1943840.
Proof.
  intros a b. assert (Ca : cochain 2 a).
  { split; [|intros [|x [|y [|w [|v s]]]] L; try reflexivity; exfalso; apply L; reflexivity]. intros [|x [|y [|w l1]]] v l2; [| |reflexivity|destruct l1; reflexivity]; (destruct l2 as [|z [|w l2]]; [|try reflexivity|try reflexivity]); cbn [app]; unfold a; try ring; destruct l2; reflexivity. }
  assert (Cb : cochain 1 b).
  { split; [|intros [|x [|y [|w s]]] L; try reflexivity; exfalso; apply L; reflexivity]. intros [|x [|y l1]] v l2; [|reflexivity|destruct l1; reflexivity]. destruct l2; [|reflexivity]. cbn [app]. unfold b. ring. }
  assert (Dt : dt_ok 0 7) by (split; [lia|now left]). split; [exact Ca|]. split; [exact Cb|]. split; [exact Dt|].
  split; [apply (C99_formula_l 0 7 BF 2 1 a b); auto; try lia; intros s _; exists 0; ring|]. split; [apply (C99_formula_l 0 7 BF 1 2 b a); auto; try lia; intros s _; exists 0; ring|].
  split; [|repeat apply conj; vm_compute; reflexivity].
  apply (cup_is_m 0 7 2 1); auto; try lia. intros s Ns. exists 0. unfold cupm.
  destruct s as [|x [|y [|z [|w [|v s]]]]]; try reflexivity.
  - change (zlen [x; y; z; w] - 1 =? 2 + 1) with true. cbv iota. change (Z.to_nat (2 + 1)) with 3%nat. change (Z.to_nat 2) with 2%nat. cbn [firstn skipn]. ring.
  - destruct (Z.eqb_spec (zlen (x :: y :: z :: w :: v :: s) - 1) (2 + 1)) as [E|E]; [|reflexivity]. rewrite !zlen_cons in E. pose proof (zlen_nonneg s). lia.
Qed.
