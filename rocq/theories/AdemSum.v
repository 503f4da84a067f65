(** * The symmetry behind the Adem relations, second part (C91) *)
From Coq Require Import Setoid Morphisms.
From Verif Require Import PyBase Dict FreeModule Symmetric Simplicial Utils Surjection Eqm Spec SpecChain SpecOperad SpecSurj SpecAdem FreeModuleFacts FreeModuleLaws ListFacts
  ClassFacts LinearFacts BilFacts SymmetricFacts CycleFacts SymmetricLaws RingFacts Tensor TensorAct SurjFacts SurjBoundary SurjLaws SurjAct SurjLaws2 MayFacts SurjMay
  SurjCompose SurjCompose2 SurjCompose3 SurjCompose4 SurjLaws6 CompEquiv SteenrodAct SqHtpy SqCartan AdemHtpy AdemWords.

Lemma choose_0 n : choose n 0 = 1. Proof. destruct n; reflexivity. Qed.
Lemma choose_SS n k : choose (S n) (S k) = choose n k + choose n (S k). Proof. reflexivity. Qed.
Lemma choose_lt n : forall k, (n < k)%nat -> choose n k = 0.
Proof. induction n as [|n IH]; intros [|k] L; try lia; [reflexivity|]. rewrite choose_SS, !IH by lia. reflexivity. Qed.

(** ** sums over a + b = n *)
Definition DD (n : nat) (f : nat -> nat -> Z) : Z := sumf (fun a => f a (n - a)%nat) (seq 0 (S n)).
Lemma DD_ext n f h : (forall a b, (a + b = n)%nat -> f a b = h a b) -> DD n f = DD n h.
Proof. intros E. apply sumf_ext. intros a Ha. apply in_seq in Ha. apply E. lia. Qed.
Lemma DD_eqm n f h : (forall a b, (a + b = n)%nat -> eqm 2 (f a b) (h a b)) -> eqm 2 (DD n f) (DD n h).
Proof. intros E. apply sumf_eqm. intros a Ha. apply in_seq in Ha. apply E. lia. Qed.
Lemma DD_add n f h : DD n (fun a b => f a b + h a b) = DD n f + DD n h.
Proof. apply sumf_add. Qed.
Lemma DD_zero n : DD n (fun _ _ => 0) = 0.
Proof. unfold DD. now apply sumf_0. Qed.
Lemma DD_prea n (c : nat -> nat -> Z) (f : nat -> nat -> Z) : DD n (fun a b => c a b * pre a (fun a' => f a' b)) = pre n (fun n' => DD n' (fun a b => c (S a) b * f a b)).
Proof.
  destruct n as [|n]; cbn [pre]; [unfold DD; cbn; ring|]. unfold DD. change (seq 0 (S (S n))) with (0%nat :: seq 1 (S n)). rewrite sumf_cons, <- seq_shift, sumf_map. cbn [pre].
  rewrite Z.mul_0_r, Z.add_0_l. apply sumf_ext. intros a _. reflexivity.
Qed.
Lemma DD_preb n (c : nat -> nat -> Z) (f : nat -> nat -> Z) : DD n (fun a b => c a b * pre b (fun b' => f a b')) = pre n (fun n' => DD n' (fun a b => c a (S b) * f a b)).
Proof.
  destruct n as [|n]; cbn [pre]; [unfold DD; cbn; ring|]. unfold DD. rewrite (seq_S (S n)), sumf_app, sumf_cons, sumf_nil. replace (S n - (0 + S n))%nat with 0%nat by lia. cbn [pre].
  rewrite Z.mul_0_r, !Z.add_0_r. apply sumf_ext. intros a Ha. apply in_seq in Ha. replace (S n - a)%nat with (S (n - a)) by lia. reflexivity.
Qed.
Lemma seq_rev n : Permutation (map (fun a => n - a)%nat (seq 0 (S n))) (seq 0 (S n)).
Proof.
  apply Permutation_sym, NoDup_Permutation_bis; [apply seq_NoDup|now rewrite map_length|].
  intros x Hx. apply in_seq in Hx. apply in_map_iff. exists (n - x)%nat. rewrite in_seq. lia.
Qed.
Lemma DD_swap n f : DD n f = DD n (fun a b => f b a).
Proof.
  unfold DD. rewrite <- (sumf_perm _ _ _ (seq_rev n)). rewrite sumf_map. apply sumf_ext. intros a Ha. apply in_seq in Ha. f_equal. lia.
Qed.

(** ** the coefficients *)
Definition kap (l e a b : nat) : Z := choose b l * choose (if Nat.even e then S a else a) (S l).
Definition km (l e a b : nat) : Z := match l with O => 0 | S l' => kap l' e a b end.
Lemma kap_id l a b (X0 X1 Y0 Y1 : Z) :
  eqm 2 (kap l 0 (S a) b * (X0 + Y1) + kap l 1 (S a) b * (X1 + Y0) + (kap l 0 a (S b) * (X0 + X1) + kap l 1 a (S b) * (X1 + X0)) +
         (km l 0 b a * X0 + km l 1 b a * Y1) + (km l 0 a b * X0 + km l 1 a b * X1))
        (kap l 0 a b * (X0 + Y0) + kap l 1 a b * (X1 + Y1)).
Proof.
  unfold kap; cbn [Nat.even]. rewrite !choose_SS.
  assert (Ex : exists c0 c1 c2 d0 d1, choose a l = c1 /\ choose a (S l) = c2 /\ choose b l = d1 /\ choose (S a) l = c0 + c1 /\ choose (S b) l = d0 + d1 /\
    km l 0 b a = c0 * (d0 + d1) /\ km l 1 b a = c0 * d1 /\ km l 0 a b = d0 * (c0 + c1) /\ km l 1 a b = d0 * c1).
  { destruct l as [|l].
    - exists 0, 1, (choose a 1), 0, 1. rewrite !choose_0. cbn [km]. repeat split; ring.
    - exists (choose a l), (choose a (S l)), (choose a (S (S l))), (choose b l), (choose b (S l)). unfold km, kap; cbn [Nat.even]. rewrite !choose_SS. repeat split; ring. }
  destruct Ex as (c0 & c1 & c2 & d0 & d1 & E1 & E2 & E3 & E4 & E5 & E6 & E7 & E8 & E9).
  assert (E10 : choose (S a) (S l) = c1 + c2) by (rewrite choose_SS; lia). rewrite ?E10, ?E6, ?E7, ?E8, ?E9, ?E5, ?E4, ?E1, ?E2, ?E3.
  exists ((c0 + c1 + c2) * (d0 + d1) * X0 + (c1 + c2) * (d0 + d1) * X1 + (c0 + c1) * d1 * Y1). ring.
Qed.
Lemma kap_low l e a b : (b < l)%nat -> kap l e a b = 0.
Proof. intros H. unfold kap. rewrite choose_lt by exact H. ring. Qed.

(** ** the chain of degree (j, k) *)
Definition Te (l p : nat) (g : list Z -> Z) (a b : nat) : Z := kap l 0 a b * NN p a b 0 g + kap l 1 a b * NN p a b 1 g.
Definition FF (j k : nat) (g : list Z -> Z) : Z := sumf (fun l => DD (k + l) (Te l (j - l) g)) (seq 0 (S j)).
Lemma repF_scal n d c F : repF n d F -> repF n d (fun g => c * F g).
Proof.
  intros (T & T1 & T2). exists (map (fun p => (fst p, c * snd p)) T). split.
  - intros k v Hk. apply in_map_iff in Hk. destruct Hk as ([k' v'] & [= <- <-] & Hk). eauto.
  - intros g. rewrite T2. clear T1 T2. induction T as [|[k v] T IH]; [cbn [map]; rewrite !ev_nil; ring|]. cbn [map fst snd]. rewrite !ev_cons, <- IH. ring.
Qed.
Lemma FF_rep j k : repF 4 (Z.of_nat (j + k)) (FF j k).
Proof.
  apply repF_sum. intros l Hl. apply in_seq in Hl. apply repF_sum. intros a Ha. apply in_seq in Ha. unfold Te.
  replace (Z.of_nat (j + k)) with (Z.of_nat (j - l + (a + (k + l - a)))) by lia. apply repF_plus; apply repF_scal, NN_rep.
Qed.
Lemma pre_ext n f h : (forall n', n = S n' -> f n' = h n') -> pre n f = pre n h. Proof. destruct n; cbn [pre]; auto. Qed.
Lemma pre_eqm n f h : (forall n', n = S n' -> eqm 2 (f n') (h n')) -> eqm 2 (pre n f) (pre n h). Proof. destruct n; cbn [pre]; [reflexivity|auto]. Qed.
Lemma pre_add n f h : pre n (fun x => f x + h x) = pre n f + pre n h. Proof. destruct n; reflexivity. Qed.
(** the part of the boundary which stays in the same first degree *)
Definition Bd (l p : nat) (g : list Z -> Z) (a b : nat) : Z :=
  kap l 0 (S a) b * (NN p a b 0 g + NN p a b 1 (mv rho2 g)) + kap l 1 (S a) b * (NN p a b 1 g + NN p a b 0 (mv rho2 g)) +
  (kap l 0 a (S b) * (NN p a b 0 g + NN p a b 1 g) + kap l 1 a (S b) * (NN p a b 1 g + NN p a b 0 g)).
Lemma NN_2 p a b g : NN p a b 2 g = NN p a b 0 g. Proof. reflexivity. Qed.
Lemma FF_bd1 j k g : admc 4 (Z.of_nat (j + k) - 1) g ->
  eqm 2 (FF j k (sd MS g))
    (sumf (fun l => DD (k + l) (fun a b => pre (j - l) (fun p => kap l 0 a b * NN p b a 0 g + kap l 1 a b * NN p b a 1 (mv rho2 g) + Te l p (mv rho g) a b)) +
       pre (k + l) (fun n => DD n (Bd l (j - l) g))) (seq 0 (S j))).
Proof.
  intros Hg. unfold FF. apply sumf_eqm. intros l Hl. apply in_seq in Hl. set (p := (j - l)%nat).
  transitivity (DD (k + l) (fun a b =>
    pre p (fun p' => kap l 0 a b * NN p' b a 0 g + kap l 1 a b * NN p' b a 1 (mv rho2 g) + Te l p' (mv rho g) a b) +
    (kap l 0 a b * pre a (fun a' => NN p a' b 0 g + NN p a' b 1 (mv rho2 g)) + kap l 1 a b * pre a (fun a' => NN p a' b 1 g + NN p a' b 0 (mv rho2 g)) +
     (kap l 0 a b * pre b (fun b' => NN p a b' 0 g + NN p a b' 1 g) + kap l 1 a b * pre b (fun b' => NN p a b' 1 g + NN p a b' 0 g))))).
  - apply DD_eqm. intros a b E. assert (Hg' : admc 4 (Z.of_nat (p + (a + b)) - 1) g) by (replace (p + (a + b))%nat with (j + k)%nat by lia; exact Hg).
    unfold Te at 1. rewrite (NN_bd p a b 0 g Hg'), (NN_bd p a b 1 g Hg'). apply eqm_eq. unfold mv2; cbn [Nat.even]. unfold Te.
    destruct p as [|p'], a as [|a'], b as [|b']; cbn [pre]; rewrite ?NN_2; ring.
  - apply eqm_eq. rewrite DD_add. f_equal. rewrite DD_add, DD_add, DD_add.
    rewrite (DD_prea (k + l) (fun a b => kap l 0 a b)), (DD_prea (k + l) (fun a b => kap l 1 a b)), (DD_preb (k + l) (fun a b => kap l 0 a b)), (DD_preb (k + l) (fun a b => kap l 1 a b)).
    rewrite <- !pre_add. apply pre_ext. intros n _. rewrite <- !DD_add. reflexivity.
Qed.
Lemma FF_bd j k g : admc 4 (Z.of_nat (j + k) - 1) g ->
  eqm 2 (FF j k (sd MS g)) (pre j (fun j' => FF j' k g + FF j' k (mv rho g)) + pre k (fun k' => FF j k' g + FF j k' (mv rho2 g))).
Proof.
  intros Hg. rewrite FF_bd1 by exact Hg. rewrite sumf_add.
  (* the terms of lower first degree *)
  assert (EA : sumf (fun l => DD (k + l) (fun a b => pre (j - l) (fun p => kap l 0 a b * NN p b a 0 g + kap l 1 a b * NN p b a 1 (mv rho2 g) + Te l p (mv rho g) a b))) (seq 0 (S j)) =
    sumf (fun l => pre (k + l) (fun n => DD n (fun a b => km l 0 b a * NN (j - l) a b 0 g + km l 1 b a * NN (j - l) a b 1 (mv rho2 g)))) (seq 0 (S j)) + pre j (fun j' => FF j' k (mv rho g))).
  { rewrite (seq_S j), !sumf_app, !sumf_cons, !sumf_nil. replace (j - (0 + j))%nat with 0%nat by lia.
    rewrite (DD_ext (k + (0 + j)) _ (fun _ _ => 0)) by reflexivity. rewrite DD_zero, !Z.add_0_r.
    transitivity (sumf (fun l => DD (k + l) (fun a b => kap l 0 b a * NN (j - S l) a b 0 g + kap l 1 b a * NN (j - S l) a b 1 (mv rho2 g)) + DD (k + l) (Te l (j - S l) (mv rho g))) (seq 0 j)).
    { apply sumf_ext. intros l Hl. apply in_seq in Hl. rewrite (DD_ext (k + l) _ (fun a b => (kap l 0 a b * NN (j - S l) b a 0 g + kap l 1 a b * NN (j - S l) b a 1 (mv rho2 g)) + Te l (j - S l) (mv rho g) a b)).
      2:{ intros a b _. replace (j - l)%nat with (S (j - S l)) by lia. reflexivity. }
      rewrite DD_add. f_equal. rewrite DD_swap. reflexivity. }
    rewrite sumf_add.
    assert (X : sumf (fun l => DD (k + l) (fun a b => kap l 0 b a * NN (j - S l) a b 0 g + kap l 1 b a * NN (j - S l) a b 1 (mv rho2 g))) (seq 0 j) =
      sumf (fun l => pre (k + l) (fun n => DD n (fun a b => km l 0 b a * NN (j - l) a b 0 g + km l 1 b a * NN (j - l) a b 1 (mv rho2 g)))) (seq 0 (S j))).
    { change (seq 0 (S j)) with (0%nat :: seq 1 j). rewrite sumf_cons, <- seq_shift, sumf_map.
      rewrite (pre_ext (k + 0) _ (fun _ => 0)) by (intros n _; rewrite (DD_ext n _ (fun _ _ => 0)) by (intros; cbn [km]; ring); apply DD_zero).
      replace (pre (k + 0) (fun _ => 0)) with 0 by (destruct (k + 0)%nat; reflexivity). rewrite Z.add_0_l. apply sumf_ext. intros l _. rewrite Nat.add_succ_r. reflexivity. }
    rewrite X. rewrite (seq_S j), ?sumf_app, ?sumf_cons, ?sumf_nil. rewrite ?Z.add_0_r. f_equal; [replace (j - (0 + j))%nat with 0%nat by lia; reflexivity|].
    destruct j as [|j]; cbn [pre]; [reflexivity|]. unfold FF. apply sumf_ext. intros l _. reflexivity. }
  rewrite EA. clear EA.
  assert (EF : pre j (fun j' => FF j' k g) = sumf (fun l => pre (k + l) (fun n => DD n (fun a b => km l 0 a b * NN (j - l) a b 0 g + km l 1 a b * NN (j - l) a b 1 g))) (seq 0 (S j))).
  { change (seq 0 (S j)) with (0%nat :: seq 1 j). rewrite sumf_cons, <- seq_shift, sumf_map.
    rewrite (pre_ext (k + 0) _ (fun _ => 0)) by (intros n _; rewrite (DD_ext n _ (fun _ _ => 0)) by (intros; cbn [km]; ring); apply DD_zero).
    replace (pre (k + 0) (fun _ => 0)) with 0 by (destruct (k + 0)%nat; reflexivity). rewrite Z.add_0_l. destruct j as [|j]; [reflexivity|]. cbn [pre]. unfold FF. apply sumf_ext. intros l _. rewrite Nat.add_succ_r. reflexivity. }
  assert (EK : pre k (fun k' => FF j k' g + FF j k' (mv rho2 g)) = sumf (fun l => pre (k + l) (fun n => DD n (fun a b => kap l 0 a b * (NN (j - l) a b 0 g + NN (j - l) a b 0 (mv rho2 g)) + kap l 1 a b * (NN (j - l) a b 1 g + NN (j - l) a b 1 (mv rho2 g))))) (seq 0 (S j))).
  { destruct k as [|k]; cbn [pre].
    - symmetry. apply sumf_0. intros l _. cbn [Nat.add]. destruct l as [|l]; [reflexivity|]. cbn [pre]. rewrite (DD_ext l _ (fun _ _ => 0)); [apply DD_zero|]. intros a b E. rewrite !kap_low by lia. ring.
    - unfold FF. rewrite <- sumf_add. apply sumf_ext. intros l _. cbn [Nat.add pre]. rewrite <- DD_add. apply DD_ext. intros a b _. unfold Te. ring. }
  rewrite pre_add, EF, EK. clear EF EK.
  transitivity (sumf (fun l => pre (k + l) (fun n => DD n (fun a b => Bd l (j - l) g a b + (km l 0 b a * NN (j - l) a b 0 g + km l 1 b a * NN (j - l) a b 1 (mv rho2 g)) + (km l 0 a b * NN (j - l) a b 0 g + km l 1 a b * NN (j - l) a b 1 g)))) (seq 0 (S j))
     + sumf (fun l => pre (k + l) (fun n => DD n (fun a b => km l 0 a b * NN (j - l) a b 0 g + km l 1 a b * NN (j - l) a b 1 g))) (seq 0 (S j)) + pre j (fun j' => FF j' k (mv rho g))).
  { set (sK := sumf (fun l => pre (k + l) (fun n => DD n (fun a b => km l 0 a b * NN (j - l) a b 0 g + km l 1 a b * NN (j - l) a b 1 g))) (seq 0 (S j))).
    assert (E : sumf (fun l => pre (k + l) (fun n => DD n (fun a b => Bd l (j - l) g a b + (km l 0 b a * NN (j - l) a b 0 g + km l 1 b a * NN (j - l) a b 1 (mv rho2 g)) + (km l 0 a b * NN (j - l) a b 0 g + km l 1 a b * NN (j - l) a b 1 g)))) (seq 0 (S j))
      = sumf (fun l => pre (k + l) (fun n => DD n (Bd l (j - l) g))) (seq 0 (S j)) + sumf (fun l => pre (k + l) (fun n => DD n (fun a b => km l 0 b a * NN (j - l) a b 0 g + km l 1 b a * NN (j - l) a b 1 (mv rho2 g)))) (seq 0 (S j)) + sK).
    { unfold sK. rewrite <- !sumf_add. apply sumf_ext. intros l _. rewrite <- !pre_add. apply pre_ext. intros n _. now rewrite !DD_add. }
    rewrite E. exists (- sK). ring. }
  rewrite (sumf_eqm 2 _ (fun l => pre (k + l) (fun n => DD n (fun a b => kap l 0 a b * (NN (j - l) a b 0 g + NN (j - l) a b 0 (mv rho2 g)) + kap l 1 a b * (NN (j - l) a b 1 g + NN (j - l) a b 1 (mv rho2 g)))))).
  - apply eqm_eq. ring.
  - intros l _. apply pre_eqm. intros n _. apply DD_eqm. intros a b _. apply kap_id.
Qed.
