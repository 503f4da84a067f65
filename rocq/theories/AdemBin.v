(** * Binomial coefficients modulo 2 and the classical form of the Adem relations (C91) *)
From Coq Require Import Setoid Morphisms.
From Verif Require Import PyBase Eqm SpecAdem ListFacts KoszulFacts.

Lemma ch_0 n : choose n 0 = 1. Proof. destruct n; reflexivity. Qed.
Lemma ch_SS n k : choose (S n) (S k) = choose n k + choose n (S k). Proof. reflexivity. Qed.
Lemma ch_lt n : forall k, (n < k)%nat -> choose n k = 0.
Proof. induction n as [|n IH]; intros [|k] L; try lia; [reflexivity|]. rewrite ch_SS, !IH by lia. reflexivity. Qed.
Lemma ch_nn n : choose n n = 1.
Proof. induction n as [|n IH]; [reflexivity|]. rewrite ch_SS, IH, ch_lt by lia. reflexivity. Qed.
Lemma ch_sym : forall n a b, (a + b = n)%nat -> choose n a = choose n b.
Proof.
  induction n as [|n IH]; intros a b E; [destruct a, b; try lia; reflexivity|].
  destruct a as [|a]; [replace b with (S n) by lia; now rewrite ch_0, ch_nn|]. destruct b as [|b]; [replace a with n by lia; now rewrite ch_0, ch_nn|].
  rewrite !ch_SS, (IH a (S b)), (IH (S a) b) by lia. ring.
Qed.
Lemma ch_mid e : (0 < e)%nat -> eqm 2 (choose (2 * e) e) 0.
Proof.
  intros H. destruct e as [|e]; [lia|]. replace (2 * S e)%nat with (S (e + S e)) by lia. rewrite ch_SS, (ch_sym (e + S e) e (S e)) by lia. exists (choose (e + S e) (S e)). ring.
Qed.
(** [sum_(u <= N) C(a + u, u) C(i, N - u)] *)
Definition cnv (a i N : nat) : Z := sumf (fun u => choose (a + u) u * choose i (N - u)) (seq 0 (S N)).
Lemma cnv_0 a N : cnv a 0 N = choose (a + N) N.
Proof.
  unfold cnv. rewrite (seq_S N), sumf_app, sumf_cons, sumf_nil. replace (N - (0 + N))%nat with 0%nat by lia. rewrite ch_0. rewrite sumf_0; [change (0 + N)%nat with N; ring|].
  intros u Hu. apply in_seq in Hu. rewrite (ch_lt 0) by lia. ring.
Qed.
Lemma cnv_i0 a i : cnv a i 0 = 1.
Proof. unfold cnv. cbn [seq]. rewrite sumf_cons, sumf_nil, !ch_0. ring. Qed.
Lemma cnv_S a i N : cnv a (S i) (S N) = cnv a i (S N) + cnv a i N.
Proof.
  unfold cnv. rewrite (seq_S (S N)), !sumf_app, !sumf_cons, !sumf_nil. replace (S N - (0 + S N))%nat with 0%nat by lia. rewrite !ch_0.
  rewrite (sumf_ext _ (fun u => choose (a + u) u * choose i (S N - u) + choose (a + u) u * choose i (N - u))); [rewrite sumf_add; ring|].
  intros u Hu. apply in_seq in Hu. replace (S N - u)%nat with (S (N - u)) by lia. rewrite ch_SS. ring.
Qed.
Lemma cnv_le a : forall i N, (i <= a)%nat -> eqm 2 (cnv a i N) (choose (a - i + N) N).
Proof.
  induction i as [|i IH]; intros N L; [rewrite cnv_0, Nat.sub_0_r; reflexivity|]. destruct N as [|N]; [rewrite cnv_i0, ch_0; reflexivity|].
  rewrite cnv_S, !IH by lia. replace (a - i + S N)%nat with (S (a - S i + S N)) by lia. replace (a - i + N)%nat with (a - S i + S N)%nat by lia. rewrite ch_SS. exists (choose (a - S i + S N) N). ring.
Qed.
Lemma cnv_gt a : forall i N, (a < i)%nat -> eqm 2 (cnv a i N) (choose (i - a - 1) N).
Proof.
  induction i as [|i IH]; intros N L; [lia|]. destruct N as [|N]; [rewrite cnv_i0, ch_0; reflexivity|]. rewrite cnv_S. destruct (Nat.eq_dec i a) as [->|Na].
  - rewrite !cnv_le by lia. replace (S a - a - 1)%nat with 0%nat by lia. rewrite Nat.sub_diag. cbn [Nat.add]. rewrite !ch_nn. exists 1. reflexivity.
  - rewrite !IH by lia. replace (S i - a - 1)%nat with (S (i - a - 1)) by lia. rewrite ch_SS. apply eqm_eq. ring.
Qed.
Definition chk (i k : nat) : Z := if (i <=? k)%nat then choose i (k - i) else 0.
Lemma sumf_swap {A B} (h : A -> B -> Z) l l' : sumf (fun a => sumf (fun b => h a b) l') l = sumf (fun b => sumf (fun a => h a b) l) l'.
Proof.
  induction l as [|a l IH]; [rewrite sumf_nil; symmetry; apply sumf_0; reflexivity|]. rewrite sumf_cons, IH, <- sumf_add. reflexivity.
Qed.
Lemma sumf_scal {A} c (h : A -> Z) l : sumf (fun a => c * h a) l = c * sumf h l.
Proof. induction l as [|a l IH]; [rewrite !sumf_nil; ring|]. rewrite !sumf_cons, IH. ring. Qed.
(** a sum over an initial segment *)
Lemma sumf_cut (h : nat -> Z) M N : (M <= N)%nat -> (forall u, (M < u <= N)%nat -> h u = 0) -> sumf h (seq 0 (S N)) = sumf h (seq 0 (S M)).
Proof.
  intros L Z. replace (S N) with (S M + (N - M))%nat by lia. rewrite seq_app, sumf_app. rewrite (sumf_0 h (seq (0 + S M) _)); [ring|]. intros u Hu. apply in_seq in Hu. apply Z. lia.
Qed.
Lemma sumf_single (h : nat -> Z) x n : (x < n)%nat -> (forall u, u <> x -> h u = 0) -> sumf h (seq 0 n) = h x.
Proof.
  intros L Z. replace n with (x + S (n - x - 1))%nat by lia. rewrite seq_app, sumf_app. cbn [seq]. rewrite sumf_cons.
  rewrite (sumf_0 h (seq 0 x)), (sumf_0 h (seq _ _)); [cbn [Nat.add]; ring| |]; intros u Hu; apply in_seq in Hu; apply Z; lia.
Qed.
Section Algebra.
Variables (q : nat) (D : nat -> Z).
Let I := seq 0 (S (q / 2)).
Definition TT (k : nat) : Z := sumf (fun i => chk i k * D i) (seq 0 (S (q / 2))).
Hypothesis R : forall k, (k <= q)%nat -> eqm 2 (TT k) (TT (q - k)).
Definition coe (i0 i : nat) : Z := if (q <=? 2 * i + i0)%nat then cnv i0 i (2 * i + i0 - q) else 0.
Lemma lhs_coe i0 i : eqm 2 (sumf (fun u => choose (i0 + u) u * chk i (i0 - u)) (seq 0 (S i0))) (if (i =? i0)%nat then 1 else 0).
Proof.
  destruct (le_lt_dec i i0) as [L|L].
  - rewrite (sumf_cut _ (i0 - i)) by (first [lia | intros u Hu; unfold chk; destruct (Nat.leb_spec i (i0 - u)); [lia|ring]]).
    transitivity (cnv i0 i (i0 - i)).
    + apply eqm_eq. unfold cnv. apply sumf_ext. intros u Hu. apply in_seq in Hu. unfold chk. destruct (Nat.leb_spec i (i0 - u)); [|lia]. f_equal. f_equal. lia.
    + rewrite cnv_le by exact L. destruct (Nat.eqb_spec i i0) as [->|N]; [rewrite Nat.sub_diag, ch_0; reflexivity|]. replace (i0 - i + (i0 - i))%nat with (2 * (i0 - i))%nat by lia. apply ch_mid. lia.
  - destruct (Nat.eqb_spec i i0) as [->|N]; [lia|]. rewrite sumf_0; [reflexivity|]. intros u _. unfold chk. destruct (Nat.leb_spec i (i0 - u)); [lia|]. ring.
Qed.
Lemma rhs_coe i0 i : (2 * i0 <= q)%nat -> (2 * i <= q)%nat -> sumf (fun u => choose (i0 + u) u * chk i (q - (i0 - u))) (seq 0 (S i0)) = coe i0 i.
Proof.
  intros L0 L. unfold coe. destruct (Nat.leb_spec q (2 * i + i0)) as [H|H].
  - assert (E : forall u, (u <= i0)%nat -> chk i (q - (i0 - u)) = if (u <=? 2 * i + i0 - q)%nat then choose i (2 * i + i0 - q - u) else 0).
    { intros u Hu. unfold chk. destruct (Nat.leb_spec i (q - (i0 - u))); [|lia]. destruct (Nat.leb_spec u (2 * i + i0 - q)); [|apply ch_lt; lia]. apply ch_sym. lia. }
    rewrite (sumf_ext _ (fun u => choose (i0 + u) u * (if (u <=? 2 * i + i0 - q)%nat then choose i (2 * i + i0 - q - u) else 0))) by (intros u Hu; apply in_seq in Hu; rewrite E by lia; reflexivity).
    rewrite (sumf_cut _ (2 * i + i0 - q)) by (first [lia | intros u Hu; destruct (Nat.leb_spec u (2 * i + i0 - q)); [lia|ring]]).
    unfold cnv. apply sumf_ext. intros u Hu. apply in_seq in Hu. destruct (Nat.leb_spec u (2 * i + i0 - q)); [reflexivity|lia].
  - apply sumf_0. intros u Hu. apply in_seq in Hu. unfold chk. destruct (Nat.leb_spec i (q - (i0 - u))); [|ring]. rewrite (ch_lt i) by lia. ring.
Qed.
Lemma adem_algebra i0 : (2 * i0 <= q)%nat -> eqm 2 (D i0) (sumf (fun i => coe i0 i * D i) (seq 0 (S (q / 2)))).
Proof.
  intros L0. pose proof (Nat.div_mod_eq q 2) as Q. pose proof (Nat.mod_upper_bound q 2 ltac:(lia)) as Q'.
  assert (G : eqm 2 (sumf (fun u => choose (i0 + u) u * TT (i0 - u)) (seq 0 (S i0))) (sumf (fun u => choose (i0 + u) u * TT (q - (i0 - u))) (seq 0 (S i0)))).
  { apply sumf_eqm. intros u Hu. apply in_seq in Hu. rewrite (R (i0 - u)) by lia. reflexivity. }
  assert (X : forall h, sumf (fun u => choose (i0 + u) u * TT (h u)) (seq 0 (S i0)) = sumf (fun i => sumf (fun u => choose (i0 + u) u * chk i (h u)) (seq 0 (S i0)) * D i) (seq 0 (S (q / 2)))).
  { intros h. unfold TT. rewrite (sumf_ext _ (fun u => sumf (fun i => choose (i0 + u) u * (chk i (h u) * D i)) (seq 0 (S (q / 2))))) by (intros; symmetry; apply sumf_scal).
    rewrite sumf_swap. apply sumf_ext. intros i _. rewrite Z.mul_comm, <- sumf_scal. apply sumf_ext. intros; ring. }
  rewrite (X (fun u => i0 - u)%nat), (X (fun u => q - (i0 - u))%nat) in G.
  transitivity (sumf (fun i => (if (i =? i0)%nat then 1 else 0) * D i) (seq 0 (S (q / 2)))).
  { apply eqm_eq. rewrite (sumf_single _ i0); [rewrite Nat.eqb_refl; ring|lia|]. intros u Hu. destruct (Nat.eqb_spec u i0); [contradiction|ring]. }
  transitivity (sumf (fun i => sumf (fun u => choose (i0 + u) u * chk i (i0 - u)) (seq 0 (S i0)) * D i) (seq 0 (S (q / 2)))).
  { apply sumf_eqm. intros i _. rewrite lhs_coe. reflexivity. }
  rewrite G. apply eqm_eq. apply sumf_ext. intros i Hi. apply in_seq in Hi. rewrite rhs_coe by lia. reflexivity.
Qed.
End Algebra.
