(** * Finite sums and slices of lists for the Hirsch formula *)
From Verif Require Import PyBase Eqm.

Lemma ne_firstn {A} n (l : list A) i : nth_error (firstn n l) i = if (i <? n)%nat then nth_error l i else None.
Proof.
  revert l i. induction n as [|n IH]; intros l i; [destruct i; reflexivity|]. destruct l as [|a l]; [cbn [firstn]; destruct i; destruct (_ <? _)%nat; reflexivity|]. destruct i as [|i]; [reflexivity|]. cbn [firstn nth_error]. rewrite IH. reflexivity.
Qed.
Lemma ne_skipn {A} n (l : list A) i : nth_error (skipn n l) i = nth_error l (n + i).
Proof. revert l. induction n as [|n IH]; intros l; [reflexivity|]. destruct l as [|a l]; [cbn [skipn]; destruct i; reflexivity|]. cbn [skipn Nat.add nth_error]. apply IH. Qed.
Lemma ne_app {A} (l l' : list A) i : nth_error (l ++ l') i = if (i <? length l)%nat then nth_error l i else nth_error l' (i - length l).
Proof. destruct (Nat.ltb_spec i (length l)); [now apply nth_error_app1|now apply nth_error_app2]. Qed.
Lemma ne_ext {A} (l l' : list A) : (forall i, nth_error l i = nth_error l' i) -> l = l'.
Proof.
  revert l'. induction l as [|a l IH]; intros [|b l'] H; [reflexivity| | |]; try (specialize (H 0%nat); discriminate H). pose proof (H 0%nat) as E. injection E as <-. f_equal. apply IH. intros i. exact (H (S i)).
Qed.
Ltac slices := apply ne_ext; intros ?q; repeat (rewrite ?ne_app, ?ne_firstn, ?ne_skipn, ?app_length, ?firstn_length, ?skipn_length);
  repeat match goal with |- context [(?a <? ?b)%nat] => destruct (Nat.ltb_spec a b) end;
  try (exfalso; lia); try reflexivity; try (f_equal; lia);
  try (symmetry; apply nth_error_None; lia); try (apply nth_error_None; lia).
Lemma sgn_par a b c : a = b + 2 * c -> sgn a = sgn b.
Proof. intros ->. rewrite sgn_add, (sgn_mul_even 2 c eq_refl). ring. Qed.
(** sums over an initial segment *)
Definition sn (n : nat) (f : nat -> Z) : Z := sumf f (seq 0 n).
Lemma sn_ext n f g : (forall i, (i < n)%nat -> f i = g i) -> sn n f = sn n g.
Proof. intros E. apply sumf_ext. intros i Hi. apply in_seq in Hi. apply E. lia. Qed.
Lemma sn_add n f g : sn n (fun i => f i + g i) = sn n f + sn n g. Proof. apply sumf_add. Qed.
Lemma sn_scal n c f : sn n (fun i => c * f i) = c * sn n f. Proof. apply sumf_scal. Qed.
Lemma sn_app m n f : sn (m + n) f = sn m f + sn n (fun i => f (m + i)%nat).
Proof.
  unfold sn. rewrite seq_app, sumf_app. f_equal. cbn [Nat.add]. revert m. induction n as [|n IH]; intros m; [reflexivity|]. cbn [seq]. rewrite !sumf_cons, Nat.add_0_r. f_equal. rewrite IH, <- seq_shift, sumf_map. apply sumf_ext. intros i _. f_equal. lia.
Qed.
Lemma sn_exch m n (f : nat -> nat -> Z) : sn m (fun i => sn n (f i)) = sn n (fun j => sn m (fun i => f i j)).
Proof. unfold sn. apply sumf_exch. Qed.
Lemma sn_0 n f : (forall i, (i < n)%nat -> f i = 0) -> sn n f = 0.
Proof. intros E. apply sumf_0. intros i Hi. apply in_seq in Hi. apply E. lia. Qed.
Lemma sn_S n f : sn (S n) f = sn n f + f n.
Proof. replace (S n) with (n + 1)%nat by lia. rewrite sn_app. f_equal. unfold sn. cbn [seq]. rewrite sumf_cons, sumf_nil, Nat.add_0_r. ring. Qed.
(** triangles *)
Lemma sn_tri n (f : nat -> nat -> Z) : sn n (fun j => sn j (fun i => f i j)) = sn n (fun i => sn (n - 1 - i) (fun k => f i (i + 1 + k)%nat)).
Proof.
  induction n as [|n IH]; [reflexivity|]. rewrite sn_S, IH. rewrite sn_S. replace (S n - 1 - n)%nat with 0%nat by lia. rewrite (sn_0 0) by (intros; lia). rewrite Z.add_0_r, <- sn_add. apply sn_ext. intros i Hi.
  replace (S n - 1 - i)%nat with (S (n - 1 - i)) by lia. rewrite sn_S. do 2 f_equal. lia.
Qed.
Lemma sk_sk {A} m n (s : list A) : skipn n (skipn m s) = skipn (m + n) s.
Proof. slices. Qed.
