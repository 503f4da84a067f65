(** * Lists, Python indexing and slices.  Proof library. *)
From Coq Require Import Setoid Morphisms.
From Verif Require Import PyBase Eqm FreeModuleFacts.

#[global] Arguments zlen : simpl never.
#[global] Arguments zrange : simpl never.
#[global] Arguments sgn : simpl never.

Lemma zlen_length {A} (l : list A) : Z.to_nat (zlen l) = length l.
Proof. unfold zlen. lia. Qed.
Lemma zlen_0 {A} (l : list A) : zlen l = 0 -> l = [].
Proof. destruct l; [reflexivity|]. rewrite zlen_cons. pose proof (zlen_nonneg l). lia. Qed.

(** slices at a splitting *)
Lemma slice_to_app {A} (l1 l2 : list A) : slice_to (l1 ++ l2) (zlen l1) = l1.
Proof.
  unfold slice_to, clamp. rewrite zlen_app. pose proof (zlen_nonneg l1). pose proof (zlen_nonneg l2).
  destruct (Z.ltb_spec (zlen l1) 0); [lia|]. rewrite Z.min_l by lia. rewrite zlen_length.
  now rewrite firstn_app, Nat.sub_diag, firstn_all, firstn_O, app_nil_r.
Qed.
Lemma slice_from_app {A} (l1 l2 : list A) : slice_from (l1 ++ l2) (zlen l1) = l2.
Proof.
  unfold slice_from, clamp. rewrite zlen_app. pose proof (zlen_nonneg l1). pose proof (zlen_nonneg l2).
  destruct (Z.ltb_spec (zlen l1) 0); [lia|]. rewrite Z.min_l by lia. rewrite zlen_length.
  now rewrite skipn_app, Nat.sub_diag, skipn_all, skipn_O.
Qed.
Lemma slice_from_app_S {A} (l1 l2 : list A) a : slice_from (l1 ++ a :: l2) (zlen l1 + 1) = l2.
Proof.
  replace (l1 ++ a :: l2) with ((l1 ++ [a]) ++ l2) by now rewrite <- app_assoc.
  replace (zlen l1 + 1) with (zlen (l1 ++ [a])) by (rewrite zlen_app; reflexivity).
  apply slice_from_app.
Qed.
Lemma slice_to_app_S {A} (l1 l2 : list A) a : slice_to (l1 ++ a :: l2) (zlen l1 + 1) = l1 ++ [a].
Proof.
  replace (l1 ++ a :: l2) with ((l1 ++ [a]) ++ l2) by now rewrite <- app_assoc.
  replace (zlen l1 + 1) with (zlen (l1 ++ [a])) by (rewrite zlen_app; reflexivity).
  apply slice_to_app.
Qed.
Lemma py_get_app {A} (l1 l2 : list A) a : py_get (l1 ++ a :: l2) (zlen l1) = Ok a.
Proof.
  unfold py_get. pose proof (zlen_nonneg l1). destruct (Z.ltb_spec (zlen l1) 0); [lia|].
  destruct (Z.ltb_spec (zlen l1) 0); [lia|]. rewrite zlen_length. rewrite nth_error_app2 by lia.
  now rewrite Nat.sub_diag.
Qed.
Lemma nth_set_app {A} (l1 l2 : list A) a b : nth_set (l1 ++ a :: l2) (length l1) b = Some (l1 ++ b :: l2).
Proof. induction l1 as [|x l1 IH]; cbn; [reflexivity|]. now rewrite IH. Qed.
Lemma py_set_app {A} (l1 l2 : list A) a b : py_set (l1 ++ a :: l2) (zlen l1) b = Ok (l1 ++ b :: l2).
Proof.
  unfold py_set. pose proof (zlen_nonneg l1). destruct (Z.ltb_spec (zlen l1) 0); [lia|].
  destruct (Z.ltb_spec (zlen l1) 0); [lia|]. rewrite zlen_length. now rewrite nth_set_app.
Qed.
Lemma slice_to_all {A} (l : list A) n : zlen l <= n -> slice_to l n = l.
Proof.
  intros H. unfold slice_to, clamp. pose proof (zlen_nonneg l). destruct (Z.ltb_spec n 0); [lia|].
  rewrite Z.min_r by lia. rewrite zlen_length. apply firstn_all.
Qed.
Lemma slice_from_all {A} (l : list A) n : zlen l <= n -> slice_from l n = [].
Proof.
  intros H. unfold slice_from, clamp. pose proof (zlen_nonneg l). destruct (Z.ltb_spec n 0); [lia|].
  rewrite Z.min_r by lia. rewrite zlen_length. apply skipn_all.
Qed.
Lemma slice_to_firstn {A} (l : list A) n : 0 <= n -> slice_to l n = firstn (Z.to_nat n) l.
Proof.
  intros H. unfold slice_to, clamp. destruct (Z.ltb_spec n 0); [lia|].
  destruct (Z.min_spec n (zlen l)) as [[? ->]|[? ->]]; [reflexivity|].
  rewrite zlen_length, firstn_all. symmetry. apply firstn_all2. unfold zlen in *. lia.
Qed.
Lemma slice_from_skipn {A} (l : list A) n : 0 <= n -> slice_from l n = skipn (Z.to_nat n) l.
Proof.
  intros H. unfold slice_from, clamp. destruct (Z.ltb_spec n 0); [lia|].
  destruct (Z.min_spec n (zlen l)) as [[? ->]|[? ->]]; [reflexivity|].
  rewrite zlen_length, skipn_all. symmetry. apply skipn_all2. unfold zlen in *. lia.
Qed.

(** in-range access *)
Definition znth {A} (d : A) (l : list A) (i : Z) : A := nth (Z.to_nat i) l d.
Lemma py_get_in {A} (d : A) (l : list A) i : 0 <= i < zlen l -> py_get l i = Ok (znth d l i).
Proof.
  intros [H1 H2]. unfold py_get, znth. destruct (Z.ltb_spec i 0); [lia|]. destruct (Z.ltb_spec i 0); [lia|].
  rewrite (nth_error_nth' l d); [reflexivity|]. unfold zlen in H2. lia.
Qed.
Lemma py_get_out {A} (l : list A) i : zlen l <= i -> py_get l i = Err IndexError.
Proof.
  intros H1. unfold py_get. pose proof (zlen_nonneg l). destruct (Z.ltb_spec i 0); [lia|]. destruct (Z.ltb_spec i 0); [lia|].
  replace (nth_error l (Z.to_nat i)) with (@None A); [reflexivity|]. symmetry. apply nth_error_None. unfold zlen in *. lia.
Qed.
Lemma split_at {A} (l : list A) i : 0 <= i < zlen l -> exists l1 a l2, l = l1 ++ a :: l2 /\ zlen l1 = i.
Proof.
  intros [H1 H2]. destruct (nth_error l (Z.to_nat i)) as [a|] eqn:E.
  - apply nth_error_split in E. destruct E as (l1 & l2 & -> & E). exists l1, a, l2. split; [reflexivity|]. unfold zlen. lia.
  - apply nth_error_None in E. unfold zlen in H2. lia.
Qed.

(** enumerate *)
Lemma enumerate_nil {A} : enumerate (@nil A) = []. Proof. reflexivity. Qed.
Lemma enumerate_cons {A} (a : A) l : enumerate (a :: l) = (0, a) :: map (fun p => (fst p + 1, snd p)) (enumerate l).
Proof.
  unfold enumerate. rewrite zlen_cons. pose proof (zlen_nonneg l). rewrite zrange_cons by lia. cbn [combine]. f_equal.
  change (0 + 1) with (0 + 1). rewrite zrange_shift.
  generalize (zrange 0 (zlen l)) as r. revert l H. induction l as [|b l IH]; intros H r; destruct r; cbn; auto.
  f_equal. apply IH. apply zlen_nonneg.
Qed.
Lemma enumerate_snd {A} (l : list A) : map snd (enumerate l) = l.
Proof. induction l as [|a l IH]; [reflexivity|]. rewrite enumerate_cons. cbn. rewrite map_map. cbn. f_equal. exact IH. Qed.
Lemma enumerate_fst {A} (l : list A) : map fst (enumerate l) = zrange 0 (zlen l).
Proof.
  induction l as [|a l IH]; [reflexivity|]. rewrite enumerate_cons. cbn [map fst]. rewrite map_map. cbn [fst].
  rewrite zlen_cons. pose proof (zlen_nonneg l). rewrite (zrange_cons 0) by lia. f_equal.
  rewrite zrange_shift, <- IH, map_map. reflexivity.
Qed.

(** All the ways to single out an entry of a list. *)
Fixpoint splits_from {A} (pre l : list A) : list (list A * A * list A) :=
  match l with
  | [] => []
  | a :: l' => (pre, a, l') :: splits_from (pre ++ [a]) l'
  end.
Definition splits {A} (l : list A) := splits_from [] l.
Lemma splits_from_map {A} (pre l : list A) p0 :
  splits_from (p0 ++ pre) l = map (fun s => (p0 ++ fst (fst s), snd (fst s), snd s)) (splits_from pre l).
Proof.
  revert pre. induction l as [|a l IH]; intros pre; cbn; [reflexivity|]. f_equal. rewrite <- app_assoc. apply IH.
Qed.
Lemma splits_cons {A} (a : A) l : splits (a :: l) = ([], a, l) :: map (fun s => (a :: fst (fst s), snd (fst s), snd s)) (splits l).
Proof. unfold splits. cbn [splits_from app]. f_equal. apply (splits_from_map [] l [a]). Qed.
Lemma splits_in {A} (l : list A) p a q : In (p, a, q) (splits l) <-> l = p ++ a :: q.
Proof.
  revert p. induction l as [|b l IH]; intros p.
  - cbn. split; [tauto|]. now destruct p.
  - rewrite splits_cons. cbn [In]. rewrite in_map_iff. split.
    + intros [[= <- <- <-]|(((p' & a') & q') & [= <- <- <-] & Hin)]; [reflexivity|]. apply IH in Hin. cbn. now rewrite Hin.
    + destruct p as [|c p]; cbn; intros [= -> E]; [left; now rewrite E|]. right. exists (p, a, q). split; [reflexivity|]. now apply IH.
Qed.
Lemma sumf_enumerate {A} (f : Z * A -> Z) l :
  sumf f (enumerate l) = sumf (fun s => f (zlen (fst (fst s)), snd (fst s))) (splits l).
Proof.
  revert f. induction l as [|a l IH]; intros f; [reflexivity|].
  rewrite enumerate_cons, splits_cons, !sumf_cons, !sumf_map. cbn [fst snd zlen length]. f_equal.
  rewrite IH. apply sumf_ext. intros [[p b] q] _. cbn [fst snd]. now rewrite zlen_cons.
Qed.
Lemma sumf_zrange_splits {A} (f : Z -> Z) (l : list A) :
  sumf f (zrange 0 (zlen l)) = sumf (fun s => f (zlen (fst (fst s)))) (splits l).
Proof. rewrite <- enumerate_fst, sumf_map. now rewrite sumf_enumerate. Qed.

(** Sums over pairs of positions i < j *)
Fixpoint pairsum {A} (f : A -> A -> Z) (l : list A) : Z :=
  match l with
  | [] => 0
  | a :: l' => sumf (f a) l' + pairsum f l'
  end.
Lemma pairsum_perm {A} (f : A -> A -> Z) l l' : (forall a b, f a b = f b a) -> Permutation l l' -> pairsum f l = pairsum f l'.
Proof.
  intros Hs HP. induction HP as [|a l l' HP IH|a b l|l l' l'' H1 IH1 H2 IH2]; cbn [pairsum]; try reflexivity.
  - rewrite IH. now rewrite (sumf_perm _ _ _ HP).
  - rewrite !sumf_cons, (Hs a b). ring.
  - congruence.
Qed.
Lemma pairsum_ext {A} (f g : A -> A -> Z) l : (forall a b, In a l -> In b l -> f a b = g a b) -> pairsum f l = pairsum g l.
Proof.
  induction l as [|a l IH]; intros H; [reflexivity|]. cbn [pairsum]. rewrite IH.
  - f_equal. apply sumf_ext. intros b Hb. apply H; [now left|now right].
  - intros b b' Hb Hb'. apply H; now right.
Qed.
Lemma pairsum_map {A B} (f : B -> B -> Z) (h : A -> B) l : pairsum f (map h l) = pairsum (fun a b => f (h a) (h b)) l.
Proof. induction l as [|a l IH]; [reflexivity|]. cbn [map pairsum]. now rewrite IH, sumf_map. Qed.
Lemma pairsum_app {A} (f : A -> A -> Z) l l' :
  pairsum f (l ++ l') = pairsum f l + pairsum f l' + sumf (fun a => sumf (f a) l') l.
Proof.
  induction l as [|a l IH]; cbn [app pairsum]; rewrite ?sumf_nil, ?sumf_cons; [ring|].
  rewrite IH, sumf_app. ring.
Qed.
Lemma pairsum_add {A} (f g : A -> A -> Z) l : pairsum (fun a b => f a b + g a b) l = pairsum f l + pairsum g l.
Proof. induction l as [|a l IH]; [reflexivity|]. cbn [pairsum]. rewrite IH, sumf_add. ring. Qed.
Lemma pairsum_eqm {A} t (f g : A -> A -> Z) l : (forall a b, In a l -> In b l -> eqm t (f a b) (g a b)) -> eqm t (pairsum f l) (pairsum g l).
Proof.
  induction l as [|a l IH]; intros H; [reflexivity|]. cbn [pairsum]. rewrite IH.
  - rewrite (sumf_eqm t (f a) (g a) l); [reflexivity|]. intros b Hb. apply H; [now left|now right].
  - intros b b' Hb Hb'. apply H; now right.
Qed.
Lemma pairsum_eqm_nodup {A} t (f g : A -> A -> Z) l : NoDup l -> (forall a b, a <> b -> In a l -> In b l -> eqm t (f a b) (g a b)) -> eqm t (pairsum f l) (pairsum g l).
Proof.
  induction l as [|a l IH]; intros ND H; [reflexivity|]. cbn [pairsum]. inversion ND as [|? ? Hn ND']; subst. rewrite IH; auto.
  - rewrite (sumf_eqm t (f a) (g a) l); [reflexivity|]. intros b Hb. apply H; [congruence|now left|now right].
  - intros b b' ? Hb Hb'. apply H; auto; now right.
Qed.

Lemma sgn_eqm a b : eqm 2 a b -> sgn a = sgn b.
Proof. intros [k Hk]. replace a with (b + 2 * k) by lia. rewrite sgn_add. rewrite (sgn_mul_even 2 k) by reflexivity. ring. Qed.
Lemma eqm2_sgn a b : sgn a = sgn b -> eqm 2 a b.
Proof.
  intros H. unfold sgn in H. destruct (Z.even a) eqn:E1, (Z.even b) eqn:E2; try discriminate; unfold eqm.
  - apply Z.even_spec in E1, E2. destruct E1 as [x ->], E2 as [y ->]. exists (x - y). lia.
  - assert (O1 : Z.odd a = true) by (rewrite <- Z.negb_even, E1; reflexivity).
    assert (O2 : Z.odd b = true) by (rewrite <- Z.negb_even, E2; reflexivity).
    apply Z.odd_spec in O1, O2. destruct O1 as [x ->], O2 as [y ->]. exists (x - y). lia.
Qed.
Lemma sgn_nz a : sgn a <> 0. Proof. destruct (sgn_cases a) as [-> | ->]; lia. Qed.

(** monadic maps *)
Lemma mapM_map {A B} (f : A -> res B) (h : A -> B) l : (forall a, In a l -> f a = Ok (h a)) -> mapM f l = Ok (map h l).
Proof.
  induction l as [|a l IH]; intros H; cbn; [reflexivity|]. rewrite (H a) by now left. cbn.
  rewrite IH; [reflexivity|]. intros b Hb. apply H. now right.
Qed.
Lemma for_pure {A S} (l : list A) (body : S -> A -> res S) (h : S -> A -> S) : forall s,
  (forall s a, In a l -> body s a = Ok (h s a)) -> for_ l s body = Ok (fold_left h l s).
Proof.
  induction l as [|a l IH]; intros s H; cbn; [reflexivity|]. rewrite (H s a) by now left. cbn. apply IH.
  intros s' b Hb. apply H. now right.
Qed.

Lemma pairwise_cons {A} (a b : A) l : pairwise (a :: b :: l) = (a, b) :: pairwise (b :: l).
Proof. reflexivity. Qed.

Lemma mem_in a l : mem a l = true <-> In a l.
Proof.
  unfold mem. rewrite existsb_exists. split.
  - intros (b & Hb & E). apply Z.eqb_eq in E. now subst.
  - intros H. exists a. split; [assumption|]. apply Z.eqb_refl.
Qed.
Lemma mem_notin a l : mem a l = false <-> ~ In a l.
Proof. rewrite <- mem_in. now destruct (mem a l). Qed.
Lemma mem_app a l l' : mem a (l ++ l') = mem a l || mem a l'.
Proof. apply existsb_app. Qed.

Lemma index_from_app l1 a l2 i : ~ In a l1 -> index_from (l1 ++ a :: l2) a i = Ok (i + zlen l1).
Proof.
  revert i. induction l1 as [|b l1 IH]; intros i H; cbn.
  - rewrite Z.eqb_refl. f_equal. unfold zlen. cbn. lia.
  - destruct (Z.eqb_spec b a); [exfalso; apply H; now left|]. rewrite IH by (intros Hi; apply H; now right).
    rewrite zlen_cons. f_equal. lia.
Qed.
Lemma py_index_app l1 a l2 : ~ In a l1 -> py_index (l1 ++ a :: l2) a = Ok (zlen l1).
Proof. intros H. unfold py_index. now rewrite index_from_app. Qed.
Lemma py_index_notin l a : ~ In a l -> py_index l a = Err ValueError.
Proof.
  unfold py_index. generalize 0. induction l as [|b l IH]; intros i H; cbn; [reflexivity|].
  destruct (Z.eqb_spec b a); [exfalso; apply H; now left|]. apply IH. intros Hi. apply H. now right.
Qed.
Lemma fold_max_spec l : forall a m, fold_left Z.max l a = m -> (m = a \/ In m l) /\ a <= m /\ forall b, In b l -> b <= m.
Proof.
  induction l as [|b l IH]; intros a m E; cbn in *.
  - split; [now left|]. split; [lia|]. tauto.
  - apply IH in E. destruct E as (E1 & E2 & E3). split; [|split].
    + destruct E1 as [->|]; [|auto]. destruct (Z.max_spec a b) as [[? ->]|[? ->]]; auto.
    + lia.
    + intros c [<-|Hc]; [lia|auto].
Qed.
Lemma py_max_spec l m : py_max l = Ok m <-> In m l /\ forall b, In b l -> b <= m.
Proof.
  destruct l as [|a l]; cbn; [split; [discriminate|tauto]|]. split.
  - intros [= E]. apply fold_max_spec in E. destruct E as (E1 & E2 & E3). split; [intuition|]. intros b [<-|Hb]; auto.
  - intros [H1 H2]. f_equal. destruct (fold_max_spec l a _ eq_refl) as (E1 & E2 & E3).
    set (m' := fold_left Z.max l a) in *. assert (m' <= m). { apply H2. destruct E1; auto. }
    destruct H1 as [->|H1]; [lia|]. apply E3 in H1. lia.
Qed.
Lemma py_max_perm l l' : Permutation l l' -> py_max l = py_max l'.
Proof.
  intros HP. destruct (py_max l) as [m|e] eqn:E.
  - apply py_max_spec in E. symmetry. apply py_max_spec. destruct E as [E1 E2].
    split; [eapply Permutation_in; eauto|]. intros b Hb. apply E2. eapply Permutation_in; [symmetry; eauto|auto].
  - destruct l; [|discriminate]. apply Permutation_nil in HP. subst. auto.
Qed.
Lemma py_max_zrange n : 1 <= n -> py_max (zrange 1 (n + 1)) = Ok n.
Proof.
  intros H. apply py_max_spec. split; [apply in_zrange; lia|]. intros b Hb. apply in_zrange in Hb. lia.
Qed.
Lemma NoDup_app_remove_l {A} (l l' : list A) : NoDup (l ++ l') -> NoDup l'.
Proof. induction l as [|a l IH]; cbn; [auto|]. intros H. inversion H; auto. Qed.
Lemma NoDup_app_snoc {A} (l : list A) a : NoDup l -> ~ In a l -> NoDup (l ++ [a]).
Proof.
  intros H1 H2. apply (Permutation_NoDup (Permutation_cons_append l a)). now constructor.
Qed.
