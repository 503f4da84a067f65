(** * Congruence modulo the torsion, and finite sums.  Proof library. *)
From Coq Require Import Setoid Morphisms.
From Verif Require Import PyBase.

(** [a] and [b] have the same class in Z/t (Z itself when [t = 0]). *)
Definition eqm (t a b : Z) : Prop := (t | a - b).

#[global] Instance eqm_equiv t : Equivalence (eqm t).
Proof.
  unfold eqm; constructor.
  - intros a. rewrite Z.sub_diag. apply Z.divide_0_r.
  - intros a b H. replace (b - a) with (- (a - b)) by ring. now apply Z.divide_opp_r.
  - intros a b d H1 H2. replace (a - d) with ((a - b) + (b - d)) by ring. now apply Z.divide_add_r.
Qed.
#[global] Instance eqm_add t : Proper (eqm t ==> eqm t ==> eqm t) Z.add.
Proof.
  intros a b H c d H'. unfold eqm in *.
  replace (a + c - (b + d)) with ((a - b) + (c - d)) by ring. now apply Z.divide_add_r.
Qed.
#[global] Instance eqm_sub t : Proper (eqm t ==> eqm t ==> eqm t) Z.sub.
Proof.
  intros a b H c d H'. unfold eqm in *.
  replace (a - c - (b - d)) with ((a - b) - (c - d)) by ring. now apply Z.divide_sub_r.
Qed.
#[global] Instance eqm_opp t : Proper (eqm t ==> eqm t) Z.opp.
Proof.
  intros a b H. unfold eqm in *.
  replace (- a - - b) with (- (a - b)) by ring. now apply Z.divide_opp_r.
Qed.
#[global] Instance eqm_mul t : Proper (eqm t ==> eqm t ==> eqm t) Z.mul.
Proof.
  intros a b H c d H'. unfold eqm in *.
  replace (a * c - b * d) with ((a - b) * c + b * (c - d)) by ring.
  apply Z.divide_add_r; [now apply Z.divide_mul_l | now apply Z.divide_mul_r].
Qed.

Lemma eqm_refl t a : eqm t a a.
Proof. reflexivity. Qed.
Lemma eqm_eq t a b : a = b -> eqm t a b.
Proof. intros ->. reflexivity. Qed.
Lemma eqm_0 a b : eqm 0 a b <-> a = b.
Proof.
  unfold eqm. split.
  - intros [k Hk]. lia.
  - intros ->. rewrite Z.sub_diag. apply Z.divide_0_r.
Qed.
Lemma eqm_mod t a : t <> 0 -> eqm t (a mod t) a.
Proof.
  intros Ht. unfold eqm. exists (- (a / t)).
  pose proof (Z.div_mod a t Ht). lia.
Qed.
Lemma eqm_small t a b : 0 < t -> 0 <= a < t -> 0 <= b < t -> eqm t a b -> a = b.
Proof. intros Ht Ha Hb [k Hk]. assert (k = 0) by nia. lia. Qed.
Lemma eqm_trans_div s t a b : (s | t) -> eqm t a b -> eqm s a b.
Proof. intros H1 H2. unfold eqm in *. now apply Z.divide_trans with t. Qed.
Lemma eqm_2_opp a : eqm 2 (- a) a.
Proof. exists (- a). lia. Qed.

(** Sums over lists *)
Definition sumf {A} (f : A -> Z) (l : list A) : Z := zsum (map f l).

Lemma sumf_nil {A} (f : A -> Z) : sumf f [] = 0.
Proof. reflexivity. Qed.
Lemma sumf_cons {A} (f : A -> Z) a l : sumf f (a :: l) = f a + sumf f l.
Proof. reflexivity. Qed.
Lemma sumf_app {A} (f : A -> Z) l l' : sumf f (l ++ l') = sumf f l + sumf f l'.
Proof. induction l as [|a l IH]; cbn [app]; rewrite ?sumf_cons, ?sumf_nil; [lia|]. rewrite IH. lia. Qed.
Lemma sumf_map {A B} (f : B -> Z) (h : A -> B) l : sumf f (map h l) = sumf (fun a => f (h a)) l.
Proof. unfold sumf. now rewrite map_map. Qed.
Lemma sumf_ext {A} (f g : A -> Z) l : (forall a, In a l -> f a = g a) -> sumf f l = sumf g l.
Proof.
  induction l as [|a l IH]; intros H; [reflexivity|]. rewrite !sumf_cons.
  rewrite (H a) by now left. rewrite IH; [reflexivity|]. intros b Hb. apply H. now right.
Qed.
Lemma sumf_eqm {A} t (f g : A -> Z) l : (forall a, In a l -> eqm t (f a) (g a)) -> eqm t (sumf f l) (sumf g l).
Proof.
  induction l as [|a l IH]; intros H; [reflexivity|]. rewrite !sumf_cons.
  rewrite (H a) by now left. rewrite IH; [reflexivity|]. intros b Hb. apply H. now right.
Qed.
Lemma sumf_add {A} (f g : A -> Z) l : sumf (fun a => f a + g a) l = sumf f l + sumf g l.
Proof. induction l as [|a l IH]; rewrite ?sumf_cons, ?sumf_nil; [reflexivity|]. rewrite IH. lia. Qed.
Lemma sumf_sub {A} (f g : A -> Z) l : sumf (fun a => f a - g a) l = sumf f l - sumf g l.
Proof. induction l as [|a l IH]; rewrite ?sumf_cons, ?sumf_nil; [reflexivity|]. rewrite IH. lia. Qed.
Lemma sumf_opp {A} (f : A -> Z) l : sumf (fun a => - f a) l = - sumf f l.
Proof. induction l as [|a l IH]; rewrite ?sumf_cons, ?sumf_nil; [reflexivity|]. rewrite IH. lia. Qed.
Lemma sumf_scal {A} c (f : A -> Z) l : sumf (fun a => c * f a) l = c * sumf f l.
Proof. induction l as [|a l IH]; rewrite ?sumf_cons, ?sumf_nil; [ring|]. rewrite IH. ring. Qed.
Lemma sumf_scal_r {A} c (f : A -> Z) l : sumf (fun a => f a * c) l = sumf f l * c.
Proof. induction l as [|a l IH]; rewrite ?sumf_cons, ?sumf_nil; [ring|]. rewrite IH. ring. Qed.
Lemma sumf_0 {A} (f : A -> Z) l : (forall a, In a l -> f a = 0) -> sumf f l = 0.
Proof.
  induction l as [|a l IH]; intros H; [reflexivity|]. rewrite sumf_cons, (H a) by now left.
  rewrite IH; [reflexivity|]. intros b Hb. apply H. now right.
Qed.
Lemma sumf_exch {A B} (f : A -> B -> Z) l l' :
  sumf (fun a => sumf (f a) l') l = sumf (fun b => sumf (fun a => f a b) l) l'.
Proof.
  induction l as [|a l IH].
  - rewrite sumf_nil. symmetry. apply sumf_0. reflexivity.
  - rewrite sumf_cons, IH. rewrite <- sumf_add. apply sumf_ext. intros b _. now rewrite sumf_cons.
Qed.
Lemma sumf_perm {A} (f : A -> Z) l l' : Permutation l l' -> sumf f l = sumf f l'.
Proof. induction 1; rewrite ?sumf_cons; lia. Qed.
Lemma sumf_flat_map {A B} (f : B -> Z) (h : A -> list B) l :
  sumf f (flat_map h l) = sumf (fun a => sumf f (h a)) l.
Proof. induction l as [|a l IH]; [reflexivity|]. cbn [flat_map]. now rewrite sumf_app, IH, sumf_cons. Qed.
Lemma sumf_list_prod {A B} (f : A * B -> Z) l l' :
  sumf f (list_prod l l') = sumf (fun a => sumf (fun b => f (a, b)) l') l.
Proof.
  induction l as [|a l IH]; [reflexivity|]. cbn [list_prod].
  now rewrite sumf_app, IH, sumf_cons, sumf_map.
Qed.
Lemma sumf_filter {A} (f : A -> Z) p l : sumf f (filter p l) = sumf (fun a => if p a then f a else 0) l.
Proof.
  induction l as [|a l IH]; [reflexivity|]. cbn [filter]. destruct (p a) eqn:E; rewrite ?sumf_cons, IH, ?E; lia.
Qed.
Lemma sumf_concat {A} (f : A -> Z) ls : sumf f (concat ls) = sumf (fun l => sumf f l) ls.
Proof. induction ls as [|l ls IH]; [reflexivity|]. cbn [concat]. now rewrite sumf_app, IH, sumf_cons. Qed.
Lemma sumf_rev {A} (f : A -> Z) l : sumf f (rev l) = sumf f l.
Proof. apply sumf_perm, Permutation_sym, Permutation_rev. Qed.

(** Signs *)
Lemma sgn_cases e : sgn e = 1 \/ sgn e = -1.
Proof. unfold sgn. destruct (Z.even e); auto. Qed.
Lemma sgn_0 : sgn 0 = 1. Proof. reflexivity. Qed.
Lemma sgn_1 : sgn 1 = -1. Proof. reflexivity. Qed.
Lemma sgn_add a b : sgn (a + b) = sgn a * sgn b.
Proof. unfold sgn. rewrite Z.even_add. now destruct (Z.even a), (Z.even b). Qed.
Lemma sgn_opp a : sgn (- a) = sgn a.
Proof. unfold sgn. now rewrite Z.even_opp. Qed.
Lemma sgn_sub a b : sgn (a - b) = sgn a * sgn b.
Proof. unfold Z.sub. now rewrite sgn_add, sgn_opp. Qed.
Lemma sgn_mod2 a : sgn (a mod 2) = sgn a.
Proof.
  rewrite (Z.div_mod a 2) at 2 by lia. rewrite sgn_add.
  assert (sgn (2 * (a / 2)) = 1) as ->; [|ring].
  unfold sgn. now rewrite Z.even_mul.
Qed.
Lemma sgn_sq a : sgn a * sgn a = 1.
Proof. destruct (sgn_cases a) as [-> | ->]; reflexivity. Qed.
Lemma sgn_S a : sgn (a + 1) = - sgn a.
Proof. rewrite sgn_add. change (sgn 1) with (-1). ring. Qed.
Lemma sgn_S' a : sgn (1 + a) = - sgn a.
Proof. rewrite sgn_add. change (sgn 1) with (-1). ring. Qed.
Lemma sgn_mul_even a b : Z.even a = true -> sgn (a * b) = 1.
Proof. unfold sgn. intros H. now rewrite Z.even_mul, H. Qed.
Lemma sgn_eqm2 a : eqm 2 (sgn a) 1.
Proof. destruct (sgn_cases a) as [-> | ->]; unfold eqm; [exists 0|exists (-1)]; lia. Qed.
Lemma sgn_ext a b : Z.even a = Z.even b -> sgn a = sgn b.
Proof. unfold sgn. now intros ->. Qed.

(** ranges *)
Lemma zrange_length a b : length (zrange a b) = Z.to_nat (b - a).
Proof. unfold zrange. now rewrite map_length, seq_length. Qed.
Lemma zlen_zrange a b : zlen (zrange a b) = Z.max 0 (b - a).
Proof. unfold zlen. rewrite zrange_length. lia. Qed.
Lemma in_zrange a b x : In x (zrange a b) <-> a <= x < b.
Proof.
  unfold zrange. rewrite in_map_iff. split.
  - intros (n & <- & Hn). apply in_seq in Hn. lia.
  - intros H. exists (Z.to_nat (x - a)). split; [lia|]. apply in_seq. lia.
Qed.
Lemma zrange_cons a b : a < b -> zrange a b = a :: zrange (a + 1) b.
Proof.
  intros H. unfold zrange. replace (Z.to_nat (b - a)) with (S (Z.to_nat (b - (a + 1)))) by lia.
  cbn [seq map]. f_equal; [lia|]. rewrite <- seq_shift, map_map. apply map_ext. intros n. lia.
Qed.
Lemma zrange_nil a b : b <= a -> zrange a b = [].
Proof. intros H. unfold zrange. now replace (Z.to_nat (b - a)) with O by lia. Qed.
Lemma zrange_snoc a b : a <= b -> zrange a (b + 1) = zrange a b ++ [b].
Proof.
  intros H. unfold zrange. replace (Z.to_nat (b + 1 - a)) with (S (Z.to_nat (b - a))) by lia.
  rewrite seq_S, map_app. cbn [map]. f_equal. f_equal. lia.
Qed.
Lemma zrange_shift a b c : zrange (a + c) (b + c) = map (fun x => x + c) (zrange a b).
Proof.
  unfold zrange. replace (b + c - (a + c)) with (b - a) by ring. rewrite map_map. apply map_ext. intros n. lia.
Qed.
Lemma zrange_app a b c : a <= b -> b <= c -> zrange a c = zrange a b ++ zrange b c.
Proof.
  intros H1 H2. remember (Z.to_nat (b - a)) as n eqn:Hn. revert a H1 Hn.
  induction n as [|n IH]; intros a H1 Hn.
  - assert (a = b) as -> by lia. rewrite (zrange_nil b b) by lia. reflexivity.
  - rewrite (zrange_cons a c), (zrange_cons a b) by lia. cbn [app]. f_equal. apply IH; lia.
Qed.
Lemma NoDup_zrange a b : NoDup (zrange a b).
Proof.
  unfold zrange. apply FinFun.Injective_map_NoDup; [|apply seq_NoDup]. intros n m H. lia.
Qed.
Lemma sumf_zrange_S (f : Z -> Z) n : 0 <= n -> sumf f (zrange 0 (n + 1)) = f 0 + sumf (fun i => f (i + 1)) (zrange 0 n).
Proof.
  intros H. rewrite zrange_cons by lia. rewrite sumf_cons. f_equal.
  rewrite zrange_shift, sumf_map. reflexivity.
Qed.
Lemma sumf_zrange_snoc (f : Z -> Z) a n : a <= n -> sumf f (zrange a (n + 1)) = sumf f (zrange a n) + f n.
Proof. intros H. rewrite zrange_snoc, sumf_app, sumf_cons, sumf_nil by lia. lia. Qed.

Lemma zlen_nil {A} : zlen (@nil A) = 0. Proof. reflexivity. Qed.
Lemma zlen_cons {A} (a : A) l : zlen (a :: l) = zlen l + 1.
Proof. unfold zlen. cbn [length]. lia. Qed.
Lemma zlen_app {A} (l l' : list A) : zlen (l ++ l') = zlen l + zlen l'.
Proof. unfold zlen. rewrite app_length. lia. Qed.
Lemma zlen_nonneg {A} (l : list A) : 0 <= zlen l.
Proof. unfold zlen. lia. Qed.
Lemma zlen_map {A B} (f : A -> B) l : zlen (map f l) = zlen l.
Proof. unfold zlen. now rewrite map_length. Qed.
