(** * C57: the coefficient computed with a float *)
From Coq Require Import Znumtheory Factorial.
From Verif Require Import PyBase Dict FreeModule Symmetric Surjection BarrattEccles Spec SpecChain SpecOperad SpecSurj SpecSteenrod SteenrodFacts.

Lemma nearest_opp n b : nearest_double n b -> nearest_double (- n) (- b).
Proof.
  assert (D : forall c, double c -> double (- c)).
  { intros c (x & f & H & Hf & ->). exists (- x), f. rewrite Z.abs_opp. split; [exact H|]. split; [exact Hf|ring]. }
  intros [Db Q]. split; [now apply D|]. intros c Dc. destruct (Q (- c) (D c Dc)) as [Q1 Q2].
  replace (- n - - b) with (- (n - b)) by ring. rewrite Z.abs_opp. replace (- n - c) with (- (n - - c)) by ring. rewrite Z.abs_opp.
  split; [exact Q1|]. intros E N. destruct (Q2 E ltac:(lia)) as (x & f & H & Hf & E'). exists (- x), f. rewrite Z.abs_opp. split; [exact H|]. split; [exact Hf|]. rewrite E'. ring.
Qed.
Lemma nearest_self n : double n -> nearest_double n n.
Proof. intros D. split; [exact D|]. intros c _. split; [lia|]. intros E N. lia. Qed.

Section Round.
Variable a : Z.
Hypothesis Ha : 2 ^ 53 <= a.
Let e := Z.log2 a - 52.
Let q := a / 2 ^ e.
Let r := a mod 2 ^ e.
Let h := 2 ^ (e - 1).
Let q' := if (r <? h) || ((r =? h) && Z.even q) then q else q + 1.
Let b := q' * 2 ^ e.

Lemma e_pos : 1 <= e.
Proof. unfold e. assert (53 <= Z.log2 a); [|lia]. rewrite <- (Z.log2_pow2 53) by lia. now apply Z.log2_le_mono. Qed.
Lemma a_range : 2 ^ 52 * 2 ^ e <= a < 2 ^ 53 * 2 ^ e.
Proof.
  pose proof e_pos. rewrite <- !Z.pow_add_r by lia. replace (52 + e) with (Z.log2 a) by (unfold e; lia).
  replace (53 + e) with (Z.succ (Z.log2 a)) by (unfold e; lia). apply Z.log2_spec. assert (0 < 2 ^ 53) by reflexivity. lia.
Qed.
Lemma p_pos : 0 < 2 ^ e. Proof. pose proof e_pos. apply Z.pow_pos_nonneg; lia. Qed.
Lemma hh : 2 ^ e = 2 * h.
Proof. pose proof e_pos. unfold h. rewrite <- Z.pow_succ_r by lia. f_equal. lia. Qed.
Lemma qr : a = q * 2 ^ e + r /\ 0 <= r < 2 ^ e.
Proof. pose proof p_pos. split; [unfold q, r; rewrite Z.mul_comm; apply Z_div_mod_eq_full|]. apply Z.mod_pos_bound. lia. Qed.
Lemma q_range : 2 ^ 52 <= q < 2 ^ 53.
Proof. pose proof p_pos. pose proof a_range. unfold q. split; [apply Z.div_le_lower_bound; lia|apply Z.div_lt_upper_bound; lia]. Qed.
Lemma near c : Z.abs (a - b) <= Z.abs (a - c * 2 ^ e) /\ (Z.abs (a - b) = Z.abs (a - c * 2 ^ e) -> c * 2 ^ e <> b -> Z.even q' = true).
Proof.
  pose proof p_pos as Pp. destruct qr as [Ea Hr]. pose proof hh as Eh. set (E := 2 ^ e) in *.
  replace (a - b) with ((q - q') * E + r) by (unfold b; fold E; lia). replace (a - c * E) with ((q - c) * E + r) by lia.
  assert (Eb : b = q' * E) by reflexivity. rewrite Eb.
  assert (K : q' = q /\ r <= h /\ (r = h -> Z.even q = true) \/ q' = q + 1 /\ h <= r /\ (r = h -> Z.even q = false)).
  { unfold q'. destruct (Z.ltb_spec r h); cbn [orb]; [left; repeat split; lia|]. destruct (Z.eqb_spec r h); cbn [andb].
    - destruct (Z.even q) eqn:X; [left|right]; repeat split; auto; lia.
    - right. repeat split; lia. }
  clearbody q' E. clear Eb. destruct K as [(-> & Hh & Ev)|(-> & Hh & Ev)].
  - replace ((q - q) * E + r) with r by ring. destruct (Z.lt_trichotomy c q) as [L|[->|L]].
    + assert (E <= (q - c) * E) by nia. split; [lia|]. intros; lia.
    + split; [lia|]. intros _ N. now destruct N.
    + assert ((q - c) * E <= - E) by nia. split; [lia|]. intros. apply Ev. lia.
  - replace ((q - (q + 1)) * E + r) with (r - E) by ring. destruct (Z_lt_le_dec q c) as [L|L].
    + destruct (Z.eq_dec c (q + 1)) as [->|N].
      * replace (q - (q + 1)) with (-1) by ring. split; [lia|]. intros _ N. now destruct N.
      * assert ((q - c) * E <= - (2 * E)) by nia. split; [lia|]. intros; lia.
    + assert (0 <= (q - c) * E) by nia. split; [lia|]. intros. rewrite Z.even_add, Ev by lia. reflexivity.
Qed.
Lemma q'_range : 2 ^ 52 <= q' <= 2 ^ 53.
Proof. pose proof q_range. unfold q'. destruct (_ || _)%bool; lia. Qed.
Lemma round_nearest : b < 2 ^ 1024 -> nearest_double a b.
Proof.
  intros Lb. pose proof p_pos as Pp. pose proof e_pos as Pe. pose proof q'_range as Rq.
  assert (Le : e <= 971).
  { destruct (Z_le_gt_dec e 971) as [L|L]; [exact L|]. exfalso.
    assert (2 ^ 972 <= 2 ^ e) by (apply Z.pow_le_mono_r; lia). assert (2 ^ 1024 = 2 ^ 52 * 2 ^ 972) by reflexivity. unfold b in Lb. nia. }
  assert (E53 : q' = 2 ^ 53 -> b = 1 * 2 ^ (53 + e) /\ b = 2 ^ 52 * 2 ^ (e + 1) /\ e + 1 <= 971).
  { intros Eq. unfold b. rewrite Eq. split; [rewrite Z.pow_add_r by lia; ring|]. split; [rewrite Z.pow_add_r by lia; change (2 ^ 53) with (2 ^ 52 * 2); change (2 ^ 1) with 2; ring|].
    destruct (Z_le_gt_dec (e + 1) 971); [assumption|]. exfalso. assert (2 ^ 971 <= 2 ^ e) by (apply Z.pow_le_mono_r; lia).
    assert (2 ^ 1024 = 2 ^ 53 * 2 ^ 971) by reflexivity. unfold b in Lb. rewrite Eq in Lb. nia. }
  assert (Db : double b).
  { destruct (Z.eq_dec q' (2 ^ 53)) as [Eq|N].
    - destruct (E53 Eq) as (_ & E1 & E2). exists (2 ^ 52), (e + 1). split; [reflexivity|]. split; [lia|exact E1].
    - exists q', e. split; [lia|]. split; [lia|reflexivity]. }
  assert (Ev : Z.even q' = true -> even_double b).
  { intros Eq. destruct (Z.eq_dec q' (2 ^ 53)) as [E1|N].
    - destruct (E53 E1) as (_ & E2 & E3). exists (2 ^ 51), (e + 2). split; [reflexivity|]. split; [lia|].
      rewrite E2. replace (e + 2) with (1 + (e + 1)) by lia. rewrite (Z.pow_add_r 2 1) by lia. change (2 ^ 52) with (2 ^ 51 * 2 ^ 1). ring.
    - apply Z.even_spec in Eq. destruct Eq as [x Eq]. exists x, (e + 1). split; [change (2 ^ 53) with (2 * 2 ^ 52) in *; lia|]. split; [lia|].
      unfold b. rewrite Eq. rewrite Z.pow_add_r by lia. change (2 ^ 1) with 2. ring. }
  split; [exact Db|]. intros c (x & f & Hx & Hf & ->).
  destruct (Z_lt_le_dec (x * 2 ^ f) (2 ^ 52 * 2 ^ e)) as [L|L].
  - destruct (near (2 ^ 52)) as [N1 _]. pose proof a_range. split; [lia|]. intros; lia.
  - assert (Hef : e <= f).
    { destruct (Z_le_gt_dec e f); [assumption|]. exfalso. assert (F0 : 0 < 2 ^ f) by (apply Z.pow_pos_nonneg; lia).
      assert (X : 2 ^ e = 2 * 2 ^ (e - f - 1) * 2 ^ f). { rewrite <- Z.mul_assoc, <- Z.pow_add_r, <- Z.pow_succ_r by lia. f_equal. lia. }
      assert (1 <= 2 ^ (e - f - 1)) by (assert (0 < 2 ^ (e - f - 1)) by (apply Z.pow_pos_nonneg; lia); lia).
      rewrite X in L. change (2 ^ 53) with (2 * 2 ^ 52) in Hx. set (A := 2 ^ 52) in *. assert (0 < A) by reflexivity. clearbody A. nia. }
    replace (x * 2 ^ f) with (x * 2 ^ (f - e) * 2 ^ e) by (rewrite <- Z.mul_assoc, <- Z.pow_add_r by lia; do 2 f_equal; lia).
    destruct (near (x * 2 ^ (f - e))) as [N1 N2]. split; [exact N1|]. intros T N. apply Ev, N2; assumption.
Qed.
Lemma b_range : 2 ^ Z.log2 a <= b <= 2 ^ (Z.log2 a + 1).
Proof.
  pose proof e_pos. pose proof p_pos. pose proof q'_range. replace (Z.log2 a) with (52 + e) by (unfold e; lia).
  replace (52 + e + 1) with (53 + e) by lia. rewrite !Z.pow_add_r by lia. unfold b. nia.
Qed.
End Round.

Lemma float_ok n g : float_of_int n = Ok g -> nearest_double n g.
Proof.
  unfold float_of_int. destruct (Z.ltb_spec (Z.abs n) (2 ^ 53)) as [L|L].
  - intros [= <-]. apply nearest_self. exists n, 0. rewrite Z.mul_1_r. split; [exact L|]. split; [lia|reflexivity].
  - match goal with |- (if 2 ^ 1024 <=? ?b then _ else _) = _ -> _ => destruct (Z.leb_spec (2 ^ 1024) b) as [G|G] end; [discriminate|].
    intros [= <-]. pose proof (round_nearest (Z.abs n) L G) as R. destruct (Z.abs_spec n) as [[P E]|[P E]].
    + rewrite E in R |- *. assert (0 < 2 ^ 53) by reflexivity. replace (Z.sgn n) with 1 by (symmetry; apply Z.sgn_pos; lia). rewrite Z.mul_1_l. exact R.
    + rewrite (Z.sgn_neg n) by lia. apply nearest_opp in R. rewrite E in R at 1. rewrite Z.opp_involutive in R.
      match type of R with nearest_double _ (- ?b) => replace (-1 * b) with (- b) by ring end. exact R.
Qed.
Lemma float_small n : 0 <= n < 2 ^ 1023 -> exists g, float_of_int n = Ok g.
Proof.
  intros Hn. unfold float_of_int. destruct (Z.ltb_spec (Z.abs n) (2 ^ 53)) as [L|L]; [eauto|].
  match goal with |- context [2 ^ 1024 <=? ?b] => destruct (Z.leb_spec (2 ^ 1024) b) as [G|G] end; [|eauto].
  exfalso. pose proof (b_range (Z.abs n) L) as [_ B]. rewrite Z.abs_eq in * by lia.
  assert (Z.log2 n < 1023) by (apply Z.log2_lt_pow2; [assert (0 < 2 ^ 53) by reflexivity; lia|lia]).
  assert (2 ^ (Z.log2 n + 1) <= 2 ^ 1023) by (apply Z.pow_le_mono_r; lia). assert (2 ^ 1023 < 2 ^ 1024) by reflexivity.
  pose proof (Z.le_trans _ _ _ G B). lia.
Qed.
Lemma float_big n : 2 ^ 1024 <= n -> float_of_int n = Err OverflowError.
Proof.
  intros Hn. assert (P53 : 2 ^ 53 < 2 ^ 1024) by reflexivity. unfold float_of_int. assert (0 < 2 ^ 53) by reflexivity. rewrite Z.abs_eq by lia.
  destruct (Z.ltb_spec n (2 ^ 53)) as [L|L]; [lia|].
  match goal with |- context [2 ^ 1024 <=? ?b] => destruct (Z.leb_spec (2 ^ 1024) b) as [G|G] end; [reflexivity|].
  exfalso. pose proof (b_range n L) as [B _]. assert (1024 <= Z.log2 n) by (rewrite <- (Z.log2_pow2 1024) by lia; now apply Z.log2_le_mono).
  assert (2 ^ 1024 <= 2 ^ Z.log2 n) by (apply Z.pow_le_mono_r; lia). pose proof (Z.le_trans _ _ _ H1 B). lia.
Qed.
Lemma zfact_mono n : forall k, zfact n <= zfact (n + k).
Proof.
  assert (P : forall j, 1 <= zfact j). { induction j as [|j IH]; [cbn; lia|]. change (zfact (S j)) with (Z.of_nat (S j) * zfact j). nia. }
  induction k as [|k IH]; [rewrite Nat.add_0_r; lia|]. replace (n + S k)%nat with (S (n + k)) by lia.
  change (zfact (S (n + k))) with (Z.of_nat (S (n + k)) * zfact (n + k)). pose proof (P (n + k)%nat). nia.
Qed.
Lemma coeff_float p s q : prime p -> p <> 2 -> Z.odd q = true -> q / 2 + s < 0 ->
  if (p - 1) / 2 <=? 170
  then exists g, nearest_double (Z.of_nat (fact (Z.to_nat ((p - 1) / 2)))) g /\ steenrod_coeff p s q = Ok (sgn (q / 2 + s) * g)
  else steenrod_coeff p s q = Err OverflowError.
Proof.
  intros Hp N2 Oq He. unfold steenrod_coeff. rewrite Zmod_odd, Oq. cbn [Z.eqb].
  destruct (prime_odd p Hp N2) as (m & Em & Hm & ->). destruct (Z.ltb_spec m 0); [lia|].
  destruct (Z.leb_spec 0 (q / 2 + s)); [lia|]. rewrite <- zfact_fact. destruct (Z.leb_spec m 170) as [L|L].
  - destruct (float_small (zfact (Z.to_nat m))) as (g & E).
    + assert (Z1 : zfact 170 < 2 ^ 1023) by (vm_compute; reflexivity).
      pose proof (zfact_mono (Z.to_nat m) (170 - Z.to_nat m)) as M1. replace (Z.to_nat m + (170 - Z.to_nat m))%nat with 170%nat in M1 by lia.
      pose proof (zfact_mono 0 (Z.to_nat m)) as M2. change (zfact 0) with 1 in M2. cbn [Nat.add] in M2. lia.
    + exists g. split; [now apply float_ok|]. rewrite E. reflexivity.
  - rewrite float_big; [reflexivity|]. assert (Z1 : 2 ^ 1024 <= zfact 171) by (vm_compute; discriminate).
    pose proof (zfact_mono 171 (Z.to_nat m - 171)) as M1. replace (171 + (Z.to_nat m - 171))%nat with (Z.to_nat m) in M1 by lia. exact (Z.le_trans _ _ _ Z1 M1).
Qed.
