(** * The coefficient of the Steenrod operations.  Proof library. *)
From Coq Require Import Znumtheory Setoid Morphisms Factorial.
From Verif Require Import PyBase Surjection Eqm Wilson SpecSteenrod.

Lemma zfact_fact n : zfact n = Z.of_nat (fact n).
Proof. induction n as [|n IH]; [reflexivity|]. change (zfact (S n)) with (Z.of_nat (S n) * zfact n). rewrite IH. change (fact (S n)) with (S n * fact n)%nat. now rewrite Nat2Z.inj_mul. Qed.
Lemma pow_sq p : prime p -> p <> 2 -> forall i, (0 <= i) -> eqm p (zfact (Z.to_nat ((p - 1) / 2)) ^ (2 * i)) (sgn (i * ((p - 1) / 2 + 1))).
Proof.
  intros Hp N2 i Hi. set (M := zfact _). set (m := (p - 1) / 2) in *. pattern i. apply natlike_ind; [reflexivity| |exact Hi]. clear i Hi. intros i Hi IH.
  replace (2 * Z.succ i) with (2 * i + 2) by lia. rewrite Z.pow_add_r by lia. rewrite IH. replace (M ^ 2) with (M * M) by ring. unfold M, m at 2 3. rewrite (fact_sq p Hp N2).
  fold m. rewrite <- sgn_add. replace (Z.succ i * (m + 1)) with (i * (m + 1) + (m + 1)) by lia. reflexivity.
Qed.
Lemma sgn_par a b : (exists z, a = b + 2 * z) -> sgn a = sgn b.
Proof. intros [z ->]. rewrite sgn_add, sgn_mul_even by reflexivity. ring. Qed.
Lemma tri_even j : 2 * j * (2 * j - 1) / 2 = j * (2 * j - 1).
Proof. replace (2 * j * (2 * j - 1)) with (j * (2 * j - 1) * 2) by ring. now rewrite Z.div_mul. Qed.
Lemma tri_odd j : (2 * j + 1) * (2 * j + 1 - 1) / 2 = (2 * j + 1) * j.
Proof. replace ((2 * j + 1) * (2 * j + 1 - 1)) with ((2 * j + 1) * j * 2) by ring. now rewrite Z.div_mul. Qed.
Lemma nu_ok p s q : prime p -> p <> 2 ->
  steenrod_sign_nu p s q (sgn (q / 2 + s) * (if q mod 2 =? 0 then 1 else zfact (Z.to_nat ((p - 1) / 2)))).
Proof.
  intros Hp N2. unfold steenrod_sign_nu. rewrite <- zfact_fact. set (m := (p - 1) / 2). set (M := zfact (Z.to_nat m)).
  pose proof (Z_div_mod_eq_full q 2) as Eq. pose proof (Z.mod_pos_bound q 2 ltac:(lia)) as Rq. set (j := q / 2) in *.
  pose proof (pow_sq p Hp N2) as PS. fold m in PS. fold M in PS. change (eqm p (sgn (j + s) * (if q mod 2 =? 0 then 1 else M) * M ^ Z.max 0 (- q)) (sgn (s + q * (q - 1) / 2 * m) * M ^ Z.max 0 q)).
  destruct (Z.eqb_spec (q mod 2) 0) as [R|R].
  - replace q with (2 * j) by lia. rewrite tri_even. destruct (Z_le_gt_dec 0 j).
    + rewrite (Z.max_l 0 (- (2 * j))), (Z.max_r 0 (2 * j)) by lia. rewrite PS by lia. apply eqm_eq. rewrite <- sgn_add, Z.pow_0_r, !Z.mul_1_r. apply sgn_par. exists (- (j * j * m)). ring.
    + rewrite (Z.max_r 0 (- (2 * j))), (Z.max_l 0 (2 * j)) by lia. replace (- (2 * j)) with (2 * - j) by lia. rewrite PS by lia. apply eqm_eq. rewrite Z.pow_0_r, !Z.mul_1_r, <- sgn_add.
      apply sgn_par. exists (- (j * j * m)). ring.
  - replace q with (2 * j + 1) by lia. rewrite tri_odd. destruct (Z_le_gt_dec 0 j).
    + rewrite (Z.max_l 0 (- (2 * j + 1))), (Z.max_r 0 (2 * j + 1)) by lia. rewrite Z.pow_add_r, Z.pow_1_r by lia. rewrite PS by lia. apply eqm_eq. rewrite Z.pow_0_r, Z.mul_1_r, Z.mul_assoc, <- sgn_add. f_equal.
      apply sgn_par. exists (- (j * j * m) - j * m). ring.
    + rewrite (Z.max_r 0 (- (2 * j + 1))), (Z.max_l 0 (2 * j + 1)) by lia. rewrite Z.pow_0_r, Z.mul_1_r, <- Z.mul_assoc.
      assert (EM : M * M ^ (- (2 * j + 1)) = M ^ (2 * - j)). { replace (2 * - j) with (1 + - (2 * j + 1)) by lia. rewrite (Z.pow_add_r M 1), Z.pow_1_r by lia. reflexivity. }
      rewrite EM, PS by lia. apply eqm_eq. rewrite <- sgn_add. apply sgn_par. exists (- j * j * m - j * m). ring.
Qed.
Lemma float_exact : forall n, (n <= 22)%nat -> float_of_int (zfact n) = Ok (zfact n).
Proof. intros n Hn. do 23 (destruct n as [|n]; [vm_compute; reflexivity|]). lia. Qed.
Lemma prime_odd p : prime p -> p <> 2 -> exists m, p = 2 * m + 1 /\ 1 <= m /\ (p - 1) / 2 = m.
Proof.
  intros Hp N2. assert (p > 1) by (destruct Hp; lia). assert (O : Z.odd p = true).
  { destruct (Z.odd p) eqn:E; [reflexivity|]. exfalso. rewrite <- Z.negb_even in E. apply negb_false_iff, Z.even_spec in E. destruct E as [q E]. assert (D : (2 | p)) by (exists q; lia).
    apply prime_divisors in D; [|exact Hp]. lia. }
  apply Z.odd_spec in O. destruct O as [m Em]. exists m. split; [exact Em|]. split; [lia|]. rewrite Em. replace (2 * m + 1 - 1) with (m * 2) by lia. now rewrite Z.div_mul.
Qed.
Lemma coeff_ok p s q : prime p -> p <> 2 -> exact_coefficient p s q ->
  exists c, steenrod_coeff p s q = Ok c /\ steenrod_sign_nu p s q c /\ ~ (p | c).
Proof.
  intros Hp N2 HE. exists (sgn (q / 2 + s) * (if q mod 2 =? 0 then 1 else zfact (Z.to_nat ((p - 1) / 2)))). split; [|split; [now apply nu_ok|]].
  - unfold steenrod_coeff. rewrite Zmod_even in *. unfold exact_coefficient in HE. destruct (Z.even q); [cbn [Z.eqb]; f_equal; ring|]. cbn [Z.eqb].
    destruct (prime_odd p Hp N2) as (m & Em & Hm & ->). destruct (Z.ltb_spec m 0); [lia|]. destruct (Z.leb_spec 0 (q / 2 + s)); [reflexivity|].
    destruct HE as [HE|[HE|HE]]; [discriminate|lia|]. replace ((p - 1) / 2) with m in HE by (rewrite Em; replace (2 * m + 1 - 1) with (m * 2) by lia; now rewrite Z.div_mul).
    rewrite float_exact by lia. reflexivity.
  - intros D. assert (p > 1) by (destruct Hp; lia). apply prime_mult in D; [|exact Hp]. destruct D as [D|D].
    + destruct (sgn_cases (q / 2 + s)) as [E|E]; rewrite E in D; [|apply Z.divide_opp_r in D; cbn in D]; apply Zdivide_le in D; lia.
    + destruct (q mod 2 =? 0); [apply Zdivide_le in D; lia|]. destruct (prime_odd p Hp N2) as (m & Em & Hm & Ed). rewrite Ed in D. revert D. apply (fact_unit p Hp). lia.
Qed.
