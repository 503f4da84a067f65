(** * Wilson's theorem.  Proof library. *)
From Coq Require Import Znumtheory Permutation Setoid Morphisms.
From Verif Require Import PyBase Surjection Eqm.

Definition prodl (l : list Z) : Z := fold_right Z.mul 1 l.
Lemma prodl_perm l l' : Permutation l l' -> prodl l = prodl l'.
Proof. unfold prodl. induction 1 as [|x l l' _ IH|x y l|l l' l'' _ IH1 _ IH2]; cbn [fold_right]; [reflexivity|now rewrite IH|ring|congruence]. Qed.
Lemma cancel_mod p a b b' : prime p -> 1 <= a < p -> 0 <= b < p -> 0 <= b' < p -> eqm p (a * b) (a * b') -> b = b'.
Proof.
  intros Hp Ha Hb Hb' E. assert (D : (p | a * (b - b'))). { destruct E as [q E]. exists q. lia. }
  apply prime_mult in D; [|exact Hp]. destruct D as [D|D]; [apply Zdivide_le in D; lia|]. destruct D as [q D]. destruct (Z.eq_dec q 0); [lia|]. exfalso.
  destruct (Z_le_gt_dec 1 q); [assert (p <= q * p) by nia; lia|assert (q * p <= - p) by nia; lia].
Qed.
Lemma pair_product p : prime p -> forall n l, (length l <= n)%nat -> NoDup l -> (forall a, In a l -> 1 <= a < p) ->
  (forall a, In a l -> exists b, In b l /\ b <> a /\ eqm p (a * b) 1) -> eqm p (prodl l) 1.
Proof.
  intros Hp. induction n as [|n IH]; intros l Hl ND R C.
  - destruct l; [reflexivity|cbn in Hl; lia].
  - destruct l as [|a l]; [reflexivity|]. destruct (C a (or_introl eq_refl)) as (b & [Hb|Hb] & N & E); [congruence|].
    apply in_split in Hb. destruct Hb as (l1 & l2 & ->). inversion ND as [|? ? Na ND']; subst.
    assert (Rb : 1 <= b < p) by (apply R; right; apply in_or_app; right; now left). assert (Ra : 1 <= a < p) by (apply R; now left).
    rewrite (prodl_perm (a :: l1 ++ b :: l2) (a :: b :: l1 ++ l2)) by (apply perm_skip, Permutation_sym, Permutation_middle).
    cbn [prodl fold_right]. fold (prodl (l1 ++ l2)). rewrite Z.mul_assoc.
    assert (I : eqm p (prodl (l1 ++ l2)) 1).
    { apply IH.
      - cbn [length] in Hl. rewrite app_length in *. cbn [length] in Hl. lia.
      - now apply NoDup_remove_1 in ND'.
      - intros c Hc. apply R. right. apply in_app_iff in Hc. apply in_or_app. cbn. tauto.
      - intros c Hc. assert (Hc' : In c (a :: l1 ++ b :: l2)) by (right; apply in_app_iff in Hc; apply in_or_app; cbn; tauto).
        destruct (C c Hc') as (d & Hd & Nd & Ed). pose proof (R c Hc') as Rc.
        assert (c <> a). { intros ->. apply Na. apply in_app_iff in Hc. apply in_or_app. cbn. tauto. }
        assert (c <> b). { intros ->. apply NoDup_remove_2 in ND'. contradiction. }
        exists d. split; [|now split]. destruct Hd as [<-|Hd].
        + exfalso. assert (c = b); [|contradiction]. apply (cancel_mod p a); auto; try lia. rewrite E, (Z.mul_comm a c), Ed. reflexivity.
        + apply in_app_iff in Hd. destruct Hd as [Hd|[<-|Hd]]; try (apply in_or_app; tauto).
          exfalso. assert (c = a); [|contradiction]. apply (cancel_mod p b); auto; try lia. rewrite (Z.mul_comm b a), E, (Z.mul_comm b c), Ed. reflexivity. }
    rewrite E, I. reflexivity.
Qed.
Lemma zfact_prodl n : zfact n = prodl (zrange 1 (Z.of_nat n + 1)).
Proof.
  induction n as [|n IH]; [reflexivity|]. rewrite Nat2Z.inj_succ, <- Z.add_1_r, zrange_snoc by lia. 
  rewrite (prodl_perm _ ((Z.of_nat n + 1) :: zrange 1 (Z.of_nat n + 1))) by (apply Permutation_sym, Permutation_cons_append).
  cbn [prodl fold_right zfact]. fold (prodl (zrange 1 (Z.of_nat n + 1))). rewrite <- IH. lia.
Qed.
Lemma inverse_mod p a : prime p -> 1 <= a < p -> exists b, 1 <= b < p /\ eqm p (a * b) 1.
Proof.
  intros Hp Ha. assert (RP : rel_prime a p) by (apply rel_prime_le_prime; [exact Hp|lia]).
  apply rel_prime_bezout in RP. destruct RP as [u v E]. assert (p > 1) by (destruct Hp; lia).
  assert (E1 : eqm p (a * (u mod p)) 1).
  { pose proof (Z_div_mod_eq_full u p). exists (- v - a * (u / p)). rewrite <- E. nia. }
  exists (u mod p). split; [|exact E1]. pose proof (Z.mod_pos_bound u p ltac:(lia)). destruct (Z.eq_dec (u mod p) 0) as [Z0|]; [|lia].
  rewrite Z0, Z.mul_0_r in E1. destruct E1 as [q Hq]. exfalso. assert (p * (- q) = 1) by lia. destruct (Z.eq_mul_1 p (-q)); lia.
Qed.
Lemma wilson p : prime p -> eqm p (zfact (Z.to_nat (p - 1))) (-1).
Proof.
  intros Hp. assert (p > 1) by (destruct Hp; lia). destruct (Z.eq_dec p 2) as [->|N2]; [exists 1; reflexivity|].
  rewrite zfact_prodl. replace (Z.of_nat (Z.to_nat (p - 1)) + 1) with p by lia. rewrite zrange_cons by lia. replace p with (p - 1 + 1) at 2 by lia. rewrite zrange_snoc by lia.
  rewrite (prodl_perm _ (1 :: (p - 1) :: zrange (1 + 1) (p - 1))) by (apply perm_skip, Permutation_sym, Permutation_cons_append).
  cbn [prodl fold_right]. fold (prodl (zrange (1 + 1) (p - 1))).
  rewrite (pair_product p Hp (length (zrange (1 + 1) (p - 1))) (zrange (1 + 1) (p - 1))); [|auto|apply NoDup_zrange| |].
  - exists 1. lia.
  - intros a Ha. apply in_zrange in Ha. lia.
  - intros a Ha. apply in_zrange in Ha. destruct (inverse_mod p a Hp ltac:(lia)) as (b & Rb & E). exists b.
    assert (N : b <> a).
    { intros ->. assert (D : (p | (a - 1) * (a + 1))) by (destruct E as [q E]; exists q; lia). apply prime_mult in D; [|exact Hp].
      destruct D as [D|D]; apply Zdivide_le in D; lia. }
    split; [|split; [exact N|exact E]]. apply in_zrange.
    assert (b <> 1). { intros ->. rewrite Z.mul_1_r in E. destruct E as [q E]. assert (D : (p | a - 1)) by (exists q; lia). apply Zdivide_le in D; lia. }
    assert (b <> p - 1). { intros ->. destruct E as [q E]. assert (D : (p | a + 1)) by (exists (a - q); lia). apply Zdivide_le in D; lia. }
    lia.
Qed.
Lemma half_fact p : prime p -> forall j, (Z.of_nat j <= p - 1) -> eqm p (zfact j * zfact (Z.to_nat (p - 1) - j)) (sgn (Z.of_nat j + 1)).
Proof.
  intros Hp. assert (p > 1) by (destruct Hp; lia). induction j as [|j IH]; intros Hj.
  - rewrite Nat.sub_0_r. cbn [zfact]. rewrite Z.mul_1_l. now apply wilson.
  - specialize (IH ltac:(lia)). replace (Z.to_nat (p - 1) - j)%nat with (S (Z.to_nat (p - 1) - S j)) in IH by lia.
    set (r := (Z.to_nat (p - 1) - S j)%nat) in *. change (zfact (S r)) with (Z.of_nat (S r) * zfact r) in IH. change (zfact (S j)) with (Z.of_nat (S j) * zfact j).
    replace (Z.of_nat (S j) + 1) with (Z.of_nat j + 1 + 1) by lia. rewrite sgn_add. rewrite <- IH. exists (zfact j * zfact r). change (sgn 1) with (-1).
    replace (Z.of_nat (S r)) with (p - 1 - Z.of_nat j) by lia. rewrite Nat2Z.inj_succ. ring.
Qed.
Lemma fact_sq p : prime p -> p <> 2 -> eqm p (zfact (Z.to_nat ((p - 1) / 2)) * zfact (Z.to_nat ((p - 1) / 2))) (sgn ((p - 1) / 2 + 1)).
Proof.
  intros Hp N2. assert (p > 1) by (destruct Hp; lia). assert (O : Z.odd p = true).
  { destruct (Z.odd p) eqn:E; [reflexivity|]. exfalso. rewrite <- Z.negb_even in E. apply negb_false_iff, Z.even_spec in E. destruct E as [q E]. assert (D : (2 | p)) by (exists q; lia).
    apply prime_divisors in D; [|exact Hp]. lia. }
  apply Z.odd_spec in O. destruct O as [m Em]. assert (E : (p - 1) / 2 = m) by (rewrite Em; replace (2 * m + 1 - 1) with (m * 2) by lia; now rewrite Z.div_mul). rewrite E.
  pose proof (half_fact p Hp (Z.to_nat m) ltac:(lia)) as H0. replace (Z.to_nat (p - 1) - Z.to_nat m)%nat with (Z.to_nat m) in H0 by lia. rewrite Z2Nat.id in H0 by lia. exact H0.
Qed.
Lemma fact_unit p : prime p -> forall n, (Z.of_nat n < p) -> ~ (p | zfact n).
Proof.
  intros Hp. assert (p > 1) by (destruct Hp; lia). induction n as [|n IH]; intros Hn D.
  - apply Zdivide_le in D; cbn in *; lia.
  - change (zfact (S n)) with (Z.of_nat (S n) * zfact n) in D. apply prime_mult in D; [|exact Hp]. destruct D as [D|D]; [apply Zdivide_le in D; lia|]. apply IH; [lia|exact D].
Qed.
