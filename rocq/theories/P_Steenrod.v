(** * Property theorems.  Generated by tools/mkprop.py from the tagged lemmas of
    SteenrodLaws.v: every theorem is closed by [exact]. *)
From Coq Require Import Znumtheory Sorting.Sorted.
From Verif Require Import PyBase Dict FreeModule Symmetric Simplicial Utils Surjection BarrattEccles Spec SpecChain SpecOperad SpecSurj SpecSteenrod SteenrodLaws.

(** The Bockstein is rejected at the prime 2. *)
Theorem C57_bockstein_two : forall (dt s q : Z) (dc : conv) (ov : option conv),
  surj_steenrod_operation dt dc 2 s q true ov = Err TypeError /\ be_steenrod_operation dt 2 s q true = Err TypeError.
Proof. exact @C57_bockstein_two_l. Qed.
Print Assumptions C57_bockstein_two.

(** Below the range the operation is the zero element modulo [p]. *)
Theorem C57_below_range : forall (dt p s q : Z) (dc : conv) (ov : option conv) (bockstein : bool),
  prime p ->
  (if p =? 2 then bockstein = false /\ s - q < 0 else ~ coefficient_overflows p s q /\ (2 * s - q) * (p - 1) - (if bockstein then 1 else 0) < 0) ->
  surj_steenrod_operation dt dc p s q bockstein ov = Ok (mkElt [] p dc) /\ be_steenrod_operation dt p s q bockstein = Ok (mkElt [] p tt).
Proof. exact @C57_below_range_l. Qed.
Print Assumptions C57_below_range.

(** At the prime 2: the element of degree [s - q]. *)
Theorem C57_two : forall (dt s q : Z) (dc cv : conv) (ov : option conv),
  dt_ok dt 2 -> cv = match ov with Some c => c | None => dc end -> cv = BF \/ cv = MS -> 0 <= s - q ->
  same (surj_steenrod_operation dt dc 2 s q false ov) (surj_may_steenrod dt dc 2 (s - q) (Some 2) ov) /\
  same (be_steenrod_operation dt 2 s q false) (be_may_steenrod dt 2 (s - q) (Some 2)).
Proof. exact @C57_two_l. Qed.
Print Assumptions C57_two.

(** At an odd prime: the documented coefficient (-1)^s nu(q) modulo [p] times the
    May-Steenrod element of degree [(2 s - q) (p - 1) - b]; it is not zero, of arity [p] and of that degree. *)
Theorem C57_odd_surjection : forall (dt p s q d : Z) (dc cv : conv) (ov : option conv) (bockstein : bool),
  prime p -> p <> 2 -> dt_ok dt p ->
  cv = match ov with Some c => c | None => dc end -> cv = BF \/ cv = MS -> exact_coefficient p s q ->
  d = (2 * s - q) * (p - 1) - (if bockstein then 1 else 0) -> 0 <= d ->
  exists c y z, steenrod_sign_nu p s q c /\ surj_may_steenrod dt dc p d (Some p) ov = Ok y /\
    surj_steenrod_operation dt dc p s q bockstein ov = Ok z /\ same (Ok z) (scale dt cls_surj c y) /\
    torsion z = p /\ attr z = cv /\ ~ is_zero z /\ surj_arity z = Ok (Some p) /\ surj_degree z = Ok (Some d).
Proof. exact @C57_odd_surjection_l. Qed.
Print Assumptions C57_odd_surjection.

(** The same for the Barratt-Eccles operad. *)
Theorem C57_odd_barratt_eccles : forall (dt p s q d : Z) (bockstein : bool),
  prime p -> p <> 2 -> dt_ok dt p -> exact_coefficient p s q ->
  d = (2 * s - q) * (p - 1) - (if bockstein then 1 else 0) -> 0 <= d ->
  exists c y z, steenrod_sign_nu p s q c /\ be_may_steenrod dt p d (Some p) = Ok y /\
    be_steenrod_operation dt p s q bockstein = Ok z /\ same (Ok z) (scale dt cls_be c y) /\
    torsion z = p /\ ~ is_zero z /\ be_arity z = Ok (Some p) /\ be_degree z = Some d.
Proof. exact @C57_odd_barratt_eccles_l. Qed.
Print Assumptions C57_odd_barratt_eccles.

(** For a negative exponent and m >= 23 the coefficient passes through a float
    and is wrong: no multiple of the May-Steenrod element with the documented
    coefficient is what [steenrod_operation(47, -1, -3)] returns. *)
Theorem C57_float_refuted : forall (dc cv : conv) (ov : option conv),
  cv = match ov with Some c => c | None => dc end -> cv = BF \/ cv = MS ->
  prime 47 /\ exists y z, surj_may_steenrod 0 dc 47 46 (Some 47) ov = Ok y /\ surj_steenrod_operation 0 dc 47 (-1) (-3) false ov = Ok z /\
    forall c, steenrod_sign_nu 47 (-1) (-3) c -> ~ same (Ok z) (scale 0 cls_surj c y).
Proof. exact @C57_float_refuted_l. Qed.
Print Assumptions C57_float_refuted.

(** What the code computes when the coefficient goes
    through a float: m! is replaced by the nearest double. *)
Theorem C57_float_surjection : forall (dt p s q d : Z) (dc cv : conv) (ov : option conv) (bockstein : bool),
  prime p -> p <> 2 -> dt_ok dt p ->
  cv = match ov with Some c => c | None => dc end -> cv = BF \/ cv = MS ->
  Z.odd q = true -> q / 2 + s < 0 -> (p - 1) / 2 <= 170 ->
  d = (2 * s - q) * (p - 1) - (if bockstein then 1 else 0) -> 0 <= d ->
  exists g y, nearest_double (Z.of_nat (Factorial.fact (Z.to_nat ((p - 1) / 2)))) g /\
    surj_may_steenrod dt dc p d (Some p) ov = Ok y /\
    surj_steenrod_operation dt dc p s q bockstein ov = scale dt cls_surj (sgn (q / 2 + s) * g) y.
Proof. exact @C57_float_surjection_l. Qed.
Print Assumptions C57_float_surjection.

(** The same for the Barratt-Eccles operad. *)
Theorem C57_float_barratt_eccles : forall (dt p s q d : Z) (bockstein : bool),
  prime p -> p <> 2 -> dt_ok dt p ->
  Z.odd q = true -> q / 2 + s < 0 -> (p - 1) / 2 <= 170 ->
  d = (2 * s - q) * (p - 1) - (if bockstein then 1 else 0) -> 0 <= d ->
  exists g y, nearest_double (Z.of_nat (Factorial.fact (Z.to_nat ((p - 1) / 2)))) g /\
    be_may_steenrod dt p d (Some p) = Ok y /\
    be_steenrod_operation dt p s q bockstein = scale dt cls_be (sgn (q / 2 + s) * g) y.
Proof. exact @C57_float_barratt_eccles_l. Qed.
Print Assumptions C57_float_barratt_eccles.

(** Converting an int to a float, as the code does with
    m!, gives the nearest double, ties to even. *)
Theorem C57_float_conversion : forall (n g : Z),
  float_of_int n = Ok g -> nearest_double n g.
Proof. exact @C57_float_conversion_l. Qed.
Print Assumptions C57_float_conversion.

(** For m >= 171 the float overflows, also below the range. *)
Theorem C57_float_overflow : forall (dt p s q : Z) (dc : conv) (ov : option conv) (bockstein : bool),
  prime p -> coefficient_overflows p s q ->
  surj_steenrod_operation dt dc p s q bockstein ov = Err OverflowError /\ be_steenrod_operation dt p s q bockstein = Err OverflowError.
Proof. exact @C57_float_overflow_l. Qed.
Print Assumptions C57_float_overflow.

(** For m >= 171 the float overflows: the prime 347. *)
Theorem C57_overflow : forall (dt : Z) (dc : conv) (ov : option conv) (bockstein : bool),
  prime 347 /\ surj_steenrod_operation dt dc 347 (-1) (-3) bockstein ov = Err OverflowError /\ be_steenrod_operation dt 347 (-1) (-3) bockstein = Err OverflowError.
Proof. exact @C57_overflow_l. Qed.
Print Assumptions C57_overflow.

(** P_1 on degree 1 and beta P_1 on degree 1 at the prime 3. *)
Example C57_example : prime 3 /\ exact_coefficient 3 1 1 /\ steenrod_sign_nu 3 1 1 (-1) /\
  surj_steenrod_operation 0 BF 3 1 1 true (Some MS) = Ok (mkElt [([1; 2; 3; 1], 2)] 3 MS) /\
  be_steenrod_operation 0 3 1 1 true = Ok (mkElt [([[1; 2; 3]; [2; 3; 1]], 2)] 3 tt) /\
  be_steenrod_operation 0 2 3 1 false = Ok (mkElt [([[1; 2]; [2; 1]; [1; 2]], 1)] 2 tt).
Proof. exact @C57_example_l. Qed.
