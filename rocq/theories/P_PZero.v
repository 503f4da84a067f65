(** * Property theorems.  Generated by tools/mkprop.py from the tagged lemmas of
    P0Laws.v: every theorem is closed by [exact]. *)
From Coq Require Import Znumtheory Sorting.Sorted.
From Verif Require Import PyBase Dict FreeModule Symmetric Simplicial Utils Surjection BarrattEccles Spec SpecChain SpecOperad SpecSurj SpecAction SpecSteenrod SpecCochain P0Laws.

(** For an odd prime [p] and m >= 0,
    steenrod_operation(p, 0, -m) sends every chain of [m]-simplices modulo [p]
    to the sum of the tensor powers [s (x) ... (x) s] of its simplices, with the
    same coefficients up to the sign (-1)^(m (p - 1) / 2). *)
Theorem C87_identity : forall (dt p m : Z) (dc : conv) (S : surj) (c : simp),
  prime p -> p <> 2 -> 0 <= m -> dt_ok dt p -> exact_coefficient p 0 (- m) ->
  surj_steenrod_operation dt dc p 0 (- m) false (Some MS) = Ok S ->
  wf cls_simplicial c -> torsion c = p -> keys_in (fun k => exists s, k = [s] /\ zlen s - 1 = m) c ->
  gives cls_simplicial (surj_call_simplicial dt S c 1) p tt (extend (fun k => [(concat (repeat k (Z.to_nat p)), sgn (m * ((p - 1) / 2)))]) c).
Proof. exact @C87_identity_l. Qed.
Print Assumptions C87_identity.

(** So P^0 is the identity up to this sign: the value of the tensor
    power of an [m]-cochain on the result is (-1)^(m (p - 1) / 2) times the
    value of the cochain itself. *)
Theorem C87_value : forall (dt p m : Z) (dc : conv) (S : surj) (c : simp) (alpha : list Z -> Z),
  prime p -> p <> 2 -> 0 <= m -> dt_ok dt p -> exact_coefficient p 0 (- m) -> cochain m alpha ->
  surj_steenrod_operation dt dc p 0 (- m) false (Some MS) = Ok S ->
  wf cls_simplicial c -> torsion c = p -> keys_in (fun k => exists s, k = [s] /\ zlen s - 1 = m) c ->
  exists z, surj_call_simplicial dt S c 1 = Ok z /\ evaluate alpha z mod p = (sgn (m * ((p - 1) / 2)) * evaluate alpha c) mod p.
Proof. exact @C87_value_l. Qed.
Print Assumptions C87_value.

(** may_steenrod_structure(p, d) itself, on a chain of
    e-simplices modulo the odd prime [p]: it is zero for d > e (p - 1), and for
    d = e (p - 1) it is the tensor power with coefficient
    (-1)^((p - 1) / 2 * (e // 2)) * ((p - 1) / 2)! ^ e. *)
Theorem C87_structure : forall (dt p d e : Z) (dc : conv) (S : surj) (c : simp),
  prime p -> p <> 2 -> dt_ok dt p -> 0 <= e -> e * (p - 1) <= d ->
  surj_may_steenrod dt dc p d (Some p) (Some MS) = Ok S ->
  wf cls_simplicial c -> torsion c = p -> keys_in (fun k => exists s, k = [s] /\ zlen s - 1 = e) c ->
  gives cls_simplicial (surj_call_simplicial dt S c 1) p tt
    (if d =? e * (p - 1) then extend (fun k => [(concat (repeat k (Z.to_nat p)), sgn ((p - 1) / 2 * (e / 2)) * Z.of_nat (fact (Z.to_nat ((p - 1) / 2))) ^ e)]) c else []).
Proof. exact @C87_structure_l. Qed.
Print Assumptions C87_structure.

(** Operations that lower the degree are zero: for an odd prime
    and chains of e-simplices, steenrod_operation(p, s, q, b) is zero when
    (2 s - q) (p - 1) - b > e (p - 1); in particular, with q = -e, for s > 0. *)
Theorem C87_vanish : forall (dt p s q e : Z) (b : bool) (dc : conv) (S : surj) (c : simp),
  prime p -> p <> 2 -> dt_ok dt p -> 0 <= e -> e * (p - 1) < (2 * s - q) * (p - 1) - (if b then 1 else 0) ->
  surj_steenrod_operation dt dc p s q b (Some MS) = Ok S ->
  wf cls_simplicial c -> torsion c = p -> keys_in (fun k => exists s, k = [s] /\ zlen s - 1 = e) c ->
  gives cls_simplicial (surj_call_simplicial dt S c 1) p tt [].
Proof. exact @C87_vanish_l. Qed.
Print Assumptions C87_vanish.

(** P^0 for p = 3 in degrees 1 and 2. *)
Example C87_example : (exists S, surj_steenrod_operation 0 BF 3 0 (-1) false (Some MS) = Ok S /\
     surj_call_simplicial 0 S (mkElt [([[0; 1]], 1); ([[0; 2]], 2)] 3 tt) 1 = Ok (mkElt [([[0; 1]; [0; 1]; [0; 1]], 2); ([[0; 2]; [0; 2]; [0; 2]], 1)] 3 tt)) /\
  (exists S, surj_steenrod_operation 0 BF 3 0 (-2) false (Some MS) = Ok S /\
     surj_call_simplicial 0 S (mkElt [([[0; 1; 2]], 2)] 3 tt) 1 = Ok (mkElt [([[0; 1; 2]; [0; 1; 2]; [0; 1; 2]], 2)] 3 tt)) /\
  prime 3 /\ dt_ok 0 3 /\ exact_coefficient 3 0 (-1) /\ wf cls_simplicial (mkElt [([[0; 1]], 1); ([[0; 2]], 2)] 3 tt).
Proof. exact @C87_example_l. Qed.
