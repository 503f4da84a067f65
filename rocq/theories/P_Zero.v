(** * Property theorems.  Generated by tools/mkprop.py from the tagged lemmas of
    ZeroLaws.v: every theorem is closed by [exact]. *)
From Coq Require Import Znumtheory Sorting.Sorted.
From Verif Require Import PyBase Dict FreeModule Symmetric Simplicial Cubical Utils Surjection BarrattEccles Spec SpecChain SpecCube SpecOperad SpecSurj ZeroLaws.

(** The unary operations send zero to zero, for every default torsion. *)
Theorem C58_zero_unary : forall (dt : Z),
  (forall x : bee, is_zero x ->
     be_boundary dt x = Ok x /\ (forall rep, be_orbit dt x rep = Ok x) /\
     be_table_reduction dt x = Ok (mkElt [] (torsion x) BF) /\
     (forall r, be_diagonal dt x r = Ok (mkElt [] (torsion x) tt)) /\ be_complexity x = Ok 0) /\
  (forall x : surj, is_zero x ->
     surj_boundary dt x = Ok x /\ (forall rep, surj_orbit dt x rep = Ok x) /\ surj_suspension dt x = Ok x /\
     surj_complexity x = Ok 0 /\ surj_filtration x = Ok 0) /\
  (forall x : simp, is_zero x -> simp_boundary dt x = Ok x /\ simp_one_reduced dt x = Ok x) /\
  (forall x : cubc, is_zero x ->
     cub_boundary dt x = Ok x /\ cub_join dt x = Ok x /\ cub_cartan_serre dt x = Ok (mkElt [] (torsion x) tt)) /\
  (forall (x : ring) k, is_zero x -> k <> 0 -> ring_pow dt x k = Ok x).
Proof. exact @zero_unary_l. Qed.
Print Assumptions C58_zero_unary.

(** Products and compositions in the group ring, composition in the surjection operad
    (also between zeros of different torsions) and the action of surjections on chains: zero when one of the operands is
    zero (and the operation accepts the operands). *)
Theorem C58_zero_binary : forall (dt : Z),
  (forall x y : ring, is_zero x \/ is_zero y -> torsion x = torsion y -> ring_mul dt x y = Ok (mkElt [] (torsion x) tt)) /\
  (forall (x y : ring) i, is_zero x \/ is_zero y -> torsion x = torsion y ->
     ring_compose dt x y i = Ok (mkElt [] (torsion x) tt)) /\
  (forall (x y : surj) i r, 1 <= r -> keys_in (onto r) y -> is_zero x \/ is_zero y ->
     surj_compose dt x y i = Ok (mkElt [] (torsion x) (attr x))) /\
  (forall (x : surj) (y : simp) i, is_zero x \/ is_zero y -> surj_call_simplicial dt x y i = Ok (mkElt [] (torsion y) tt)) /\
  (forall (x : surj) (y : cubc) i, is_zero x \/ is_zero y -> surj_call_cubical dt x y i = Ok (mkElt [] (torsion y) tt)).
Proof. exact @zero_binary_l. Qed.
Print Assumptions C58_zero_binary.

(** The actions of the symmetric group ring accept two zero operands. *)
Theorem C58_act_both_zero : forall (dt : Z) (a : ring),
  is_zero a ->
  (forall x : bee, is_zero x -> torsion x = torsion a -> be_act dt a x = Ok x) /\
  (forall x : surj, is_zero x -> torsion x = torsion a -> surj_act dt a x = Ok x) /\
  (forall x : simp, is_zero x -> torsion x = torsion a -> simp_act dt a x = Ok x) /\
  (forall x : cubc, is_zero x -> torsion x = torsion a -> cub_act dt a x = Ok x).
Proof. exact @act_both_zero_l. Qed.
Print Assumptions C58_act_both_zero.

(** The naive expectation fails: the action of zero on a non-zero element, and of
    a non-zero element on zero, raises TypeError, in the four classes. *)
Theorem C58_act_zero_refuted : forall (dt n : Z) (a z : ring),
  1 <= n -> keys_in (fun k => perm n (kval k)) a -> ~ is_zero a -> is_zero z ->
  (forall x : bee, is_zero x -> be_act dt a x = Err TypeError) /\
  (forall x : surj, is_zero x -> surj_act dt a x = Err TypeError) /\
  (forall x : simp, is_zero x -> simp_act dt a x = Err TypeError) /\
  (forall x : cubc, is_zero x -> cub_act dt a x = Err TypeError) /\
  (forall x : bee, wf cls_be x -> keys_in (be_simplex n) x -> ~ is_zero x -> be_act dt z x = Err TypeError) /\
  (forall x : surj, keys_in (onto n) x -> ~ is_zero x -> surj_act dt z x = Err TypeError) /\
  (forall x : simp, keys_in (fun k => zlen k = n) x -> ~ is_zero x -> simp_act dt z x = Err TypeError) /\
  (forall x : cubc, keys_in (fun k => zlen k = n) x -> ~ is_zero x -> cub_act dt z x = Err TypeError).
Proof. exact @act_zero_refuted_l. Qed.
Print Assumptions C58_act_zero_refuted.

(** Barratt-Eccles composition with a zero operand raises TypeError. *)
Theorem C58_compose_zero_refuted : forall (dt : Z) (x y : bee) (i : Z),
  is_zero x \/ is_zero y -> be_compose dt x y i = Err TypeError.
Proof. exact @compose_zero_refuted_l. Qed.
Print Assumptions C58_compose_zero_refuted.

(** The iterated diagonal of zero, and the power 0 of a zero group ring element, raise TypeError. *)
Theorem C58_diagonal_zero_refuted : forall (dt times coord : Z),
  (forall x : simp, is_zero x -> simp_iterated_diagonal dt x times coord = Err TypeError) /\
  (forall x : cubc, is_zero x -> cub_iterated_diagonal dt x times coord = Err TypeError) /\
  (forall x : ring, is_zero x -> ring_pow dt x 0 = Err TypeError).
Proof. exact @diagonal_zero_refuted_l. Qed.
Print Assumptions C58_diagonal_zero_refuted.

(** The hypotheses hold for the difference of an element with itself. *)
Example C58_example : (let! x := simp_new 0 [([[0; 1; 2]], 1)] (Some 0) in
  let! z := sub 0 cls_simplicial x x in
  let! b := simp_boundary 0 z in
  Ok (data z, data b, simp_iterated_diagonal 0 z 1 1))
  = Ok ([], [], Err TypeError).
Proof. exact @example_l. Qed.
