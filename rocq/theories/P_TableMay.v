(** * Property theorems.  Generated by tools/mkprop.py from the tagged lemmas of
    TableMay.v: every theorem is closed by [exact]. *)
From Coq Require Import Znumtheory Sorting.Sorted.
From Verif Require Import PyBase Dict FreeModule Symmetric Simplicial Utils Surjection BarrattEccles Spec SpecChain SpecOperad SpecSurj SpecSteenrod TableMay.

(** Table reduction carries the May-Steenrod structure of the
    Barratt-Eccles operad to the one of the surjection operad, in every arity,
    degree and torsion. *)
Theorem C81_structure : forall (dt n d u : Z) (dc : conv) (ot : option Z),
  u = match ot with Some t => if t =? 0 then dt else t | None => dt end -> 2 <= n -> 0 <= d -> 0 <= u -> u <> 1 -> dt_ok dt u ->
  same (let! x := be_may_steenrod dt n d ot in be_table_reduction dt x) (surj_may_steenrod dt dc n d ot (Some BF)).
Proof. exact @C81_structure_l. Qed.
Print Assumptions C81_structure.

(** Table reduction carries each Steenrod operation of the
    Barratt-Eccles operad to the one of the surjection operad; when one of them
    raises an exception the other raises the same one. *)
Theorem C81_operation : forall (dt p s q : Z) (dc : conv) (bockstein : bool),
  2 <= p -> dt_ok dt p ->
  let x := be_steenrod_operation dt p s q bockstein in
  let y := surj_steenrod_operation dt dc p s q bockstein (Some BF) in
  let d := if p =? 2 then s - q else (2 * s - q) * (p - 1) - (if bockstein then 1 else 0) in
  match x with
  | Err e => y = Err e
  | Ok x => if d <? 0 then is_zero x /\ exists z, y = Ok z /\ is_zero z else same (be_table_reduction dt x) y
  end.
Proof. exact @C81_operation_l. Qed.
Print Assumptions C81_operation.

(** Arity 3, degree 2: three terms on both sides. *)
Example C81_example : exists x y z, be_may_steenrod 0 3 2 None = Ok x /\ be_table_reduction 0 x = Ok y /\ surj_may_steenrod 0 MS 3 2 None (Some BF) = Ok z /\
    zlen (data x) = 2 /\ zlen (data y) = 3 /\ elt_eqb y z = true /\ torsion y = torsion z.
Proof. exact @C81_example_l. Qed.
