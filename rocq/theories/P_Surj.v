(** * Property theorems.  Generated by tools/mkprop.py from the tagged lemmas of
    SurjLaws.v: every theorem is closed by [exact]. *)
From Coq Require Import Znumtheory Sorting.Sorted.
From Verif Require Import PyBase Dict FreeModule Symmetric Simplicial Utils Surjection BarrattEccles Spec SpecChain SpecOperad SpecSurj SurjLaws.

(** The basis elements that are declared zero: the words that
    are not onto {1..max} and those with two equal consecutive values.  The
    empty tuple is rejected. *)
Theorem C45_degenerate : forall (k : list Z),
  (k = [] -> bad cls_surj k = Err ValueError) /\
  (k <> [] -> bad cls_surj k = Ok true <-> (~ exists r, onto r k) \/ repeats k) /\
  (k <> [] -> bad cls_surj k = Ok false \/ bad cls_surj k = Ok true).
Proof. exact @C45_degenerate_l. Qed.
Print Assumptions C45_degenerate.

(** The boundary is the signed sum of the words with one
    entry deleted whose value occurs elsewhere, with the Berger-Fresse or the
    McClure-Smith sign, extended linearly.  With torsion 2 the convention does
    not matter. *)
Theorem C45_boundary_formula : forall (dt : Z) (cv : conv) (x : surj),
  wf cls_surj x -> dt_ok dt (torsion x) ->
  cv = BF \/ cv = MS -> attr x = cv \/ torsion x = 2 ->
  gives cls_surj (surj_boundary dt x) (torsion x) (attr x) (extend (surj_faces cv) x).
Proof. exact @C45_boundary_formula_l. Qed.
Print Assumptions C45_boundary_formula.

(** With any other convention string and
    torsion different from 2, the boundary is silently zero. *)
Theorem C45_boundary_unknown_convention : forall (dt : Z) (x : surj),
  attr x = OtherConv -> torsion x <> 2 -> surj_boundary dt x = zero dt cls_surj x.
Proof. exact @C45_boundary_unknown_convention_l. Qed.
Print Assumptions C45_boundary_unknown_convention.

(** In both conventions, and for torsion 2 in any. *)
Theorem C45_boundary_squared : forall (dt : Z) (x : surj),
  wf cls_surj x -> dt_ok dt (torsion x) ->
  attr x = BF \/ attr x = MS \/ torsion x = 2 ->
  same (let! y := surj_boundary dt x in surj_boundary dt y) (zero dt cls_surj x).
Proof. exact @C45_boundary_squared_l. Qed.
Print Assumptions C45_boundary_squared.

Theorem C45_boundary_linear : forall (dt n : Z) (x y : surj),
  wf cls_surj x -> wf cls_surj y -> torsion y = torsion x -> attr y = attr x -> dt_ok dt (torsion x) ->
  attr x = BF \/ attr x = MS \/ torsion x = 2 ->
  same (let! s := add dt cls_surj x y in surj_boundary dt s)
       (let! p := surj_boundary dt x in let! q := surj_boundary dt y in add dt cls_surj p q) /\
  same (let! s := scale dt cls_surj n x in surj_boundary dt s)
       (let! p := surj_boundary dt x in scale dt cls_surj n p).
Proof. exact @C45_boundary_linear_l. Qed.
Print Assumptions C45_boundary_linear.

(** The boundary keeps the arity and lowers the degree by one. *)
Theorem C45_boundary_degree : forall (dt r d : Z) (x : surj),
  1 <= r -> wf cls_surj x -> dt_ok dt (torsion x) ->
  attr x = BF \/ attr x = MS \/ torsion x = 2 -> keys_in (surj_cell r d) x ->
  exists y, surj_boundary dt x = Ok y /\ wf cls_surj y /\ torsion y = torsion x /\ attr y = attr x /\
    keys_in (surj_cell r (d - 1)) y /\
    (~ is_zero y -> surj_arity y = Ok (Some r) /\ surj_degree y = Ok (Some (d - 1))).
Proof. exact @C45_boundary_degree_l. Qed.
Print Assumptions C45_boundary_degree.

Example C45_example : let x cv t := mkElt (A := conv) [([1; 2; 1; 3; 1], 1); ([2; 1; 2; 3; 1], 1)] t cv in
  wf cls_surj (x BF 0) /\ wf cls_surj (x MS 0) /\ wf cls_surj (x OtherConv 2) /\ keys_in (surj_cell 3 2) (x MS 0) /\
  surj_boundary 0 (x BF 0) = Ok (mkElt [([1; 2; 1; 3], 1); ([2; 1; 2; 3], 1)] 0 BF) /\
  surj_boundary 0 (x MS 0) = Ok (mkElt [([2; 1; 3; 1], 2); ([1; 2; 3; 1], -2); ([1; 2; 1; 3], 1); ([2; 1; 2; 3], -1)] 0 MS) /\
  surj_boundary 0 (x OtherConv 2) = Ok (mkElt [([1; 2; 1; 3], 1); ([2; 1; 2; 3], 1)] 2 OtherConv).
Proof. exact @C45_example_l. Qed.
