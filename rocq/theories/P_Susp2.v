(** * Property theorems.  Generated by tools/mkprop.py from the tagged lemmas of
    SuspLaws2.v: every theorem is closed by [exact]. *)
From Coq Require Import Znumtheory Sorting.Sorted.
From Verif Require Import PyBase Dict FreeModule Symmetric Simplicial Utils Surjection BarrattEccles Spec SpecChain SpecOperad SpecSurj SpecSusp SuspLaws2.

(** Suspension and boundary, on the terms of the right arity:
    for an element of arity r, d(suspension(x)) and (-1)^(r-1) suspension(dx)
    have the same coefficients at all the surjections of arity r. *)
Theorem C52_boundary : forall (dt r d : Z) (x : surj),
  1 <= r -> wf cls_surj x -> dt_ok dt (torsion x) -> attr x = BF -> keys_in (surj_cell r d) x ->
  agree_on (onto r) (let! y := surj_suspension dt x in surj_boundary dt y)
    (let! y := surj_boundary dt x in let! z := surj_suspension dt y in scale dt cls_surj (sgn (r - 1)) z).
Proof. exact @C52_boundary_l. Qed.
Print Assumptions C52_boundary.

(** The suspension does not preserve the arity: the
    suspension of (2,1), of arity 2, is - (1), of arity 1, and that of
    (1,2,1) is (2,1), so that d(suspension(x)) and suspension(dx) are not
    equal up to sign, over the integers and mod 2. *)
Theorem C52_arity_refuted : forall (t : Z),
  t = 0 \/ t = 2 ->
  (let! x := surj_new 0 BF [([2; 1], 1)] (Some t) None in surj_suspension 0 x) = Ok (mkElt [([1], if t =? 0 then -1 else 1)] t BF) /\
  (let! x := surj_new 0 BF [([1; 2; 1], 1)] (Some t) None in let! y := surj_suspension 0 x in surj_boundary 0 y) = Ok (mkElt [] t BF) /\
  (let! x := surj_new 0 BF [([1; 2; 1], 1)] (Some t) None in let! y := surj_boundary 0 x in surj_suspension 0 y) = Ok (mkElt [([1], if t =? 0 then -1 else 1)] t BF).
Proof. exact @C52_arity_refuted_l. Qed.
Print Assumptions C52_arity_refuted.

(** Suspension does not commute with composition: with x
    = (1,2,1) the suspension of x o_1 x is minus suspension(x) o_1
    suspension(x); with x = (1,2,1) and y = (2,1) the suspension of x o_1 y is
    zero but suspension(x) o_1 suspension(y) is not, even mod 2. *)
Theorem C52_compose_refuted : (exists x z, surj_new 0 BF [([1; 2; 1], 1)] None None = Ok x /\ (let! w := surj_compose 0 x x 1 in surj_suspension 0 w) = Ok z /\ ~ is_zero z /\
     same (let! s := surj_suspension 0 x in let! w := surj_compose 0 s s 1 in neg 0 cls_surj w) (Ok z)) /\
  (forall t, t = 0 \/ t = 2 -> exists x y z w, surj_new 0 BF [([1; 2; 1], 1)] (Some t) None = Ok x /\ surj_new 0 BF [([2; 1], 1)] (Some t) None = Ok y /\
     (let! u := surj_compose 0 x y 1 in surj_suspension 0 u) = Ok z /\ is_zero z /\
     (let! p := surj_suspension 0 x in let! q := surj_suspension 0 y in surj_compose 0 p q 1) = Ok w /\ ~ is_zero w).
Proof. exact @C52_compose_refuted_l. Qed.
Print Assumptions C52_compose_refuted.

(** The hypotheses of the theorems hold for x = (1,3,2,1,2), of
    arity 3 and degree 2; its suspension is - (2,1,2), of arity 2. *)
Example C52_example : exists x, surj_new 0 BF [([1; 3; 2; 1; 2], 1)] None None = Ok x /\ wf cls_surj x /\ attr x = BF /\ keys_in (surj_cell 3 2) x /\
  surj_suspension 0 x = Ok (mkElt [([2; 1; 2], -1)] 0 BF).
Proof. exact @C52_example_l. Qed.
