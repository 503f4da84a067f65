(** * Property theorems.  Generated by tools/mkprop.py from the tagged lemmas of
    SurjLaws3.v: every theorem is closed by [exact]. *)
From Coq Require Import Znumtheory Sorting.Sorted.
From Verif Require Import PyBase Dict FreeModule Symmetric Simplicial Utils Surjection BarrattEccles Spec SpecChain SpecOperad SpecSurj SurjLaws3.

(** The complexity is the maximum, over the basis
    elements and the pairs of values [i], [j], of the number of switches
    between [i] and [j]; it is 0 if there are none. *)
Theorem C54_complexity_value : forall (x : surj),
  wf cls_surj x ->
  exists c, surj_complexity x = Ok c /\
    (forall k v i j, In (k, v) (data x) -> switches i j k <= c) /\
    (c = 0 \/ exists k v i j, In (k, v) (data x) /\ 1 <= i < j /\ In i k /\ In j k /\ switches i j k = c).
Proof. exact @C54_complexity_value_l. Qed.
Print Assumptions C54_complexity_value.

(** The boundary does not increase the complexity. *)
Theorem C54_boundary : forall (dt : Z) (x : surj),
  wf cls_surj x -> dt_ok dt (torsion x) ->
  attr x = BF \/ attr x = MS \/ torsion x = 2 ->
  exists y c c', surj_boundary dt x = Ok y /\ surj_complexity x = Ok c /\ surj_complexity y = Ok c' /\ c' <= c.
Proof. exact @C54_boundary_l. Qed.
Print Assumptions C54_boundary.

(** The symmetric action does not increase the complexity (so
    it preserves it under single permutations). *)
Theorem C54_action : forall (dt n : Z) (a : ring) (x : surj),
  1 <= n -> wf cls_ring a -> wf cls_surj x -> torsion a = torsion x -> dt_ok dt (torsion x) -> attr x = BF \/ attr x = MS ->
  keys_in (fun k => perm n (kval k)) a -> keys_in (onto n) x -> ~ is_zero a -> ~ is_zero x ->
  exists y c c', surj_act dt a x = Ok y /\ surj_complexity x = Ok c /\ surj_complexity y = Ok c' /\ c' <= c.
Proof. exact @C54_action_l. Qed.
Print Assumptions C54_action.

(** The complexity of an element of degree [d] is at most [d + 1],
    and 0 in arity 1. *)
Theorem C54_bound : forall (r d c : Z) (x : surj),
  1 <= r -> 0 <= d -> wf cls_surj x -> keys_in (surj_cell r d) x ->
  surj_complexity x = Ok c -> 0 <= c <= d + 1 /\ (r = 1 -> c = 0).
Proof. exact @C54_bound_l. Qed.
Print Assumptions C54_bound.

(** The filtration is the maximum over the basis
    elements of the total number of switches; the boundary does not increase
    it. *)
Theorem C54_filtration_value : forall (r : Z) (x : surj),
  1 <= r -> wf cls_surj x -> keys_in (onto r) x ->
  exists f, surj_filtration x = Ok f /\ 0 <= f /\
    (forall k v, In (k, v) (data x) -> all_switches r k <= f) /\
    (f = 0 \/ exists k v, In (k, v) (data x) /\ all_switches r k = f).
Proof. exact @C54_filtration_value_l. Qed.
Print Assumptions C54_filtration_value.

Theorem C54_filtration_boundary : forall (dt r : Z) (x : surj),
  1 <= r -> wf cls_surj x -> keys_in (onto r) x -> dt_ok dt (torsion x) ->
  attr x = BF \/ attr x = MS \/ torsion x = 2 ->
  exists y f f', surj_boundary dt x = Ok y /\ surj_filtration x = Ok f /\ surj_filtration y = Ok f' /\ f' <= f.
Proof. exact @C54_filtration_boundary_l. Qed.
Print Assumptions C54_filtration_boundary.

Example C54_example : let x := mkElt [([1; 2; 1; 3; 1; 3], 1); ([1; 2; 3; 1; 2; 3], 5)] 0 MS in
  wf cls_surj x /\ keys_in (surj_cell 3 3) x /\ surj_complexity x = Ok 3 /\ surj_filtration x = Ok 9 /\
  switches 1 3 [1; 2; 1; 3; 1; 3] = 3 /\ all_switches 3 [1; 2; 3; 1; 2; 3] = 9 /\ all_switches 3 [1; 2; 1; 3; 1; 3] = 6.
Proof. exact @C54_example_l. Qed.
