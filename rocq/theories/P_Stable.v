(** * Property theorems.  Generated by tools/mkprop.py from the tagged lemmas of
    StableLaws.v: every theorem is closed by [exact]. *)
From Coq Require Import Znumtheory Sorting.Sorted.
From Verif Require Import PyBase Dict FreeModule Symmetric Simplicial Utils Surjection BarrattEccles Spec SpecChain SpecOperad SpecSurj SpecAction SpecSteenrod SpecCochain SpecSimpCup StableLaws.

(** Steenrod operations commute with connecting homomorphisms, for an
    odd prime [p]: let alpha be an m-cochain whose coboundary vanishes mod [p] on
    the simplicial set [A], and [c] a chain mod [p] whose boundary lies in [A]
    (a relative cycle).  With P = steenrod_operation(p, s, -m) and
    P' = steenrod_operation(p, s, -m - 1), the value of P' on the coboundary of
    alpha at [c] is (-1)^((p - 1) / 2) times the value of P on alpha at the
    boundary of [c]. *)
Theorem C88_odd : forall (dt p m s e : Z) (dc : conv) (A : list Z -> Prop) (P P' : surj) (c bc : simp) (alpha : list Z -> Z),
  prime p -> p <> 2 -> 0 <= m -> dt_ok dt p -> exact_coefficient p s (- m) -> exact_coefficient p s (- m - 1) ->
  simplicial_set A -> cochain m alpha -> (forall s, A s -> simp_coboundary alpha s mod p = 0) ->
  surj_steenrod_operation dt dc p s (- m) false (Some MS) = Ok P -> surj_steenrod_operation dt dc p s (- m - 1) false (Some MS) = Ok P' ->
  wf cls_simplicial c -> torsion c = p -> keys_in (fun k => exists s, k = [s] /\ zlen s - 1 = e) c ->
  simp_boundary dt c = Ok bc -> keys_in (fun k => exists s, k = [s] /\ A s) bc ->
  exists z z', surj_call_simplicial dt P' c 1 = Ok z /\ surj_call_simplicial dt P bc 1 = Ok z' /\
    evaluate (simp_coboundary alpha) z mod p = (sgn ((p - 1) / 2) * evaluate alpha z') mod p.
Proof. exact @C88_odd_l. Qed.
Print Assumptions C88_odd.

(** The same for p = 2: Sq on the coboundary of alpha at [c] is Sq on
    alpha at the boundary of [c]. *)
Theorem C88_two : forall (dt m s e : Z) (dc : conv) (A : list Z -> Prop) (P P' : surj) (c bc : simp) (alpha : list Z -> Z),
  0 <= m -> dt_ok dt 2 -> simplicial_set A -> cochain m alpha -> (forall s, A s -> simp_coboundary alpha s mod 2 = 0) ->
  surj_steenrod_operation dt dc 2 s (- m) false (Some MS) = Ok P -> surj_steenrod_operation dt dc 2 s (- m - 1) false (Some MS) = Ok P' ->
  wf cls_simplicial c -> torsion c = 2 -> keys_in (fun k => exists s, k = [s] /\ zlen s - 1 = e) c ->
  simp_boundary dt c = Ok bc -> keys_in (fun k => exists s, k = [s] /\ A s) bc ->
  exists z z', surj_call_simplicial dt P' c 1 = Ok z /\ surj_call_simplicial dt P bc 1 = Ok z' /\
    evaluate (simp_coboundary alpha) z mod 2 = evaluate alpha z' mod 2.
Proof. exact @C88_two_l. Qed.
Print Assumptions C88_two.

(** For may_steenrod_structure(p, d) itself, with [p] an odd
    prime and d even: the value of S_(d + p - 1) on the coboundary of alpha at
    [c] is (-1)^(m (p - 1) / 2) * ((p - 1) / 2)! times the value of S_d on alpha
    at the boundary of [c]. *)
Theorem C88_structure : forall (dt p m k e : Z) (dc : conv) (A : list Z -> Prop) (S S' : surj) (c bc : simp) (alpha : list Z -> Z),
  prime p -> p <> 2 -> 0 <= m -> dt_ok dt p -> 0 <= k ->
  simplicial_set A -> cochain m alpha -> (forall s, A s -> simp_coboundary alpha s mod p = 0) ->
  surj_may_steenrod dt dc p (2 * k) (Some p) (Some MS) = Ok S -> surj_may_steenrod dt dc p (2 * k + (p - 1)) (Some p) (Some MS) = Ok S' ->
  wf cls_simplicial c -> torsion c = p -> keys_in (fun k => exists s, k = [s] /\ zlen s - 1 = e) c ->
  simp_boundary dt c = Ok bc -> keys_in (fun k => exists s, k = [s] /\ A s) bc ->
  exists z z', surj_call_simplicial dt S' c 1 = Ok z /\ surj_call_simplicial dt S bc 1 = Ok z' /\
    evaluate (simp_coboundary alpha) z mod p = (sgn (m * ((p - 1) / 2)) * Z.of_nat (fact (Z.to_nat ((p - 1) / 2))) * evaluate alpha z') mod p.
Proof. exact @C88_structure_l. Qed.
Print Assumptions C88_structure.

(** A triangle, its boundary and the cochain of one edge meet the
    hypotheses for p = 3; the values are 1 and -1. *)
Example C88_example : exists (P P' : surj) (c bc z z' : simp),
  let A := fun t : list Z => (forall v, In v t -> v = 0 \/ v = 1 \/ v = 2) /\ (~ In 0 t \/ ~ In 1 t \/ ~ In 2 t) in
  let alpha := fun t => match t with [0; 1] => 1 | [1; 0] => -1 | _ => 0 end in
  prime 3 /\ exact_coefficient 3 0 (- 1) /\ exact_coefficient 3 0 (- 1 - 1) /\
  simplicial_set A /\ cochain 1 alpha /\ (forall s, A s -> simp_coboundary alpha s mod 3 = 0) /\
  wf cls_simplicial c /\ torsion c = 3 /\ keys_in (fun k => exists s, k = [s] /\ zlen s - 1 = 2) c /\
  simp_boundary 0 c = Ok bc /\ keys_in (fun k => exists s, k = [s] /\ A s) bc /\
  surj_steenrod_operation 0 BF 3 0 (- 1) false (Some MS) = Ok P /\ surj_steenrod_operation 0 BF 3 0 (- 1 - 1) false (Some MS) = Ok P' /\
  surj_call_simplicial 0 P' c 1 = Ok z /\ surj_call_simplicial 0 P bc 1 = Ok z' /\
  evaluate (simp_coboundary alpha) z mod 3 = 1 /\ evaluate alpha z' mod 3 = 2.
Proof. exact @C88_example_l. Qed.
