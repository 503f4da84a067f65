(** * Property theorems.  Generated by tools/mkprop.py from the tagged lemmas of
    StnLaws.v: every theorem is closed by [exact]. *)
From Coq Require Import Znumtheory Sorting.Sorted.
From Verif Require Import PyBase Dict FreeModule Symmetric Simplicial Utils Surjection BarrattEccles Spec SpecChain SpecOperad SpecSurj SpecAction SpecCochain StnLaws.

(** Let [alpha] be a cocycle modulo [p] of degree [m] on a
    simplicial set [X] ([p] two or odd), and let [S] be
    may_steenrod_structure(p, d) with torsion [p].  The cochain that sends a
    simplex c to the value of the p-th tensor power of [alpha] on S(c) is again
    a cocycle modulo [p]: it vanishes on boundaries. *)
Theorem C66_cocycle : forall (dt p m d e : Z) (dc : conv) (X : list Z -> Prop) (alpha : list Z -> Z) (c : simp),
  p = 2 \/ (3 <= p /\ Z.even p = false) -> dt_ok dt p -> 0 <= m -> 0 <= d -> simplicial_set X -> cocycle p m X alpha ->
  wf cls_simplicial c -> torsion c = p -> keys_in (fun k => exists s, k = [s] /\ X s /\ zlen s - 1 = e) c ->
  exists S bc z, surj_may_steenrod dt dc p d (Some p) (Some MS) = Ok S /\ simp_boundary dt c = Ok bc /\ surj_call_simplicial dt S bc 1 = Ok z /\
    evaluate alpha z mod p = 0.
Proof. exact @C66_cocycle_l. Qed.
Print Assumptions C66_cocycle.

(** The same for every element returned by steenrod_operation:
    P_s and beta P_s send cocycles to cocycles, on the nose. *)
Theorem C66_operation : forall (dt p m s q e : Z) (b : bool) (dc : conv) (X : list Z -> Prop) (alpha : list Z -> Z) (S : surj) (c : simp),
  p = 2 \/ (3 <= p /\ Z.even p = false) -> dt_ok dt p -> 0 <= m -> simplicial_set X -> cocycle p m X alpha ->
  surj_steenrod_operation dt dc p s q b (Some MS) = Ok S ->
  wf cls_simplicial c -> torsion c = p -> keys_in (fun k => exists s, k = [s] /\ X s /\ zlen s - 1 = e) c ->
  exists bc z, simp_boundary dt c = Ok bc /\ surj_call_simplicial dt S bc 1 = Ok z /\ evaluate alpha z mod p = 0.
Proof. exact @C66_operation_l. Qed.
Print Assumptions C66_operation.

(** steenrod_chain(p, s, q) is the part of op(standard simplex)
    on the products of [p] simplices of dimension -q; here op =
    steenrod_operation(p, s, q) and the simplex has dimension -q - s for
    p = 2 and -q - 2s(p - 1) + b for odd [p] (zero when this is negative). *)
Theorem C61_chain : forall (dt p s q n : Z) (b : bool) (dc : conv) (S : surj),
  p = 2 \/ (3 <= p /\ Z.even p = false) -> dt_ok dt p -> surj_steenrod_operation dt dc p s q b (Some MS) = Ok S ->
  n = (if p =? 2 then - (q + s) else - (q + 2 * s * (p - 1) - (if b then 1 else 0))) ->
  exists el r z, simp_standard_element dt n 1 (Some p) = Ok el /\ surj_call_simplicial dt S el 1 = Ok r /\
    steenrod_chain_simplex dt dc p s q b = Ok z /\ wf cls_simplicial z /\ torsion z = p /\
    keys_in (fun k => zlen k = p /\ forall u, In u k -> zlen u - 1 = - q) z /\
    same (Ok z) (Ok (mkElt (filter (fun kv => forallb (fun u => zlen u - 1 =? - q) (fst kv)) (data r)) p tt)).
Proof. exact @C61_chain_l. Qed.
Print Assumptions C61_chain.

(** A cochain of degree -q has the same value on
    steenrod_chain(p, s, q) and on op(standard simplex), so steenrod_chain
    determines the operation on cochains of that degree. *)
Theorem C61_evaluate : forall (dt p s q n : Z) (b : bool) (dc : conv) (S : surj) (el r z : simp) (alpha : list Z -> Z),
  p = 2 \/ (3 <= p /\ Z.even p = false) -> dt_ok dt p -> surj_steenrod_operation dt dc p s q b (Some MS) = Ok S ->
  n = (if p =? 2 then - (q + s) else - (q + 2 * s * (p - 1) - (if b then 1 else 0))) ->
  simp_standard_element dt n 1 (Some p) = Ok el -> surj_call_simplicial dt S el 1 = Ok r -> steenrod_chain_simplex dt dc p s q b = Ok z ->
  q <= 0 -> cochain (- q) alpha -> (evaluate alpha z - evaluate alpha r) mod p = 0.
Proof. exact @C61_evaluate_l. Qed.
Print Assumptions C61_evaluate.

(** The documented example, an example at the prime 3, and a
    negative dimension. *)
Example C61_example : steenrod_chain_simplex 0 BF 2 (-1) (-2) false = Ok (mkElt [([[0; 2; 3]; [0; 1; 2]], 1); ([[0; 1; 3]; [1; 2; 3]], 1)] 2 tt) /\
  (exists z, steenrod_chain_simplex 0 BF 3 0 (-1) false = Ok z /\ data z = [([[0; 1]; [0; 1]; [0; 1]], 2)]) /\
  steenrod_chain_simplex 0 BF 2 3 (-2) false = Ok (mkElt [] 2 tt).
Proof. exact @C61_example_l. Qed.

(** The hypotheses hold for the degree 1 cocycle (a,b) -> b - a
    modulo 2 on all simplices; its square is not zero, and vanishes on the
    boundary of a tetrahedron. *)
Example C66_example : let alpha := fun s => match s with [a; b] => (b - a) mod 2 | _ => 0 end in
  simplicial_set (fun _ => True) /\ cocycle 2 1 (fun _ => True) alpha /\
  (exists S y z, surj_may_steenrod 0 BF 2 0 (Some 2) (Some MS) = Ok S /\ simp_standard_element 0 2 1 (Some 2) = Ok y /\ surj_call_simplicial 0 S y 1 = Ok z /\ evaluate alpha z = 1) /\
  (exists S y by' z, surj_may_steenrod 0 BF 2 0 (Some 2) (Some MS) = Ok S /\ simp_standard_element 0 3 1 (Some 2) = Ok y /\ simp_boundary 0 y = Ok by' /\ surj_call_simplicial 0 S by' 1 = Ok z /\ evaluate alpha z = 2).
Proof. exact @C66_example_l. Qed.
