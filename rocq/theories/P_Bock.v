(** * Property theorems.  Generated by tools/mkprop.py from the tagged lemmas of
    BockLaws.v: every theorem is closed by [exact]. *)
From Coq Require Import Znumtheory Sorting.Sorted.
From Verif Require Import PyBase Dict FreeModule Symmetric Simplicial Utils Surjection BarrattEccles Spec SpecChain SpecOperad SpecSurj SpecAction SpecCochain SpecBock BockLaws.

(** For an odd prime [p], steenrod_operation(p, s, q, True) is
    minus the Bockstein of steenrod_operation(p, s, q): if the cycle [c] is the
    reduction of C with boundary(C) == p * C', then the value of the tensor
    power of every cocycle on (beta P)(c) is minus its value on P(c'), where
    [c'] is the reduction of C'. *)
Theorem C86_bockstein : forall (p m s q e : Z) (dc : conv) (X : list Z -> Prop) (alpha : list Z -> Z) (P bP : surj) (c c' : simp),
  prime p -> p <> 2 -> 0 <= m -> simplicial_set X -> cocycle p m X alpha -> bockstein_pair p e X c c' ->
  surj_steenrod_operation 0 dc p s q false (Some MS) = Ok P -> surj_steenrod_operation 0 dc p s q true (Some MS) = Ok bP ->
  exists z z', surj_call_simplicial 0 bP c 1 = Ok z /\ surj_call_simplicial 0 P c' 1 = Ok z' /\ (evaluate alpha z + evaluate alpha z') mod p = 0.
Proof. exact @C86_bockstein_l. Qed.
Print Assumptions C86_bockstein.

(** The Bockstein of steenrod_operation(p, s, q, True)
    is zero. *)
Theorem C86_bockstein_twice : forall (p m s q e : Z) (dc : conv) (X : list Z -> Prop) (alpha : list Z -> Z) (bP : surj) (c c' : simp),
  prime p -> p <> 2 -> 0 <= m -> simplicial_set X -> cocycle p m X alpha -> bockstein_pair p e X c c' ->
  surj_steenrod_operation 0 dc p s q true (Some MS) = Ok bP ->
  exists z, surj_call_simplicial 0 bP c' 1 = Ok z /\ evaluate alpha z mod p = 0.
Proof. exact @C86_bockstein_twice_l. Qed.
Print Assumptions C86_bockstein_twice.

(** For [p = 2] and cochains of degree [m], the operation with
    subscript s - 1 (that is, Sq^(1-s)) is the Bockstein of the one with
    subscript [s] for even [s], and the Bockstein of the latter is zero for odd
    [s]: Sq^1 Sq^(2k) = Sq^(2k+1) and Sq^1 Sq^(2k+1) = 0. *)
Theorem C86_square : forall (m s e : Z) (dc : conv) (X : list Z -> Prop) (alpha : list Z -> Z) (P P1 : surj) (c c' : simp),
  0 <= m -> simplicial_set X -> cocycle 2 m X alpha -> bockstein_pair 2 e X c c' ->
  surj_steenrod_operation 0 dc 2 s (- m) false (Some MS) = Ok P -> surj_steenrod_operation 0 dc 2 (s - 1) (- m) false (Some MS) = Ok P1 ->
  exists z z', surj_call_simplicial 0 P1 c 1 = Ok z /\ surj_call_simplicial 0 P c' 1 = Ok z' /\
    evaluate alpha z' mod 2 = if Z.even s then evaluate alpha z mod 2 else 0.
Proof. exact @C86_square_l. Qed.
Print Assumptions C86_square.

(** The same for may_steenrod_structure(p, d) itself, for
    every prime [p] and every degree. *)
Theorem C86_structure : forall (p m d e : Z) (dc : conv) (X : list Z -> Prop) (alpha : list Z -> Z) (S S1 : surj) (c c' : simp),
  prime p -> 0 <= m -> 1 <= d -> simplicial_set X -> cocycle p m X alpha -> bockstein_pair p e X c c' ->
  surj_may_steenrod 0 dc p d (Some p) (Some MS) = Ok S -> surj_may_steenrod 0 dc p (d - 1) (Some p) (Some MS) = Ok S1 ->
  exists z z', surj_call_simplicial 0 S1 c 1 = Ok z /\ surj_call_simplicial 0 S c' 1 = Ok z' /\
    evaluate alpha z' mod p = if Z.even (if p =? 2 then d - m else d) then (- evaluate alpha z) mod p else 0.
Proof. exact @C86_structure_l. Qed.
Print Assumptions C86_structure.

(** The top operation is the p-th power: steenrod_operation(p, s, q)
    with q = 2 s ([p] odd) or q = s ([p] = 2) acts on every chain as
    iterated_diagonal(p - 1), so that its value on a cocycle is the p-fold cup
    product. *)
Theorem C86_top : forall (dt p s q e : Z) (dc : conv) (S : surj) (c : simp),
  prime p -> dt_ok dt p -> q = (if p =? 2 then s else 2 * s) ->
  surj_steenrod_operation dt dc p s q false (Some MS) = Ok S ->
  wf cls_simplicial c -> torsion c = p -> data c <> [] -> keys_in (fun k => exists s, k = [s] /\ zlen s - 1 = e) c ->
  same (surj_call_simplicial dt S c 1) (simp_iterated_diagonal dt c (p - 1) 1).
Proof. exact @C86_top_l. Qed.
Print Assumptions C86_top.

(** The projective plane, triangulated with six vertices and
    ten triangles.  The chain of all triangles, with signs, has boundary
    2 ((0,1) + (1,3) - (0,3)): its reduction modulo 2 is the fundamental cycle
    [c], and [c'] is a loop.  For a cocycle of degree 1, Sq^1 on [c] and Sq^0
    on [c'] are both 1. *)
Example C86_example : let facets := [[0;1;4];[0;1;5];[0;2;3];[0;2;5];[0;3;4];[1;2;3];[1;2;4];[1;3;5];[2;4;5];[3;4;5]] in
  let X := fun s : list Z => exists f, In f facets /\ (forall v, In v s -> In v f) /\ StronglySorted Z.le s in
  let edges := [[1;2];[1;3];[2;4];[3;5];[4;5]] in
  let alpha := fun s : list Z => if existsb (keqb s) edges then 1 else 0 in
  let c : simp := mkElt (map (fun f => ([f], 1)) facets) 2 tt in
  let c' : simp := mkElt [([[0;1]], 1); ([[0;3]], 1); ([[1;3]], 1)] 2 tt in
  simplicial_set X /\ cocycle 2 1 X alpha /\ bockstein_pair 2 2 X c c' /\
  exists P P1 z z', surj_steenrod_operation 0 BF 2 0 (-1) false (Some MS) = Ok P /\ surj_steenrod_operation 0 BF 2 (-1) (-1) false (Some MS) = Ok P1 /\
    surj_call_simplicial 0 P1 c 1 = Ok z /\ surj_call_simplicial 0 P c' 1 = Ok z' /\ evaluate alpha z mod 2 = 1 /\ evaluate alpha z' mod 2 = 1.
Proof. exact @C86_example_l. Qed.
