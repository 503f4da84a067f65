(** * Property theorems.  Generated by tools/mkprop.py from the tagged lemmas of
    SteenrodClass.v: every theorem is closed by [exact]. *)
From Coq Require Import Znumtheory Sorting.Sorted.
From Verif Require Import PyBase Dict FreeModule Symmetric Simplicial Utils Surjection BarrattEccles Spec SpecChain SpecOperad SpecSurj SpecAction SpecCochain SteenrodClass.

(** Let [S] be steenrod_operation(p, s, q, b) with [p] prime,
    and let [c] be a cycle modulo [p] in a simplicial set [X].  The map that
    sends a cocycle [alpha] to the value of its p-th tensor power on S(c) is
    additive (although taking the tensor power is not): the operation is a
    homomorphism on cohomology. *)
Theorem C74_additive : forall (dt p m s q e : Z) (b : bool) (dc : conv) (X : list Z -> Prop) (alpha beta : list Z -> Z) (S : surj) (c bc : simp),
  prime p -> dt_ok dt p -> 0 <= m -> simplicial_set X -> cocycle p m X alpha -> cocycle p m X beta ->
  surj_steenrod_operation dt dc p s q b (Some MS) = Ok S ->
  wf cls_simplicial c -> torsion c = p -> keys_in (fun k => exists s, k = [s] /\ X s /\ zlen s - 1 = e) c ->
  simp_boundary dt c = Ok bc -> data bc = [] ->
  exists z, surj_call_simplicial dt S c 1 = Ok z /\ evaluate (fun s => alpha s + beta s) z mod p = (evaluate alpha z + evaluate beta z) mod p.
Proof. exact @C74_additive_l. Qed.
Print Assumptions C74_additive.

(** It is also compatible with scalars: the value for n*alpha is
    n times the value for alpha, modulo [p] (not n^p times, which is the same
    by Fermat). *)
Theorem C74_scalar : forall (dt p m s q e n : Z) (b : bool) (dc : conv) (X : list Z -> Prop) (alpha : list Z -> Z) (S : surj) (c bc : simp),
  prime p -> dt_ok dt p -> 0 <= m -> simplicial_set X -> cocycle p m X alpha ->
  surj_steenrod_operation dt dc p s q b (Some MS) = Ok S ->
  wf cls_simplicial c -> torsion c = p -> keys_in (fun k => exists s, k = [s] /\ X s /\ zlen s - 1 = e) c ->
  simp_boundary dt c = Ok bc -> data bc = [] ->
  exists z, surj_call_simplicial dt S c 1 = Ok z /\ evaluate (fun s => n * alpha s) z mod p = (n * evaluate alpha z) mod p.
Proof. exact @C74_scalar_l. Qed.
Print Assumptions C74_scalar.

(** And it depends only on the cohomology class: if alpha' is
    alpha plus the coboundary of [beta], modulo [p] on the simplices of [X],
    then alpha' and alpha give the same value modulo [p]. *)
Theorem C74_class : forall (dt p m s q e : Z) (b : bool) (dc : conv) (X : list Z -> Prop) (alpha alpha' beta : list Z -> Z) (S : surj) (c bc : simp),
  prime p -> dt_ok dt p -> 1 <= m -> simplicial_set X -> cocycle p m X alpha -> cochain m alpha' -> cochain (m - 1) beta ->
  (forall s, X s -> alpha' s mod p = (alpha s + zsum (map (fun f => snd f * beta (fst f)) (faces s))) mod p) ->
  surj_steenrod_operation dt dc p s q b (Some MS) = Ok S ->
  wf cls_simplicial c -> torsion c = p -> keys_in (fun k => exists s, k = [s] /\ X s /\ zlen s - 1 = e) c ->
  simp_boundary dt c = Ok bc -> data bc = [] ->
  exists z, surj_call_simplicial dt S c 1 = Ok z /\ evaluate alpha' z mod p = evaluate alpha z mod p.
Proof. exact @C74_class_l. Qed.
Print Assumptions C74_class.

(** The same three statements for
    may_steenrod_structure(p, d) itself, for every degree [d]. *)
Theorem C74_structure : forall (dt p m d e n : Z) (dc : conv) (X : list Z -> Prop) (alpha alpha' beta gamma : list Z -> Z) (S : surj) (c bc : simp),
  prime p -> dt_ok dt p -> 1 <= m -> 0 <= d -> simplicial_set X -> cocycle p m X alpha -> cocycle p m X gamma -> cochain m alpha' -> cochain (m - 1) beta ->
  (forall s, X s -> alpha' s mod p = (alpha s + zsum (map (fun f => snd f * beta (fst f)) (faces s))) mod p) ->
  surj_may_steenrod dt dc p d (Some p) (Some MS) = Ok S ->
  wf cls_simplicial c -> torsion c = p -> keys_in (fun k => exists s, k = [s] /\ X s /\ zlen s - 1 = e) c ->
  simp_boundary dt c = Ok bc -> data bc = [] ->
  exists z, surj_call_simplicial dt S c 1 = Ok z /\
    evaluate (fun s => alpha s + gamma s) z mod p = (evaluate alpha z + evaluate gamma z) mod p /\
    evaluate (fun s => n * alpha s) z mod p = (n * evaluate alpha z) mod p /\
    evaluate alpha' z mod p = evaluate alpha z mod p.
Proof. exact @C74_structure_l. Qed.
Print Assumptions C74_structure.

(** On the circle with vertices 0, 1, 2: the cocycle dual to the
    edge 01 (with sign for reversed edges), the fundamental cycle and
    Sq^0 = steenrod_operation(2, 0, -1).  The value is 1. *)
Example C74_example : let X := fun s : list Z => (forall v, In v s -> v = 0 \/ v = 1 \/ v = 2) /\ ~ (In 0 s /\ In 1 s /\ In 2 s) in
  let alpha := fun s => match s with [0; 1] => 1 | [1; 0] => -1 | _ => 0 end in
  let c : simp := mkElt [([[0; 1]], 1); ([[1; 2]], 1); ([[0; 2]], 1)] 2 tt in
  simplicial_set X /\ cocycle 2 1 X alpha /\ wf cls_simplicial c /\ keys_in (fun k => exists s, k = [s] /\ X s /\ zlen s - 1 = 1) c /\
  (exists bc, simp_boundary 0 c = Ok bc /\ data bc = []) /\
  (exists S z, surj_steenrod_operation 0 BF 2 0 (-1) false (Some MS) = Ok S /\ surj_call_simplicial 0 S c 1 = Ok z /\ evaluate alpha z mod 2 = 1).
Proof. exact @C74_example_l. Qed.
