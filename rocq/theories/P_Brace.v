(** * Property theorems.  Generated by tools/mkprop.py from the tagged lemmas of
    BraceLaws.v: every theorem is closed by [exact]. *)
From Coq Require Import Znumtheory Sorting.Sorted.
From Verif Require Import PyBase Dict FreeModule Symmetric Surjection GroupMul Spec SpecChain SpecOperad SpecSurj SpecBrace BraceLaws.

(** The brace 1 2 1 3 1 ... (n+1) 1 is a basis element of arity n + 1 and degree n; its complexity is 2 (0 for n = 0),
    so that it lies in the part of the surjection operad that models the little 2-cubes. *)
Theorem C102_brace_element : forall (n t : Z),
  0 <= n -> 0 <= t -> t <> 1 ->
  wf cls_surj (mkElt [(brace n, 1)] t BF) /\ surj_cell (n + 1) n (brace n) /\
  surj_complexity (mkElt [(brace n, 1)] t BF) = Ok (if n =? 0 then 0 else 2).
Proof. exact @C102_brace_element_l. Qed.
Print Assumptions C102_brace_element.

(** The boundary of the brace: every face deletes one of the letters 1, with alternating signs (for n = 0 the boundary
    is zero). *)
Theorem C102_boundary : forall (dt n t : Z),
  0 <= n -> 0 <= t -> t <> 1 -> dt_ok dt t ->
  gives cls_surj (surj_boundary dt (mkElt [(brace n, 1)] t BF)) t BF
    (if n =? 0 then [] else map (fun j => (brace_face n j, sgn j)) (zrange 0 (n + 1))).
Proof. exact @C102_boundary_l. Qed.
Print Assumptions C102_boundary.

(** The brace of an element y of arity s: its composite at 1 with the brace of arity n + 1 is the sum over all the ways to
    distribute the letters s + 1, ..., s + n, in their order, over the letters of the words of y. *)
Theorem C102_brace : forall (dt n s : Z) (y : surj),
  0 <= n -> 1 <= s -> wf cls_surj y -> torsion y <> 1 -> dt_ok dt (torsion y) -> keys_in (onto s) y ->
  gives cls_surj (surj_compose dt (mkElt [(brace n, 1)] (torsion y) BF) y 1) (torsion y) BF
    (extend (fun w => distribute 0 w (zrange (s + 1) (s + n + 1))) y).
Proof. exact @C102_brace_l. Qed.
Print Assumptions C102_brace.

(** The faces of the brace in terms of the product P = (1 2) and the operad structure: the inner faces multiply two
    neighbouring arguments, the two outer ones multiply the brace of one argument less by the last, or from the left by the first,
    argument. *)
Theorem C102_faces : forall (dt n t : Z),
  1 <= n -> 0 <= t -> t <> 1 -> dt_ok dt t ->
  let E m := mkElt [(brace m, 1)] t BF in let P := mkElt [([1; 2], 1)] t BF in let face j := Ok (mkElt [(brace_face n j, 1)] t BF) in
  (forall j, 1 <= j < n -> surj_compose dt (E (n - 1)) P (j + 1) = face j) /\
  surj_compose dt P (E (n - 1)) 1 = face n /\
  (let! w := surj_compose dt P (E (n - 1)) 2 in group_mul_surj dt (2 :: 1 :: zrange 3 (n + 2)) w) = face 0.
Proof. exact @C102_faces_l. Qed.
Print Assumptions C102_faces.

(** The brace of a product: the composite of the brace of arity n + 1 with the product at 1 is the sum over
    i = 0, ..., n, without signs, of the words 1 3 1 ... (i+2) 1 2 (i+3) 2 ... (n+2) 2, and each of these words is the product of the braces of
    arities i + 1 and n - i + 1, with its arguments renumbered. *)
Theorem C102_product : forall (dt n t : Z),
  0 <= n -> 0 <= t -> t <> 1 -> dt_ok dt t ->
  let E m := mkElt [(brace m, 1)] t BF in let P := mkElt [([1; 2], 1)] t BF in
  let word i := braced 1 (zrange 3 (i + 3)) ++ braced 2 (zrange (i + 3) (n + 3)) in
  gives cls_surj (surj_compose dt (E n) P 1) t BF (map (fun i => (word i, 1)) (zrange 0 (n + 1))) /\
  forall i, 0 <= i <= n ->
    (let! a := surj_compose dt P (E i) 1 in let! b := surj_compose dt a (E (n - i)) (i + 2) in
     group_mul_surj dt (1 :: zrange 3 (i + 3) ++ 2 :: zrange (i + 3) (n + 3)) b) = Ok (mkElt [(word i, 1)] t BF).
Proof. exact @C102_product_l. Qed.
Print Assumptions C102_product.

Example C102_example : brace 3 = [1; 2; 1; 3; 1; 4; 1] /\ surj_cell 4 3 (brace 3) /\ brace_face 3 1 = [1; 2; 3; 1; 4; 1] /\
  wf cls_surj (mkElt [([1; 2; 1], 1)] 0 BF) /\ keys_in (onto 2) (mkElt [([1; 2; 1], 1)] 0 BF) /\
  surj_compose 0 (mkElt [(brace 1, 1)] 0 BF) (mkElt [([1; 2; 1], 1)] 0 BF) 1
    = Ok (mkElt [([1; 3; 1; 2; 1], 1); ([1; 2; 3; 2; 1], -1); ([1; 2; 1; 3; 1], -1)] 0 BF) /\
  distribute 0 [1; 2; 1] [3] = [([1; 2; 1; 3; 1], -1); ([1; 2; 3; 2; 1], -1); ([1; 3; 1; 2; 1], 1)].
Proof. exact @C102_example_l. Qed.
