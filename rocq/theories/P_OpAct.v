(** * Property theorems.  Generated by tools/mkprop.py from the tagged lemmas of
    OpActLaws.v: every theorem is closed by [exact]. *)
From Coq Require Import Znumtheory Sorting.Sorted.
From Verif Require Import PyBase Dict FreeModule Symmetric Simplicial Cubical Utils Surjection Spec SpecChain SpecOperad SpecSurj SpecAction OpActLaws.

(** Acting with a composite is acting twice: modulo 2,
    (x o_i y)(c, coord) == y(x(c, coord), coord + i - 1). *)
Theorem C63_compose : forall (dt n1 n2 p q n e i coord : Z) (x y : surj) (c : simp),
  1 <= i <= n1 -> 1 <= n2 -> 1 <= coord <= n -> wf cls_surj x -> wf cls_surj y -> wf cls_simplicial c ->
  torsion x = 2 -> torsion y = 2 -> torsion c = 2 -> dt_ok dt 2 -> attr x = MS -> attr y = MS ->
  keys_in (surj_cell n1 p) x -> keys_in (surj_cell n2 q) y -> keys_in (fun k => zlen k = n /\ total_degree k = e) c ->
  same (let! z := surj_compose dt x y i in surj_call_simplicial dt z c coord)
       (let! u := surj_call_simplicial dt x c coord in surj_call_simplicial dt y u (coord + i - 1)).
Proof. exact @C63_compose_l. Qed.
Print Assumptions C63_compose.

(** The hypotheses hold for x = (1,2,1), y = (1,2,1), i = 1 and
    a 3-simplex; the result has ten terms. *)
Example C63_example : let x := mkElt (A := conv) [([1; 2; 1], 1)] 2 MS in let c := mkElt [([[0; 1; 2; 3]], 1)] 2 tt in
  wf cls_surj x /\ wf cls_simplicial c /\ keys_in (surj_cell 2 1) x /\ keys_in (fun k => zlen k = 1 /\ total_degree k = 3) c /\
  exists z u r, surj_compose 0 x x 1 = Ok z /\ surj_call_simplicial 0 x c 1 = Ok u /\ surj_call_simplicial 0 x u 1 = Ok r /\ (10 <=? zlen (data r)) = true /\ same (surj_call_simplicial 0 z c 1) (Ok r).
Proof. exact @C63_example_l. Qed.

(** On cubical chains the same identity fails, even
    modulo 2: x = (1,2,1), y = (1,2), i = 1, on the square. *)
Theorem C63_cubical_refuted : ~ (forall (dt n1 n2 p q n e i coord : Z) (x y : surj) (c : cubc),
    1 <= i <= n1 -> 1 <= n2 -> 1 <= coord <= n -> wf cls_surj x -> wf cls_surj y -> wf cls_cubical c ->
    torsion x = 2 -> torsion y = 2 -> torsion c = 2 -> dt_ok dt 2 -> attr x = MS -> attr y = MS ->
    keys_in (surj_cell n1 p) x -> keys_in (surj_cell n2 q) y -> keys_in (fun k => zlen k = n) c ->
    same (let! z := surj_compose dt x y i in surj_call_cubical dt z c coord)
         (let! u := surj_call_cubical dt x c coord in surj_call_cubical dt y u (coord + i - 1))).
Proof. exact @C63_cubical_refuted_l. Qed.
Print Assumptions C63_cubical_refuted.
