(** * Property theorems.  Generated by tools/mkprop.py from the tagged lemmas of
    TableOnto.v: every theorem is closed by [exact]. *)
From Coq Require Import Znumtheory Sorting.Sorted.
From Verif Require Import PyBase Dict FreeModule Symmetric Simplicial Utils Surjection BarrattEccles Spec SpecChain SpecOperad SpecSurj TableOnto.

(** Every surjection element in the Berger-Fresse convention, of arity n and degree d,
    is the table reduction of a Barratt-Eccles element of the same arity, degree and torsion, in
    whose basis elements no two letters change their order more often than allowed by a basis
    element of the surjection element: the table reduction maps every stage of the complexity
    filtration onto the corresponding stage. *)
Theorem C94_onto : forall (dt n d : Z) (y : surj),
  1 <= n -> wf cls_surj y -> dt_ok dt (torsion y) -> attr y = BF -> keys_in (surj_cell n d) y ->
  exists x : bee, wf cls_be x /\ torsion x = torsion y /\ keys_in (be_cell n d) x /\ same (be_table_reduction dt x) (Ok y) /\
    keys_in (fun k => exists w v, In (w, v) (data y) /\ forall i j, 1 <= i < j -> j <= n -> order_changes i j k + 1 = switches i j w) x.
Proof. exact @C94_onto_l. Qed.
Print Assumptions C94_onto.

(** Every cycle of the surjection operad is the table reduction of a cycle of the Barratt-Eccles operad of the same arity and degree. *)
Theorem C94_cycles : forall (dt n d : Z) (y : surj),
  1 <= n -> 0 <= d -> wf cls_surj y -> dt_ok dt (torsion y) -> attr y = BF -> keys_in (surj_cell n d) y ->
  (exists z, surj_boundary dt y = Ok z /\ is_zero z) ->
  exists x : bee, wf cls_be x /\ torsion x = torsion y /\ keys_in (be_cell n d) x /\ (exists z, be_boundary dt x = Ok z /\ is_zero z) /\ same (be_table_reduction dt x) (Ok y).
Proof. exact @C94_cycles_l. Qed.
Print Assumptions C94_cycles.

(** A cycle of the Barratt-Eccles operad is a boundary if and only if its table reduction is a boundary. *)
Theorem C94_boundaries : forall (dt n d : Z) (x : bee) (y : surj),
  1 <= n -> 0 <= d -> wf cls_be x -> dt_ok dt (torsion x) -> keys_in (be_cell n d) x -> (exists z, be_boundary dt x = Ok z /\ is_zero z) ->
  be_table_reduction dt x = Ok y ->
  (exists v, wf cls_be v /\ torsion v = torsion x /\ keys_in (be_cell n (d + 1)) v /\ same (be_boundary dt v) (Ok x)) <->
  (exists w, wf cls_surj w /\ torsion w = torsion x /\ attr w = BF /\ keys_in (surj_cell n (d + 1)) w /\ same (surj_boundary dt w) (Ok y)).
Proof. exact @C94_boundaries_l. Qed.
Print Assumptions C94_boundaries.

(** Every basis element of the surjection operad is the table reduction of one basis element. *)
Theorem C94_basis : forall (dt n d t : Z) (w : list Z),
  1 <= n -> 0 <= t -> t <> 1 -> dt_ok dt t -> surj_cell n d w -> ~ repeats w ->
  exists k, be_cell n d k /\ ~ repeats k /\ (forall i j, 1 <= i < j -> j <= n -> order_changes i j k + 1 = switches i j w) /\
    same (be_table_reduction dt (mkElt [(k, 1)] t tt)) (Ok (mkElt [(w, 1)] t BF)).
Proof. exact @C94_basis_l. Qed.
Print Assumptions C94_basis.

(** A preimage of 1213 + 2123 modulo 3; and three basis elements whose combination is sent to zero: the table reduction is not injective. *)
Example C94_example : let y : surj := mkElt [([1; 2; 1; 3], 1); ([2; 1; 2; 3], 2)] 3 BF in
  let x : bee := mkElt [([[1; 2; 3]; [2; 1; 3]], 1); ([[2; 1; 3]; [1; 2; 3]], 2)] 3 tt in
  let b : bee := mkElt [([[1; 2; 3]; [3; 2; 1]], 1); ([[1; 3; 2]; [3; 2; 1]], -1); ([[1; 2; 3]; [1; 3; 2]], -1)] 0 tt in
  (wf cls_surj y /\ attr y = BF /\ keys_in (surj_cell 3 1) y) /\
  (wf cls_be x /\ keys_in (be_cell 3 1) x /\ be_table_reduction 3 x = Ok y) /\
  (wf cls_be b /\ keys_in (be_cell 3 1) b /\ exists z, be_table_reduction 0 b = Ok z /\ is_zero z).
Proof. exact @C94_example_l. Qed.
