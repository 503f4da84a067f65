(** * Property theorems.  Generated by tools/mkprop.py from the tagged lemmas of
    TableLaws.v: every theorem is closed by [exact]. *)
From Coq Require Import Znumtheory Sorting.Sorted.
From Verif Require Import PyBase Dict FreeModule Symmetric Simplicial Utils Surjection BarrattEccles Spec SpecChain SpecOperad SpecSurj TableLaws.

(** The table reduction of a sequence of permutations is
    the sum, with coefficients 1, of the words that can be read off the table. *)
Theorem C39_table_formula : forall (dt n : Z) (x : bee),
  1 <= n -> wf cls_be x -> dt_ok dt (torsion x) -> keys_in (be_simplex n) x ->
  gives cls_surj (be_table_reduction dt x) (torsion x) BF (extend (fun k => map (fun w => (w, 1)) (table_words [] k)) x).
Proof. exact @C39_table_formula_l. Qed.
Print Assumptions C39_table_formula.

(** The result is in the Berger-Fresse convention and has the
    arity and the degree of the argument. *)
Theorem C39_table_degree : forall (dt n d : Z) (x : bee),
  1 <= n -> wf cls_be x -> dt_ok dt (torsion x) -> keys_in (be_cell n d) x ->
  exists y, be_table_reduction dt x = Ok y /\ wf cls_surj y /\ torsion y = torsion x /\ attr y = BF /\ keys_in (surj_cell n d) y.
Proof. exact @C39_table_degree_l. Qed.
Print Assumptions C39_table_degree.

(** Table reduction is additive. *)
Theorem C39_linear : forall (dt n : Z) (x y : bee),
  1 <= n -> wf cls_be x -> wf cls_be y -> torsion y = torsion x -> dt_ok dt (torsion x) -> keys_in (be_simplex n) x -> keys_in (be_simplex n) y ->
  same (let! s := add dt cls_be x y in be_table_reduction dt s) (let! u := be_table_reduction dt x in let! v := be_table_reduction dt y in add dt cls_surj u v).
Proof. exact @C39_linear_l. Qed.
Print Assumptions C39_linear.

(** The table reduction of the boundary is the boundary of the
    table reduction. *)
Theorem C39_chain_map : forall (dt n : Z) (x : bee),
  1 <= n -> wf cls_be x -> dt_ok dt (torsion x) -> keys_in (be_simplex n) x ->
  same (let! dx := be_boundary dt x in be_table_reduction dt dx) (let! y := be_table_reduction dt x in surj_boundary dt y).
Proof. exact @C39_chain_map_l. Qed.
Print Assumptions C39_chain_map.

(** The docstring example, of arity 4 and degree 2. *)
Example C39_example : exists x y, be_new 0 [([[1; 2; 3; 4]; [1; 4; 3; 2]; [1; 2; 4; 3]], 1)] None = Ok x /\ wf cls_be x /\ keys_in (be_cell 4 2) x /\
    be_table_reduction 0 x = Ok y /\ data y = [([1; 2; 4; 2; 4; 3], 1); ([1; 2; 4; 3; 2; 3], 1)].
Proof. exact @C39_example_l. Qed.

(** (a * x).table_reduction() == a * x.table_reduction(),
    extended by zero. *)
Theorem C40_equivariant : forall (dt n : Z) (a : ring) (x : bee),
  1 <= n -> wf cls_ring a -> wf cls_be x -> torsion a = torsion x -> dt_ok dt (torsion x) ->
  keys_in (fun k => is_sge k = true /\ perm n (kval k)) a -> keys_in (be_simplex n) x ->
  same (let! y := extended dt cls_be (be_act dt) a x in be_table_reduction dt y)
       (let! y := be_table_reduction dt x in extended dt cls_surj (surj_act dt) a y).
Proof. exact @C40_equivariant_l. Qed.
Print Assumptions C40_equivariant.

(** (x o_i y).table_reduction() ==
    x.table_reduction() o_i y.table_reduction(), extended by zero. *)
Theorem C41_operad_morphism : forall (dt n1 n2 p q i : Z) (x y : bee),
  1 <= i <= n1 -> 1 <= n2 -> wf cls_be x -> wf cls_be y -> torsion y = torsion x -> dt_ok dt (torsion x) ->
  keys_in (be_cell n1 p) x -> keys_in (be_cell n2 q) y ->
  same (let! z := extended dt cls_be (fun x y => be_compose dt x y i) x y in be_table_reduction dt z)
       (let! u := be_table_reduction dt x in let! v := be_table_reduction dt y in surj_compose dt u v i).
Proof. exact @C41_operad_morphism_l. Qed.
Print Assumptions C41_operad_morphism.

(** Both sides for x = y = ((1,2),(2,1)), i = 1: three terms. *)
Example C41_example : exists x z u w w', be_new 0 [([[1; 2]; [2; 1]], 1)] None = Ok x /\ wf cls_be x /\ keys_in (be_cell 2 1) x /\
    be_compose 0 x x 1 = Ok z /\ be_table_reduction 0 x = Ok u /\ surj_compose 0 u u 1 = Ok w /\
    be_table_reduction 0 z = Ok w' /\ data w = [([1; 3; 1; 2; 1], 1); ([1; 2; 3; 2; 1], -1); ([1; 2; 1; 3; 1], -1)] /\ data w' = [([1; 2; 3; 2; 1], -1); ([1; 2; 1; 3; 1], -1); ([1; 3; 1; 2; 1], 1)].
Proof. exact @C41_example_l. Qed.
