(** * Property theorems.  Generated by tools/mkprop.py from the tagged lemmas of
    BELaws2.v: every theorem is closed by [exact]. *)
From Coq Require Import Znumtheory Sorting.Sorted.
From Verif Require Import PyBase Dict FreeModule Symmetric Simplicial Utils Surjection BarrattEccles Spec SpecOperad BELaws2.

(** [diagonal(r)] is the sum of the cuts of the basis
    elements in [r + 1] overlapping pieces, each once and with the coefficient of
    the basis element; extended linearly. *)
Theorem C42_diagonal_formula : forall (dt r : Z) (x : bee),
  wf cls_be x -> dt_ok dt (torsion x) ->
  gives (cls_free (list bkey)) (be_diagonal dt x r) (torsion x) tt (extend (fun k => map (fun m => (m, 1)) (front_back (Z.to_nat r) k)) x).
Proof. exact @C42_diagonal_formula_l. Qed.
Print Assumptions C42_diagonal_formula.

(** Cutting any of the pieces of [diagonal(r)] again in
    [s + 1] pieces gives [diagonal(r + s)]. *)
Theorem C42_coassociative : forall (dt r s j : Z) (x : bee) (y : elt (list bkey) unit),
  wf cls_be x -> dt_ok dt (torsion x) ->
  0 <= s -> 0 <= j <= r -> be_diagonal dt x r = Ok y ->
  gives (cls_free (list bkey)) (be_diagonal dt x (r + s)) (torsion x) tt (extend (split_factor (Z.to_nat s) j) y).
Proof. exact @C42_coassociative_l. Qed.
Print Assumptions C42_coassociative.

Theorem C42_linear : forall (dt r n : Z) (x y : bee),
  wf cls_be x -> wf cls_be y -> torsion y = torsion x -> dt_ok dt (torsion x) ->
  let c := cls_free (list bkey) in
  same (let! s := add dt cls_be x y in be_diagonal dt s r)
       (let! p := be_diagonal dt x r in let! q := be_diagonal dt y r in add dt c p q) /\
  same (let! s := scale dt cls_be n x in be_diagonal dt s r)
       (let! p := be_diagonal dt x r in scale dt c n p).
Proof. exact @C42_linear_l. Qed.
Print Assumptions C42_linear.

Example C42_example : let x := mkElt [([[1; 2]; [2; 1]; [1; 2]], 5)] 0 tt in
  wf cls_be x /\
  be_diagonal 0 x 1 = Ok (mkElt [([[[1; 2]]; [[1; 2]; [2; 1]; [1; 2]]], 5); ([[[1; 2]; [2; 1]]; [[2; 1]; [1; 2]]], 5);
     ([[[1; 2]; [2; 1]; [1; 2]]; [[1; 2]]], 5)] 0 tt).
Proof. exact @C42_example_l. Qed.

(** What the code returns: 0 for arity 1 and for the zero element; for arity at
    least 2 the largest degree of a basis element. *)
Theorem C43_value : forall (n : Z) (x : bee),
  1 <= n -> wf cls_be x -> keys_in (be_simplex n) x ->
  exists c, be_complexity x = Ok c /\ 0 <= c /\
    (n = 1 -> c = 0) /\
    (2 <= n -> forall k v, In (k, v) (data x) -> zlen k - 1 <= c) /\
    (c = 0 \/ exists k v, In (k, v) (data x) /\ zlen k - 1 = c).
Proof. exact @C43_value_l. Qed.
Print Assumptions C43_value.

(** It is an upper bound for the complexity: the number of
    changes of the relative order of [i] and [j]. *)
Theorem C43_upper_bound : forall (n c : Z) (x : bee),
  1 <= n -> wf cls_be x -> keys_in (be_simplex n) x -> be_complexity x = Ok c ->
  forall k v i j, In (k, v) (data x) -> 1 <= i < j -> j <= n -> order_changes i j k <= c.
Proof. exact @C43_upper_bound_l. Qed.
Print Assumptions C43_upper_bound.

(** In arity two it is the complexity: the largest number of
    changes of the order of 1 and 2. *)
Theorem C43_arity_two : forall (x : bee),
  wf cls_be x -> keys_in (be_simplex 2) x ->
  exists c, be_complexity x = Ok c /\ (forall k v, In (k, v) (data x) -> order_changes 1 2 k <= c) /\
    (c = 0 \/ exists k v, In (k, v) (data x) /\ order_changes 1 2 k = c).
Proof. exact @C43_arity_two_l. Qed.
Print Assumptions C43_arity_two.

(** But in general it is not: for the basis element ((1,2,3),(1,3,2),(3,1,2)) the
    code returns 2 while no pair changes its order more than once. *)
Theorem C43_complexity_refuted : let x := mkElt [([[1; 2; 3]; [1; 3; 2]; [3; 1; 2]], 1)] 0 tt in
  wf cls_be x /\ keys_in (be_simplex 3) x /\ be_complexity x = Ok 2 /\
  forall k v i j, In (k, v) (data x) -> 1 <= i < j -> j <= 3 -> order_changes i j k <= 1.
Proof. exact @C43_complexity_refuted_l. Qed.
Print Assumptions C43_complexity_refuted.
