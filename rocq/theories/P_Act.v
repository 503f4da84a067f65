(** * Property theorems.  Generated by tools/mkprop.py from the tagged lemmas of
    ActLaws.v: every theorem is closed by [exact]. *)
From Coq Require Import Znumtheory Sorting.Sorted.
From Verif Require Import PyBase Dict FreeModule Symmetric Simplicial Utils Surjection BarrattEccles Spec SpecChain SpecOperad SpecSurj SpecAction ActLaws.

(** In the McClure-Smith convention [x(y, coord)] is the
    bilinear extension of the action of a word on a tensor product of simplices
    described by [simp_acts]: cut the simplex in overlapping consecutive pieces,
    one for each letter, and join the pieces with equal letters. *)
Theorem C50_action_formula : forall (dt r d n e coord : Z) (x : surj) (y : simp),
  1 <= r -> 1 <= coord <= n -> wf cls_surj x -> wf cls_simplicial y -> torsion y = torsion x -> dt_ok dt (torsion x) -> attr x = MS ->
  keys_in (surj_cell r d) x -> keys_in (fun k => zlen k = n /\ total_degree k = e) y ->
  gives cls_simplicial (surj_call_simplicial dt x y coord) (torsion x) tt (extend2 (simp_acts r d coord) x y).
Proof. exact @C50_action_formula_l. Qed.
Print Assumptions C50_action_formula.

(** The result has arity n + r - 1 and degree e + d. *)
Theorem C50_action_degree : forall (dt r d n e coord : Z) (x : surj) (y : simp),
  1 <= r -> 1 <= coord <= n -> wf cls_surj x -> wf cls_simplicial y -> torsion y = torsion x -> dt_ok dt (torsion x) -> attr x = MS ->
  keys_in (surj_cell r d) x -> keys_in (fun k => zlen k = n /\ total_degree k = e) y ->
  exists z, surj_call_simplicial dt x y coord = Ok z /\ wf cls_simplicial z /\ torsion z = torsion x /\ keys_in (fun k => zlen k = n + r - 1 /\ total_degree k = e + d) z.
Proof. exact @C50_action_degree_l. Qed.
Print Assumptions C50_action_degree.

(** The action is additive in both arguments. *)
Theorem C50_bilinear : forall (dt r d n e coord : Z) (x x' : surj) (y y' : simp),
  1 <= r -> 1 <= coord <= n -> wf cls_surj x -> wf cls_surj x' -> wf cls_simplicial y -> wf cls_simplicial y' ->
  torsion x' = torsion x -> torsion y = torsion x -> torsion y' = torsion x -> dt_ok dt (torsion x) -> attr x = MS -> attr x' = MS ->
  keys_in (surj_cell r d) x -> keys_in (surj_cell r d) x' ->
  keys_in (fun k => zlen k = n /\ total_degree k = e) y -> keys_in (fun k => zlen k = n /\ total_degree k = e) y' ->
  same (let! s := add dt cls_surj x x' in surj_call_simplicial dt s y coord)
       (let! u := surj_call_simplicial dt x y coord in let! v := surj_call_simplicial dt x' y coord in add dt cls_simplicial u v) /\
  same (let! s := add dt cls_simplicial y y' in surj_call_simplicial dt x s coord)
       (let! u := surj_call_simplicial dt x y coord in let! v := surj_call_simplicial dt x y' coord in add dt cls_simplicial u v).
Proof. exact @C50_bilinear_l. Qed.
Print Assumptions C50_bilinear.

(** d(x(y)) == (dx)(y) + (-1)^d x(dy), for every coefficient
    ring, in the McClure-Smith convention. *)
Theorem C50_chain_map : forall (dt r d n e coord : Z) (x : surj) (y : simp),
  1 <= r -> 1 <= coord <= n -> wf cls_surj x -> wf cls_simplicial y -> torsion y = torsion x -> dt_ok dt (torsion x) -> attr x = MS ->
  keys_in (surj_cell r d) x -> keys_in (fun k => zlen k = n /\ total_degree k = e) y ->
  same (let! z := surj_call_simplicial dt x y coord in simp_boundary dt z)
       (let! dx := surj_boundary dt x in let! u := surj_call_simplicial dt dx y coord in
        let! dy := simp_boundary dt y in let! v := surj_call_simplicial dt x dy coord in let! w := scale dt cls_simplicial (sgn d) v in add dt cls_simplicial u w).
Proof. exact @C50_chain_map_l. Qed.
Print Assumptions C50_chain_map.

(** When one of the two elements is zero the result is zero, without any check. *)
Theorem C50_zero : forall (dt coord : Z) (x : surj) (y : simp),
  is_zero x \/ is_zero y ->
  exists z, surj_call_simplicial dt x y coord = Ok z /\ is_zero z /\ torsion z = torsion y.
Proof. exact @C50_zero_l. Qed.
Print Assumptions C50_zero.

(** Nonzero elements: TypeError when the factor [coord] does not
    exist or the torsions differ, NotImplementedError in another convention. *)
Theorem C50_errors : forall (dt r d n coord : Z) (x : surj) (y : simp),
  1 <= r -> keys_in (surj_cell r d) x -> keys_in (fun k => zlen k = n) y -> ~ is_zero x -> ~ is_zero y ->
  (n < coord \/ torsion x <> torsion y -> surj_call_simplicial dt x y coord = Err TypeError) /\
  (coord <= n -> torsion x = torsion y -> attr x <> MS -> surj_call_simplicial dt x y coord = Err NotImplementedError).
Proof. exact @C50_errors_l. Qed.
Print Assumptions C50_errors.

(** The hypotheses hold for x = (1,2,1) and the standard
    2-simplex; the result has three terms. *)
Example C50_example : exists x y z, surj_new 0 BF [([1; 2; 1], 1)] None (Some MS) = Ok x /\ simp_new 0 [([[0; 1; 2]], 1)] None = Ok y /\ wf cls_surj x /\ wf cls_simplicial y /\ attr x = MS /\ keys_in (surj_cell 2 1) x /\
    keys_in (fun k => zlen k = 1 /\ total_degree k = 2) y /\ surj_call_simplicial 0 x y 1 = Ok z /\
    data z = [([[0; 1; 2]; [0; 1]], -1); ([[0; 2]; [0; 1; 2]], 1); ([[0; 1; 2]; [1; 2]], -1)].
Proof. exact @C50_example_l. Qed.
