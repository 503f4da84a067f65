(** * Property theorems.  Generated by tools/mkprop.py from the tagged lemmas of
    CubActLaws.v: every theorem is closed by [exact]. *)
From Coq Require Import Znumtheory Sorting.Sorted.
From Verif Require Import PyBase Dict FreeModule Symmetric Simplicial Cubical Utils Surjection BarrattEccles Spec SpecChain SpecOperad SpecSurj SpecAction SpecCube SpecCubAction CubActLaws.

(** In every convention [x(y, coord)] is the bilinear
    extension of the action of a word on a tensor product of cubes described by
    [cub_acts]: apply the iterated Serre diagonal, one piece for each letter, and
    join the pieces with equal letters. *)
Theorem C51_action_formula : forall (dt r d n e coord : Z) (x : surj) (y : cubc),
  1 <= r -> 1 <= coord <= n -> wf cls_surj x -> wf cls_cubical y -> torsion y = torsion x -> dt_ok dt (torsion x) ->
  keys_in (surj_cell r d) x -> keys_in (fun k => zlen k = n /\ cube_degree k = e) y ->
  gives cls_cubical (surj_call_cubical dt x y coord) (torsion x) tt (extend2 (cub_acts r d coord) x y).
Proof. exact @C51_action_formula_l. Qed.
Print Assumptions C51_action_formula.

(** The result has arity n + r - 1 and degree e + d. *)
Theorem C51_action_degree : forall (dt r d n e coord : Z) (x : surj) (y : cubc),
  1 <= r -> 1 <= coord <= n -> wf cls_surj x -> wf cls_cubical y -> torsion y = torsion x -> dt_ok dt (torsion x) ->
  keys_in (surj_cell r d) x -> keys_in (fun k => zlen k = n /\ cube_degree k = e) y ->
  exists z, surj_call_cubical dt x y coord = Ok z /\ wf cls_cubical z /\ torsion z = torsion x /\ keys_in (fun k => zlen k = n + r - 1 /\ cube_degree k = e + d) z.
Proof. exact @C51_action_degree_l. Qed.
Print Assumptions C51_action_degree.

(** The action is additive in both arguments. *)
Theorem C51_bilinear : forall (dt r d n e coord : Z) (x x' : surj) (y y' : cubc),
  1 <= r -> 1 <= coord <= n -> wf cls_surj x -> wf cls_surj x' -> wf cls_cubical y -> wf cls_cubical y' ->
  torsion x' = torsion x -> torsion y = torsion x -> torsion y' = torsion x -> dt_ok dt (torsion x) -> attr x' = attr x ->
  keys_in (surj_cell r d) x -> keys_in (surj_cell r d) x' ->
  keys_in (fun k => zlen k = n /\ cube_degree k = e) y -> keys_in (fun k => zlen k = n /\ cube_degree k = e) y' ->
  same (let! s := add dt cls_surj x x' in surj_call_cubical dt s y coord)
       (let! u := surj_call_cubical dt x y coord in let! v := surj_call_cubical dt x' y coord in add dt cls_cubical u v) /\
  same (let! s := add dt cls_cubical y y' in surj_call_cubical dt x s coord)
       (let! u := surj_call_cubical dt x y coord in let! v := surj_call_cubical dt x y' coord in add dt cls_cubical u v).
Proof. exact @C51_bilinear_l. Qed.
Print Assumptions C51_bilinear.

(** With coefficients mod 2, d(x(y)) == (dx)(y) + x(dy) for
    every convention, every arity and every degree. *)
Theorem C51_mod2_chain_map : forall (dt r d n e coord : Z) (x : surj) (y : cubc),
  1 <= r -> 1 <= coord <= n -> wf cls_surj x -> wf cls_cubical y -> torsion x = 2 -> torsion y = 2 -> dt_ok dt 2 ->
  keys_in (surj_cell r d) x -> keys_in (fun k => zlen k = n /\ cube_degree k = e /\ forall c, In c k -> is_cube c) y ->
  same (let! z := surj_call_cubical dt x y coord in cub_boundary dt z)
       (let! dx := surj_boundary dt x in let! u := surj_call_cubical dt dx y coord in
        let! dy := cub_boundary dt y in let! v := surj_call_cubical dt x dy coord in let! w := scale dt cls_cubical (sgn d) v in add dt cls_cubical u w).
Proof. exact @C51_mod2_chain_map_l. Qed.
Print Assumptions C51_mod2_chain_map.

(** Over the integers the naive chain map identity
    d(x(y)) == (dx)(y) + (-1)^d x(dy) is FALSE for the code: it fails for
    (1,2,1,2,1) in the Berger-Fresse convention on the 3-cube, for (2,1,2,1) in the
    McClure-Smith convention on the square, and for arity 3 already on the interval. *)
Theorem C51_refuted : chain_map_fails BF [1; 2; 1; 2; 1] 2 3 [[2; 2; 2]] /\ chain_map_fails MS [2; 1; 2; 1] 2 2 [[2; 2]] /\
  chain_map_fails BF [1; 2; 1; 3] 3 1 [[2]].
Proof. exact @C51_refuted_l. Qed.
Print Assumptions C51_refuted.

(** When one of the two elements is zero the result is zero, without any check. *)
Theorem C51_zero : forall (dt coord : Z) (x : surj) (y : cubc),
  is_zero x \/ is_zero y ->
  exists z, surj_call_cubical dt x y coord = Ok z /\ is_zero z /\ torsion z = torsion y.
Proof. exact @C51_zero_l. Qed.
Print Assumptions C51_zero.

(** Nonzero elements: TypeError when the factor [coord] does not
    exist or the torsions differ. *)
Theorem C51_errors : forall (dt r d n coord : Z) (x : surj) (y : cubc),
  1 <= r -> keys_in (surj_cell r d) x -> keys_in (fun k => zlen k = n) y -> ~ is_zero x -> ~ is_zero y ->
  n < coord \/ torsion x <> torsion y -> surj_call_cubical dt x y coord = Err TypeError.
Proof. exact @C51_errors_l. Qed.
Print Assumptions C51_errors.

(** The hypotheses hold for x = (1,2,1) mod 2 and the square; the
    result has four terms. *)
Example C51_example : exists x y z, surj_new 0 BF [([1; 2; 1], 1)] (Some 2) None = Ok x /\ cub_new 0 [([[2; 2]], 1)] (Some 2) = Ok y /\ wf cls_surj x /\ wf cls_cubical y /\ torsion x = 2 /\ keys_in (surj_cell 2 1) x /\
    keys_in (fun k => zlen k = 1 /\ cube_degree k = 2 /\ forall c, In c k -> is_cube c) y /\ surj_call_cubical 0 x y 1 = Ok z /\
    data z = [([[2; 2]; [1; 2]], 1); ([[2; 1]; [2; 2]], 1); ([[0; 2]; [2; 2]], 1); ([[2; 2]; [2; 0]], 1)].
Proof. exact @C51_example_l. Qed.
