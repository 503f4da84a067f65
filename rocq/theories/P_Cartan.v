(** * Property theorems.  Generated by tools/mkprop.py from the tagged lemmas of
    CartanLaws.v: every theorem is closed by [exact]. *)
From Coq Require Import Znumtheory Sorting.Sorted.
From Verif Require Import PyBase Dict FreeModule Symmetric Simplicial Cubical Utils Surjection Spec SpecChain SpecOperad SpecSurj SpecAction SpecCube SpecCubAction SpecCartan CartanLaws.

(** The Cartan-Serre map commutes with the iterated diagonals:
    for every number of times, every factor, every torsion, with the exact
    signs (both diagonals extended by zero to the zero element, where the code
    raises TypeError). *)
Theorem C76_diagonal : forall (dt n d times coord : Z) (x : cubc),
  wf cls_cubical x -> dt_ok dt (torsion x) -> keys_in (fun k => zlen k = n /\ cube_degree k = d) x -> 1 <= coord <= n -> 0 <= times ->
  same (let! y := extended1 dt cls_cubical (fun z => cub_iterated_diagonal dt z times coord) x in cub_cartan_serre dt y)
       (let! y := cub_cartan_serre dt x in extended1 dt cls_simplicial (fun z => simp_iterated_diagonal dt z times coord) y).
Proof. exact @C76_diagonal_l. Qed.
Print Assumptions C76_diagonal.

(** The Cartan-Serre map takes the action on cubes to the
    action on simplices, for every torsion, with the exact sign: if the words of x
    have arity at least three (or no letter three times) and the comparison
    sign eps, then the image of x(y) is (eps x)(image of y). *)
Theorem C76_action_sign : forall (dt r d n e coord eps : Z) (x : surj) (y : cubc),
  1 <= r -> 1 <= coord <= n -> wf cls_surj x -> attr x = MS -> wf cls_cubical y -> torsion y = torsion x -> dt_ok dt (torsion x) ->
  keys_in (fun k => surj_cell r d k /\ comparable r k /\ comparison_sign r k = eps) x ->
  keys_in (fun k => zlen k = n /\ cube_degree k = e /\ forall c, In c k -> is_cube c) y ->
  same (let! z := surj_call_cubical dt x y coord in cub_cartan_serre dt z)
       (let! x' := scale dt cls_surj eps x in let! y' := cub_cartan_serre dt y in surj_call_simplicial dt x' y' coord).
Proof. exact @C76_action_sign_l. Qed.
Print Assumptions C76_action_sign.

(** With coefficients mod 2 the Cartan-Serre map commutes with
    the action of every element x of the surjection operad, of every arity and
    degree. *)
Theorem C76_action_mod2 : forall (dt r d n e coord : Z) (x : surj) (y : cubc),
  1 <= r -> 1 <= coord <= n -> wf cls_surj x -> attr x = MS -> torsion x = 2 -> wf cls_cubical y -> torsion y = 2 -> dt_ok dt 2 ->
  keys_in (surj_cell r d) x -> keys_in (fun k => zlen k = n /\ cube_degree k = e /\ forall c, In c k -> is_cube c) y ->
  same (let! z := surj_call_cubical dt x y coord in cub_cartan_serre dt z)
       (let! y' := cub_cartan_serre dt y in surj_call_simplicial dt x y' coord).
Proof. exact @C76_action_mod2_l. Qed.
Print Assumptions C76_action_mod2.

(** The restriction on letters in arity two is necessary: for
    (1,2,1,2,1) and the 4-cube the image of x(y) is neither x(image of y) nor
    its negative. *)
Theorem C76_refuted : exists x y z u v y' w, surj_new 0 MS [([1; 2; 1; 2; 1], 1)] None (Some MS) = Ok x /\ cub_new 0 [([[2; 2; 2; 2]], 1)] None = Ok y /\
    surj_call_cubical 0 x y 1 = Ok z /\ cub_cartan_serre 0 z = Ok u /\ cub_cartan_serre 0 y = Ok y' /\ surj_call_simplicial 0 x y' 1 = Ok v /\ neg 0 cls_simplicial v = Ok w /\
    dget (data u) [[0; 1; 2; 3; 4]; [1; 2; 3; 4]] <> dget (data w) [[0; 1; 2; 3; 4]; [1; 2; 3; 4]] /\
    dget (data u) [[0; 1; 2; 3; 4]; [0; 1; 3; 4]] <> dget (data v) [[0; 1; 2; 3; 4]; [0; 1; 3; 4]].
Proof. exact @C76_refuted_l. Qed.
Print Assumptions C76_refuted.

(** The hypotheses hold for x = (1,2,3,1) and the square, with
    comparison sign -1; the image of x(y) has seven terms. *)
Example C76_example : exists x y u, surj_new 0 MS [([1; 2; 3; 1], 1)] None (Some MS) = Ok x /\ cub_new 0 [([[2; 2]], 1)] None = Ok y /\ wf cls_surj x /\ wf cls_cubical y /\ attr x = MS /\
    keys_in (fun k => surj_cell 3 1 k /\ comparable 3 k /\ comparison_sign 3 k = -1) x /\ keys_in (fun k => zlen k = 1 /\ cube_degree k = 2 /\ forall c, In c k -> is_cube c) y /\
    (let! z := surj_call_cubical 0 x y 1 in cub_cartan_serre 0 z) = Ok u /\
    data u = [([[0; 1; 2]; [1; 2]; [2]], 1); ([[0; 1; 2]; [1]; [1; 2]], 1); ([[0; 2]; [0; 1; 2]; [2]], -1); ([[0; 2]; [0; 1]; [1; 2]], -1);
              ([[0; 1; 2]; [0; 1]; [1]], 1); ([[0; 2]; [0]; [0; 1; 2]], -1); ([[0; 1; 2]; [0]; [0; 1]], 1)].
Proof. exact @C76_example_l. Qed.
