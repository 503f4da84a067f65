(** * Property theorems.  Generated by tools/mkprop.py from the tagged lemmas of
    StnCube.v: every theorem is closed by [exact]. *)
From Coq Require Import Znumtheory Sorting.Sorted.
From Verif Require Import PyBase Dict FreeModule Symmetric Cubical Surjection Spec SpecChain SpecSurj SpecCube StnCube.

(** The same for shape='cube': the part of op(standard cube) on the
    products of [p] cubes of dimension -q, when the dimension [n] of the cube
    is not negative. *)
Theorem C61_cube : forall (dt p s q n : Z) (b : bool) (dc : conv) (S : surj),
  p = 2 \/ (3 <= p /\ Z.even p = false) -> dt_ok dt p -> surj_steenrod_operation dt dc p s q b (Some MS) = Ok S ->
  n = (if p =? 2 then - (q + s) else - (q + 2 * s * (p - 1) - (if b then 1 else 0))) -> 0 <= n ->
  exists el r z, cub_standard_element dt n 1 (Some p) = Ok el /\ surj_call_cubical dt S el 1 = Ok r /\
    steenrod_chain_cube dt dc p s q b = Ok z /\ wf cls_cubical z /\ torsion z = p /\
    keys_in (fun k => zlen k = p /\ forall u, In u k -> dim u = - q) z /\
    same (Ok z) (Ok (mkElt (filter (fun kv => forallb (fun u => dim u =? - q) (fst kv)) (data r)) p tt)).
Proof. exact @C61_cube_l. Qed.
Print Assumptions C61_cube.

(** Two non-zero chains; and when the dimension of the cube would be negative the code uses the 0-cube, so the chain is not zero. *)
Example C61_cube_example : (exists z, steenrod_chain_cube 0 BF 2 (-1) (-2) false = Ok z /\ zlen (data z) = 6) /\
  (exists z, steenrod_chain_cube 0 BF 2 0 (-1) false = Ok z /\ data z = [([[2]; [2]], 1)]) /\
  (exists z, steenrod_chain_cube 0 BF 2 1 1 false = Ok z /\ data z = [([[]; []], 1)]).
Proof. exact @C61_cube_example_l. Qed.
