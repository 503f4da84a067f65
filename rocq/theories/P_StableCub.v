(** * Property theorems.  Generated by tools/mkprop.py from the tagged lemmas of
    StableCubLaws.v: every theorem is closed by [exact]. *)
From Coq Require Import Znumtheory Sorting.Sorted.
From Verif Require Import PyBase Dict FreeModule Symmetric Simplicial Cubical Utils Surjection Spec SpecChain SpecOperad SpecSurj SpecAction SpecCube SpecCubAction SpecCup SpecCubCup StableCubLaws.

(** The same mod 2 for cubical cochains: let [a] be a cochain whose
    coboundary vanishes mod 2 on the cubical complex [A], and [c] a chain of
    cubes mod 2 whose boundary lies in [A].  The value of
    steenrod_operation(2, s, q - 1) on the coboundary of [a] at [c] is the value
    of steenrod_operation(2, s, q) on [a] at the boundary of [c]. *)
Theorem C88_cubical : forall (dt s q e : Z) (dc : conv) (X A : list Z -> Prop) (P P' : surj) (c bc : cubc) (a : list Z -> Z),
  dt_ok dt 2 -> cubical_set A -> cub_cocycle A a -> wf cls_cubical c -> torsion c = 2 -> keys_in (cub_cell X e) c ->
  cub_boundary dt c = Ok bc -> keys_in (cub_cell A (e - 1)) bc ->
  surj_steenrod_operation dt dc 2 s q false (Some MS) = Ok P -> surj_steenrod_operation dt dc 2 s (q - 1) false (Some MS) = Ok P' ->
  exists z z', surj_call_cubical dt P' c 1 = Ok z /\ surj_call_cubical dt P bc 1 = Ok z' /\
    cub_value (on_pair (cub_coboundary a) (cub_coboundary a)) z mod 2 = cub_value (on_pair a a) z' mod 2.
Proof. exact @C88_cubical_l. Qed.
Print Assumptions C88_cubical.

(** A square, its boundary and the cochain of one edge meet
    the hypotheses; both values are 1. *)
Example C88_cubical_example : exists (P P' : surj) (c bc z z' : cubc),
  let A := fun x => In x [[0; 0]; [0; 1]; [1; 0]; [1; 1]; [2; 0]; [2; 1]; [0; 2]; [1; 2]] in
  let a := fun x => match x with [2; 0] => 1 | _ => 0 end in
  cubical_set A /\ cub_cocycle A a /\ wf cls_cubical c /\ torsion c = 2 /\ keys_in (cub_cell (fun _ => True) 2) c /\
  cub_boundary 0 c = Ok bc /\ keys_in (cub_cell A (2 - 1)) bc /\
  surj_steenrod_operation 0 BF 2 0 (-1) false (Some MS) = Ok P /\ surj_steenrod_operation 0 BF 2 0 (-1 - 1) false (Some MS) = Ok P' /\
  surj_call_cubical 0 P' c 1 = Ok z /\ surj_call_cubical 0 P bc 1 = Ok z' /\
  cub_value (on_pair (cub_coboundary a) (cub_coboundary a)) z mod 2 = 1 /\ cub_value (on_pair a a) z' mod 2 = 1.
Proof. exact @C88_cubical_example_l. Qed.
