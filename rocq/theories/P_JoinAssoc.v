(** * Property theorems.  Generated by tools/mkprop.py from the tagged lemmas of
    JoinAssoc.v: every theorem is closed by [exact]. *)
From Coq Require Import Znumtheory Sorting.Sorted.
From Verif Require Import PyBase Dict FreeModule Symmetric Simplicial Cubical Utils Surjection Spec SpecChain SpecOperad SpecSurj SpecAction SpecCube SpecCubAction SpecTensor JoinAssoc.

(** Joining the factors of x (x) y is, up to the sign (-1)^((m - 1)(|x| + n)), joining the join of x with the join of y. *)
Theorem C106_join : forall (dt N n d m e : Z) (x y : cubc),
  wf cls_cubical x -> wf cls_cubical y -> torsion y = torsion x -> dt_ok dt (torsion x) -> 1 <= n -> 1 <= m ->
  keys_in (fun k => zlen k = n /\ cube_degree k = d /\ forall c, In c k -> zlen c = N) x ->
  keys_in (fun k => zlen k = m /\ cube_degree k = e /\ forall c, In c k -> zlen c = N) y ->
  same (let! z := cub_tensor dt x y in cub_join dt z)
       (let! u := cub_join dt x in let! v := cub_join dt y in let! z := cub_tensor dt u v in let! w := cub_join dt z in
        scale dt cls_cubical (sgn ((m - 1) * (d + n))) w).
Proof. exact @C106_join_l. Qed.
Print Assumptions C106_join.

(** The binary join of elements of arity one is associative up to the sign -(-1)^|x|. *)
Theorem C106_associative : forall (dt N d e f : Z) (x y z : cubc),
  wf cls_cubical x -> wf cls_cubical y -> wf cls_cubical z -> torsion y = torsion x -> torsion z = torsion x -> dt_ok dt (torsion x) ->
  keys_in (fun k => zlen k = 1 /\ cube_degree k = d /\ forall c, In c k -> zlen c = N) x ->
  keys_in (fun k => zlen k = 1 /\ cube_degree k = e /\ forall c, In c k -> zlen c = N) y ->
  keys_in (fun k => zlen k = 1 /\ cube_degree k = f /\ forall c, In c k -> zlen c = N) z ->
  let join u v := let! w := cub_tensor dt u v in cub_join dt w in
  same (let! p := join x y in join p z) (let! q := join y z in let! r := join x q in scale dt cls_cubical (- sgn d) r).
Proof. exact @C106_associative_l. Qed.
Print Assumptions C106_associative.

Example C106_example : let x : cubc := mkElt [([[2; 0; 0; 0; 0]; [0; 1; 1; 1; 1]], 2)] 0 tt in
  let y : cubc := mkElt [([[0; 0; 0; 0; 0]; [1; 1; 1; 1; 1]], 1)] 0 tt in
  wf cls_cubical x /\ wf cls_cubical y /\
  keys_in (fun k => zlen k = 2 /\ cube_degree k = 1 /\ forall c, In c k -> zlen c = 5) x /\
  exists u v w, cub_join 0 x = Ok u /\ cub_join 0 y = Ok v /\ (let! z := cub_tensor 0 u v in cub_join 0 z) = Ok w /\ ~ is_zero w.
Proof. exact @C106_example_l. Qed.
