(** * Property theorems.  Generated by tools/mkprop.py from the tagged lemmas of
    IndepLaws.v: every theorem is closed by [exact]. *)
From Coq Require Import Znumtheory Sorting.Sorted.
From Verif Require Import PyBase Dict FreeModule Symmetric Simplicial Cubical Utils Surjection Spec SpecChain SpecOperad SpecSurj SpecAction SpecCube SpecCubAction IndepLaws.

(** Iterated diagonals and operations of surjection elements, applied to two different factors of simplicial
    elements, can be done in any order: with the sign (-1)^(d d') for operations of degrees d and d'. *)
Theorem C104_simplicial : forall (dt r d r' d' n e i j t t' : Z) (x y : surj) (z : simp),
  1 <= i -> i < j -> j <= n -> 1 <= r -> 1 <= r' -> 0 <= t -> 0 <= t' ->
  wf cls_surj x -> wf cls_surj y -> wf cls_simplicial z -> torsion x = torsion z -> torsion y = torsion z -> dt_ok dt (torsion z) -> attr x = MS -> attr y = MS ->
  keys_in (surj_cell r d) x -> keys_in (surj_cell r' d') y -> keys_in (fun k => zlen k = n /\ total_degree k = e) z ->
  let diagonal times coord := extended1 dt cls_simplicial (fun u => simp_iterated_diagonal dt u times coord) in
  same (let! u := surj_call_simplicial dt x z i in surj_call_simplicial dt y u (j + r - 1))
       (let! u := surj_call_simplicial dt y z j in let! v := surj_call_simplicial dt x u i in scale dt cls_simplicial (sgn (d * d')) v) /\
  same (let! u := diagonal t i z in diagonal t' (j + t) u) (let! u := diagonal t' j z in diagonal t i u) /\
  same (let! u := diagonal t i z in surj_call_simplicial dt y u (j + t)) (let! u := surj_call_simplicial dt y z j in diagonal t i u) /\
  same (let! u := surj_call_simplicial dt x z i in diagonal t' (j + r - 1) u) (let! u := diagonal t' j z in surj_call_simplicial dt x u i).
Proof. exact @C104_simplicial_l. Qed.
Print Assumptions C104_simplicial.

(** The same for cubical elements, in every convention. *)
Theorem C104_cubical : forall (dt r d r' d' n e i j t t' : Z) (x y : surj) (z : cubc),
  1 <= i -> i < j -> j <= n -> 1 <= r -> 1 <= r' -> 0 <= t -> 0 <= t' ->
  wf cls_surj x -> wf cls_surj y -> wf cls_cubical z -> torsion x = torsion z -> torsion y = torsion z -> dt_ok dt (torsion z) ->
  keys_in (surj_cell r d) x -> keys_in (surj_cell r' d') y -> keys_in (fun k => zlen k = n /\ cube_degree k = e) z ->
  let diagonal times coord := extended1 dt cls_cubical (fun u => cub_iterated_diagonal dt u times coord) in
  same (let! u := surj_call_cubical dt x z i in surj_call_cubical dt y u (j + r - 1))
       (let! u := surj_call_cubical dt y z j in let! v := surj_call_cubical dt x u i in scale dt cls_cubical (sgn (d * d')) v) /\
  same (let! u := diagonal t i z in diagonal t' (j + t) u) (let! u := diagonal t' j z in diagonal t i u) /\
  same (let! u := diagonal t i z in surj_call_cubical dt y u (j + t)) (let! u := surj_call_cubical dt y z j in diagonal t i u) /\
  same (let! u := surj_call_cubical dt x z i in diagonal t' (j + r - 1) u) (let! u := diagonal t' j z in surj_call_cubical dt x u i).
Proof. exact @C104_cubical_l. Qed.
Print Assumptions C104_cubical.

Example C104_example : let x : surj := mkElt [([1; 2; 1], 1); ([2; 1; 2], 3)] 0 MS in
  let z : simp := mkElt [([[0; 1]; [2; 3; 4]; [0; 1; 2]], 1); ([[0; 1; 2]; [3; 4; 5]; [7; 8]], 2)] 0 tt in
  wf cls_surj x /\ wf cls_simplicial z /\ keys_in (surj_cell 2 1) x /\ keys_in (fun k => zlen k = 3 /\ total_degree k = 5) z /\
  exists u v w, surj_call_simplicial 0 x z 1 = Ok u /\ surj_call_simplicial 0 x u 4 = Ok v /\ surj_call_simplicial 0 x z 3 = Ok w /\ ~ is_zero v /\
    same (surj_call_simplicial 0 x w 1) (scale 0 cls_simplicial (-1) v).
Proof. exact @C104_example_l. Qed.
