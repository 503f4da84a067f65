(** * Property theorems.  Generated by tools/mkprop.py from the tagged lemmas of
    HtpyLaws.v: every theorem is closed by [exact]. *)
From Coq Require Import Znumtheory Sorting.Sorted.
From Verif Require Import PyBase Dict FreeModule Symmetric Simplicial Cubical Utils Surjection Spec SpecChain SpecOperad SpecSurj SpecAction SpecCube SpecCubAction HtpyLaws.

(** Two elements u and u' of the surjection operad of the same arity and degree
    whose boundaries are zero (and, in degree 0, whose sums of coefficients agree) give homotopic
    operations: there is one element h, of one degree more, such that for every number of
    factors, every coordinate and every chain x, d(h(x)) + (-1)^d h(dx) == u(x) - u'(x). *)
Theorem C108_simplicial : forall (dt r d : Z) (u u' : surj),
  1 <= r -> wf cls_surj u -> wf cls_surj u' -> torsion u' = torsion u -> dt_ok dt (torsion u) -> attr u = MS -> attr u' = MS ->
  keys_in (surj_cell r d) u -> keys_in (surj_cell r d) u' ->
  (1 <= d /\ (exists z, surj_boundary dt u = Ok z /\ is_zero z) /\ (exists z, surj_boundary dt u' = Ok z /\ is_zero z)) \/
  (d = 0 /\ (torsion u | zsum (map snd (data u)) - zsum (map snd (data u')))) ->
  exists h, wf cls_surj h /\ torsion h = torsion u /\ attr h = MS /\ keys_in (surj_cell r (d + 1)) h /\
    forall (n e coord : Z) (x : simp), 1 <= coord <= n -> wf cls_simplicial x -> torsion x = torsion u -> keys_in (fun k => zlen k = n /\ total_degree k = e) x ->
    same (let! z := surj_call_simplicial dt h x coord in let! a := simp_boundary dt z in
          let! dx := simp_boundary dt x in let! b := surj_call_simplicial dt h dx coord in let! b' := scale dt cls_simplicial (sgn d) b in add dt cls_simplicial a b')
         (let! p := surj_call_simplicial dt u x coord in let! q := surj_call_simplicial dt u' x coord in sub dt cls_simplicial p q).
Proof. exact @C108_simplicial_l. Qed.
Print Assumptions C108_simplicial.

(** The same for cubes with coefficients modulo 2, where the action is a chain
    map, in every sign convention. *)
Theorem C108_cubical : forall (dt r d : Z) (u u' : surj),
  1 <= r -> wf cls_surj u -> wf cls_surj u' -> torsion u = 2 -> torsion u' = 2 -> dt_ok dt 2 -> attr u' = attr u ->
  keys_in (surj_cell r d) u -> keys_in (surj_cell r d) u' ->
  (1 <= d /\ (exists z, surj_boundary dt u = Ok z /\ is_zero z) /\ (exists z, surj_boundary dt u' = Ok z /\ is_zero z)) \/
  (d = 0 /\ (2 | zsum (map snd (data u)) - zsum (map snd (data u')))) ->
  exists h, wf cls_surj h /\ torsion h = 2 /\ attr h = attr u /\ keys_in (surj_cell r (d + 1)) h /\
    forall (n e coord : Z) (x : cubc), 1 <= coord <= n -> wf cls_cubical x -> torsion x = 2 -> keys_in (fun k => zlen k = n /\ cube_degree k = e /\ forall c, In c k -> is_cube c) x ->
    same (let! z := surj_call_cubical dt h x coord in let! a := cub_boundary dt z in
          let! dx := cub_boundary dt x in let! b := surj_call_cubical dt h dx coord in let! b' := scale dt cls_cubical (sgn d) b in add dt cls_cubical a b')
         (let! p := surj_call_cubical dt u x coord in let! q := surj_call_cubical dt u' x coord in sub dt cls_cubical p q).
Proof. exact @C108_cubical_l. Qed.
Print Assumptions C108_cubical.

(** So on cycles the two operations differ by a boundary: any two elements of
    degree 0 with the same sum of coefficients (all permutations of the iterated diagonal, for
    example) induce the same map on homology, and every element of positive degree with
    boundary zero induces zero. *)
Theorem C108_cycles : forall (dt r d : Z) (u u' : surj),
  1 <= r -> wf cls_surj u -> wf cls_surj u' -> torsion u' = torsion u -> dt_ok dt (torsion u) -> attr u = MS -> attr u' = MS ->
  keys_in (surj_cell r d) u -> keys_in (surj_cell r d) u' ->
  (1 <= d /\ (exists z, surj_boundary dt u = Ok z /\ is_zero z) /\ (exists z, surj_boundary dt u' = Ok z /\ is_zero z)) \/
  (d = 0 /\ (torsion u | zsum (map snd (data u)) - zsum (map snd (data u')))) ->
  exists h, wf cls_surj h /\ torsion h = torsion u /\ attr h = MS /\ keys_in (surj_cell r (d + 1)) h /\
    forall (n e coord : Z) (x : simp), 1 <= coord <= n -> wf cls_simplicial x -> torsion x = torsion u -> keys_in (fun k => zlen k = n /\ total_degree k = e) x ->
    (exists z, simp_boundary dt x = Ok z /\ is_zero z) ->
    same (let! z := surj_call_simplicial dt h x coord in simp_boundary dt z)
         (let! p := surj_call_simplicial dt u x coord in let! q := surj_call_simplicial dt u' x coord in sub dt cls_simplicial p q).
Proof. exact @C108_cycles_l. Qed.
Print Assumptions C108_cycles.

(** The diagonal (1,2) and its transpose (2,1): the homotopy on a cycle of
    dimension 1, a triangulated circle. *)
Example C108_example : let u : surj := mkElt [([1; 2], 1)] 0 MS in let u' : surj := mkElt [([2; 1], 1)] 0 MS in let h : surj := mkElt [([2; 1; 2], 1)] 0 MS in
  let x : simp := mkElt [([[0; 1]], 1); ([[1; 2]], 1); ([[0; 2]], -1)] 0 tt in
  wf cls_surj u /\ wf cls_surj u' /\ keys_in (surj_cell 2 0) u /\ keys_in (surj_cell 2 0) u' /\ (0 | zsum (map snd (data u)) - zsum (map snd (data u'))) /\
  wf cls_simplicial x /\ keys_in (fun k => zlen k = 1 /\ total_degree k = 1) x /\ simp_boundary 0 x = Ok (mkElt [] 0 tt) /\
  same (surj_boundary 0 h) (sub 0 cls_surj u u') /\
  same (let! z := surj_call_simplicial 0 h x 1 in simp_boundary 0 z)
       (let! p := surj_call_simplicial 0 u x 1 in let! q := surj_call_simplicial 0 u' x 1 in sub 0 cls_simplicial p q) /\
  surj_call_simplicial 0 u x 1 <> surj_call_simplicial 0 u' x 1.
Proof. exact @C108_example_l. Qed.
