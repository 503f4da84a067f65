(** * Property theorems.  Generated by tools/mkprop.py from the tagged lemmas of
    CongLaws.v: every theorem is closed by [exact]. *)
From Coq Require Import Znumtheory Sorting.Sorted.
From Verif Require Import PyBase Dict FreeModule Symmetric Simplicial Cubical Utils Surjection BarrattEccles Spec SpecChain SpecOperad SpecSurj SpecAction SpecCube SpecCubAction SpecSusp SpecCong CongLaws.

(** Elements with the same terms, inserted in a different order, are equal; and well-formed elements are equal only if they have the same terms. *)
Theorem C95_order : forall {K A} `{KeyEq K} (c : pycls K) (x y : elt K A),
  wf c x -> wf c y -> (elt_eqb x y = true <-> Permutation (data x) (data y)).
Proof. exact @C95_order_l. Qed.
Print Assumptions C95_order.

(** Sums, differences, multiples, negatives, quotients and changes of torsion of equal elements are equal. *)
Theorem C95_arithmetic : forall {K A} `{KeyOk K} (c : pycls K) (dt n t : Z) (x x' y y' : elt K A),
  cls_ok c -> wf c x -> wf c x' -> wf c y -> wf c y' -> torsion y = torsion x -> dt_ok dt (torsion x) -> 0 <= t ->
  equal_elts x x' -> equal_elts y y' ->
  same (add dt c x y) (add dt c x' y') /\ same (sub dt c x y) (sub dt c x' y') /\
  same (iadd c x y) (iadd c x' y') /\ same (isub c x y) (isub c x' y') /\
  same (scale dt c n x) (scale dt c n x') /\ same (neg dt c x) (neg dt c x') /\ same (set_torsion c x t) (set_torsion c x' t) /\
  elt_eqb x y = elt_eqb x' y' /\
  (same (truediv dt c x n) (truediv dt c x' n) \/ exists e, truediv dt c x n = Err e /\ truediv dt c x' n = Err e).
Proof. exact @C95_arithmetic_l. Qed.
Print Assumptions C95_arithmetic.

Theorem C95_simplicial : forall (dt n d times coord : Z) (x y : simp),
  wf cls_simplicial x -> wf cls_simplicial y -> dt_ok dt (torsion x) -> equal_elts x y ->
  same (simp_boundary dt x) (simp_boundary dt y) /\ same (simp_one_reduced dt x) (simp_one_reduced dt y) /\
  simp_arity x = simp_arity y /\ simp_degree x = simp_degree y /\
  (simp_arity x = Some n -> simp_degree x = Some d -> 1 <= coord <= n -> 0 <= times ->
   same (simp_iterated_diagonal dt x times coord) (simp_iterated_diagonal dt y times coord)).
Proof. exact @C95_simplicial_l. Qed.
Print Assumptions C95_simplicial.

Theorem C95_cubical : forall (dt n d times coord : Z) (x y : cubc),
  wf cls_cubical x -> wf cls_cubical y -> dt_ok dt (torsion x) -> equal_elts x y ->
  same (cub_boundary dt x) (cub_boundary dt y) /\ same (cub_cartan_serre dt x) (cub_cartan_serre dt y) /\
  cub_arity x = cub_arity y /\ cub_degree x = cub_degree y /\
  (cub_arity x = Some n -> cub_degree x = Some d -> 1 <= coord <= n -> 0 <= times ->
   same (cub_iterated_diagonal dt x times coord) (cub_iterated_diagonal dt y times coord)) /\
  (1 <= n -> keys_in (fun k => zlen k = n /\ cube_degree k = d /\ forall c c', In c k -> In c' k -> zlen c = zlen c') x ->
   same (cub_join dt x) (cub_join dt y)).
Proof. exact @C95_cubical_l. Qed.
Print Assumptions C95_cubical.

Theorem C95_surjection : forall (dt n d : Z) (rep : repr) (x y : surj),
  1 <= n -> wf cls_surj x -> wf cls_surj y -> dt_ok dt (torsion x) -> equal_elts x y ->
  surj_arity x = surj_arity y /\ surj_degree x = surj_degree y /\ surj_complexity x = surj_complexity y /\
  (keys_in (onto n) x -> surj_filtration x = surj_filtration y) /\
  (attr x = BF \/ attr x = MS \/ torsion x = 2 -> same (surj_boundary dt x) (surj_boundary dt y)) /\
  (attr x = BF \/ attr x = MS -> rep = Trivial \/ rep = SignRep -> keys_in (onto n) x -> same (surj_orbit dt x rep) (surj_orbit dt y rep)) /\
  (attr x = BF -> keys_in (surj_cell n d) x -> same (surj_suspension dt x) (surj_suspension dt y)).
Proof. exact @C95_surjection_l. Qed.
Print Assumptions C95_surjection.

Theorem C95_barratt_eccles : forall (dt n r : Z) (rep : repr) (x y : bee),
  1 <= n -> wf cls_be x -> wf cls_be y -> dt_ok dt (torsion x) -> equal_elts x y ->
  same (be_boundary dt x) (be_boundary dt y) /\ same (be_diagonal dt x r) (be_diagonal dt y r) /\ be_degree x = be_degree y /\
  (keys_in (be_simplex n) x ->
    be_arity x = be_arity y /\ be_complexity x = be_complexity y /\ same (be_orbit dt x rep) (be_orbit dt y rep) /\ same (be_table_reduction dt x) (be_table_reduction dt y)).
Proof. exact @C95_barratt_eccles_l. Qed.
Print Assumptions C95_barratt_eccles.

(** Products and compositions in the group ring. *)
Theorem C95_ring : forall (dt r s i : Z) (x x' y y' : ring),
  0 <= r -> wf cls_ring x -> wf cls_ring x' -> wf cls_ring y -> wf cls_ring y' -> torsion y = torsion x -> dt_ok dt (torsion x) -> equal_elts x x' -> equal_elts y y' ->
  keys_in (fun k => perm r (kval k)) x ->
  (keys_in (fun k => perm r (kval k)) y -> same (ring_mul dt x y) (ring_mul dt x' y')) /\
  (keys_in (fun k => perm s (kval k)) y -> 1 <= i <= r -> keys_in (fun k => is_sge k = true) x -> keys_in (fun k => is_sge k = true) x' ->
    same (ring_compose dt x y i) (ring_compose dt x' y' i)) /\
  (1 <= r -> ring_arity x = ring_arity x').
Proof. exact @C95_ring_l. Qed.
Print Assumptions C95_ring.

(** The action of the group ring. *)
Theorem C95_action : forall (dt n : Z) (a a' : ring) (x x' : simp) (y y' : cubc) (u u' : surj) (v v' : bee),
  1 <= n -> wf cls_ring a -> wf cls_ring a' -> wf cls_simplicial x -> wf cls_simplicial x' -> wf cls_cubical y -> wf cls_cubical y' -> wf cls_surj u -> wf cls_surj u' -> wf cls_be v -> wf cls_be v' ->
  torsion x = torsion a -> torsion y = torsion a -> torsion u = torsion a -> torsion v = torsion a -> dt_ok dt (torsion a) -> attr u = BF \/ attr u = MS ->
  equal_elts a a' -> equal_elts x x' -> equal_elts y y' -> equal_elts u u' -> equal_elts v v' ->
  keys_in (fun k => perm n (kval k)) a -> keys_in (fun k => zlen k = n) x -> keys_in (fun k => zlen k = n) y -> keys_in (onto n) u -> keys_in (be_simplex n) v ->
  ~ is_zero a -> ~ is_zero x -> ~ is_zero y -> ~ is_zero u -> ~ is_zero v ->
  same (simp_act dt a x) (simp_act dt a' x') /\ same (cub_act dt a y) (cub_act dt a' y') /\ same (surj_act dt a u) (surj_act dt a' u') /\
  (keys_in (fun k => is_sge k = true) a -> keys_in (fun k => is_sge k = true) a' -> same (be_act dt a v) (be_act dt a' v')).
Proof. exact @C95_action_l. Qed.
Print Assumptions C95_action.

(** Compositions in the two operads, and the action of surjections on tensors of simplices and of cubes. *)
Theorem C95_operad : forall (dt n1 n2 p q i n e coord : Z) (x x' y y' : surj) (u u' v v' : bee) (z z' : simp) (w w' : cubc),
  1 <= i <= n1 -> 1 <= n2 -> 1 <= coord <= n ->
  wf cls_surj x -> wf cls_surj x' -> wf cls_surj y -> wf cls_surj y' -> wf cls_be u -> wf cls_be u' -> wf cls_be v -> wf cls_be v' -> wf cls_simplicial z -> wf cls_simplicial z' -> wf cls_cubical w -> wf cls_cubical w' ->
  torsion y = torsion x -> torsion u = torsion x -> torsion v = torsion x -> torsion z = torsion x -> torsion w = torsion x -> dt_ok dt (torsion x) ->
  equal_elts x x' -> equal_elts y y' -> equal_elts u u' -> equal_elts v v' -> equal_elts z z' -> equal_elts w w' ->
  keys_in (surj_cell n1 p) x -> keys_in (surj_cell n2 q) y -> keys_in (be_cell n1 p) u -> keys_in (be_cell n2 q) v ->
  keys_in (fun k => zlen k = n /\ total_degree k = e) z -> keys_in (fun k => zlen k = n /\ cube_degree k = e) w ->
  (attr x = BF \/ torsion x = 2 -> same (surj_compose dt x y i) (surj_compose dt x' y' i)) /\
  (~ is_zero u -> ~ is_zero v -> same (be_compose dt u v i) (be_compose dt u' v' i)) /\
  (attr x = MS -> same (surj_call_simplicial dt x z coord) (surj_call_simplicial dt x' z' coord)) /\
  same (surj_call_cubical dt x w coord) (surj_call_cubical dt x' w' coord).
Proof. exact @C95_operad_l. Qed.
Print Assumptions C95_operad.

(** The exceptions: a product of group ring elements is equal to an element of the constructor, but the composition accepts only the second one, and so does the action on Barratt-Eccles elements. *)
Theorem C95_refuted : exists (a p b : ring) (v : bee), wf cls_ring a /\ wf cls_ring b /\ wf cls_be v /\ ring_mul 0 a a = Ok p /\ wf cls_ring p /\ equal_elts p b /\
  ring_compose 0 p a 1 = Err AttributeError /\ (exists q, ring_compose 0 b a 1 = Ok q) /\
  be_act 0 p v = Err TypeError /\ (exists q, be_act 0 b v = Ok q).
Proof. exact @C95_refuted_l. Qed.
Print Assumptions C95_refuted.

(** Two equal elements with different insertion order: the hypotheses hold, and the composites are equal but have their terms in a different order. *)
Example C95_example : let x : surj := mkElt [([1; 2; 1; 3], 1); ([2; 1; 2; 3], 2)] 0 BF in
  let x' : surj := mkElt [([2; 1; 2; 3], 2); ([1; 2; 1; 3], 1)] 0 BF in
  let y : surj := mkElt [([1; 2; 1], 1); ([2; 1; 2], -1)] 0 BF in
  wf cls_surj x /\ wf cls_surj x' /\ equal_elts x x' /\ keys_in (surj_cell 3 1) x /\ keys_in (surj_cell 2 1) y /\ x <> x' /\
  exists z z', surj_compose 0 x y 2 = Ok z /\ surj_compose 0 x' y 2 = Ok z' /\ elt_eqb z z' = true /\ z <> z'.
Proof. exact @C95_example_l. Qed.
