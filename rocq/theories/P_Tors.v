(** * Property theorems.  Generated by tools/mkprop.py from the tagged lemmas of
    TorsLaws.v: every theorem is closed by [exact]. *)
From Coq Require Import Znumtheory Sorting.Sorted.
From Verif Require Import PyBase Dict FreeModule Symmetric Simplicial Cubical Utils Surjection BarrattEccles Spec SpecChain SpecOperad SpecSurj SpecAction SpecCube SpecCubAction SpecSusp SpecCong TorsLaws.

Theorem C103_simplicial : forall (dt m n d times coord : Z) (x x' : simp),
  wf cls_simplicial x -> 0 <= m -> (m | torsion x) -> dt_ok dt (torsion x) -> dt_ok dt m -> set_torsion cls_simplicial x m = Ok x' ->
  same (let! y := simp_boundary dt x in set_torsion cls_simplicial y m) (simp_boundary dt x') /\
  same (let! y := simp_one_reduced dt x in set_torsion cls_simplicial y m) (simp_one_reduced dt x') /\
  (~ is_zero x' -> simp_arity x = Some n -> simp_degree x = Some d -> 1 <= coord <= n -> 0 <= times ->
   same (let! y := simp_iterated_diagonal dt x times coord in set_torsion cls_simplicial y m) (simp_iterated_diagonal dt x' times coord)).
Proof. exact @C103_simplicial_l. Qed.
Print Assumptions C103_simplicial.

Theorem C103_cubical : forall (dt m n d times coord : Z) (x x' : cubc),
  wf cls_cubical x -> 0 <= m -> (m | torsion x) -> dt_ok dt (torsion x) -> dt_ok dt m -> set_torsion cls_cubical x m = Ok x' ->
  same (let! y := cub_boundary dt x in set_torsion cls_cubical y m) (cub_boundary dt x') /\
  same (let! y := cub_cartan_serre dt x in set_torsion cls_simplicial y m) (cub_cartan_serre dt x') /\
  (~ is_zero x' -> cub_arity x = Some n -> cub_degree x = Some d -> 1 <= coord <= n -> 0 <= times ->
   same (let! y := cub_iterated_diagonal dt x times coord in set_torsion cls_cubical y m) (cub_iterated_diagonal dt x' times coord)) /\
  (1 <= n -> keys_in (fun k => zlen k = n /\ cube_degree k = d /\ forall c c', In c k -> In c' k -> zlen c = zlen c') x ->
   same (let! y := cub_join dt x in set_torsion cls_cubical y m) (cub_join dt x')).
Proof. exact @C103_cubical_l. Qed.
Print Assumptions C103_cubical.

Theorem C103_surjection : forall (dt m n d : Z) (rep : repr) (x x' : surj),
  wf cls_surj x -> 0 <= m -> (m | torsion x) -> dt_ok dt (torsion x) -> dt_ok dt m -> set_torsion cls_surj x m = Ok x' -> attr x = BF \/ attr x = MS ->
  same (let! y := surj_boundary dt x in set_torsion cls_surj y m) (surj_boundary dt x') /\
  (1 <= n -> rep = Trivial \/ rep = SignRep -> keys_in (onto n) x -> same (let! y := surj_orbit dt x rep in set_torsion cls_surj y m) (surj_orbit dt x' rep)) /\
  (1 <= n -> attr x = BF -> keys_in (surj_cell n d) x -> same (let! y := surj_suspension dt x in set_torsion cls_surj y m) (surj_suspension dt x')).
Proof. exact @C103_surjection_l. Qed.
Print Assumptions C103_surjection.

Theorem C103_barratt_eccles : forall (dt m n r : Z) (rep : repr) (x x' : bee),
  wf cls_be x -> 0 <= m -> (m | torsion x) -> dt_ok dt (torsion x) -> dt_ok dt m -> set_torsion cls_be x m = Ok x' ->
  same (let! y := be_boundary dt x in set_torsion cls_be y m) (be_boundary dt x') /\
  same (let! y := be_diagonal dt x r in set_torsion (cls_free (list bkey)) y m) (be_diagonal dt x' r) /\
  (1 <= n -> keys_in (be_simplex n) x ->
    same (let! y := be_orbit dt x rep in set_torsion cls_be y m) (be_orbit dt x' rep) /\
    same (let! y := be_table_reduction dt x in set_torsion cls_surj y m) (be_table_reduction dt x')).
Proof. exact @C103_barratt_eccles_l. Qed.
Print Assumptions C103_barratt_eccles.

(** Constructing modulo [t] and reducing is constructing modulo [m]; the same for [create]. *)
Theorem C103_constructor : forall {K A} `{KO : KeyOk K} (c : pycls K) (dt t m : Z) (d : dict K) (a : A) (x x' : elt K A),
  cls_ok c -> 0 <= t -> 0 <= m -> (m | t) -> kdistinct (dkeys d) -> (forall k, In k (dkeys d) -> exists b, bad c k = Ok b) ->
  same (let! y := new dt c d (Some t) a in set_torsion c y m) (new dt c d (Some m) a) /\
  (wf c x -> torsion x = t -> dt_ok dt t -> dt_ok dt m -> set_torsion c x m = Ok x' ->
   same (let! y := create dt c x d in set_torsion c y m) (create dt c x' d)).
Proof. exact @C103_constructor_l. Qed.
Print Assumptions C103_constructor.

(** Products and compositions in the group ring. *)
Theorem C103_ring : forall (dt m r s i : Z) (x x' y y' : ring),
  0 <= r -> wf cls_ring x -> wf cls_ring y -> torsion y = torsion x -> 0 <= m -> (m | torsion x) -> dt_ok dt (torsion x) -> dt_ok dt m ->
  set_torsion cls_ring x m = Ok x' -> set_torsion cls_ring y m = Ok y' -> keys_in (fun k => perm r (kval k)) x ->
  (keys_in (fun k => perm r (kval k)) y -> same (let! z := ring_mul dt x y in set_torsion cls_ring z m) (ring_mul dt x' y')) /\
  (keys_in (fun k => perm s (kval k)) y -> 1 <= i <= r -> keys_in (fun k => is_sge k = true) x ->
    same (let! z := ring_compose dt x y i in set_torsion cls_ring z m) (ring_compose dt x' y' i)).
Proof. exact @C103_ring_l. Qed.
Print Assumptions C103_ring.

(** The action of the group ring on every class (of elements that do not become zero, because the code refuses zero
    operands: C58). *)
Theorem C103_action : forall (dt m n : Z) (a a' : ring) (x x' : simp) (y y' : cubc) (u u' : surj) (v v' : bee),
  1 <= n -> wf cls_ring a -> wf cls_simplicial x -> wf cls_cubical y -> wf cls_surj u -> wf cls_be v ->
  torsion x = torsion a -> torsion y = torsion a -> torsion u = torsion a -> torsion v = torsion a -> 0 <= m -> (m | torsion a) -> dt_ok dt (torsion a) -> dt_ok dt m -> attr u = BF \/ attr u = MS ->
  set_torsion cls_ring a m = Ok a' -> set_torsion cls_simplicial x m = Ok x' -> set_torsion cls_cubical y m = Ok y' -> set_torsion cls_surj u m = Ok u' -> set_torsion cls_be v m = Ok v' ->
  keys_in (fun k => perm n (kval k)) a -> keys_in (fun k => zlen k = n) x -> keys_in (fun k => zlen k = n) y -> keys_in (onto n) u -> keys_in (be_simplex n) v ->
  ~ is_zero a' ->
  (~ is_zero x' -> same (let! z := simp_act dt a x in set_torsion cls_simplicial z m) (simp_act dt a' x')) /\
  (~ is_zero y' -> same (let! z := cub_act dt a y in set_torsion cls_cubical z m) (cub_act dt a' y')) /\
  (~ is_zero u' -> same (let! z := surj_act dt a u in set_torsion cls_surj z m) (surj_act dt a' u')) /\
  (~ is_zero v' -> keys_in (fun k => is_sge k = true) a -> same (let! z := be_act dt a v in set_torsion cls_be z m) (be_act dt a' v')).
Proof. exact @C103_action_l. Qed.
Print Assumptions C103_action.

(** Compositions in the two operads, and the action of surjections on tensors of simplices and of cubes. *)
Theorem C103_operad : forall (dt m n1 n2 p q i n e coord : Z) (x x' y y' : surj) (u u' v v' : bee) (z z' : simp) (w w' : cubc),
  1 <= i <= n1 -> 1 <= n2 -> 1 <= coord <= n ->
  wf cls_surj x -> wf cls_surj y -> wf cls_be u -> wf cls_be v -> wf cls_simplicial z -> wf cls_cubical w ->
  torsion y = torsion x -> torsion u = torsion x -> torsion v = torsion x -> torsion z = torsion x -> torsion w = torsion x ->
  0 <= m -> (m | torsion x) -> dt_ok dt (torsion x) -> dt_ok dt m ->
  set_torsion cls_surj x m = Ok x' -> set_torsion cls_surj y m = Ok y' -> set_torsion cls_be u m = Ok u' -> set_torsion cls_be v m = Ok v' ->
  set_torsion cls_simplicial z m = Ok z' -> set_torsion cls_cubical w m = Ok w' ->
  keys_in (surj_cell n1 p) x -> keys_in (surj_cell n2 q) y -> keys_in (be_cell n1 p) u -> keys_in (be_cell n2 q) v ->
  keys_in (fun k => zlen k = n /\ total_degree k = e) z -> keys_in (fun k => zlen k = n /\ cube_degree k = e) w ->
  (attr x = BF -> same (let! r := surj_compose dt x y i in set_torsion cls_surj r m) (surj_compose dt x' y' i)) /\
  (~ is_zero u' -> ~ is_zero v' -> same (let! r := be_compose dt u v i in set_torsion cls_be r m) (be_compose dt u' v' i)) /\
  (attr x = MS -> same (let! r := surj_call_simplicial dt x z coord in set_torsion cls_simplicial r m) (surj_call_simplicial dt x' z' coord)) /\
  same (let! r := surj_call_cubical dt x w coord in set_torsion cls_cubical r m) (surj_call_cubical dt x' w' coord).
Proof. exact @C103_operad_l. Qed.
Print Assumptions C103_operad.

Example C103_example : let x : surj := mkElt [([1; 2; 1; 3], 2); ([2; 1; 2; 3], 3)] 0 BF in
  let y : surj := mkElt [([1; 2; 1], 4); ([2; 1; 2], -1)] 0 BF in
  let x' : surj := mkElt [([1; 2; 1; 3], 2)] 3 BF in
  let y' : surj := mkElt [([1; 2; 1], 1); ([2; 1; 2], 2)] 3 BF in
  wf cls_surj x /\ wf cls_surj y /\ (3 | torsion x) /\ dt_ok 0 3 /\ set_torsion cls_surj x 3 = Ok x' /\ set_torsion cls_surj y 3 = Ok y' /\
  keys_in (surj_cell 3 1) x /\ keys_in (surj_cell 2 1) y /\
  exists z z', surj_compose 0 x y 2 = Ok z /\ set_torsion cls_surj z 3 = Ok z' /\ ~ is_zero z' /\ elt_eqb z z' = false.
Proof. exact @C103_example_l. Qed.
