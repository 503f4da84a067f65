(** * Property theorems.  Generated by tools/mkprop.py from the tagged lemmas of
    BELaws.v: every theorem is closed by [exact]. *)
From Coq Require Import Znumtheory Sorting.Sorted.
From Verif Require Import PyBase Dict FreeModule Symmetric Simplicial Utils Surjection BarrattEccles Spec SpecOperad BELaws.

(** The basis elements that are declared zero: the empty tuple and those with two equal consecutive entries. *)
Theorem C34_degenerate : forall (k : list (list Z)),
  bad cls_be k = Ok true <-> k = [] \/ repeats k.
Proof. exact @C34_degenerate_l. Qed.
Print Assumptions C34_degenerate.

(** The boundary is the alternating sum of the tuples
    with one permutation deleted, extended linearly; degenerate terms are zero. *)
Theorem C34_boundary_formula : forall (dt : Z) (x : bee),
  wf cls_be x -> dt_ok dt (torsion x) ->
  gives cls_be (be_boundary dt x) (torsion x) tt (extend be_faces x).
Proof. exact @C34_boundary_formula_l. Qed.
Print Assumptions C34_boundary_formula.

Theorem C34_boundary_squared : forall (dt : Z) (x : bee),
  wf cls_be x -> dt_ok dt (torsion x) ->
  same (let! y := be_boundary dt x in be_boundary dt y) (zero dt cls_be x).
Proof. exact @C34_boundary_squared_l. Qed.
Print Assumptions C34_boundary_squared.

Theorem C34_boundary_linear : forall (dt n : Z) (x y : bee),
  wf cls_be x -> wf cls_be y -> torsion y = torsion x -> dt_ok dt (torsion x) ->
  same (let! s := add dt cls_be x y in be_boundary dt s)
       (let! p := be_boundary dt x in let! q := be_boundary dt y in add dt cls_be p q) /\
  same (let! s := scale dt cls_be n x in be_boundary dt s)
       (let! p := be_boundary dt x in scale dt cls_be n p).
Proof. exact @C34_boundary_linear_l. Qed.
Print Assumptions C34_boundary_linear.

(** The boundary keeps the arity and lowers the degree by one. *)
Theorem C34_boundary_degree : forall (dt n d : Z) (x : bee),
  1 <= n -> wf cls_be x -> dt_ok dt (torsion x) ->
  keys_in (fun k => be_simplex n k /\ zlen k = d + 1) x ->
  exists y, be_boundary dt x = Ok y /\ wf cls_be y /\ torsion y = torsion x /\
    keys_in (fun k => be_simplex n k /\ zlen k = d) y /\
    (~ is_zero y -> be_arity y = Ok (Some n) /\ be_degree y = Some (d - 1)).
Proof. exact @C34_boundary_degree_l. Qed.
Print Assumptions C34_boundary_degree.

(** [arity] is [n] for every non-zero element all of whose
    entries are permutations of (1..n); [degree] has the value [d] exactly for the
    non-zero elements all of whose basis elements have [d + 1] entries. *)
Theorem C34_arity_degree : forall (n d : Z) (x : bee),
  (1 <= n -> wf cls_be x -> ~ is_zero x -> keys_in (be_simplex n) x -> be_arity x = Ok (Some n)) /\
  (be_degree x = Some d <-> ~ is_zero x /\ keys_in (fun k => zlen k - 1 = d) x).
Proof. exact @C34_arity_degree_l. Qed.
Print Assumptions C34_arity_degree.

Example C34_example : let x := mkElt [([[1; 2; 3]; [2; 1; 3]; [1; 2; 3]], 5); ([[1; 2; 3]; [2; 1; 3]; [3; 2; 1]], 1)] 0 tt in
  wf cls_be x /\ keys_in (fun k => be_simplex 3 k /\ zlen k = 2 + 1) x /\
  be_boundary 0 x = Ok (mkElt [([[2; 1; 3]; [1; 2; 3]], 5); ([[1; 2; 3]; [2; 1; 3]], 6); ([[2; 1; 3]; [3; 2; 1]], 1); ([[1; 2; 3]; [3; 2; 1]], -1)] 0 tt).
Proof. exact @C34_example_l. Qed.

(** A permutation acts by composing with every entry; extended bilinearly. *)
Theorem C35_action_formula : forall (dt n : Z) (a : ring) (x : bee),
  1 <= n -> wf cls_ring a -> wf cls_be x -> torsion a = torsion x -> dt_ok dt (torsion x) ->
  keys_in (fun k => is_sge k = true /\ perm n (kval k)) a -> keys_in (be_simplex n) x -> ~ is_zero a -> ~ is_zero x ->
  gives cls_be (be_act dt a x) (torsion x) tt (extend2 (fun p k => [(be_move (kval p) k, 1)]) a x).
Proof. exact @C35_action_formula_l. Qed.
Print Assumptions C35_action_formula.

(** (a * b) * x == a * (b * x), extended by zero, when the
    product is re-created so that its keys are group elements again (see
    [C35_products_rejected]). *)
Theorem C35_left_action : forall (dt n : Z) (a b : ring) (x : bee),
  1 <= n -> wf cls_ring a -> wf cls_ring b -> wf cls_be x -> torsion a = torsion x -> torsion b = torsion x -> dt_ok dt (torsion x) ->
  keys_in (fun k => is_sge k = true /\ perm n (kval k)) a -> keys_in (fun k => is_sge k = true /\ perm n (kval k)) b -> keys_in (be_simplex n) x ->
  same (let! p := ring_mul dt a b in let! ab := create dt cls_ring p (data p) in extended dt cls_be (be_act dt) ab x)
       (let! bx := extended dt cls_be (be_act dt) b x in extended dt cls_be (be_act dt) a bx).
Proof. exact @C35_left_action_l. Qed.
Print Assumptions C35_left_action.

(** A product of ring elements, as returned by [*], cannot act: its keys are
    plain tuples and the action raises TypeError. *)
Theorem C35_products_rejected : forall (dt n : Z) (a b p : ring) (x : bee),
  1 <= n -> wf cls_ring a -> wf cls_ring b -> wf cls_be x -> torsion a = torsion x -> torsion b = torsion x -> dt_ok dt (torsion x) ->
  keys_in (fun k => perm n (kval k)) a -> keys_in (fun k => perm n (kval k)) b -> keys_in (be_simplex n) x ->
  ring_mul dt a b = Ok p -> ~ is_zero p -> ~ is_zero x -> be_act dt p x = Err TypeError.
Proof. exact @C35_products_rejected_l. Qed.
Print Assumptions C35_products_rejected.

Theorem C35_unit : forall (dt n : Z) (x : bee),
  1 <= n -> wf cls_be x -> dt_ok dt (torsion x) -> torsion x <> 1 -> keys_in (be_simplex n) x ->
  same (let! e := identity_element dt n (Some (torsion x)) in extended dt cls_be (be_act dt) e x) (Ok x).
Proof. exact @C35_unit_l. Qed.
Print Assumptions C35_unit.

Theorem C35_bilinear : forall (dt n : Z) (a b : ring) (x y : bee),
  1 <= n -> wf cls_ring a -> wf cls_ring b -> wf cls_be x -> wf cls_be y ->
  torsion a = torsion x -> torsion b = torsion x -> torsion y = torsion x -> dt_ok dt (torsion x) ->
  keys_in (fun k => is_sge k = true /\ perm n (kval k)) a -> keys_in (fun k => is_sge k = true /\ perm n (kval k)) b ->
  keys_in (be_simplex n) x -> keys_in (be_simplex n) y ->
  same (let! s := add dt cls_ring a b in extended dt cls_be (be_act dt) s x)
       (let! p := extended dt cls_be (be_act dt) a x in let! q := extended dt cls_be (be_act dt) b x in add dt cls_be p q) /\
  same (let! s := add dt cls_be x y in extended dt cls_be (be_act dt) a s)
       (let! p := extended dt cls_be (be_act dt) a x in let! q := extended dt cls_be (be_act dt) a y in add dt cls_be p q).
Proof. exact @C35_bilinear_l. Qed.
Print Assumptions C35_bilinear.

(** boundary(a * x) == a * boundary(x), extended by zero. *)
Theorem C35_action_boundary : forall (dt n : Z) (a : ring) (x : bee),
  1 <= n -> wf cls_ring a -> wf cls_be x -> torsion a = torsion x -> dt_ok dt (torsion x) ->
  keys_in (fun k => is_sge k = true /\ perm n (kval k)) a -> keys_in (be_simplex n) x ->
  same (let! y := extended dt cls_be (be_act dt) a x in be_boundary dt y)
       (let! y := be_boundary dt x in extended dt cls_be (be_act dt) a y).
Proof. exact @C35_action_boundary_l. Qed.
Print Assumptions C35_action_boundary.

(** The action between different torsions or arities raises TypeError. *)
Theorem C35_mismatch : forall (dt n m : Z) (a : ring) (x : bee),
  (torsion a <> torsion x -> be_act dt a x = Err TypeError) /\
  (ring_arity a = Ok (Some n) -> be_arity x = Ok (Some m) -> n <> m -> be_act dt a x = Err TypeError).
Proof. exact @C35_mismatch_l. Qed.
Print Assumptions C35_mismatch.

Example C35_example : let x := mkElt [([[1; 2; 3]; [1; 3; 2]], 1)] 0 tt in
  let a := mkElt [(SGE [2; 1; 3], 1); (SGE [3; 1; 2], 5)] 0 tt in
  wf cls_be x /\ wf cls_ring a /\ keys_in (fun k => is_sge k = true /\ perm 3 (kval k)) a /\ keys_in (be_simplex 3) x /\
  be_act 0 a x = Ok (mkElt [([[2; 1; 3]; [2; 3; 1]], 1); ([[3; 1; 2]; [3; 2; 1]], 5)] 0 tt).
Proof. exact @C35_example_l. Qed.

(** Every basis element is replaced by the element of its
    orbit that starts with the identity; with ['sign'], times the sign of its
    first entry.  Any other string behaves as ['trivial']. *)
Theorem C36_orbit_formula : forall (dt n : Z) (rep : repr) (x : bee),
  1 <= n -> wf cls_be x -> dt_ok dt (torsion x) -> keys_in (be_simplex n) x ->
  gives cls_be (be_orbit dt x rep) (torsion x) tt
    (extend (fun k => [(be_normal k, match rep with SignRep => sgn (inversions (hd [] k)) | _ => 1 end)]) x).
Proof. exact @C36_orbit_formula_l. Qed.
Print Assumptions C36_orbit_formula.

Theorem C36_starts_with_identity : forall (dt n : Z) (rep : repr) (x : bee),
  1 <= n -> wf cls_be x -> dt_ok dt (torsion x) -> keys_in (be_simplex n) x ->
  exists y, be_orbit dt x rep = Ok y /\ wf cls_be y /\ torsion y = torsion x /\
    keys_in (fun k => be_simplex n k /\ hd [] k = zrange 1 (n + 1)) y.
Proof. exact @C36_starts_with_identity_l. Qed.
Print Assumptions C36_starts_with_identity.

Theorem C36_idempotent : forall (dt n : Z) (rep : repr) (x : bee),
  1 <= n -> wf cls_be x -> dt_ok dt (torsion x) -> keys_in (be_simplex n) x ->
  same (let! y := be_orbit dt x rep in be_orbit dt y rep) (be_orbit dt x rep).
Proof. exact @C36_idempotent_l. Qed.
Print Assumptions C36_idempotent.

(** The orbit of [a * x] is the augmentation of [a]
    (with ['sign']: the sum of the coefficients times the signs) times the orbit of [x];
    in particular elements that differ by a permutation have equal orbits, up to the sign of the permutation for ['sign']. *)
Theorem C36_constant_on_orbits : forall (dt n : Z) (rep : repr) (a : ring) (x : bee),
  1 <= n -> wf cls_ring a -> wf cls_be x -> torsion a = torsion x -> dt_ok dt (torsion x) ->
  keys_in (fun k => is_sge k = true /\ perm n (kval k)) a -> keys_in (be_simplex n) x ->
  same (let! y := extended dt cls_be (be_act dt) a x in be_orbit dt y rep)
       (let! y := be_orbit dt x rep in
        scale dt cls_be (zsum (map (fun kv => snd kv * match rep with SignRep => sgn (inversions (kval (fst kv))) | _ => 1 end) (data a))) y).
Proof. exact @C36_constant_on_orbits_l. Qed.
Print Assumptions C36_constant_on_orbits.

(** The boundary is defined on orbits: taking the
    orbit before the boundary does not change the orbit of the boundary. *)
Theorem C36_boundary_on_orbits : forall (dt n : Z) (rep : repr) (x : bee),
  1 <= n -> wf cls_be x -> dt_ok dt (torsion x) -> keys_in (be_simplex n) x ->
  same (let! y := be_orbit dt x rep in let! z := be_boundary dt y in be_orbit dt z rep)
       (let! z := be_boundary dt x in be_orbit dt z rep).
Proof. exact @C36_boundary_on_orbits_l. Qed.
Print Assumptions C36_boundary_on_orbits.

Example C36_example : let x := mkElt [([[2; 1; 3]; [2; 3; 1]], 1); ([[1; 2; 3]; [1; 3; 2]], 1)] 0 tt in
  wf cls_be x /\ keys_in (be_simplex 3) x /\
  be_orbit 0 x Trivial = Ok (mkElt [([[1; 2; 3]; [1; 3; 2]], 2)] 0 tt) /\
  be_orbit 0 x SignRep = Ok (mkElt [] 0 tt).
Proof. exact @C36_example_l. Qed.
