(** * Property theorems.  Generated by tools/mkprop.py from the tagged lemmas of
    SimplicialLaws.v: every theorem is closed by [exact]. *)
From Coq Require Import Znumtheory Sorting.Sorted.
From Verif Require Import PyBase Dict FreeModule Symmetric Simplicial Spec SpecChain SimplicialLaws.

(** The boundary of a tensor product of simplices is
    the signed sum of the tensor products with one vertex deleted, extended
    linearly; degenerate terms are zero. *)
Theorem C20_boundary_formula : forall (dt : Z) (x : simp),
  wf cls_simplicial x -> dt_ok dt (torsion x) ->
  gives cls_simplicial (simp_boundary dt x) (torsion x) tt (extend simp_faces x).
Proof. exact @C20_boundary_formula_l. Qed.
Print Assumptions C20_boundary_formula.

Theorem C20_boundary_squared : forall (dt : Z) (x : simp),
  wf cls_simplicial x -> dt_ok dt (torsion x) ->
  same (let! y := simp_boundary dt x in simp_boundary dt y) (zero dt cls_simplicial x).
Proof. exact @C20_boundary_squared_l. Qed.
Print Assumptions C20_boundary_squared.

Theorem C20_boundary_linear : forall (dt n : Z) (x y : simp),
  wf cls_simplicial x -> wf cls_simplicial y -> torsion y = torsion x -> dt_ok dt (torsion x) ->
  same (let! s := add dt cls_simplicial x y in simp_boundary dt s)
       (let! p := simp_boundary dt x in let! q := simp_boundary dt y in add dt cls_simplicial p q) /\
  same (let! s := scale dt cls_simplicial n x in simp_boundary dt s)
       (let! p := simp_boundary dt x in scale dt cls_simplicial n p).
Proof. exact @C20_boundary_linear_l. Qed.
Print Assumptions C20_boundary_linear.

(** The boundary keeps the arity and lowers the degree
    by one. *)
Theorem C20_boundary_degree : forall (dt n d : Z) (x : simp),
  wf cls_simplicial x -> dt_ok dt (torsion x) ->
  keys_in (fun k => zlen k = n /\ total_degree k = d) x ->
  exists y, simp_boundary dt x = Ok y /\ wf cls_simplicial y /\ torsion y = torsion x /\
    keys_in (fun k => zlen k = n /\ total_degree k = d - 1) y /\
    (~ is_zero y -> simp_arity y = Some n /\ simp_degree y = Some (d - 1)).
Proof. exact @C20_boundary_degree_l. Qed.
Print Assumptions C20_boundary_degree.

(** The properties [arity] and [degree] have a value
    exactly for the non-zero elements all of whose basis elements have that
    number of factors, and that degree. *)
Theorem C20_arity_degree : forall (n d : Z) (x : simp),
  (simp_arity x = Some n <-> ~ is_zero x /\ keys_in (fun k => zlen k = n) x) /\
  (simp_degree x = Some d <-> ~ is_zero x /\ keys_in (fun k => total_degree k = d) x).
Proof. exact @C20_arity_degree_l. Qed.
Print Assumptions C20_arity_degree.

(** A product of two simplices of degree 3: hypotheses and boundary. *)
Example C20_example : let x := mkElt [([[0; 1]; [0; 1; 2]], 1)] 0 tt in
  wf cls_simplicial x /\ keys_in (fun k => zlen k = 2 /\ total_degree k = 3) x /\
  simp_boundary 0 x = Ok (mkElt [([[1]; [0; 1; 2]], 1); ([[0]; [0; 1; 2]], -1); ([[0; 1]; [1; 2]], -1); ([[0; 1]; [0; 2]], 1); ([[0; 1]; [0; 1]], -1)] 0 tt).
Proof. exact @C20_example_l. Qed.

(** The simplicial identities, for all
    simplices and indices in range. *)
Theorem C21_simplicial_identities : forall (s : list Z) (i j : Z),
  0 <= i <= j -> j <= spx_dim s ->
  (i < j -> spx_face (spx_face s j) i = spx_face (spx_face s i) (j - 1)) /\
  spx_degeneracy (spx_degeneracy s j) i = spx_degeneracy (spx_degeneracy s i) (j + 1) /\
  (i < j -> spx_face (spx_degeneracy s j) i = spx_degeneracy (spx_face s i) (j - 1)) /\
  spx_face (spx_degeneracy s j) j = s /\
  spx_face (spx_degeneracy s j) (j + 1) = s /\
  (i < j -> spx_face (spx_degeneracy s i) (j + 1) = spx_degeneracy (spx_face s j) i).
Proof. exact @C21_simplicial_identities_l. Qed.
Print Assumptions C21_simplicial_identities.

(** The cosimplicial identities, for all
    simplices and all indices. *)
Theorem C21_cosimplicial_identities : forall (s : list Z) (i j : Z),
  (i < j -> spx_coface (spx_coface s i) j = spx_coface (spx_coface s (j - 1)) i) /\
  (i <= j -> spx_codegeneracy (spx_codegeneracy s i) j = spx_codegeneracy (spx_codegeneracy s (j + 1)) i) /\
  (i < j -> spx_codegeneracy (spx_coface s i) j = spx_coface (spx_codegeneracy s (j - 1)) i) /\
  spx_codegeneracy (spx_coface s j) j = s /\
  spx_codegeneracy (spx_coface s (j + 1)) j = s /\
  (i > j + 1 -> spx_codegeneracy (spx_coface s i) j = spx_coface (spx_codegeneracy s j) (i - 1)).
Proof. exact @C21_cosimplicial_identities_l. Qed.
Print Assumptions C21_cosimplicial_identities.

(** Faces lower the dimension by one, degeneracies raise it. *)
Theorem C21_dimension : forall (s : list Z) (i : Z),
  0 <= i <= spx_dim s ->
  spx_dim (spx_face s i) = spx_dim s - 1 /\ spx_dim (spx_degeneracy s i) = spx_dim s + 1 /\
  spx_dim (spx_coface s i) = spx_dim s /\ spx_dim (spx_codegeneracy s i) = spx_dim s.
Proof. exact @C21_dimension_l. Qed.
Print Assumptions C21_dimension.

Theorem C21_is_degenerate : forall (s : list Z),
  (spx_is_degenerate s = true <-> s = [] \/ exists l1 a l2, s = l1 ++ a :: a :: l2) /\
  spx_is_nondegenerate s = negb (spx_is_degenerate s).
Proof. exact @C21_is_degenerate_l. Qed.
Print Assumptions C21_is_degenerate.

(** Every degeneracy of a simplex is degenerate, and every degenerate
    non-empty simplex is a degeneracy of one of its faces. *)
Theorem C21_degeneracy_degenerate : forall (s : list Z),
  (forall i, 0 <= i <= spx_dim s -> spx_is_degenerate (spx_degeneracy s i) = true) /\
  (s <> [] -> spx_is_degenerate s = true -> exists i, 0 <= i < spx_dim s /\ s = spx_degeneracy (spx_face s i) i).
Proof. exact @C21_degeneracy_degenerate_l. Qed.
Print Assumptions C21_degeneracy_degenerate.

Example C21_example : spx_face (spx_degeneracy [4; 7; 9] 1) 0 = [7; 7; 9] /\ spx_is_degenerate [7; 7; 9] = true /\ spx_coface [0; 1; 2] 1 = [0; 2; 3].
Proof. exact @C21_example_l. Qed.

(** The action of a permutation rearranges the factors
    with the Koszul sign; it is extended bilinearly. *)
Theorem C22_action_formula : forall (dt n : Z) (a : ring) (x : simp),
  1 <= n -> wf cls_ring a -> wf cls_simplicial x -> torsion a = torsion x -> dt_ok dt (torsion x) ->
  keys_in (fun k => perm n (kval k)) a -> keys_in (fun k => zlen k = n) x -> ~ is_zero a -> ~ is_zero x ->
  gives cls_simplicial (simp_act dt a x) (torsion x) tt (extend2 (fun p k => koszul spx_dim (kval p) k) a x).
Proof. exact @C22_action_formula_l. Qed.
Print Assumptions C22_action_formula.

(** (a * b) * x == a * (b * x), extended by zero. *)
Theorem C22_left_action : forall (dt n : Z) (a b : ring) (x : simp),
  1 <= n -> wf cls_ring a -> wf cls_ring b -> wf cls_simplicial x -> torsion a = torsion x -> torsion b = torsion x -> dt_ok dt (torsion x) ->
  keys_in (fun k => perm n (kval k)) a -> keys_in (fun k => perm n (kval k)) b -> keys_in (fun k => zlen k = n) x ->
  same (let! ab := ring_mul dt a b in extended dt cls_simplicial (simp_act dt) ab x)
       (let! bx := extended dt cls_simplicial (simp_act dt) b x in extended dt cls_simplicial (simp_act dt) a bx).
Proof. exact @C22_left_action_l. Qed.
Print Assumptions C22_left_action.

Theorem C22_unit : forall (dt n : Z) (x : simp),
  1 <= n -> wf cls_simplicial x -> dt_ok dt (torsion x) -> torsion x <> 1 -> keys_in (fun k => zlen k = n) x ->
  same (let! e := identity_element dt n (Some (torsion x)) in extended dt cls_simplicial (simp_act dt) e x) (Ok x).
Proof. exact @C22_unit_l. Qed.
Print Assumptions C22_unit.

Theorem C22_bilinear : forall (dt n : Z) (a b : ring) (x y : simp),
  1 <= n -> wf cls_ring a -> wf cls_ring b -> wf cls_simplicial x -> wf cls_simplicial y ->
  torsion a = torsion x -> torsion b = torsion x -> torsion y = torsion x -> dt_ok dt (torsion x) ->
  keys_in (fun k => perm n (kval k)) a -> keys_in (fun k => perm n (kval k)) b ->
  keys_in (fun k => zlen k = n) x -> keys_in (fun k => zlen k = n) y ->
  same (let! s := add dt cls_ring a b in extended dt cls_simplicial (simp_act dt) s x)
       (let! p := extended dt cls_simplicial (simp_act dt) a x in let! q := extended dt cls_simplicial (simp_act dt) b x in add dt cls_simplicial p q) /\
  same (let! s := add dt cls_simplicial x y in extended dt cls_simplicial (simp_act dt) a s)
       (let! p := extended dt cls_simplicial (simp_act dt) a x in let! q := extended dt cls_simplicial (simp_act dt) a y in add dt cls_simplicial p q).
Proof. exact @C22_bilinear_l. Qed.
Print Assumptions C22_bilinear.

(** The action between different torsions or arities raises TypeError. *)
Theorem C22_mismatch : forall (dt n m : Z) (a : ring) (x : simp),
  (torsion a <> torsion x -> simp_act dt a x = Err TypeError) /\
  (ring_arity a = Ok (Some n) -> simp_arity x = Some m -> n <> m -> simp_act dt a x = Err TypeError).
Proof. exact @C22_mismatch_l. Qed.
Print Assumptions C22_mismatch.

(** Exchange of two simplices of odd dimension changes the sign. *)
Example C22_example : let x := mkElt [([[0; 1]; [3; 4]; [5]], 1)] 0 tt in
  let a := mkElt [(SGE [2; 1; 3], 1); (SGE [3; 1; 2], 5)] 0 tt in
  wf cls_simplicial x /\ wf cls_ring a /\ keys_in (fun k => perm 3 (kval k)) a /\ keys_in (fun k => zlen k = 3) x /\
  simp_act 0 a x = Ok (mkElt [([[3; 4]; [0; 1]; [5]], -1); ([[3; 4]; [5]; [0; 1]], -5)] 0 tt).
Proof. exact @C22_example_l. Qed.

(** boundary(a * x) == a * boundary(x), extended by
    zero (the boundary of a non-zero element may be zero). *)
Theorem C23_action_boundary : forall (dt n : Z) (a : ring) (x : simp),
  1 <= n -> wf cls_ring a -> wf cls_simplicial x -> torsion a = torsion x -> dt_ok dt (torsion x) ->
  keys_in (fun k => perm n (kval k)) a -> keys_in (fun k => zlen k = n) x ->
  same (let! y := extended dt cls_simplicial (simp_act dt) a x in simp_boundary dt y)
       (let! y := simp_boundary dt x in extended dt cls_simplicial (simp_act dt) a y).
Proof. exact @C23_action_boundary_l. Qed.
Print Assumptions C23_action_boundary.

Example C23_example : let x := mkElt [([[0; 1]; [3; 4]], 1)] 0 tt in
  let a := mkElt [(SGE [2; 1], 1)] 0 tt in
  (let! y := simp_act 0 a x in simp_boundary 0 y) = Ok (mkElt [([[4]; [0; 1]], -1); ([[3]; [0; 1]], 1); ([[3; 4]; [1]], 1); ([[3; 4]; [0]], -1)] 0 tt) /\
  (let! y := simp_boundary 0 x in simp_act 0 a y) = Ok (mkElt [([[3; 4]; [1]], 1); ([[3; 4]; [0]], -1); ([[4]; [0; 1]], -1); ([[3]; [0; 1]], 1)] 0 tt).
Proof. exact @C23_example_l. Qed.

(** [iterated_diagonal(times, coord)] on a
    homogeneous element cuts the factor [coord] of every basis element in all
    possible ways in [times + 1] pieces. *)
Theorem C24_diagonal_formula : forall (dt n d times coord : Z) (x : simp),
  wf cls_simplicial x -> dt_ok dt (torsion x) -> simp_arity x = Some n -> simp_degree x = Some d ->
  1 <= coord <= n -> 0 <= times ->
  gives cls_simplicial (simp_iterated_diagonal dt x times coord) (torsion x) tt (extend (simp_splittings (Z.to_nat times) coord) x).
Proof. exact @C24_diagonal_formula_l. Qed.
Print Assumptions C24_diagonal_formula.

(** The iterated diagonal commutes with the boundary (extended by zero: on
    the zero element the code raises TypeError). *)
Theorem C24_chain_map : forall (dt n d times coord : Z) (x : simp),
  wf cls_simplicial x -> dt_ok dt (torsion x) -> keys_in (fun k => zlen k = n /\ total_degree k = d) x ->
  1 <= coord <= n -> 0 <= times ->
  let diagonal := extended1 dt cls_simplicial (fun y => simp_iterated_diagonal dt y times coord) in
  same (let! y := diagonal x in simp_boundary dt y) (let! y := simp_boundary dt x in diagonal y).
Proof. exact @C24_chain_map_l. Qed.
Print Assumptions C24_chain_map.

(** Applying the diagonal to any of the factors produced
    by the diagonal gives the twice iterated diagonal; more generally, any
    iteration of diagonals in factors coming from factor [i] is the iterated
    diagonal. *)
Theorem C25_coassociative : forall (dt n d t t' i j : Z) (x : simp),
  wf cls_simplicial x -> dt_ok dt (torsion x) -> keys_in (fun k => zlen k = n /\ total_degree k = d) x ->
  1 <= i <= n -> 0 <= t -> 0 <= t' -> i <= j <= i + t ->
  let diagonal times coord := extended1 dt cls_simplicial (fun y => simp_iterated_diagonal dt y times coord) in
  same (let! y := diagonal t i x in diagonal t' j y) (diagonal (t + t') i x).
Proof. exact @C25_coassociative_l. Qed.
Print Assumptions C25_coassociative.

(** The diagonal of a triangle times an edge, and coassociativity on it. *)
Example C25_example : let x := mkElt [([[0; 1; 2]; [5; 6]], 1)] 0 tt in
  simp_arity x = Some 2 /\ simp_degree x = Some 3 /\
  simp_iterated_diagonal 0 x 1 1 = Ok (mkElt [([[0]; [0; 1; 2]; [5; 6]], 1); ([[0; 1]; [1; 2]; [5; 6]], 1); ([[0; 1; 2]; [2]; [5; 6]], 1)] 0 tt) /\
  same (let! y := simp_iterated_diagonal 0 x 1 1 in simp_iterated_diagonal 0 y 1 2) (simp_iterated_diagonal 0 x 2 1).
Proof. exact @C25_example_l. Qed.

Example C24_example : simp_splittings 1 2 [[5; 6]; [0; 1; 2]] = [([[5; 6]; [0]; [0; 1; 2]], 1); ([[5; 6]; [0; 1]; [1; 2]], 1); ([[5; 6]; [0; 1; 2]; [2]], 1)].
Proof. exact @C24_example_l. Qed.

(** [Simplicial.basis(n)] lists exactly once each non-empty
    strictly increasing tuple of vertices in 0..n. *)
Theorem C26_basis : forall (n : Z),
  NoDup (simp_basis_keys n) /\ forall k, In k (simp_basis_keys n) <-> exists s, k = [s] /\ s <> [] /\ Sorted Z.lt s /\ forall v, In v s -> 0 <= v <= n.
Proof. exact @C26_basis_l. Qed.
Print Assumptions C26_basis.

(** The elements of the basis: the list of the keys
    with coefficient one; [standard_element(n, times)] is the tensor power of
    the top simplex. *)
Theorem C26_basis_elements : forall (dt n times t : Z) (ot : option Z),
  t = match ot with Some t => t | None => dt end -> 0 <= t -> t <> 1 -> 0 <= n ->
  simp_basis dt n ot = map (fun k => Ok (mkElt [(k, 1)] t tt)) (simp_basis_keys n) /\ simp_standard_element dt n times ot = Ok (mkElt [(repeat (zrange 0 (n + 1)) (Z.to_nat times), 1)] t tt).
Proof. exact @C26_basis_elements_l. Qed.
Print Assumptions C26_basis_elements.

Example C26_example : simp_basis_keys 2 = [[[0]]; [[1]]; [[2]]; [[0; 1]]; [[0; 2]]; [[1; 2]]; [[0; 1; 2]]].
Proof. exact @C26_example_l. Qed.

(** [one_reduced] keeps exactly the terms with no factor of dimension 1. *)
Theorem C59_keeps_terms : forall (dt : Z) (x : simp),
  wf cls_simplicial x -> dt_ok dt (torsion x) ->
  same (simp_one_reduced dt x) (Ok (mkElt (filter (fun kv => forallb (fun s => negb (zlen s =? 2)) (fst kv)) (data x)) (torsion x) tt)).
Proof. exact @C59_keeps_terms_l. Qed.
Print Assumptions C59_keeps_terms.

Theorem C59_linear : forall (dt n : Z) (x y : simp),
  wf cls_simplicial x -> wf cls_simplicial y -> torsion y = torsion x -> dt_ok dt (torsion x) ->
  same (let! s := add dt cls_simplicial x y in simp_one_reduced dt s)
       (let! p := simp_one_reduced dt x in let! q := simp_one_reduced dt y in add dt cls_simplicial p q) /\
  same (let! s := scale dt cls_simplicial n x in simp_one_reduced dt s)
       (let! p := simp_one_reduced dt x in scale dt cls_simplicial n p).
Proof. exact @C59_linear_l. Qed.
Print Assumptions C59_linear.

Theorem C59_idempotent : forall (dt : Z) (x : simp),
  wf cls_simplicial x -> dt_ok dt (torsion x) ->
  same (let! y := simp_one_reduced dt x in simp_one_reduced dt y) (simp_one_reduced dt x).
Proof. exact @C59_idempotent_l. Qed.
Print Assumptions C59_idempotent.

(** [one_reduced] does not commute with
    the boundary, and the boundary of its kernel is not in its kernel: the
    edge (0, 1) is sent to zero but its boundary (1) - (0) is kept. *)
Theorem C59_boundary_compatible_refuted : exists x : simp, wf cls_simplicial x /\ simp_one_reduced 0 x = Ok (mkElt [] 0 tt) /\
    (let! y := simp_boundary 0 x in simp_one_reduced 0 y) = Ok (mkElt [([[1]], 1); ([[0]], -1)] 0 tt) /\
    ~ same (let! y := simp_one_reduced 0 x in simp_boundary 0 y) (let! y := simp_boundary 0 x in simp_one_reduced 0 y).
Proof. exact @C59_boundary_compatible_refuted_l. Qed.
Print Assumptions C59_boundary_compatible_refuted.

Example C59_example : simp_one_reduced 0 (mkElt [([[0; 1]; [2]], 3); ([[0; 1; 2]; [4]], 5)] 0 tt) = Ok (mkElt [([[0; 1; 2]; [4]], 5)] 0 tt).
Proof. exact @C59_example_l. Qed.
