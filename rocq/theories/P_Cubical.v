(** * Property theorems.  Generated by tools/mkprop.py from the tagged lemmas of
    CubicalLaws.v: every theorem is closed by [exact]. *)
From Coq Require Import Znumtheory Sorting.Sorted.
From Verif Require Import PyBase Dict FreeModule Symmetric Simplicial Cubical Spec SpecChain SpecCube CubicalLaws.

(** The boundary of a tensor product of cubes is the
    signed sum of the tensor products with one interval replaced by its end
    points, extended linearly. *)
Theorem C27_boundary_formula : forall (dt : Z) (x : cubc),
  wf cls_cubical x -> dt_ok dt (torsion x) ->
  gives cls_cubical (cub_boundary dt x) (torsion x) tt (extend cub_faces x).
Proof. exact @C27_boundary_formula_l. Qed.
Print Assumptions C27_boundary_formula.

Theorem C27_boundary_squared : forall (dt : Z) (x : cubc),
  wf cls_cubical x -> dt_ok dt (torsion x) ->
  same (let! y := cub_boundary dt x in cub_boundary dt y) (zero dt cls_cubical x).
Proof. exact @C27_boundary_squared_l. Qed.
Print Assumptions C27_boundary_squared.

Theorem C27_boundary_linear : forall (dt n : Z) (x y : cubc),
  wf cls_cubical x -> wf cls_cubical y -> torsion y = torsion x -> dt_ok dt (torsion x) ->
  same (let! s := add dt cls_cubical x y in cub_boundary dt s)
       (let! p := cub_boundary dt x in let! q := cub_boundary dt y in add dt cls_cubical p q) /\
  same (let! s := scale dt cls_cubical n x in cub_boundary dt s)
       (let! p := cub_boundary dt x in scale dt cls_cubical n p).
Proof. exact @C27_boundary_linear_l. Qed.
Print Assumptions C27_boundary_linear.

(** The boundary keeps the arity and lowers the degree
    by one. *)
Theorem C27_boundary_degree : forall (dt n d : Z) (x : cubc),
  wf cls_cubical x -> dt_ok dt (torsion x) ->
  keys_in (fun k => zlen k = n /\ cube_degree k = d) x ->
  exists y, cub_boundary dt x = Ok y /\ wf cls_cubical y /\ torsion y = torsion x /\
    keys_in (fun k => zlen k = n /\ cube_degree k = d - 1) y /\
    (~ is_zero y -> cub_arity y = Some n /\ cub_degree y = Some (d - 1)).
Proof. exact @C27_boundary_degree_l. Qed.
Print Assumptions C27_boundary_degree.

(** The properties [arity] and [degree] have a value
    exactly for the non-zero elements all of whose basis elements have that
    number of factors, and that degree. *)
Theorem C27_arity_degree : forall (n d : Z) (x : cubc),
  (cub_arity x = Some n <-> ~ is_zero x /\ keys_in (fun k => zlen k = n) x) /\
  (cub_degree x = Some d <-> ~ is_zero x /\ keys_in (fun k => cube_degree k = d) x).
Proof. exact @C27_arity_degree_l. Qed.
Print Assumptions C27_arity_degree.

(** [Cubical.basis(n)] lists exactly once each tuple of length n of 0, 1 and 2. *)
Theorem C27_basis : forall (n : Z),
  0 <= n ->
  NoDup (cub_basis_keys n) /\ forall k, In k (cub_basis_keys n) <-> exists c, k = [c] /\ zlen c = n /\ is_cube c.
Proof. exact @C27_basis_l. Qed.
Print Assumptions C27_basis.

(** The elements of the basis, and the standard
    element: the tensor power of the cube. *)
Theorem C27_basis_elements : forall (dt n times t : Z) (ot : option Z),
  t = match ot with Some t => t | None => dt end -> 0 <= t -> t <> 1 ->
  cub_basis dt n ot = map (fun k => Ok (mkElt [(k, 1)] t tt)) (cub_basis_keys n) /\
  cub_standard_element dt n times ot = Ok (mkElt [(repeat (repeat 2 (Z.to_nat n)) (Z.to_nat times), 1)] t tt).
Proof. exact @C27_basis_elements_l. Qed.
Print Assumptions C27_basis_elements.

Example C27_example : let x := mkElt [([[2; 0]; [1; 2; 2]], 1)] 0 tt in
  wf cls_cubical x /\ keys_in (fun k => zlen k = 2 /\ cube_degree k = 3) x /\
  cub_boundary 0 x = Ok (mkElt [([[1; 0]; [1; 2; 2]], 1); ([[0; 0]; [1; 2; 2]], -1); ([[2; 0]; [1; 1; 2]], -1); ([[2; 0]; [1; 0; 2]], 1); ([[2; 0]; [1; 2; 1]], 1); ([[2; 0]; [1; 2; 0]], -1)] 0 tt).
Proof. exact @C27_example_l. Qed.

(** The action of a permutation rearranges the factors
    with the Koszul sign; it is extended bilinearly. *)
Theorem C28_action_formula : forall (dt n : Z) (a : ring) (x : cubc),
  1 <= n -> wf cls_ring a -> wf cls_cubical x -> torsion a = torsion x -> dt_ok dt (torsion x) ->
  keys_in (fun k => perm n (kval k)) a -> keys_in (fun k => zlen k = n) x -> ~ is_zero a -> ~ is_zero x ->
  gives cls_cubical (cub_act dt a x) (torsion x) tt (extend2 (fun p k => koszul dim (kval p) k) a x).
Proof. exact @C28_action_formula_l. Qed.
Print Assumptions C28_action_formula.

(** (a * b) * x == a * (b * x), extended by zero. *)
Theorem C28_left_action : forall (dt n : Z) (a b : ring) (x : cubc),
  1 <= n -> wf cls_ring a -> wf cls_ring b -> wf cls_cubical x -> torsion a = torsion x -> torsion b = torsion x -> dt_ok dt (torsion x) ->
  keys_in (fun k => perm n (kval k)) a -> keys_in (fun k => perm n (kval k)) b -> keys_in (fun k => zlen k = n) x ->
  same (let! ab := ring_mul dt a b in extended dt cls_cubical (cub_act dt) ab x)
       (let! bx := extended dt cls_cubical (cub_act dt) b x in extended dt cls_cubical (cub_act dt) a bx).
Proof. exact @C28_left_action_l. Qed.
Print Assumptions C28_left_action.

Theorem C28_unit : forall (dt n : Z) (x : cubc),
  1 <= n -> wf cls_cubical x -> dt_ok dt (torsion x) -> torsion x <> 1 -> keys_in (fun k => zlen k = n) x ->
  same (let! e := identity_element dt n (Some (torsion x)) in extended dt cls_cubical (cub_act dt) e x) (Ok x).
Proof. exact @C28_unit_l. Qed.
Print Assumptions C28_unit.

Theorem C28_bilinear : forall (dt n : Z) (a b : ring) (x y : cubc),
  1 <= n -> wf cls_ring a -> wf cls_ring b -> wf cls_cubical x -> wf cls_cubical y ->
  torsion a = torsion x -> torsion b = torsion x -> torsion y = torsion x -> dt_ok dt (torsion x) ->
  keys_in (fun k => perm n (kval k)) a -> keys_in (fun k => perm n (kval k)) b ->
  keys_in (fun k => zlen k = n) x -> keys_in (fun k => zlen k = n) y ->
  same (let! s := add dt cls_ring a b in extended dt cls_cubical (cub_act dt) s x)
       (let! p := extended dt cls_cubical (cub_act dt) a x in let! q := extended dt cls_cubical (cub_act dt) b x in add dt cls_cubical p q) /\
  same (let! s := add dt cls_cubical x y in extended dt cls_cubical (cub_act dt) a s)
       (let! p := extended dt cls_cubical (cub_act dt) a x in let! q := extended dt cls_cubical (cub_act dt) a y in add dt cls_cubical p q).
Proof. exact @C28_bilinear_l. Qed.
Print Assumptions C28_bilinear.

(** The action between different torsions or arities raises TypeError. *)
Theorem C28_mismatch : forall (dt n m : Z) (a : ring) (x : cubc),
  (torsion a <> torsion x -> cub_act dt a x = Err TypeError) /\
  (ring_arity a = Ok (Some n) -> cub_arity x = Some m -> n <> m -> cub_act dt a x = Err TypeError).
Proof. exact @C28_mismatch_l. Qed.
Print Assumptions C28_mismatch.

(** boundary(a * x) == a * boundary(x), extended by zero. *)
Theorem C28_action_boundary : forall (dt n : Z) (a : ring) (x : cubc),
  1 <= n -> wf cls_ring a -> wf cls_cubical x -> torsion a = torsion x -> dt_ok dt (torsion x) ->
  keys_in (fun k => perm n (kval k)) a -> keys_in (fun k => zlen k = n) x ->
  same (let! y := extended dt cls_cubical (cub_act dt) a x in cub_boundary dt y)
       (let! y := cub_boundary dt x in extended dt cls_cubical (cub_act dt) a y).
Proof. exact @C28_action_boundary_l. Qed.
Print Assumptions C28_action_boundary.

Example C28_example : let x := mkElt [([[2; 0]; [1; 2]; [0; 0]], 1)] 0 tt in
  let a := mkElt [(SGE [2; 1; 3], 1); (SGE [3; 1; 2], 5)] 0 tt in
  wf cls_cubical x /\ wf cls_ring a /\ keys_in (fun k => perm 3 (kval k)) a /\ keys_in (fun k => zlen k = 3) x /\
  cub_act 0 a x = Ok (mkElt [([[1; 2]; [2; 0]; [0; 0]], -1); ([[1; 2]; [0; 0]; [2; 0]], -5)] 0 tt).
Proof. exact @C28_example_l. Qed.

(** [iterated_diagonal(times, coord)] is the iterated
    Serre diagonal of the factor [coord], extended linearly. *)
Theorem C29_diagonal_formula : forall (dt n d times coord : Z) (x : cubc),
  wf cls_cubical x -> dt_ok dt (torsion x) -> cub_arity x = Some n -> cub_degree x = Some d ->
  1 <= coord <= n -> 0 <= times ->
  gives cls_cubical (cub_iterated_diagonal dt x times coord) (torsion x) tt (extend (serre_at (Z.to_nat times) coord) x).
Proof. exact @C29_diagonal_formula_l. Qed.
Print Assumptions C29_diagonal_formula.

(** The iterated diagonal commutes with the boundary (extended by zero: on
    the zero element the code raises TypeError). *)
Theorem C29_chain_map : forall (dt n d times coord : Z) (x : cubc),
  wf cls_cubical x -> dt_ok dt (torsion x) -> keys_in (fun k => zlen k = n /\ cube_degree k = d) x ->
  1 <= coord <= n -> 0 <= times ->
  let diagonal := extended1 dt cls_cubical (fun y => cub_iterated_diagonal dt y times coord) in
  same (let! y := diagonal x in cub_boundary dt y) (let! y := cub_boundary dt x in diagonal y).
Proof. exact @C29_chain_map_l. Qed.
Print Assumptions C29_chain_map.

Example C29_example : let x := mkElt [([[2; 2]; [0; 2]], 1)] 0 tt in
  cub_arity x = Some 2 /\ cub_degree x = Some 3 /\
  cub_iterated_diagonal 0 x 1 1 = Ok (mkElt [([[2; 2]; [1; 1]; [0; 2]], 1); ([[2; 0]; [1; 2]; [0; 2]], 1); ([[0; 2]; [2; 1]; [0; 2]], -1); ([[0; 0]; [2; 2]; [0; 2]], 1)] 0 tt).
Proof. exact @C29_example_l. Qed.

(** Applying the diagonal to any of the factors produced
    by the diagonal gives the iterated diagonal. *)
Theorem C30_coassociative : forall (dt n d t t' i j : Z) (x : cubc),
  wf cls_cubical x -> dt_ok dt (torsion x) -> keys_in (fun k => zlen k = n /\ cube_degree k = d) x ->
  1 <= i <= n -> 0 <= t -> 0 <= t' -> i <= j <= i + t ->
  let diagonal times coord := extended1 dt cls_cubical (fun y => cub_iterated_diagonal dt y times coord) in
  same (let! y := diagonal t i x in diagonal t' j y) (diagonal (t + t') i x).
Proof. exact @C30_coassociative_l. Qed.
Print Assumptions C30_coassociative.

Example C30_example : let x := mkElt [([[2; 2]; [0; 2]], 1)] 0 tt in
  same (let! y := cub_iterated_diagonal 0 x 1 1 in cub_iterated_diagonal 0 y 1 1) (cub_iterated_diagonal 0 x 2 1).
Proof. exact @C30_example_l. Qed.

(** The join of two cubes is a chain homotopy between
    the two projections: the boundary of join(x) plus the join of the boundary of x is
    the sum of the second factor of the terms whose first factor is a vertex
    minus the sum of the first factor of the terms whose second factor is a
    vertex. *)
Theorem C31_join_homotopy : forall (dt d : Z) (x : cubc),
  wf cls_cubical x -> dt_ok dt (torsion x) ->
  keys_in (fun k => exists c1 c2, k = [c1; c2] /\ zlen c1 = zlen c2 /\ is_cube c1 /\ is_cube c2 /\ dim c1 + dim c2 = d) x ->
  gives cls_cubical (let! y := cub_join dt x in let! dy := cub_boundary dt y in
                     let! dx := cub_boundary dt x in let! j := cub_join dt dx in add dt cls_cubical dy j)
    (torsion x) tt
    (extend (fun k => match k with [c1; c2] => [([c2], augmentation c1); ([c1], - augmentation c2)] | _ => [] end) x).
Proof. exact @C31_join_homotopy_l. Qed.
Print Assumptions C31_join_homotopy.

Example C31_example : let x := mkElt [([[2; 0; 0]; [0; 1; 1]], 1)] 0 tt in
  wf cls_cubical x /\ cub_join 0 x = Ok (mkElt [([[2; 2; 1]], -1); ([[2; 0; 2]], -1)] 0 tt) /\
  (let! y := cub_join 0 x in let! dy := cub_boundary 0 y in let! dx := cub_boundary 0 x in let! j := cub_join 0 dx in add 0 cls_cubical dy j)
    = Ok (mkElt [([[2; 0; 0]], -1)] 0 tt).
Proof. exact @C31_example_l. Qed.

(** The join of a homogeneous element of arity n, on
    cubes of equal lengths in each basis element, is the iterated binary join. *)
Theorem C32_join_formula : forall (dt n d : Z) (x : cubc),
  wf cls_cubical x -> dt_ok dt (torsion x) -> 1 <= n ->
  keys_in (fun k => zlen k = n /\ cube_degree k = d /\ forall c c', In c k -> In c' k -> zlen c = zlen c') x ->
  gives cls_cubical (cub_join dt x) (torsion x) tt (extend (fun k => map (fun '(b, e) => ([b], e)) (joins k)) x).
Proof. exact @C32_join_formula_l. Qed.
Print Assumptions C32_join_formula.

(** The join of n cubes raises the degree by n - 1 and has arity 1. *)
Theorem C32_degree : forall (dt n d : Z) (x : cubc),
  wf cls_cubical x -> dt_ok dt (torsion x) -> 1 <= n ->
  keys_in (fun k => zlen k = n /\ cube_degree k = d /\ forall c c', In c k -> In c' k -> zlen c = zlen c') x ->
  exists y, cub_join dt x = Ok y /\ wf cls_cubical y /\ torsion y = torsion x /\ keys_in (fun k => zlen k = 1 /\ cube_degree k = d + n - 1) y.
Proof. exact @C32_degree_l. Qed.
Print Assumptions C32_degree.

Example C32_example : cub_join 0 (mkElt [([[0; 0; 1]; [1; 0; 0]; [1; 1; 1]], 1)] 0 tt) = Ok (mkElt [([[2; 2; 1]], -1); ([[2; 0; 2]], -1)] 0 tt) /\
  joins [[0; 0; 1]; [1; 0; 0]; [1; 1; 1]] = [([2; 2; 1], -1); ([2; 0; 2], -1)].
Proof. exact @C32_example_l. Qed.

Theorem C33_formula : forall (dt : Z) (x : cubc),
  wf cls_cubical x -> dt_ok dt (torsion x) ->
  gives cls_simplicial (cub_cartan_serre dt x) (torsion x) tt (extend cub_collapse x).
Proof. exact @C33_formula_l. Qed.
Print Assumptions C33_formula.

Theorem C33_linear : forall (dt n : Z) (x y : cubc),
  wf cls_cubical x -> wf cls_cubical y -> torsion y = torsion x -> dt_ok dt (torsion x) ->
  same (let! s := add dt cls_cubical x y in cub_cartan_serre dt s)
       (let! p := cub_cartan_serre dt x in let! q := cub_cartan_serre dt y in add dt cls_simplicial p q) /\
  same (let! s := scale dt cls_cubical n x in cub_cartan_serre dt s)
       (let! p := cub_cartan_serre dt x in scale dt cls_simplicial n p).
Proof. exact @C33_linear_l. Qed.
Print Assumptions C33_linear.

(** The Cartan-Serre map commutes with the boundaries. *)
Theorem C33_chain_map : forall (dt : Z) (x : cubc),
  wf cls_cubical x -> dt_ok dt (torsion x) ->
  same (let! y := cub_cartan_serre dt x in simp_boundary dt y) (let! y := cub_boundary dt x in cub_cartan_serre dt y).
Proof. exact @C33_chain_map_l. Qed.
Print Assumptions C33_chain_map.

Example C33_example : cub_cartan_serre 0 (mkElt [([[2; 1; 2; 0]; [2; 1; 1; 1]], 3)] 0 tt) = Ok (mkElt [([[0; 2; 3]; [0; 4]], 3)] 0 tt) /\
  cub_cartan_serre 0 (mkElt [([[2; 0; 2]], 1)] 0 tt) = Ok (mkElt [] 0 tt).
Proof. exact @C33_example_l. Qed.
