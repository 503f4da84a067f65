# Formal model of ammedmar/comch in Coq 8.16.1

This file is generated by `tools/mkdesign.py` from `tools/design_head.md`, `tools/how.py` and `MANIFEST.json`
(the first version was written before the proofs). Build: `cd rocq && coq_makefile -f _CoqProject -o Makefile && make -j4`.

## 1. Files

| kind | files |
|---|---|
| model (definitions only, each with a comment citing file and lines) | `PyBase`, `Dict`, `FreeModule`, `Symmetric`, `Simplicial`, `Cubical`, `Utils`, `Surjection`, `BarrattEccles`, `Heap`, `Printing`, `GroupMul`, `SimpDim`, `Repr`, `HeapApi`, `World`, `Inherited` (methods of `collections.Counter` that comch inherits) |
| validation of the model | `DocExamples`: the docstring examples and unit tests of /repo, computed by the kernel |
| specifications (definitions only, independent of the model's helpers) | `Spec`, `SpecChain`, `SpecCube`, `SpecOperad`, `SpecSurj`, `SpecAction`, `SpecCubAction`, `SpecSusp`, `SpecSteenrod`, `SpecCochain`, `SpecUtils`, `SpecPrint`, `SpecRepr`, `SpecAttr`, `SpecCup`, `SpecCone`, `SpecCartan`, `SpecCubCup`, `SpecSimpCup`, `SpecSquares`, `SpecAdem`, `SpecObjects`, `SpecHopf`, `SpecCupAlg`, `SpecNat`, `SpecUniq`, `SpecBock`, `SpecMixed`, `SpecCong`, `SpecArgs`, `SpecHirsch`, `SpecCupi`, `SpecBrace`, `SpecTensor`, `SpecCubNat`, `SpecCounit` |
| proof libraries | `*Facts`, `Eqm`, `Tensor*`, `AW`, `EZ`, `SurjCompose*`, `TableFacts*`, `*Act*`, ... |
| proofs of the properties | `*Laws*.v`: tagged lemmas `CNN_..._l` |
| property theorems | `P_*.v`, generated by `tools/mkprop.py`: `Theorem CNN_name : statement. Proof. exact @CNN_name_l. Qed. Print Assumptions CNN_name.`; examples next to them show that concrete non-trivial inputs meet the hypotheses |

## 2. How the code is modelled

* Exceptions are values: `res A := Ok a | Err e`, one constructor per Python exception class that the modelled code can
  raise (explicitly or implicitly, e.g. IndexError, `max(())` -> ValueError, `None` arithmetic -> TypeError).
  `Diverges` is the value returned when the fuel of a `while` loop is exhausted; theorems about these functions either show
  that it is not returned, or that it is returned for every amount of fuel.
* `for` loops are `for_` (state threaded through, exception aborts), generators are the lists of the values they yield.
* `int` is `Z`; tuples and lists are lists; negative indices, slices, `insert`, `index`, `count` follow Python (`py_get`, `slice`, ...).
* `Counter`/`dict` is the association list of its items in insertion order; `==` of counters compares items, not order.
* Elements: `mkElt data torsion attr` (`attr` is the convention of surjection elements, `tt` otherwise). The four overridden
  `preferred_rep` methods are one generic function with the class-specific degeneracy test.
* The class attributes `default_torsion` (`dt`) and `default_convention` (`dc`) are explicit arguments of every function.
* `SymmetricGroupElement` is a subclass of `tuple`; keys of ring elements are tagged `SGE`/`Tup`, because products have plain
  tuples as keys and methods are looked up on the class (C18).
* Object identity and sharing of `__dict__` are modelled in `Heap.v` (C08: the free module), `HeapApi.v` and `World.v` (C92:
  every method of every class that returns an element); elsewhere an element is its value. `C92_answers` connects both: calls
  on objects give what the value model computes, in every history.
* Floats occur once (`(-1) ** negative` in the Steenrod coefficient): IEEE double, round half to even, overflow (`float_of_int`).

### Simplifications (also stated in the comments of the definitions)
* Arguments have the documented types: ints where ints are expected, tuples of ints as keys. What happens for floats, strings
  or user-defined objects as coefficients is not modelled.
* A Python `set` is iterated in an unspecified order; the model uses the order of first insertion (affects only the order of
  items of dictionaries, which `==` ignores).
* `hash` is an arbitrary function of the set of keys.
* Recursion limits and memory are unbounded.
* `combinations_with_replacement`, `permutations`, `product`, `combinations` of itertools and `math.factorial` are modelled by
  their documented result lists.

### Not modelled
Module-level imports, type annotations and docstrings, the notebooks and the test-suite (docstring examples and tests are used to
validate the model), `__init__` of the tuple subclasses (they do nothing),
and `FreeModuleElement.__str__` for keys other than tuples of ints.
Every other function of comch/ is modelled (110 functions; a script comparing `ast` line ranges with the citations was used).

## 3. Proof method

An element is a finite formal sum; a functional `g : key -> Z` that vanishes on degenerate keys evaluates it (`ev g x`). Every
loop "answer += create({k: v})" is shown to add `v * g k` modulo the torsion for every such `g`; so each API function is
characterised by a dual operator `F* g k`. Identities such as d(d x) = 0 become identities between dual operators on a
single basis element, proved by induction on the tuple with `g` generalised. Two canonical elements with equal evaluation for
all `g` are `==` (`same`). For formulas, `gives` says that the result is canonical and has, on every non-degenerate key, the coefficient
of a specification list modulo the torsion.

`dt_ok dt t` (the hypothesis on default_torsion) is 0, the initial value, or a multiple of t; C09 explains why it is needed.

## 4. Trusted base

* Coq's kernel (8.16.1), including `vm_compute` in examples and refutations.
* `Print Assumptions` of every theorem in MANIFEST.json prints "Closed under the global context": no axioms are used. (The
  standard library files loaded transitively by Coq contain seven axioms, all in `Coq.ssr.ssrunder.Under_rel`: `Under_rel`,
  `Under_rel_from_rel`, `Under_relE`, `under_rel_done`, `Over_rel`, `over_rel`, `over_rel_done`; no theorem uses them.)
* No admitted proofs, no own axioms, no functors or module types, no plugins.
* The reading of the Python source in the model files, checked only by the examples in `DocExamples.v` and by the citations.
* The reading of the English properties in the Spec files.

## 5. Findings about the code

Theorems named `*_refuted` prove the negation of an expectation that the documentation or mathematics suggests:

1. `set_torsion` also changes the torsion of other objects: results share `__dict__` with their first operand (C08).
2. `create` reduces with `default_torsion` before the element's torsion: elements of other torsion are wrong if it is set (C09).
3. `SymmetricRing.transposition_element(1)` is not 0 but -(1); `norm_element` needs torsion other than 1 (C16).
4. `SymmetricRingElement.__pow__` is only right for single permutations (C17); products have plain tuples as keys and cannot be
   used as factors of some later operations (C18); `__mul__` does not check arities; `to_cycles` loops forever on non-permutations (C12).
5. Barratt-Eccles `complexity` compares filter objects by identity and returns the degree (C43).
6. Actions on or by zero, Barratt-Eccles composition with zero, and diagonals of zero raise TypeError (C58).
7. `suspension` changes the arity and is not compatible with composition (C52).
8. The cubical action is a chain map modulo 2 only: over the integers it fails for (1,2,1,2,1) on the 3-cube in the Berger-Fresse
   convention, for (2,1,2,1) in the McClure-Smith convention on the square and in arity 3 on the interval (C51). It ignores the
   convention, and is not compatible with composition even modulo 2 (C63).
9. The coefficient of `steenrod_operation` passes through a float: wrong for p >= 47, OverflowError for (p-1)/2 >= 171 (C57).
10. `may_steenrod_structure(1, n)` raises TypeError for n >= 2; negative degrees never return (C44, C53).
11. `Surjection.compose` checks neither torsion nor arity; position > arity is a ValueError; McClure-Smith composition is
    NotImplemented except for torsion 2; an unknown convention gives UnboundLocalError; the boundary with an unknown convention is
    silently zero (C45, C48).
12. `orbit` of Barratt-Eccles accepts any representation string (treated as sign); the surjection version raises TypeError (C47).
13. `basis` is empty when `default_torsion` is 1 (C55).
14. The simplicial action in the Berger-Fresse convention raises NotImplementedError even for torsion 2, but not on zero operands (C50).
15. `one_reduced` is not compatible with the boundary (C59).
16. `_latex_` of a simplicial element prints a single vertex with a stray comma (`[0,]`); of a cubical element it turns the digits 0
    and 1 of coefficients into cubes (10 prints as `[1][0]`), and prints zero as the vertex `[0]` (C68).
17. `Cube.face(i, epsilon)` substitutes 1 - epsilon, not epsilon as its docstring says (C71).
18. `steenrod_chain(..., shape='cube')` uses the 0-cube when the dimension would be negative, so `steenrod_chain(2, 1, 1, shape='cube')`
    is not zero while the simplicial one is (C61).
19. The signs of the cubical action of words of arity two with a letter that occurs three times, e.g. `(1,2,1,2,1)`, do not match those of
    the simplicial action along the Cartan-Serre map, not even up to a constant sign (C76); mod 2, and in arity at least three up to a constant
    sign, they match.
20. The action of surjection elements on cubical chains is not an operad action, not even mod 2 (C77): for `x = (1,2,1)`, `w = (1,2)` and the
    square, `x.compose(w, 1)(y)` differs from `w(x(y), coord=1)`. It is a chain map and (mod 2) equivariant, which is what the squares need.
21. `SimplicialElement.dimension` is the largest vertex of the data, not a dimension, is set by the constructor only and shared by `create`, so
    the boundary, sums and multiples of `x` show the `dimension` of `x` even when it is wrong for their data (C79).

## 6. Property by property

**C01 Canonical form** (proved). Generic over every class (key type, degeneracy test `bad`, key conversion): `new`, `create`, `preferred_rep` and all arithmetic of FreeModule.v. Canonical = no zero coefficient, coefficients in range of the torsion, no degenerate key, keys distinct. Induction over dictionaries. Theorems: `C01_constructor`, `C01_create`, `C01_operations`, `C01_classes`, `C01_degenerate_keys`.

**C02 Abelian group laws** (proved). `add`, `sub`, `neg`, `iadd`, `isub`, `zero`. Elements with the same value under every linear form are ==; each law becomes an identity of integers modulo the torsion. Theorems: `C02_add_assoc`, `C02_add_comm`, `C02_add_zero`, `C02_sub_add_neg`, `C02_sub_self`, `C02_inplace`, `C02_coefficients`.

**C03 Module laws** (proved). `scale` (`__rmul__` by int), `add`, `neg`; as C02. Theorems: `C03_module_laws`.

**C04 Division** (proved). `truediv` (`__truediv__` by an int): multiplication by `pow(a, -1, torsion)`, modelled by search with ValueError when there is no inverse; torsion 0 raises TypeError. Theorems: `C04_division`, `C04_division_torsion_zero`.

**C05 Torsion mismatch is rejected** (proved). `add`/`sub`/`iadd`/`isub`, products, actions and compositions with different torsions return `Err`: case analysis, for all elements (`C05_torsion_mismatch`, `C05_products`, `C05_call`). `C05_operands_unchanged` is about the object model (World.v): in every reachable state such a call raises and every object keeps its value. SpecMixed.v lists the calls. The composition of surjections does not compare torsions. Theorems: `C05_torsion_mismatch`, `C05_products`, `C05_call`, `C05_operands_unchanged`.

**C06 Equality and hash** (proved). `elt_eqb` (Counter equality of items, attributes ignored), `hash` as a function of the set of keys. Theorems: `C06_equality`, `C06_hash`.

**C07 set_torsion is reduction of coefficients** (proved). `set_torsion`; coefficients of the result are the residues; additivity. Theorems: `C07_set_torsion`, `C07_reduction_is_additive`, `C07_iterated`.

**C08 Which objects an operation can change** (proved). Heap.v: objects with a separate attribute-dictionary reference; `create` shares the reference. Methods perform their reads and writes in program order. Theorems quantify over all heaps and all sequences of operations; which objects `set_torsion` changes is characterised exactly (all that share the dictionary), and the naive expectation is refuted by a history. Theorems: `C08_objects_compute_values`, `C08_results_and_operands_stable`, `C08_inplace_frame`, `C08_set_torsion_exact`, `C08_set_torsion_refuted`.

**C09 Dependence on default_torsion** (proved). `dt` (class attribute default_torsion) is an argument of every function of the model. `dt_ok` is proved sufficient, with a refuting instance otherwise. Theorems: `C09_independence`, `C09_refuted`.

**C10 Symmetric group laws** (proved). `sg_mul`, `sg_inverse`, `sg_pow`, Python indexing. Specification: functions 1..n -> 1..n (`image`), `perm` = Permutation of range. Theorems: `C10_product_is_composition`, `C10_associative`, `C10_identity`, `C10_inverse`, `C10_power`, `C10_negative_power`, `C10_unequal_arities`.

**C100 All cup-i products of simplicial cochains: Steenrod's formula, degree, vanishing and coboundary** (proved). CupiLaws.v (SpecCupi.v, SpecHirsch.v). may_steenrod_structure(2, i) is the alternating word (C75) and its action is the sum over cuts (C50); inner pieces of one vertex give degenerate joins, so each join has at least i + 1 vertices, which bounds i by both degrees; the coboundary formula is the chain map property (C50, C53) read on cochains. Theorems: `C100_formula`, `C100_vanishing`, `C100_top`, `C100_coboundary`.

**C101 The Cartan-Serre map is onto and a quasi-isomorphism** (proved). SerreOnto.v, SerreOntoLaws.v (SpecCone.v, SpecCube.v). An explicit section of the map on basis elements (2 at the vertices before the last one, 0 from the last one on, 1 elsewhere) gives surjectivity; the acyclicity of both sides (C98) and the chain map property (C33) give cycles and boundaries, the sum of coefficients deciding degree 0. Theorems: `C101_cells`, `C101_onto`, `C101_cycles`, `C101_boundaries`, `C101_top`.

**C102 The surjection operad contains the brace operations** (proved). The words are specified in SpecBrace.v. Boundary by the letter-by-letter recursion of the Berger-Fresse boundary; compositions by the overlapping-pieces recursion, whose value on the brace is shown equal to the list of distributions by a double induction on the letters to distribute and the word; single-word composites are computed exactly. Theorems: `C102_brace_element`, `C102_boundary`, `C102_brace`, `C102_faces`, `C102_product`.

**C103 Reduction of coefficients commutes with every operation** (proved). Every operation is known (theorems *_formula) to extend a map of basis elements linearly or bilinearly with the coefficients reduced modulo the torsion; evaluation of functionals is linear and set_torsion changes evaluations by multiples of m only, so both sides evaluate equally modulo m and are therefore equal (TorsLaws.v). Theorems: `C103_simplicial`, `C103_cubical`, `C103_surjection`, `C103_barratt_eccles`, `C103_constructor`, `C103_ring`, `C103_action`, `C103_operad`.

**C104 Operations at different tensor factors are independent** (proved). Each operation is a dual operator that replaces one factor by a list of factors of known length and degree with the sign of moving past the factors in front (IndepLaws.v, loc); two such operators at different factors commute up to the product of degrees by exchanging two finite sums. Theorems: `C104_simplicial`, `C104_cubical`.

**C105 Tensor products of elements** (proved). The tensor product is defined in SpecTensor.v from the constructor alone; it is a bilinear operation whose dual concatenates keys (TensLaws.v). The Leibniz rule, the action at a factor, the block exchange and the Cartan-Serre map then reduce to identities about concatenated keys, which hold by the locality of each operator (IndepLaws.v). Theorems: `C105_leibniz`, `C105_simplicial`, `C105_cubical`, `C105_swap`, `C105_associative`, `C105_cartan_serre`.

**C106 The join is associative** (proved). The dual of the binary join is a recursive function of the two cubes; associativity with its sign is proved by induction on the common length, extended to joins of many cubes by induction on the number of factors, and transported to elements with the tensor product of SpecTensor.v (JoinAssoc.v). Theorems: `C106_join`, `C106_associative`.

**C107 Naturality under maps of cubes** (proved). Maps of cubes are partial functions on cubes (SpecCubNat.v). Compatibility of one-coordinate maps with the duals of the boundary, the Serre diagonal and the binary join is proved by induction on the place and the cube, extended to tensors, iterated diagonals, iterated joins and the operadic action, and transported to elements with the generic calculus of linear operations (CubNat.v). Theorems: `C107_image`, `C107_linear`, `C107_boundary`, `C107_diagonal`, `C107_symmetric`, `C107_join`, `C107_surjection`, `C107_retraction`, `C107_cochains`.

**C108 Homologous elements of the surjection operad act homotopically** (proved). The difference of the two elements is a boundary by the acyclicity of the surjection complex (C69); the homotopy is the action of a bounding element, and the formula follows from the chain map identity for the action (C50, C51), bilinearity and the congruence of the action under == (HtpyLaws.v). Theorems: `C108_simplicial`, `C108_cubical`, `C108_cycles`.

**C109 Diagonals are counital and detect boundaries** (proved). The counit laws are proved for the cuts of a list (induction on the number of cuts) and for the Serre diagonal, and carried to elements; the augmentation of a factor is a linear operation commuting with the boundary (DiagHom.v, over any set of cells closed under faces), so that a bounding element of a diagonal gives, factor by factor, one of the element (CounitLaws.v). Theorems: `C109_simplicial_counit`, `C109_simplicial_once`, `C109_cubical_counit`, `C109_simplicial_detects`, `C109_cubical_detects`.

**C11 Sign of a permutation** (proved). `sg_sign` via cycles; specification: parity of the number of inversions. Induction over the cycle decomposition loop. Theorems: `C11_sign_counts_inversions`, `C11_multiplicative`, `C11_defined_exactly_on_permutations`, `C11_transposition`.

**C110 Exactness of the periodic resolution** (proved). Every basis element has a place in its orbit under the rotation (the image of 1, the image of 1 under the first permutation, the first letter). With H the sum of the rotations from that place to the end of the orbit and pi, pi' the projections on the first and last places, x = pi N x - T H x and x = N pi' x - H T x hold; this contraction is given for any free action of the rotation by signs and keys (PerExact.v) and instantiated three times (PerLaws.v). Theorems: `C110_ring`, `C110_barratt_eccles`, `C110_surjection`, `C110_arity_one_refuted`.

**C111 Equivariant sequences (May-Steenrod structures) exist and are unique up to equivariant homotopy** (proved). Induction on the degree for any complex with an action of the group ring whose positive cycles bound (PerUniq.v): psi - psi' - (N or T) h is a cycle, because the boundary commutes with the action, the products of T and N vanish and the previous homotopy exists, so it bounds (C69); in degree 0 the total decides (C69). Existence by the same induction: (N or T) psi is a cycle. Instantiated for the two operads, and with the sequences of C44 and C53 (UniqLaws.v). The acyclicity is the contraction of C69. Theorems: `C111_surjection`, `C111_barratt_eccles`, `C111_existence_surjection`, `C111_existence_barratt_eccles`, `C111_may_surjection`, `C111_may_barratt_eccles`.

**C12 Cycle decomposition** (proved). `to_cycles` with its `while` loop (fuel); termination on permutations and divergence otherwise are both proved (for every amount of fuel). Theorems: `C12_cycles`, `C12_diverges`.

**C13 Operad axioms of symmetric groups** (proved). `sg_compose`; block permutation specification by `image`; operad axioms. Theorems: `C13_composition`, `C13_sequential`, `C13_parallel`, `C13_unit`, `C13_position_rejected`.

**C14 Enumeration of permutations and shuffles** (proved). `itertools.permutations`, `sg_all`, `sg_shuffles`: soundness, completeness, no repetition. Theorems: `C14_all_permutations`, `C14_shuffles`.

**C15 Group ring** (proved). `ring_mul` over tagged keys (SGE or plain tuple). Convolution formula; associativity through the evaluation method. Theorems: `C15_product_coefficients`, `C15_associative`, `C15_distributive`, `C15_unit`, `C15_torsion_mismatch`.

**C16 Norm and transposition elements** (proved). `rotation_element`, `transposition_element`, `norm_element` for all arities; T N = N T = 0. Theorems: `C16_rotation`, `C16_transposition`, `C16_transposition_refuted`, `C16_norm`, `C16_products_vanish`.

**C17 Ring power: iterated product exactly on permutations** (proved). `ring_pow`; positive statement for single permutations, refutation for sums, and a formula for all elements (ProductLaws.v). Theorems: `C17_single_element`, `C17_refuted`, `C17_power_formula`.

**C18 What products of ring elements can be used for** (proved). Key tags: products have plain tuples as keys; which later calls fail and which succeed is stated and proved for every product (ProductLaws.v). Theorems: `C18_refuted`, `C18_products_as_arguments`, `C18_products_rejected`, `C18_group_times_ring`, `C18_products_usable`.

**C19 Ring composition** (proved). `ring_compose`; as C13 and C15. Theorems: `C19_bilinear`, `C19_sequential`, `C19_parallel`, `C19_unit`, `C19_keys`.

**C20 Simplicial boundary squares to zero** (proved). `simp_boundary`; dual operator `tD` on tensor powers of a complex (Tensor.v), d d = 0 by the simplicial identities and Koszul signs. Theorems: `C20_boundary_formula`, `C20_boundary_squared`, `C20_boundary_linear`, `C20_boundary_degree`, `C20_arity_degree`.

**C21 Simplex identities** (proved). `spx_face`, `spx_degeneracy`, `is_degenerate`: list identities for all indices. Theorems: `C21_simplicial_identities`, `C21_cosimplicial_identities`, `C21_dimension`, `C21_is_degenerate`, `C21_degeneracy_degenerate`.

**C22 Koszul action on simplicial elements** (proved). `simp_act` incl. `koszul_sign` and `place`; specification `move`/`crossings` (Koszul sign = weighted inversions). Theorems: `C22_action_formula`, `C22_left_action`, `C22_unit`, `C22_bilinear`, `C22_mismatch`.

**C23 Action commutes with boundary (simplicial)** (proved). Tensor.v: Koszul action commutes with the boundary of tensor powers; then evaluation. Theorems: `C23_action_boundary`.

**C24 Alexander-Whitney iterated diagonal** (proved). `simp_iterated_diagonal` (combinations with replacement of cut points); spec `front_back`; induction on the number of cuts. Theorems: `C24_diagonal_formula`, `C24_chain_map`.

**C25 Coassociativity (simplicial)** (proved). AW.v coassociativity of cuts at an arbitrary factor. Theorems: `C25_coassociative`.

**C26 Simplicial bases** (proved). `simp_basis`, `simp_standard_element` by `combinations`; soundness and completeness. Theorems: `C26_basis`, `C26_basis_elements`.

**C27 Cubical boundary squares to zero** (proved). `cub_boundary`, `cube_face`, basis; recursion over coordinates. Theorems: `C27_boundary_formula`, `C27_boundary_squared`, `C27_boundary_linear`, `C27_boundary_degree`, `C27_arity_degree`, `C27_basis`, `C27_basis_elements`.

**C28 Koszul action on cubical elements** (proved). `cub_act`; shares TensorAct.v with C22/C23. Theorems: `C28_action_formula`, `C28_left_action`, `C28_unit`, `C28_bilinear`, `C28_mismatch`, `C28_action_boundary`.

**C29 Serre diagonal is a chain map** (proved). `cub_iterated_diagonal`; spec in SpecCube; recursion over coordinates with signs. Theorems: `C29_diagonal_formula`, `C29_chain_map`.

**C30 Coassociativity (cubical)** (proved). Coassociativity of the Serre diagonal, at an arbitrary factor. Theorems: `C30_coassociative`.

**C31 Join boundary formula** (proved). `cub_join`: boundary of a join of two cubes, with the two correction terms. Theorems: `C31_join_homotopy`.

**C32 Iterated join** (proved). `cub_join` of elements with any number of factors (`join_loop`, with its vanishing conditions). Theorems: `C32_join_formula`, `C32_degree`.

**C33 Cartan-Serre map is a chain map** (proved). `cub_cartan_serre`: formula and chain map to simplicial chains. Theorems: `C33_formula`, `C33_linear`, `C33_chain_map`.

**C34 Barratt-Eccles boundary squares to zero** (proved). `be_boundary`; faces of lists of permutations. Theorems: `C34_degenerate`, `C34_boundary_formula`, `C34_boundary_squared`, `C34_boundary_linear`, `C34_boundary_degree`, `C34_arity_degree`.

**C35 Barratt-Eccles symmetric action** (proved). `be_act`; ActGeneric.v. Theorems: `C35_action_formula`, `C35_left_action`, `C35_products_rejected`, `C35_unit`, `C35_bilinear`, `C35_action_boundary`, `C35_mismatch`.

**C36 Barratt-Eccles orbit** (proved). `be_orbit`; division of each sequence by its first permutation. Theorems: `C36_orbit_formula`, `C36_starts_with_identity`, `C36_idempotent`, `C36_constant_on_orbits`, `C36_boundary_on_orbits`.

**C37 Barratt-Eccles composition is a chain map** (proved). `be_compose` via lattice paths (`paths`, `sign_of_path`); EZ.v proves the Leibniz rule of the shuffle product by recursion. Theorems: `C37_compose_formula`, `C37_compose_degree`, `C37_bilinear`, `C37_chain_map`, `C37_errors`.

**C38 Barratt-Eccles operad associativity** (proved). EZ associativity plus C13; the Koszul sign in the parallel axiom. Theorems: `C38_sequential`, `C38_parallel`, `C38_unit`.

**C39 Table reduction is a chain map** (proved). `be_table_reduction` (all partitions of the row lengths, `table_row`): equals `table_words`; chain map by letter-by-letter recursion on tables. Theorems: `C39_table_formula`, `C39_table_degree`, `C39_linear`, `C39_chain_map`.

**C40 Table reduction is equivariant** (proved). Relabelling of tables. Theorems: `C40_equivariant`.

**C41 Table reduction is an operad morphism** (proved). TableFacts2: words of a path of composed tables = composites of words, sign bookkeeping by caesuras. Theorems: `C41_operad_morphism`.

**C42 Alexander-Whitney diagonal of Barratt-Eccles** (proved). `be_diagonal` (`be_splits`): AW of lists of permutations. Theorems: `C42_diagonal_formula`, `C42_coassociative`, `C42_linear`.

**C43 Barratt-Eccles complexity: what is returned** (proved). `be_complexity` including the comparison of filter objects by identity; spec `changes of order`. Theorems: `C43_value`, `C43_upper_bound`, `C43_arity_two`, `C43_complexity_refuted`.

**C44 May-Steenrod structure (Barratt-Eccles)** (proved). `be_may_steenrod` recursion with the contracting homotopy; degrees by induction. Theorems: `C44_identity`, `C44_degree`, `C44_boundary`, `C44_arity_one`.

**C45 Surjection boundary squares to zero** (proved). `surj_boundary` for both conventions and the unknown-convention branch. BF: recursion on words; MS is conjugate to BF by an explicit sign (`tw`). Theorems: `C45_degenerate`, `C45_boundary_formula`, `C45_boundary_unknown_convention`, `C45_boundary_squared`, `C45_boundary_linear`, `C45_boundary_degree`.

**C46 Surjection symmetric action** (proved). `surj_act`; MS sign is the Koszul sign (`crossings`). Theorems: `C46_action_formula`, `C46_left_action`, `C46_unit`, `C46_bilinear`, `C46_action_boundary`, `C46_degree`, `C46_mismatch`.

**C47 Surjection orbit** (proved). `surj_orbit`; renaming by first occurrences. Theorems: `C47_orbit_formula`, `C47_first_occurrences_increasing`, `C47_idempotent`, `C47_constant_on_orbits`, `C47_boundary_on_orbits`, `C47_unknown_representation`.

**C48 Surjection composition is a chain map** (proved). `surj_compose` (weakly increasing cut positions, `compose_key`, `bf_sign`) equals `surj_composites`; Leibniz rule by recursion on the outer word. Theorems: `C48_compose_formula`, `C48_mixed`, `C48_compose_degree`, `C48_bilinear`, `C48_chain_map`, `C48_ms_not_implemented`.

**C49 Surjection operad associativity** (proved). Relabelling lemmas and associativity of insertion of words. Theorems: `C49_sequential`, `C49_parallel`, `C49_unit`.

**C50 Simplicial action of surjections is a chain map** (proved). `surj_call_simplicial` with `compute_sign` and joins equals `simp_acts`; chain map: boundary of joins and cuts, sign parities. Theorems: `C50_action_formula`, `C50_action_degree`, `C50_bilinear`, `C50_chain_map`, `C50_zero`, `C50_errors`.

**C51 Cubical action of surjections: formula, chain map mod 2** (proved). `surj_call_cubical` equals `cub_acts` (all conventions); chain map modulo 2 by recursion over coordinates; three integral counterexamples computed by the kernel. Theorems: `C51_action_formula`, `C51_action_degree`, `C51_bilinear`, `C51_mod2_chain_map`, `C51_refuted`, `C51_zero`, `C51_errors`.

**C52 Suspension: formula, and where it fails** (proved). `surj_suspension`; formula, and refutations with witnesses. Theorems: `C52_formula`, `C52_linear`, `C52_length`, `C52_errors`, `C52_boundary`, `C52_arity_refuted`, `C52_compose_refuted`.

**C53 May-Steenrod structure (surjections)** (proved). `surj_may_steenrod` with the maps i, p, s, h; contracting homotopy identities for both conventions. Theorems: `C53_identity`, `C53_degree`, `C53_boundary`, `C53_arity_one`.

**C54 Complexity filtration of surjections** (proved). `surj_complexity`, `surj_filtration`: maxima over pairs; deletion and renaming of letters. Theorems: `C54_complexity_value`, `C54_boundary`, `C54_action`, `C54_bound`, `C54_filtration_value`, `C54_filtration_boundary`.

**C55 Basis of the surjection complex** (proved). `surj_basis`; soundness, completeness, no repetition, complexity filter. Theorems: `C55_basis`, `C55_negative_degree`, `C55_default_torsion_one`.

**C56 Partitions and decompositions** (proved). `partitions`, `decompositions`: generators as lists of the yielded values. Theorems: `C56_partitions`, `C56_no_parts`, `C56_decompositions`.

**C57 Steenrod operation coefficients and degrees** (proved). `surj_steenrod_operation`, `be_steenrod_operation`, with the coefficient as the code computes it: for negative exponents `(-1)**n` is a float and the product with factorial(m) is rounded to a double (`float_of_int`: round half to even, OverflowError). Wilson's theorem (Wilson.v) relates the coefficient to the documented one. Theorems: `C57_bockstein_two`, `C57_below_range`, `C57_two`, `C57_odd_surjection`, `C57_odd_barratt_eccles`, `C57_float_refuted`, `C57_float_surjection`, `C57_float_barratt_eccles`, `C57_float_conversion`, `C57_float_overflow`, `C57_overflow`.

**C58 Behaviour of operations on the zero element** (proved). All operations on zero operands, by case analysis on the empty dictionary. Theorems: `C58_zero_unary`, `C58_zero_binary`, `C58_act_both_zero`, `C58_act_zero_refuted`, `C58_compose_zero_refuted`, `C58_diagonal_zero_refuted`.

**C59 One-reduction** (proved). `one_reduced`. Theorems: `C59_keeps_terms`, `C59_linear`, `C59_idempotent`, `C59_boundary_compatible_refuted`.

**C60 Distinct permutations** (proved). `distinct_permutations`: array algorithm with `while` loops (fuel shown sufficient), next-permutation successor proved to be the lexicographic successor. Theorems: `C60_distinct_permutations`.

**C61 Steenrod chains** (proved). `steenrod_chain` with its filter; degree count shows that it keeps exactly the terms of dimension -q in every factor. Theorems: `C61_chain`, `C61_evaluate`, `C61_cube`.

**C62 Equivariance of the simplicial action** (proved). Sign of `surj_move` (MS) + `action_exponent` against the Koszul sign of the permuted result, for every word and cut (EquivAct.v). Theorems: `C62_equivariant`.

**C63 The simplicial action is an operad action** (proved). OperadAct.v: cutting along a composite word = cutting along the outer word, collecting the pieces of letter i, and cutting these along the inner word (continuation-passing sums, induction on the outer word). Cubical case refuted by computation. Theorems: `C63_compose`, `C63_cubical_refuted`.

**C64 Equivariance of operadic composition** (proved). CompEquiv.v: where sigma o_{sigma(i)} tau sends each letter, then the terms of the composite of relabelled words are the relabelled terms (induction on the outer word; lattice paths for Barratt-Eccles), extended bilinearly (bil_morphism). Theorems: `C64_group`, `C64_surjection`, `C64_barratt_eccles`.

**C65 Complexity filtration is a suboperad** (proved). Composite words arise from the factors by repeating and deleting letters and relabelling; `changes` is monotone under these (relation R in CpxLaws.v). Theorems: `C65_suboperad`.

**C66 Steenrod operations send cocycles to cocycles** (proved). Cochains as functions on a simplicial set (graded set closed under faces); C50 + C53 + C62 give d(alpha^p S) = 0 mod p. Theorems: `C66_cocycle`, `C66_operation`.

**C67 Printing is faithful** (proved). Printing.v models strings, tuple.__repr__, str.replace and __str__; PrintFacts.v: decimal printing is injective, tuple printing is a prefix code, str.replace(', ', ',') acts term by term; the specification SpecPrint.v gives the expected string. Theorems: `C67_simplex`, `C67_simplicial`, `C67_cubical`, `C67_barratt_eccles`, `C67_surjection`, `C67_ring`, `C67_faithful_simplicial`, `C67_faithful_cubical`, `C67_faithful_barratt_eccles`, `C67_faithful_surjection`, `C67_faithful_ring`.

**C68 LaTeX output** (proved). LatexFacts.v: each replace pass turns one explicit form of the printed sum into the next (induction over the factors of a key); exceptions computed. Theorems: `C68_simplicial`, `C68_vertex`, `C68_cubical`, `C68_cubical_refuted`.

**C69 Both E-infinity complexes are acyclic** (proved). AcyclicFacts.v: a contracting homotopy (prepending the identity; for surjections the map h of may_steenrod_structure) bounds every cycle; the augmentation handles degree 0. Theorems: `C69_barratt_eccles`, `C69_barratt_eccles_zero`, `C69_surjection`, `C69_surjection_zero`.

**C70 Both E-infinity complexes are free over the group ring** (proved). AcyclicLaws.v: evaluate both products on the indicator of each translate p*k; the translates are pairwise different and non-degenerate. Theorems: `C70_surjection`, `C70_barratt_eccles`.

**C71 Single cubes: intervals, faces, collapse** (proved). CubeLaws.v: a cube with an i-th interval is l1 ++ 2 :: l2 with i intervals in l1; all claims are list computations on that decomposition. Theorems: `C71_intervals`, `C71_face`, `C71_face_range`, `C71_cubical_identities`, `C71_cartan_serre`.

**C72 arity and degree are exact** (proved). AttrLaws.v: the set of values has one element exactly when the list of values is non-empty and constant; supports via den_keys. Theorems: `C72_ring_arity`, `C72_surj_arity_degree`, `C72_be_arity`, `C72_be_degree`, `C72_support`.

**C73 Permutations act on every class of elements** (proved). GroupMul.v models `SymmetricGroupElement.__mul__` with a module element; GroupLaws.v reduces it to the ring action of {g: 1} (C22, C28, C35, C46). Theorems: `C73_simplicial`, `C73_cubical`, `C73_be`, `C73_surjection`.

**C74 Steenrod operations are linear maps on cohomology** (proved). SteenrodWords.v pairs words in cochains with tensors and contracts the formal complex on two letters; SteenrodLin.v shows that the values Q_d on a cycle satisfy Q_{d+1}(dG) = (T or N) Q_d(G) (C15, C16, C29, C30), so v^p has value 0 for v = du, and sums over rotations of words vanish, which gives additivity for prime p. Theorems: `C74_additive`, `C74_scalar`, `C74_class`, `C74_structure`.

**C75 Cup-i products: first Steenrod operations** (proved). CupI.v: a splitting of a simplex of dimension at most d into d+2 overlapping pieces has either a one-point interior piece, and then two pieces with the same letter repeat a vertex, or all interior pieces are edges; induction on the simplex. The sign is a closed form of action_exponent. May elements of arity 2 have one word by uniqueness of alternating words. CupILaws.v combines this with bil_act and diag_den. Theorems: `C75_diagonal`, `C75_two`, `C75_word`, `C75_square`, `C75_sq0`, `C75_negative`, `C75_top`.

**C76 Cartan-Serre map: compatible with diagonals and with the operad action** (proved). CartanSerre.v: the collapse turns the Serre diagonal into the Alexander-Whitney diagonal (induction on the cube with the counit), and the join of two pieces, one below the other, into concatenation of simplices up to the sign of the first dimension (induction on the cube; degenerate concatenations vanish). The pieces of an iterated Serre diagonal are pairwise ordered, so every product of joins becomes the product of concatenations; the sign is computed by a closed form of the iterated join sign. CartanLaws.v lifts to elements with bil_morphism. Theorems: `C76_diagonal`, `C76_action_sign`, `C76_action_mod2`, `C76_refuted`.

**C77 Cubical cup-i products: coboundary formula, equivariance, closed forms, no operad action** (proved). Specification `SpecCubCup.v` (face-closed sets of cubes, cochains, coboundary, value of a pair of cochains). The action on one cube mod 2 is a sum over Serre splittings of joins over the blocks of the word (`CubActCore.PhiC`); permuting letters permutes the joins (`CubCup.PsiC_move`), which gives equivariance; the alternating words have boundary 'previous word plus its flip' mod 2 (`CubCup2.alt_sd`), so the chain map property `PhiC_chain` of the action becomes the coboundary formula. The square s (x) s comes from an induction over the coordinates of the cube. The refutation is a computed closed counterexample. Theorems: `C77_diagonal`, `C77_faces`, `C77_equivariant`, `C77_unstable`, `C77_square`, `C77_coboundary`, `C77_leibniz`, `C77_operad_refuted`.

**C78 Steenrod squares and cup products on cubical cochains mod 2** (proved). The five identities follow from the formulas of C77 summed over a cycle: cross terms a u_d b + b u_d a are the boundary terms of a u_(d+1) b; df u_d df = boundary of f u_d df plus boundary of f u_(d-1) f. Values outside X are irrelevant because the action does not leave X. Theorems: `C78_cocycle`, `C78_additive`, `C78_class`, `C78_sq0`, `C78_unstable`, `C78_top`, `C78_cup`.

**C79 The attribute dimension, and attributes in every history** (proved). The constructor's attribute is modelled in SimpDim.v on top of the object model Heap.v. Cases on the arguments with the specification of max; induction over histories with the frame theorem of C08 (set_torsion is the only operation that writes an attribute, and it writes the torsion only). Theorems: `C79_init`, `C79_object`, `C79_stable`, `C79_derived`.

**C80 Signed cup-i products of simplicial cochains over every ring** (proved). The value of a pairing of cochains on S_d(c) is the denotation of the action (ActCore); the boundary formula of the May-Steenrod structure (C29), the chain map property of the action (C46) and its equivariance (C61) give the formula; the corollaries are sums of the formula over a cycle. Theorems: `C80_formula`, `C80_coboundary`, `C80_leibniz`, `C80_commutative`, `C80_class`, `C80_symmetry`.

**C81 Table reduction compares the two May-Steenrod structures** (proved). Prepending the identity to a simplex corresponds under table reduction to the contracting homotopy used by the surjection operad (TT_homotopy, from the recursive form of the table reduction); with equivariance of the table reduction (C39) the two recursions agree step by step. Theorems: `C81_structure`, `C81_operation`.

**C82 The complexity filtration of the Barratt-Eccles operad** (proved). Every basis element of a result comes from the closed formulas of C34, C35, C37, C39; deleting an entry of a sequence does not add changes; along a lattice path the order of two letters is that of the letters of one factor; induction on the recursive table reduction bounds the alternations. Theorems: `C82_boundary`, `C82_action`, `C82_compose`, `C82_table`, `C82_table_complexity`.

**C83 Cartan formula for Steenrod squares** (proved). Both sides are values of one functional on words of arity 4: the composites of (1,2) with S_d and of S_a, S_b with (1,2). With the boundary formula of S_d, composition as a chain map and its equivariance both satisfy the same recursion under the boundary, so the contracting homotopy of the surjection complex (C69) gives, by induction on d, an equivariant homotopy between them (SqHtpy.v, SqCartan.v); an invariant cocycle does not see it. The operad action modulo 2 (OperadAct.v) evaluates the two sides (SqAct.v), and SqLaws.v connects them with the code. Theorems: `C83_squares_exist`, `C83_cartan`.

**C84 Cochain algebra of the cup product** (proved). The diagonal of one simplex is the sum over its cuts (C10), so a u b is the convolution of a and b over cuts (CupAlgLaws.v: cup_code, cup_is_iff); only one cut has pieces of the right lengths, which gives the formula, and coassociativity of cutting and the boundary of a cut give associativity and the derivation rule. Theorems: `C84_formula`, `C84_associative`, `C84_unit`, `C84_leibniz`.

**C85 Naturality under maps of the vertices** (proved). The image is characterised by its value at every form that kills degenerate tensors (rep_ev); each operator of the model is dual to an operator on forms (linop), and these dual operators commute with relabelling by induction on the key (nat_tDS, nat_Sd, nat_kact, nat_Phi in NatLaws.v); nat_linop transfers this to the code. Theorems: `C85_image`, `C85_linear`, `C85_boundary`, `C85_diagonal`, `C85_symmetric`, `C85_surjection`, `C85_one_reduced`, `C85_cohomology`.

**C86 Bocksteins and top powers** (proved). The chain formula of the action is used over the integers (QZ_chain in Bockstein.v): boundary e_d is the norm or rotation-minus-one times e_(d-1), rotations fix the tensor power exactly, the coboundary of the tensor power is p times a sum over the places of the divided coboundary; that sum is a norm by the Koszul sign of the rotations (w0_sign) and so has value zero modulo p; dividing by p gives the relation. Theorems: `C86_bockstein`, `C86_bockstein_twice`, `C86_square`, `C86_structure`, `C86_top`.

**C87 P^0 is the identity** (proved). By dimension only the tensor power of the simplex itself can occur (sub2_dim, top_key in P0Simplex.v). Its coefficient is computed by induction on the dimension: for the indicator beta of the last face and delta beta, the chain formula gives a relation modulo p between words in beta and delta beta (qq_S); the contraction of the word complex turns it into a descent from (delta beta)^p to beta^p (descent in P0Words.v), whose coefficient is a sum over the adjacent pairs of letters that counts, with Koszul signs of the rotations, h! times a sign (PS_EV, M_step). Theorems: `C87_identity`, `C87_value`, `C87_structure`, `C87_vanish`.

**C88 Steenrod operations commute with connecting homomorphisms (stability)** (proved). For words in alpha and delta alpha the chain formula gives relations modulo p with error terms at boundary(c) (q_0, q_S in Stable.v), and an error term vanishes as soon as the word contains delta alpha, since the action stays inside A (eb_small). The descent of P0Words.v, proved for C87, turns this into the coefficient; the factors nu(q) of the two operations then leave only a sign (stable_coeff). For p = 2 and for cubes: Steenrod's coboundary formula applied to (alpha, alpha) and to (alpha, delta alpha). Theorems: `C88_odd`, `C88_two`, `C88_structure`, `C88_cubical`.

**C89 Copies and the other operations inherited from Counter** (proved). Inherited.v models the methods of CPython's collections.Counter that the classes inherit. Copies: the constructor applied to canonical data, reduced to set_torsion (C07). Multiset operations: one lemma about a fold that keeps selected items (sel_fold). Order, in-place operations, elements and total: InhAdd.v, by induction on the items; the total is the evaluation of the constant form 1. Theorems: `C89_copy`, `C89_copy_eq`, `C89_update`, `C89_update_add`, `C89_multiset`, `C89_pos_torsion`, `C89_order`, `C89_order_add`, `C89_inplace`, `C89_elements`, `C89_total`, `C89_copy_surj`.

**C90 repr of elements: order, faithfulness and round trip** (proved). Repr.v models Counter.__repr__ (most_common is a stable insertion sort); SpecRepr.v states the order (by_count). Faithfulness: removing the spaces after commas is a homomorphism on the printed items, whose images are uniquely decodable (PrintFacts.v). Theorems: `C90_shape`, `C90_order_unique`, `C90_faithful`, `C90_eq`, `C90_roundtrip`.

**C91 Adem relations for Steenrod squares** (proved). AdemHtpy.v: two families of functionals on words of arity 4, indexed by two degrees, with the same boundary under two commuting involutions agree on invariant cocycles (the contracting homotopy of C69, by induction on both degrees). AdemWords.v and AdemSum.v: the sum of C(b, l) C(a (+1), l + 1) times the composites of S_(j-l) with S_a and S_b has such a boundary in (j, k); AdemSym.v compares it with its mirror image under the exchange of the two middle inputs. AdemAct.v evaluates it on a cocycle (operad action modulo 2): off-diagonal terms cancel by the symmetry of cup-i products on cycles, which leaves sum_i C(i, k - i) Sq Sq; AdemBin.v turns the resulting symmetric relation into the classical one by identities of binomial coefficients modulo 2. AdemLaws.v connects it with the code. Theorems: `C91_iterated_exists`, `C91_adem`, `C91_vanishing`.

**C92 Objects in a program using the whole API** (proved). HeapApi.v models every method on objects (create, zero, in-place additions to the answer, temporaries of += included), World.v a program with objects of all classes. HeapSim.v: simulation of the object-level loops by the value-level ones, with the frame (what is unchanged) and the attribute dictionary of the answer; HeapMethods.v: one lemma for each method; WorldSim.v and WorldLaws.v: every call builds a new object, returns its operand, or has a missing operand. ObjLaws.v: induction over histories, with the invariant that families (SpecObjects.v) are the classes of objects with the same attribute dictionary. Theorems: `C92_answers`, `C92_objects_stable`, `C92_new_objects`, `C92_set_torsion_exact`, `C92_families`, `C92_own_attributes`, `C92_shared_attributes`.

**C93 Hopf structure of the Barratt-Eccles operad** (proved). SpecHopf.v: boundary, composition and augmentation of tensor products. HopfFacts.v: the signed sum over lattice paths (composition) commutes with the sum over cuts (diagonal), by induction on the two simplices; partial composition of permutations is injective in each argument, so that a path of non-degenerate simplices is non-degenerate; the sum over cuts commutes with the boundary of the tensor power. Theorems: `C93_compose`, `C93_chain_map`, `C93_equivariant`, `C93_counit`.

**C94 Table reduction is onto, on every stage of the filtration, and a quasi-isomorphism** (proved). TableOnto.v: to a word associate the table that is read in one way only (the last occurrence of a letter ends its column, an earlier occurrence starts a new row); by induction on the word this table is made of permutations, has no equal consecutive rows, and its only non-degenerate reading is the word; the order of two letters changes once per switch after the first. Cycles lift through C69 (acyclicity) and the chain map property C39; CongFacts.v: linear operations respect equality. Theorems: `C94_onto`, `C94_cycles`, `C94_boundaries`, `C94_basis`.

**C95 Equal elements are interchangeable, and insertion order is irrelevant** (proved). SpecCong.v: equal elements. CongFacts.v: a formula of the form `linear extension of f over the terms` has the same coefficients for equal elements, because well-formed equal dictionaries have the same terms; CongLaws.v applies this to the formulas proved for every operation. Counterexamples by computation. Theorems: `C95_order`, `C95_arithmetic`, `C95_simplicial`, `C95_cubical`, `C95_surjection`, `C95_barratt_eccles`, `C95_ring`, `C95_action`, `C95_operad`, `C95_refuted`.

**C96 Which integer arguments are accepted, and what out-of-range arguments do** (proved). ArgsLaws.v. Slices with negative bounds are rewritten to slices with non-negative bounds (neg_slices, zero_slices, low_get); the loops of the accepted cases are evaluated as for C24 and C29, with the rest of the key replaced by the whole key for coord = 0 and the empty product for times < 0 (SpecArgs.v: counit_at). The rejected cases: the first key raises. Theorems: `C96_simplicial_negative`, `C96_simplicial_zero`, `C96_simplicial`, `C96_cubical_negative`, `C96_cubical_counit`, `C96_cubical_zero`, `C96_cubical`, `C96_call`, `C96_position`, `C96_face`, `C96_degeneracy`.

**C97 Arity two: the stages of the complexity filtration are spheres** (proved). ArityTwo.v, ArityTwoLaws.v, ArityTwoBE.v, ArityTwoBELaws.v. A word in two letters without repetitions alternates (SpecCup.v: altw, alt_simplex). The boundary of an alternating word is computed by induction on its length, in both conventions; the boundaries of the two words of one degree agree up to sign, so with C69 every cycle is a multiple of one of them, which is what may_steenrod_structure(2, d + 1) bounds. Complexity: C43, C54. Theorems: `C97_words`, `C97_complexity`, `C97_cycles`, `C97_generator`, `C97_stages`, `C97_simplices`, `C97_be_complexity`, `C97_be_cycles`, `C97_be_generator`, `C97_be_stages`.

**C98 Tensor powers of simplices and cubes have the homology of a point** (proved). ConeFacts.v, ConeLaws.v (SpecCone.v). One factor is contracted by adding the vertex v in front, or by 1 -> interval on the first coordinates of a cube; the contraction of a tensor product is h x 1 + (point) x h, by recursion on the factors, generically in the class. The homotopy formula gives that cycles bound (AcyclicFacts.v), and the augmentation detects degree 0. Theorems: `C98_cone`, `C98_cone_zero`, `C98_simplex`, `C98_simplex_zero`, `C98_cube`, `C98_cube_zero`.

**C99 The cup-1 product: Steenrod's formula, the Hirsch formula and the pre-Lie identity** (proved). HirschFacts.v, HirschLaws.v (SpecHirsch.v). may_steenrod_structure(2, 1) is the word (1, 2, 1) (C75); its action, cut at the two places that the degrees determine, is the closed formula; the two identities are bijections between the terms of double sums, with the slices of the list of vertices compared place by place. Theorems: `C99_zero`, `C99_formula`, `C99_hirsch`, `C99_pre_lie`.

