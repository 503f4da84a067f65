{
 "claims": [
  {
   "property": "C01",
   "status": "proved",
   "theorems": [
    "C01_constructor",
    "C01_create",
    "C01_operations",
    "C01_classes",
    "C01_degenerate_keys"
   ],
   "note": ""
  },
  {
   "property": "C02",
   "status": "proved",
   "theorems": [
    "C02_add_assoc",
    "C02_add_comm",
    "C02_add_zero",
    "C02_sub_add_neg",
    "C02_sub_self",
    "C02_inplace",
    "C02_coefficients"
   ],
   "note": ""
  },
  {
   "property": "C03",
   "status": "proved",
   "theorems": [
    "C03_module_laws"
   ],
   "note": ""
  },
  {
   "property": "C04",
   "status": "proved",
   "theorems": [
    "C04_division",
    "C04_division_torsion_zero"
   ],
   "note": ""
  },
  {
   "property": "C05",
   "status": "proved",
   "theorems": [
    "C05_torsion_mismatch",
    "C05_products",
    "C05_call",
    "C05_operands_unchanged"
   ],
   "note": ""
  },
  {
   "property": "C06",
   "status": "proved",
   "theorems": [
    "C06_equality",
    "C06_hash"
   ],
   "note": ""
  },
  {
   "property": "C07",
   "status": "proved",
   "theorems": [
    "C07_set_torsion",
    "C07_reduction_is_additive",
    "C07_iterated"
   ],
   "note": ""
  },
  {
   "property": "C08",
   "status": "proved",
   "theorems": [
    "C08_objects_compute_values",
    "C08_results_and_operands_stable",
    "C08_inplace_frame",
    "C08_set_torsion_exact",
    "C08_set_torsion_refuted"
   ],
   "note": ""
  },
  {
   "property": "C09",
   "status": "proved",
   "theorems": [
    "C09_independence",
    "C09_refuted"
   ],
   "note": ""
  },
  {
   "property": "C10",
   "status": "proved",
   "theorems": [
    "C10_product_is_composition",
    "C10_associative",
    "C10_identity",
    "C10_inverse",
    "C10_power",
    "C10_negative_power",
    "C10_unequal_arities"
   ],
   "note": ""
  },
  {
   "property": "C11",
   "status": "proved",
   "theorems": [
    "C11_sign_counts_inversions",
    "C11_multiplicative",
    "C11_defined_exactly_on_permutations",
    "C11_transposition"
   ],
   "note": ""
  },
  {
   "property": "C12",
   "status": "proved",
   "theorems": [
    "C12_cycles",
    "C12_diverges"
   ],
   "note": ""
  },
  {
   "property": "C13",
   "status": "proved",
   "theorems": [
    "C13_composition",
    "C13_sequential",
    "C13_parallel",
    "C13_unit",
    "C13_position_rejected"
   ],
   "note": ""
  },
  {
   "property": "C14",
   "status": "proved",
   "theorems": [
    "C14_all_permutations",
    "C14_shuffles"
   ],
   "note": ""
  },
  {
   "property": "C15",
   "status": "proved",
   "theorems": [
    "C15_product_coefficients",
    "C15_associative",
    "C15_distributive",
    "C15_unit",
    "C15_torsion_mismatch"
   ],
   "note": ""
  },
  {
   "property": "C16",
   "status": "proved",
   "theorems": [
    "C16_rotation",
    "C16_transposition",
    "C16_transposition_refuted",
    "C16_norm",
    "C16_products_vanish"
   ],
   "note": ""
  },
  {
   "property": "C17",
   "status": "proved",
   "theorems": [
    "C17_single_element",
    "C17_refuted",
    "C17_power_formula"
   ],
   "note": ""
  },
  {
   "property": "C18",
   "status": "proved",
   "theorems": [
    "C18_refuted",
    "C18_products_as_arguments",
    "C18_products_rejected",
    "C18_group_times_ring",
    "C18_products_usable"
   ],
   "note": ""
  },
  {
   "property": "C19",
   "status": "proved",
   "theorems": [
    "C19_bilinear",
    "C19_sequential",
    "C19_parallel",
    "C19_unit",
    "C19_keys"
   ],
   "note": ""
  },
  {
   "property": "C20",
   "status": "proved",
   "theorems": [
    "C20_boundary_formula",
    "C20_boundary_squared",
    "C20_boundary_linear",
    "C20_boundary_degree",
    "C20_arity_degree"
   ],
   "note": ""
  },
  {
   "property": "C21",
   "status": "proved",
   "theorems": [
    "C21_simplicial_identities",
    "C21_cosimplicial_identities",
    "C21_dimension",
    "C21_is_degenerate",
    "C21_degeneracy_degenerate"
   ],
   "note": ""
  },
  {
   "property": "C22",
   "status": "proved",
   "theorems": [
    "C22_action_formula",
    "C22_left_action",
    "C22_unit",
    "C22_bilinear",
    "C22_mismatch"
   ],
   "note": ""
  },
  {
   "property": "C23",
   "status": "proved",
   "theorems": [
    "C23_action_boundary"
   ],
   "note": ""
  },
  {
   "property": "C24",
   "status": "proved",
   "theorems": [
    "C24_diagonal_formula",
    "C24_chain_map"
   ],
   "note": ""
  },
  {
   "property": "C25",
   "status": "proved",
   "theorems": [
    "C25_coassociative"
   ],
   "note": ""
  },
  {
   "property": "C26",
   "status": "proved",
   "theorems": [
    "C26_basis",
    "C26_basis_elements"
   ],
   "note": ""
  },
  {
   "property": "C27",
   "status": "proved",
   "theorems": [
    "C27_boundary_formula",
    "C27_boundary_squared",
    "C27_boundary_linear",
    "C27_boundary_degree",
    "C27_arity_degree",
    "C27_basis",
    "C27_basis_elements"
   ],
   "note": ""
  },
  {
   "property": "C28",
   "status": "proved",
   "theorems": [
    "C28_action_formula",
    "C28_left_action",
    "C28_unit",
    "C28_bilinear",
    "C28_mismatch",
    "C28_action_boundary"
   ],
   "note": ""
  },
  {
   "property": "C29",
   "status": "proved",
   "theorems": [
    "C29_diagonal_formula",
    "C29_chain_map"
   ],
   "note": ""
  },
  {
   "property": "C30",
   "status": "proved",
   "theorems": [
    "C30_coassociative"
   ],
   "note": ""
  },
  {
   "property": "C31",
   "status": "proved",
   "theorems": [
    "C31_join_homotopy"
   ],
   "note": ""
  },
  {
   "property": "C32",
   "status": "proved",
   "theorems": [
    "C32_join_formula",
    "C32_degree"
   ],
   "note": ""
  },
  {
   "property": "C33",
   "status": "proved",
   "theorems": [
    "C33_formula",
    "C33_linear",
    "C33_chain_map"
   ],
   "note": ""
  },
  {
   "property": "C34",
   "status": "proved",
   "theorems": [
    "C34_degenerate",
    "C34_boundary_formula",
    "C34_boundary_squared",
    "C34_boundary_linear",
    "C34_boundary_degree",
    "C34_arity_degree"
   ],
   "note": ""
  },
  {
   "property": "C35",
   "status": "proved",
   "theorems": [
    "C35_action_formula",
    "C35_left_action",
    "C35_products_rejected",
    "C35_unit",
    "C35_bilinear",
    "C35_action_boundary",
    "C35_mismatch"
   ],
   "note": ""
  },
  {
   "property": "C36",
   "status": "proved",
   "theorems": [
    "C36_orbit_formula",
    "C36_starts_with_identity",
    "C36_idempotent",
    "C36_constant_on_orbits",
    "C36_boundary_on_orbits"
   ],
   "note": ""
  },
  {
   "property": "C37",
   "status": "proved",
   "theorems": [
    "C37_compose_formula",
    "C37_compose_degree",
    "C37_bilinear",
    "C37_chain_map",
    "C37_errors"
   ],
   "note": ""
  },
  {
   "property": "C38",
   "status": "proved",
   "theorems": [
    "C38_sequential",
    "C38_parallel",
    "C38_unit"
   ],
   "note": ""
  },
  {
   "property": "C39",
   "status": "proved",
   "theorems": [
    "C39_table_formula",
    "C39_table_degree",
    "C39_linear",
    "C39_chain_map"
   ],
   "note": ""
  },
  {
   "property": "C40",
   "status": "proved",
   "theorems": [
    "C40_equivariant"
   ],
   "note": ""
  },
  {
   "property": "C41",
   "status": "proved",
   "theorems": [
    "C41_operad_morphism"
   ],
   "note": ""
  },
  {
   "property": "C42",
   "status": "proved",
   "theorems": [
    "C42_diagonal_formula",
    "C42_coassociative",
    "C42_linear"
   ],
   "note": ""
  },
  {
   "property": "C43",
   "status": "proved",
   "theorems": [
    "C43_value",
    "C43_upper_bound",
    "C43_arity_two",
    "C43_complexity_refuted"
   ],
   "note": ""
  },
  {
   "property": "C44",
   "status": "proved",
   "theorems": [
    "C44_identity",
    "C44_degree",
    "C44_boundary",
    "C44_arity_one"
   ],
   "note": ""
  },
  {
   "property": "C45",
   "status": "proved",
   "theorems": [
    "C45_degenerate",
    "C45_boundary_formula",
    "C45_boundary_unknown_convention",
    "C45_boundary_squared",
    "C45_boundary_linear",
    "C45_boundary_degree"
   ],
   "note": ""
  },
  {
   "property": "C46",
   "status": "proved",
   "theorems": [
    "C46_action_formula",
    "C46_left_action",
    "C46_unit",
    "C46_bilinear",
    "C46_action_boundary",
    "C46_degree",
    "C46_mismatch"
   ],
   "note": ""
  },
  {
   "property": "C47",
   "status": "proved",
   "theorems": [
    "C47_orbit_formula",
    "C47_first_occurrences_increasing",
    "C47_idempotent",
    "C47_constant_on_orbits",
    "C47_boundary_on_orbits",
    "C47_unknown_representation"
   ],
   "note": ""
  },
  {
   "property": "C48",
   "status": "proved",
   "theorems": [
    "C48_compose_formula",
    "C48_mixed",
    "C48_compose_degree",
    "C48_bilinear",
    "C48_chain_map",
    "C48_ms_not_implemented"
   ],
   "note": ""
  },
  {
   "property": "C49",
   "status": "proved",
   "theorems": [
    "C49_sequential",
    "C49_parallel",
    "C49_unit"
   ],
   "note": ""
  },
  {
   "property": "C50",
   "status": "proved",
   "theorems": [
    "C50_action_formula",
    "C50_action_degree",
    "C50_bilinear",
    "C50_chain_map",
    "C50_zero",
    "C50_errors"
   ],
   "note": ""
  },
  {
   "property": "C51",
   "status": "proved",
   "theorems": [
    "C51_action_formula",
    "C51_action_degree",
    "C51_bilinear",
    "C51_mod2_chain_map",
    "C51_refuted",
    "C51_zero",
    "C51_errors"
   ],
   "note": ""
  },
  {
   "property": "C52",
   "status": "proved",
   "theorems": [
    "C52_formula",
    "C52_linear",
    "C52_length",
    "C52_errors",
    "C52_boundary",
    "C52_arity_refuted",
    "C52_compose_refuted"
   ],
   "note": ""
  },
  {
   "property": "C53",
   "status": "proved",
   "theorems": [
    "C53_identity",
    "C53_degree",
    "C53_boundary",
    "C53_arity_one"
   ],
   "note": ""
  },
  {
   "property": "C54",
   "status": "proved",
   "theorems": [
    "C54_complexity_value",
    "C54_boundary",
    "C54_action",
    "C54_bound",
    "C54_filtration_value",
    "C54_filtration_boundary"
   ],
   "note": ""
  },
  {
   "property": "C55",
   "status": "proved",
   "theorems": [
    "C55_basis",
    "C55_negative_degree",
    "C55_default_torsion_one"
   ],
   "note": ""
  },
  {
   "property": "C56",
   "status": "proved",
   "theorems": [
    "C56_partitions",
    "C56_no_parts",
    "C56_decompositions"
   ],
   "note": ""
  },
  {
   "property": "C57",
   "status": "proved",
   "theorems": [
    "C57_bockstein_two",
    "C57_below_range",
    "C57_two",
    "C57_odd_surjection",
    "C57_odd_barratt_eccles",
    "C57_float_refuted",
    "C57_float_surjection",
    "C57_float_barratt_eccles",
    "C57_float_conversion",
    "C57_float_overflow",
    "C57_overflow"
   ],
   "note": ""
  },
  {
   "property": "C58",
   "status": "proved",
   "theorems": [
    "C58_zero_unary",
    "C58_zero_binary",
    "C58_act_both_zero",
    "C58_act_zero_refuted",
    "C58_compose_zero_refuted",
    "C58_diagonal_zero_refuted"
   ],
   "note": ""
  },
  {
   "property": "C59",
   "status": "proved",
   "theorems": [
    "C59_keeps_terms",
    "C59_linear",
    "C59_idempotent",
    "C59_boundary_compatible_refuted"
   ],
   "note": ""
  },
  {
   "property": "C60",
   "status": "proved",
   "theorems": [
    "C60_distinct_permutations"
   ],
   "note": ""
  },
  {
   "property": "C61",
   "status": "proved",
   "theorems": [
    "C61_chain",
    "C61_evaluate",
    "C61_cube"
   ],
   "note": ""
  },
  {
   "property": "C62",
   "status": "proved",
   "theorems": [
    "C62_equivariant"
   ],
   "note": ""
  },
  {
   "property": "C66",
   "status": "proved",
   "theorems": [
    "C66_cocycle",
    "C66_operation"
   ],
   "note": ""
  },
  {
   "property": "C64",
   "status": "proved",
   "theorems": [
    "C64_group",
    "C64_surjection",
    "C64_barratt_eccles"
   ],
   "note": ""
  },
  {
   "property": "C65",
   "status": "proved",
   "theorems": [
    "C65_suboperad"
   ],
   "note": ""
  },
  {
   "property": "C63",
   "status": "proved",
   "theorems": [
    "C63_compose",
    "C63_cubical_refuted"
   ],
   "note": ""
  },
  {
   "property": "C67",
   "status": "proved",
   "theorems": [
    "C67_simplex",
    "C67_simplicial",
    "C67_cubical",
    "C67_barratt_eccles",
    "C67_surjection",
    "C67_ring",
    "C67_faithful_simplicial",
    "C67_faithful_cubical",
    "C67_faithful_barratt_eccles",
    "C67_faithful_surjection",
    "C67_faithful_ring"
   ],
   "note": ""
  },
  {
   "property": "C68",
   "status": "proved",
   "theorems": [
    "C68_simplicial",
    "C68_vertex",
    "C68_cubical",
    "C68_cubical_refuted"
   ],
   "note": ""
  },
  {
   "property": "C69",
   "status": "proved",
   "theorems": [
    "C69_barratt_eccles",
    "C69_barratt_eccles_zero",
    "C69_surjection",
    "C69_surjection_zero"
   ],
   "note": ""
  },
  {
   "property": "C70",
   "status": "proved",
   "theorems": [
    "C70_surjection",
    "C70_barratt_eccles"
   ],
   "note": ""
  },
  {
   "property": "C71",
   "status": "proved",
   "theorems": [
    "C71_intervals",
    "C71_face",
    "C71_face_range",
    "C71_cubical_identities",
    "C71_cartan_serre"
   ],
   "note": ""
  },
  {
   "property": "C72",
   "status": "proved",
   "theorems": [
    "C72_ring_arity",
    "C72_surj_arity_degree",
    "C72_be_arity",
    "C72_be_degree",
    "C72_support"
   ],
   "note": ""
  },
  {
   "property": "C73",
   "status": "proved",
   "theorems": [
    "C73_simplicial",
    "C73_cubical",
    "C73_be",
    "C73_surjection"
   ],
   "note": ""
  },
  {
   "property": "C74",
   "status": "proved",
   "theorems": [
    "C74_additive",
    "C74_scalar",
    "C74_class",
    "C74_structure"
   ],
   "note": ""
  },
  {
   "property": "C75",
   "status": "proved",
   "theorems": [
    "C75_diagonal",
    "C75_two",
    "C75_word",
    "C75_square",
    "C75_sq0",
    "C75_negative",
    "C75_top"
   ],
   "note": ""
  },
  {
   "property": "C76",
   "status": "proved",
   "theorems": [
    "C76_diagonal",
    "C76_action_sign",
    "C76_action_mod2",
    "C76_refuted"
   ],
   "note": ""
  },
  {
   "property": "C77",
   "status": "proved",
   "theorems": [
    "C77_diagonal",
    "C77_faces",
    "C77_equivariant",
    "C77_unstable",
    "C77_square",
    "C77_coboundary",
    "C77_leibniz",
    "C77_operad_refuted"
   ],
   "note": ""
  },
  {
   "property": "C78",
   "status": "proved",
   "theorems": [
    "C78_cocycle",
    "C78_additive",
    "C78_class",
    "C78_sq0",
    "C78_unstable",
    "C78_top",
    "C78_cup"
   ],
   "note": ""
  },
  {
   "property": "C79",
   "status": "proved",
   "theorems": [
    "C79_init",
    "C79_object",
    "C79_stable",
    "C79_derived"
   ],
   "note": ""
  },
  {
   "property": "C80",
   "status": "proved",
   "theorems": [
    "C80_formula",
    "C80_coboundary",
    "C80_leibniz",
    "C80_commutative",
    "C80_class",
    "C80_symmetry"
   ],
   "note": ""
  },
  {
   "property": "C81",
   "status": "proved",
   "theorems": [
    "C81_structure",
    "C81_operation"
   ],
   "note": ""
  },
  {
   "property": "C82",
   "status": "proved",
   "theorems": [
    "C82_boundary",
    "C82_action",
    "C82_compose",
    "C82_table",
    "C82_table_complexity"
   ],
   "note": ""
  },
  {
   "property": "C83",
   "status": "proved",
   "theorems": [
    "C83_squares_exist",
    "C83_cartan"
   ],
   "note": ""
  },
  {
   "property": "C84",
   "status": "proved",
   "theorems": [
    "C84_formula",
    "C84_associative",
    "C84_unit",
    "C84_leibniz"
   ],
   "note": ""
  },
  {
   "property": "C85",
   "status": "proved",
   "theorems": [
    "C85_image",
    "C85_linear",
    "C85_boundary",
    "C85_diagonal",
    "C85_symmetric",
    "C85_surjection",
    "C85_one_reduced",
    "C85_cohomology"
   ],
   "note": ""
  },
  {
   "property": "C86",
   "status": "proved",
   "theorems": [
    "C86_bockstein",
    "C86_bockstein_twice",
    "C86_square",
    "C86_structure",
    "C86_top"
   ],
   "note": ""
  },
  {
   "property": "C87",
   "status": "proved",
   "theorems": [
    "C87_identity",
    "C87_value",
    "C87_structure",
    "C87_vanish"
   ],
   "note": ""
  },
  {
   "property": "C88",
   "status": "proved",
   "theorems": [
    "C88_odd",
    "C88_two",
    "C88_structure",
    "C88_cubical"
   ],
   "note": ""
  },
  {
   "property": "C89",
   "status": "proved",
   "theorems": [
    "C89_copy",
    "C89_copy_eq",
    "C89_update",
    "C89_update_add",
    "C89_multiset",
    "C89_pos_torsion",
    "C89_order",
    "C89_order_add",
    "C89_inplace",
    "C89_elements",
    "C89_total",
    "C89_copy_surj"
   ],
   "note": ""
  },
  {
   "property": "C90",
   "status": "proved",
   "theorems": [
    "C90_shape",
    "C90_order_unique",
    "C90_faithful",
    "C90_eq",
    "C90_roundtrip"
   ],
   "note": ""
  },
  {
   "property": "C91",
   "status": "proved",
   "theorems": [
    "C91_iterated_exists",
    "C91_adem",
    "C91_vanishing"
   ],
   "note": ""
  },
  {
   "property": "C92",
   "status": "proved",
   "theorems": [
    "C92_answers",
    "C92_objects_stable",
    "C92_new_objects",
    "C92_set_torsion_exact",
    "C92_families",
    "C92_own_attributes",
    "C92_shared_attributes"
   ],
   "note": ""
  },
  {
   "property": "C93",
   "status": "proved",
   "theorems": [
    "C93_compose",
    "C93_chain_map",
    "C93_equivariant",
    "C93_counit"
   ],
   "note": ""
  },
  {
   "property": "C94",
   "status": "proved",
   "theorems": [
    "C94_onto",
    "C94_cycles",
    "C94_boundaries",
    "C94_basis"
   ],
   "note": ""
  },
  {
   "property": "C95",
   "status": "proved",
   "theorems": [
    "C95_order",
    "C95_arithmetic",
    "C95_simplicial",
    "C95_cubical",
    "C95_surjection",
    "C95_barratt_eccles",
    "C95_ring",
    "C95_action",
    "C95_operad",
    "C95_refuted"
   ],
   "note": ""
  },
  {
   "property": "C96",
   "status": "proved",
   "theorems": [
    "C96_simplicial_negative",
    "C96_simplicial_zero",
    "C96_simplicial",
    "C96_cubical_negative",
    "C96_cubical_counit",
    "C96_cubical_zero",
    "C96_cubical",
    "C96_call",
    "C96_position",
    "C96_face",
    "C96_degeneracy"
   ],
   "note": ""
  },
  {
   "property": "C97",
   "status": "proved",
   "theorems": [
    "C97_words",
    "C97_complexity",
    "C97_cycles",
    "C97_generator",
    "C97_stages",
    "C97_simplices",
    "C97_be_complexity",
    "C97_be_cycles",
    "C97_be_generator",
    "C97_be_stages"
   ],
   "note": ""
  },
  {
   "property": "C98",
   "status": "proved",
   "theorems": [
    "C98_cone",
    "C98_cone_zero",
    "C98_simplex",
    "C98_simplex_zero",
    "C98_cube",
    "C98_cube_zero"
   ],
   "note": ""
  },
  {
   "property": "C99",
   "status": "proved",
   "theorems": [
    "C99_zero",
    "C99_formula",
    "C99_hirsch",
    "C99_pre_lie"
   ],
   "note": ""
  },
  {
   "property": "C100",
   "status": "proved",
   "theorems": [
    "C100_formula",
    "C100_vanishing",
    "C100_top",
    "C100_coboundary"
   ],
   "note": ""
  },
  {
   "property": "C101",
   "status": "proved",
   "theorems": [
    "C101_cells",
    "C101_onto",
    "C101_cycles",
    "C101_boundaries",
    "C101_top"
   ],
   "note": ""
  },
  {
   "property": "C102",
   "status": "proved",
   "theorems": [
    "C102_brace_element",
    "C102_boundary",
    "C102_brace",
    "C102_faces",
    "C102_product"
   ],
   "note": ""
  },
  {
   "property": "C103",
   "status": "proved",
   "theorems": [
    "C103_simplicial",
    "C103_cubical",
    "C103_surjection",
    "C103_barratt_eccles",
    "C103_constructor",
    "C103_ring",
    "C103_action",
    "C103_operad"
   ],
   "note": ""
  },
  {
   "property": "C104",
   "status": "proved",
   "theorems": [
    "C104_simplicial",
    "C104_cubical"
   ],
   "note": ""
  },
  {
   "property": "C105",
   "status": "proved",
   "theorems": [
    "C105_leibniz",
    "C105_simplicial",
    "C105_cubical",
    "C105_swap",
    "C105_associative",
    "C105_cartan_serre"
   ],
   "note": ""
  },
  {
   "property": "C106",
   "status": "proved",
   "theorems": [
    "C106_join",
    "C106_associative"
   ],
   "note": ""
  },
  {
   "property": "C107",
   "status": "proved",
   "theorems": [
    "C107_image",
    "C107_linear",
    "C107_boundary",
    "C107_diagonal",
    "C107_symmetric",
    "C107_join",
    "C107_surjection",
    "C107_retraction",
    "C107_cochains"
   ],
   "note": ""
  },
  {
   "property": "C108",
   "status": "proved",
   "theorems": [
    "C108_simplicial",
    "C108_cubical",
    "C108_cycles"
   ],
   "note": ""
  },
  {
   "property": "C109",
   "status": "proved",
   "theorems": [
    "C109_simplicial_counit",
    "C109_simplicial_once",
    "C109_cubical_counit",
    "C109_simplicial_detects",
    "C109_cubical_detects"
   ],
   "note": ""
  },
  {
   "property": "C110",
   "status": "proved",
   "theorems": [
    "C110_ring",
    "C110_barratt_eccles",
    "C110_surjection",
    "C110_arity_one_refuted"
   ],
   "note": ""
  },
  {
   "property": "C111",
   "status": "proved",
   "theorems": [
    "C111_surjection",
    "C111_barratt_eccles",
    "C111_existence_surjection",
    "C111_existence_barratt_eccles",
    "C111_may_surjection",
    "C111_may_barratt_eccles"
   ],
   "note": ""
  }
 ]
}