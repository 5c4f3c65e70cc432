{
 "claims": [
  {
   "property": "C01",
   "status": "proved",
   "theorems": [
    "C01_id_roundtrip",
    "C01_id_injective"
   ],
   "note": ""
  },
  {
   "property": "C02",
   "status": "proved",
   "theorems": [
    "C02_eq_equivalence",
    "C02_lt_strict_weak_order",
    "C02_trichotomy",
    "C02_eq_meaning"
   ],
   "note": ""
  },
  {
   "property": "C03",
   "status": "proved",
   "theorems": [
    "C03_none_conical",
    "C03_none_equality_refuted",
    "C03_all_none_types_equal_and_ordered",
    "C03_none_equality_same_dimension"
   ],
   "note": "The property is that the code violates the documentation: the refuted theorem is the witness, C03_all_none_types_equal_and_ordered the universal statement."
  },
  {
   "property": "C04",
   "status": "proved",
   "theorems": [
    "C04_predicates_respect_equality",
    "C04_exhaustive_dim2",
    "C04_exhaustive_dim3",
    "C04_simplex_cube_factories",
    "C04_simplex_cube_characterised",
    "C04_constants"
   ],
   "note": ""
  },
  {
   "property": "C05",
   "status": "proved",
   "theorems": [
    "C05_pyramid_or_prism",
    "C05_extensions",
    "C05_every_type_is_an_extension",
    "C05_all_types_reachable"
   ],
   "note": ""
  },
  {
   "property": "C06",
   "status": "proved",
   "theorems": [
    "C06_local_index_bijection",
    "C06_local_size"
   ],
   "note": ""
  },
  {
   "property": "C07",
   "status": "proved",
   "theorems": [
    "C07_global_index_bijection"
   ],
   "note": ""
  },
  {
   "property": "C08",
   "status": "proved",
   "theorems": [
    "C08_IfGeometryType",
    "C08_toGeometryTypeIdConstant",
    "C08_toGeometryTypeIdConstant_fallback"
   ],
   "note": ""
  },
  {
   "property": "C09",
   "status": "partial",
   "theorems": [
    "C09_vertex_count_refuted",
    "C09_vertex_count_partial",
    "C09_vertex_count_complete",
    "C09_vertex_count_rejects"
   ],
   "note": "'exactly n vertices' is false for dims 0 and 1 (any n is accepted): C09_vertex_count_refuted. Everything else is proved."
  },
  {
   "property": "C10",
   "status": "proved",
   "theorems": [
    "C10_simplex_size",
    "C10_cube_size",
    "C10_size_positive",
    "C10_euler",
    "C10_reference_element_size"
   ],
   "note": ""
  },
  {
   "property": "C11",
   "status": "proved",
   "theorems": [
    "C11_bitset_bound",
    "C11_bitset_bound_sharp",
    "C11_construction_safe"
   ],
   "note": ""
  },
  {
   "property": "C12",
   "status": "proved",
   "theorems": [
    "C12_subentity_type_valid",
    "C12_own_type",
    "C12_simplex_subentities",
    "C12_cube_subentities",
    "C12_facets_by_construction"
   ],
   "note": ""
  },
  {
   "property": "C13",
   "status": "proved",
   "theorems": [
    "C13_numbering_memory",
    "C13_offset_array",
    "C13_subEntities_increasing"
   ],
   "note": ""
  },
  {
   "property": "C14",
   "status": "proved",
   "theorems": [
    "C14_subEntity_transitive",
    "C14_sub_reference_element_exists",
    "C14_face_lattice_refinement"
   ],
   "note": ""
  },
  {
   "property": "C15",
   "status": "proved",
   "theorems": [
    "C15_contains_iff_in_range"
   ],
   "note": ""
  },
  {
   "property": "C16",
   "status": "proved",
   "theorems": [
    "C16_corner_count",
    "C16_corner_coordinates",
    "C16_corners_distinct",
    "C16_corner_zero_is_origin",
    "C16_cube_corners",
    "C16_simplex_corners",
    "C16_corners_inside"
   ],
   "note": ""
  },
  {
   "property": "C17",
   "status": "proved",
   "theorems": [
    "C17_embedding_corners",
    "C17_embeddings_compose"
   ],
   "note": ""
  },
  {
   "property": "C18",
   "status": "proved",
   "theorems": [
    "C18_hull_accepted",
    "C18_zero_tolerance",
    "C18_monotone",
    "C18_accepted_near_hull"
   ],
   "note": ""
  },
  {
   "property": "C19",
   "status": "proved",
   "theorems": [
    "C19_position_mean",
    "C19_position_inside",
    "C19_position_embedding"
   ],
   "note": ""
  },
  {
   "property": "C20",
   "status": "proved",
   "theorems": [
    "C20_centre_of_gravity_refuted",
    "C20_centre_of_gravity_iff",
    "C20_centre_of_gravity_cases"
   ],
   "note": "Proved as stated: true for simplices, cubes, prisms (C20_centre_of_gravity_cases), false for the pyramid (refuted); C20_centre_of_gravity_iff characterises exactly the topologies for which it is true."
  },
  {
   "property": "C21",
   "status": "proved",
   "theorems": [
    "C21_volume_exact_iff",
    "C21_volume_refuted",
    "C21_volume_small_dimension",
    "C21_volume_recursion",
    "C21_volume_simplex",
    "C21_volume_cube"
   ],
   "note": "Proved as stated; the truncation from simplex dimension 14 on is the refuted theorem, C21_volume_exact_iff characterises exactly when the value is right."
  },
  {
   "property": "C22",
   "status": "proved",
   "theorems": [
    "C22_normal_count",
    "C22_normal_orthogonal",
    "C22_normal_outward",
    "C22_normal_strict"
   ],
   "note": ""
  },
  {
   "property": "C23",
   "status": "proved",
   "theorems": [
    "C23_normals_close",
    "C23_normals_close_code_volume",
    "C23_normal_length"
   ],
   "note": ""
  },
  {
   "property": "C24",
   "status": "proved",
   "theorems": [
    "C24_cholesky_factor",
    "C24_cholesky_factor_unique",
    "C24_cholesky_spd_succeeds",
    "C24_cholesky_reports_singular",
    "C24_cholesky_assertion",
    "C24_spdInvAx",
    "C24_spdInvA",
    "C24_triangular_products",
    "C24_triangular_vector"
   ],
   "note": ""
  },
  {
   "property": "C25",
   "status": "proved",
   "theorems": [
    "C25_right_inverse",
    "C25_right_inverse_formula",
    "C25_right_moore_penrose",
    "C25_left_inverse",
    "C25_left_inverse_formula",
    "C25_left_moore_penrose",
    "C25_special_case_agrees",
    "C25_xTRightInvA",
    "C25_leftInvAx"
   ],
   "note": ""
  },
  {
   "property": "C26",
   "status": "proved",
   "theorems": [
    "C26_sqrtDetAAT",
    "C26_sqrtDetAAT_special",
    "C26_sqrtDetAAT_assertion",
    "C26_special_agree_with_general",
    "C26_rightInvA_value",
    "C26_spdDetA_is_root_refuted",
    "C26_detATA_is_root_refuted",
    "C26_detATA_value"
   ],
   "note": "The values are proved. The documentation of spdDetA/spdInvA/detATA promises the determinant but the code returns its root: the refuted theorem is the witness."
  },
  {
   "property": "C27",
   "status": "proved",
   "theorems": [
    "C27_construction",
    "C27_global_affine",
    "C27_local_global",
    "C27_global_local_square",
    "C27_global_local_projection",
    "C27_jacobian_inverse"
   ],
   "note": ""
  },
  {
   "property": "C28",
   "status": "proved",
   "theorems": [
    "C28_construction",
    "C28_simplex_corners",
    "C28_corner",
    "C28_center",
    "C28_volume",
    "C28_affine_combination",
    "C28_subentity_geometries"
   ],
   "note": ""
  },
  {
   "property": "C29",
   "status": "proved",
   "theorems": [
    "C29_constructors",
    "C29_global",
    "C29_corners",
    "C29_local_global",
    "C29_global_local",
    "C29_box",
    "C29_jacobian",
    "C29_jacobian_inverse",
    "C29_volume",
    "C29_center",
    "C29_corners_reference"
   ],
   "note": ""
  },
  {
   "property": "C30",
   "status": "partial",
   "theorems": [
    "C30_weights",
    "C30_exact_arithmetic",
    "C30_corners",
    "C30_commutes_affine",
    "C30_in_hull",
    "C30_cube_formula",
    "C30_simplex_formula",
    "C30_reference_identity",
    "C30_near_apex_refuted",
    "C30_near_apex_bound"
   ],
   "note": "Proved away from the apexes and at them. Closer to an apex than the tolerance (but not at it) the weights do not sum to one: C30_near_apex_refuted, bounded by C30_near_apex_bound."
  },
  {
   "property": "C31",
   "status": "proved",
   "theorems": [
    "C31_derivative",
    "C31_partial_derivatives",
    "C31_apex_limit",
    "C31_near_apex"
   ],
   "note": ""
  },
  {
   "property": "C32",
   "status": "partial",
   "theorems": [
    "C32_global_affine",
    "C32_affine_detected",
    "C32_constant_jacobian",
    "C32_characterisation",
    "C32_quantitative",
    "C32_simplex",
    "C32_nearly_affine_refuted",
    "C32_zero_tolerance_refuted"
   ],
   "note": "Proved for the quantifier 'all positive tolerances' (C32_characterisation). For one tolerance true only means nearly affine (C32_nearly_affine_refuted, bound C32_quantitative); with tolerance zero nothing with a prism is affine (C32_zero_tolerance_refuted)."
  },
  {
   "property": "C33",
   "status": "partial",
   "theorems": [
    "C33_not_affine",
    "C33_affine",
    "C33_nearly_affine_bound",
    "C33_nearly_affine_refuted",
    "C33_singular_local_refuted",
    "C33_computed_once",
    "C33_unchanged"
   ],
   "note": "Proved for geometries not detected as affine and for affine non degenerate ones. False for nearly affine ones (C33_nearly_affine_refuted, bound C33_nearly_affine_bound) and for local of degenerate ones (C33_singular_local_refuted)."
  },
  {
   "property": "C34",
   "status": "proved",
   "theorems": [
    "C34_affine_exact",
    "C34_affine_any_start",
    "C34_affine_least_squares",
    "C34_finite",
    "C34_degenerate",
    "C34_defined",
    "C34_nearly_affine_refuted"
   ],
   "note": "Proved as stated. For a nearly affine geometry the single step is not exact: C34_nearly_affine_refuted."
  },
  {
   "property": "C35",
   "status": "proved",
   "theorems": [
    "C35_contract",
    "C35_ok_below_tolerance",
    "C35_never_worse",
    "C35_total",
    "C35_affine_one_step",
    "C35_zero_limit_refuted",
    "C35_zero_inner_limit_refuted"
   ],
   "note": "Contract for positive limits proved in full; with a limit <= 0 the code OK is returned without looking at the residual (refuted)."
  },
  {
   "property": "C36",
   "status": "proved",
   "theorems": [
    "C36_exact_start_stagnates",
    "C36_exact_start_never_ok",
    "C36_exact_start_refuted",
    "C36_mapped_local_centre_throws",
    "C36_lfe_local_centre_throws"
   ],
   "note": "The documented outcome is false; the theorems give the universally quantified failure and its consequences for local()."
  },
  {
   "property": "C37",
   "status": "proved",
   "theorems": [
    "C37_chain_rule",
    "C37_composition",
    "C37_corners_and_center",
    "C37_inverse",
    "C37_local"
   ],
   "note": ""
  },
  {
   "property": "C38",
   "status": "partial",
   "theorems": [
    "C38_same_object",
    "C38_distinct_objects",
    "C38_created_once",
    "C38_not_recreated",
    "C38_precondition",
    "C38_null_recreated_refuted",
    "C38_equal_types_share_refuted"
   ],
   "note": "Proved for every factory, key equivalence and call sequence. 'Exactly once' is false if the user's factory returns a null pointer (refuted), and geometry types that compare equal but have different raw ids get different objects (refuted)."
  },
  {
   "property": "C39",
   "status": "partial",
   "theorems": [
    "C39_no_undefined_behaviour",
    "C39_constructed_once",
    "C39_mutual_exclusion",
    "C39_published_immutable",
    "C39_address",
    "C39_results",
    "C39_results_in_order",
    "C39_no_deadlock",
    "C39_terminates",
    "C39_completes",
    "C39_nested_requests",
    "C39_none_ids_refuted",
    "C39_equal_requests_equal_rules"
   ],
   "note": "Proved for every number of threads, every program and every interleaving of valid requests, with exceptions possible in every body. Requests outside the documented range are undefined behaviour, see C40; none types with nonzero id break the bounds (refuted)."
  },
  {
   "property": "C40",
   "status": "proved",
   "theorems": [
    "C40_maxOrder",
    "C40_out_of_range_undefined",
    "C40_points_any_order",
    "C40_delivered_order",
    "C40_answered",
    "C40_type",
    "C40_families"
   ],
   "note": "Delivered order, type and existence of the rule proved for every valid request (C40_delivered_order, C40_type, C40_answered); out of range requests proved undefined behaviour for every type, quadrature type and order. The contract of the LAPACK eigenvalue solver is a hypothesis for GaussJacobi_n_0 above the tables."
  },
  {
   "property": "C41",
   "status": "proved",
   "theorems": [
    "C41_gauss_legendre",
    "C41_gauss_lobatto",
    "C41_gauss_radau_left",
    "C41_gauss_radau_right",
    "C41_gauss_jacobi_1",
    "C41_gauss_jacobi_2",
    "C41_end_points",
    "C41_end_points_exact_refuted",
    "C41_highest_order"
   ],
   "note": "Proved for all polynomials and all tabulated orders. The end points 0 and 1 are in the Lobatto/Radau tables up to 1e-99 only; exactly is false (refuted)."
  },
  {
   "property": "C42",
   "status": "proved",
   "theorems": [
    "C42_in_bounds",
    "C42_triangle",
    "C42_triangle_negative_weight_refuted",
    "C42_tetrahedron",
    "C42_prism",
    "C42_out_of_range"
   ],
   "note": "Proved; error 1e-20 (triangle up to order 11), 3e-15 (triangle order 12), 1e-17 (tetrahedron), 1e-16 (prism). The order 3 triangle rule has a negative weight (witness)."
  },
  {
   "property": "C43",
   "status": "proved",
   "theorems": [
    "C43_tensor_exact",
    "C43_conical_exact",
    "C43_exact_products",
    "C43_points_inside",
    "C43_weights",
    "C43_all_rules",
    "C43_weights_sum",
    "C43_weight_function",
    "C43_all_rules_no_lapack"
   ],
   "note": "Proved for arbitrary base topologies and rules, and end to end for every valid request of every dimension; for GaussJacobi_n_0 above the tables under the stated contract of the LAPACK eigenvalue solver."
  },
  {
   "property": "C44",
   "status": "proved",
   "theorems": [
    "C44_points",
    "C44_inside",
    "C44_weights_sum",
    "C44_weights_nonneg",
    "C44_exact",
    "C44_exact_polynomials",
    "C44_precondition",
    "C44_levels"
   ],
   "note": "For dimensions 1 to 34 (from 35 on the reference volume itself is wrong, C21), for every number of intervals and every base rule whose points keep away from the tolerance of the geometry's apex division."
  },
  {
   "property": "C45",
   "status": "proved",
   "theorems": [
    "C45_equality",
    "C45_defined",
    "C45_overflow",
    "C45_order",
    "C45_permutation",
    "C45_unique",
    "C45_only_order",
    "C45_idempotent",
    "C45_construct",
    "C45_construct_too_many",
    "C45_iterate",
    "C45_getReduced",
    "C45_consistent",
    "C45_whole",
    "C45_distance",
    "C45_distance_assert",
    "C45_decrement"
   ],
   "note": "For every strict total order of the ids and every reference element; vertex positions below 2^63."
  },
  {
   "property": "C46",
   "status": "proved",
   "theorems": [
    "C46_count",
    "C46_lattice",
    "C46_vertex_indices",
    "C46_tiles",
    "C46_equality"
   ],
   "note": ""
  },
  {
   "property": "C47",
   "status": "proved",
   "theorems": [
    "C47_hcube_actual",
    "C47_hcube_refuted",
    "C47_simplex_refuted",
    "C47_pyramid_refuted",
    "C47_triangulations"
   ],
   "note": "Proved as stated: false for the hypercube, simplex and pyramid vertex iterators (witnesses, C47_hcube_actual says what is returned), true for the cube and prism triangulations."
  },
  {
   "property": "C48",
   "status": "proved",
   "theorems": [
    "C48_count",
    "C48_number",
    "C48_lattice",
    "C48_equality"
   ],
   "note": ""
  },
  {
   "property": "C49",
   "status": "proved",
   "theorems": [
    "C49_permutations",
    "C49_identity",
    "C49_out_of_range"
   ],
   "note": ""
  },
  {
   "property": "C50",
   "status": "proved",
   "theorems": [
    "C50_inverse",
    "C50_onto",
    "C50_volume"
   ],
   "note": ""
  },
  {
   "property": "C51",
   "status": "proved",
   "theorems": [
    "C51_count",
    "C51_distinct",
    "C51_vertex_indices",
    "C51_order_refuted",
    "C51_equality"
   ],
   "note": "Proved as stated. The order of vertexIndices() is not the order of the corners of geometry(); nothing promises it, C51_order_refuted is the witness."
  },
  {
   "property": "C52",
   "status": "proved",
   "theorems": [
    "C52_integral",
    "C52_inside",
    "C52_cover",
    "C52_disjoint",
    "C52_volume",
    "C52_coords"
   ],
   "note": ""
  },
  {
   "property": "C53",
   "status": "proved",
   "theorems": [
    "C53_count",
    "C53_numbers",
    "C53_inside",
    "C53_cover",
    "C53_disjoint",
    "C53_volume",
    "C53_vertex_indices",
    "C53_volume_sum",
    "C53_equality"
   ],
   "note": "Also disjoint interiors and the vertex indices. The sum of the volumes is stated up to dimension 13, above that referenceVolume itself is wrong (C21)."
  },
  {
   "property": "C54",
   "status": "proved",
   "theorems": [
    "C54_safe",
    "C54_values",
    "C54_no_leak",
    "C54_all_freed",
    "C54_independent",
    "C54_copy_equal",
    "C54_different_refinements",
    "C54_self_assignment",
    "C54_assignment_throws"
   ],
   "note": "Both directions: legal histories are safe and behave like values, every illegal one (self assignment included) is undefined. In addition a throwing clone() in the assignment leads to a double delete."
  },
  {
   "property": "C55",
   "status": "proved",
   "theorems": [
    "C55_dispatch",
    "C55_implementation",
    "C55_respects_equality",
    "C55_assertion",
    "C55_labels",
    "C55_labels_meaning",
    "C55_dimension_zero",
    "C55_none_refuted"
   ],
   "note": "For all types that are not none. C55_none_refuted: a none type is dispatched like a simplex."
  },
  {
   "property": "C56",
   "status": "proved",
   "theorems": [
    "C56_contained_iff_vertices_contained",
    "C56_vertices_determine_subentity"
   ],
   "note": ""
  },
  {
   "property": "C57",
   "status": "proved",
   "theorems": [
    "C57_affine_criterion",
    "C57_global",
    "C57_jacobian",
    "C57_size_mismatch",
    "C57_jacobian_is_derivative",
    "C57_inverse",
    "C57_local",
    "C57_affine_cached",
    "C57_affine_detected",
    "C57_affine_answer",
    "C57_affine_degenerate_refuted"
   ],
   "note": "affine() is not answered on degenerate maps (refuted)."
  },
  {
   "property": "C58",
   "status": "proved",
   "theorems": [
    "C58_volume",
    "C58_affine",
    "C58_missing_rule"
   ],
   "note": ""
  },
  {
   "property": "C59",
   "status": "proved",
   "theorems": [
    "C59_matrix",
    "C59_exact",
    "C59_degree",
    "C59_points",
    "C59_weights_sum",
    "C59_unique",
    "C59_satisfiable",
    "C59_lapackOk",
    "C59_all_rules"
   ],
   "note": "In exact arithmetic, from the contract of the solver only; the contract is shown to be satisfiable for every matrix of the algorithm."
  },
  {
   "property": "C60",
   "status": "proved",
   "theorems": [
    "C60_construction",
    "C60_general",
    "C60_general_defined",
    "C60_range",
    "C60_named",
    "C60_comparison",
    "C60_hash",
    "C60_equal_types_refuted",
    "C60_none_refuted",
    "C60_python",
    "C60_python_general"
   ],
   "note": "C60_equal_types_refuted: types that are == can have reference elements that are not ==. C60_none_refuted: general() of a none type returns the simplex."
  },
  {
   "property": "C61",
   "status": "proved",
   "theorems": [
    "C61_stream_dimension",
    "C61_number",
    "C61_grammar",
    "C61_round_trip",
    "C61_text_injective",
    "C61_names",
    "C61_total",
    "C61_strict_refuted",
    "C61_equal_text",
    "C61_equal_text_refuted",
    "C61_stream_injective",
    "C61_hash",
    "C61_hash_refuted"
   ],
   "note": "C61_strict_refuted: text behind the parenthesis and behind numbers is ignored, dimensions are reduced modulo 256, cube(-1) is undefined. C61_equal_text_refuted: equal types of dimension 4 with different texts. C61_hash_refuted: none types of different dimension are equal with different hash."
  },
  {
   "property": "C62",
   "status": "proved",
   "theorems": [
    "C62_quad_cone",
    "C62_affine",
    "C62_diagonals",
    "C62_regular",
    "C62_injective",
    "C62_folded_refuted",
    "C62_hexahedron_refuted",
    "C62_surface_refuted"
   ],
   "note": "The claim is restricted to the shapes for which it is true: C62_hexahedron_refuted (frustum: 9/4 instead of 7/3), C62_folded_refuted (bow-tie quadrilateral) and C62_surface_refuted (quadrilateral surface in space) show that volume() is not the integral for other geometries, as the documentation of volume() warns."
  },
  {
   "property": "C63",
   "status": "proved",
   "theorems": [
    "C63_convex_quadrilateral",
    "C63_convex_returns",
    "C63_residual",
    "C63_quadratic",
    "C63_bilinear_surface",
    "C63_outside_refuted",
    "C63_folded_refuted"
   ],
   "note": "The sign condition and the restriction to points of the element are needed: C63_outside_refuted gives a convex quadrilateral and a point outside of it for which the loop cycles between two points forever (all numbers but those inside the Cholesky factorisation are dyadic), C63_folded_refuted a quadrilateral with changing sign for which local of a corner is the centre."
  },
  {
   "property": "C64",
   "status": "proved",
   "theorems": [
    "C64_tolerance",
    "C64_accepts",
    "C64_rejects",
    "C64_near",
    "C64_monotone",
    "C64_small_tolerance_refuted"
   ],
   "note": "Fused or extended precision evaluation by the compiler is outside the model. C64_small_tolerance_refuted: with a tolerance below the unit of rounding the free function rejects a point of the tetrahedron."
  },
  {
   "property": "C65",
   "status": "proved",
   "theorems": [
    "C65_constructors",
    "C65_local_unit",
    "C65_local_inside",
    "C65_local_corner",
    "C65_local_monotone",
    "C65_global_monotone",
    "C65_global_corner",
    "C65_global_exact",
    "C65_extent_exact",
    "C65_global_error",
    "C65_round_trip",
    "C65_center",
    "C65_volume",
    "C65_global_outside_refuted",
    "C65_volume_underflow_refuted",
    "C65_center_overflow_refuted"
   ],
   "note": "The preconditions are needed: C65_global_outside_refuted (global of the upper unit corner beyond the upper corner when the extent is not representable), C65_volume_underflow_refuted, C65_center_overflow_refuted. Fused operations are outside the model."
  },
  {
   "property": "C66",
   "status": "proved",
   "theorems": [
    "C66_cube_corners",
    "C66_cube_cells",
    "C66_simplex_corners",
    "C66_simplex_conforming",
    "C66_simplex_vertices",
    "C66_corners",
    "C66_conforming",
    "C66_square_pyramid",
    "C66_vertices",
    "C66_simplex_vertex_refuted",
    "C66_conforming_refuted",
    "C66_simplex_inside",
    "C66_inside"
   ],
   "note": "The negative parts of the claim are C66_simplex_vertex_refuted and C66_conforming_refuted (cube of dimension 3 and prism)."
  },
  {
   "property": "C67",
   "status": "proved",
   "theorems": [
    "C67_near",
    "C67_same",
    "C67_inside",
    "C67_exact",
    "C67_nearest",
    "C67_accepted",
    "C67_points_in_hull_refuted"
   ],
   "note": "The negative part of the claim is C67_points_in_hull_refuted; C67_near, C67_nearest, C67_accepted instantiate the bounds."
  },
  {
   "property": "C68",
   "status": "proved",
   "theorems": [
    "C68_affine_integers",
    "C68_affine_detected",
    "C68_affine_nan_refuted",
    "C68_weights",
    "C68_corners",
    "C68_error",
    "C68_error_3",
    "C68_affine_error",
    "C68_cached_simplex",
    "C68_affine_corner_refuted",
    "C68_cached_quad_refuted",
    "C68_hull_refuted"
   ],
   "note": "The negative parts of the claim are C68_affine_corner_refuted, C68_cached_quad_refuted and C68_hull_refuted."
  },
  {
   "property": "C69",
   "status": "proved",
   "theorems": [
    "C69_permutations",
    "C69_counts",
    "C69_vertices",
    "C69_elements",
    "C69_triang_counts",
    "C69_triang_vertices",
    "C69_triang_elements",
    "C69_math",
    "C69_counts_refuted",
    "C69_cube_rounds",
    "C69_cube",
    "C69_cube_index",
    "C69_cube_refuted",
    "C69_size_mod",
    "C69_size",
    "C69_size_refuted",
    "C69_levels"
   ],
   "note": "Theorems for the simplex and the triangulations hold for every binomial and power satisfying binOk/powOk (dune-common is not in /repo); C69_math shows it for the implementations known to us. Refuted: representable vertex count suffices (C69_counts_refuted), cube loops visit everything for every n (C69_cube_refuted), counts in dimension 22 (C69_size_refuted)."
  },
  {
   "property": "C70",
   "status": "proved",
   "theorems": [
    "C70_affine_local",
    "C70_affine_local_origin",
    "C70_defined",
    "C70_result",
    "C70_nan",
    "C70_zero",
    "C70_center",
    "C70_gn_contract",
    "C70_gn_never_worse",
    "C70_gn_total",
    "C70_gn_nan",
    "C70_gn_exact",
    "C70_local_refuted",
    "C70_local_single_refuted",
    "C70_singular_refuted",
    "C70_affine3_refuted",
    "C70_tiny_refuted"
   ],
   "note": "The negative parts of the claim are C70_local_refuted, C70_local_single_refuted, C70_singular_refuted, C70_affine3_refuted and C70_tiny_refuted."
  },
  {
   "property": "C71",
   "status": "proved",
   "theorems": [
    "C71_forward",
    "C71_backward",
    "C71_cholesky",
    "C71_solve",
    "C71_normal",
    "C71_invL",
    "C71_detL",
    "C71_spdInvA",
    "C71_inv22",
    "C71_products",
    "C71_det2",
    "C71_det3",
    "C71_det23",
    "C71_relative_refuted"
   ],
   "note": "The negative part of the claim is C71_relative_refuted. The general case of sqrtDetAAT is C71_cholesky, C71_products and C71_detL."
  },
  {
   "property": "C72",
   "status": "proved",
   "theorems": [
    "C72_facet_inequalities",
    "C72_checkInside_facets",
    "C72_corner_on_facet",
    "C72_subentity_supporting",
    "C72_diamond",
    "C72_ridge_two_facets",
    "C72_edge_two_corners",
    "C72_graded",
    "C72_intersection_of_facets",
    "C72_meet",
    "C72_join",
    "C72_smallest_subentity",
    "C72_containment_is_inclusion",
    "C72_points_are_embedding_image"
   ],
   "note": "The facets are those of dimension >= 1 elements; a point has no facets."
  },
  {
   "property": "C73",
   "status": "proved",
   "theorems": [
    "C73_sub_geometry_exists",
    "C73_trace",
    "C73_trace_exact",
    "C73_trace_bound",
    "C73_near_apex_refuted",
    "C73_conforming",
    "C73_straight_edges",
    "C73_simplex_image",
    "C73_jacobian_trace"
   ],
   "note": "C73_near_apex_refuted shows that exact agreement (instead of the bound 2*tol*B) fails in the tolerance band below a pyramid apex; the exact statements carry the hypothesis that the point is outside that band (regular), C73_trace_exact is the tolerance-free case."
  },
  {
   "property": "C74",
   "status": "proved",
   "theorems": [
    "C74_integration_element",
    "C74_direction",
    "C74_unique",
    "C74_facets",
    "C74_closed",
    "C74_volume_by_facets",
    "C74_halfspace"
   ],
   "note": "The normal of the mapped facet is formed outside dune-geometry (in the grid interface) from the two functions modelled here."
  },
  {
   "property": "C75",
   "status": "proved",
   "theorems": [
    "C75_reference",
    "C75_reference_defined",
    "C75_affine",
    "C75_affine_defined",
    "C75_divergence"
   ],
   "note": "Integrals are exact (iterated Riemann integrals), not quadrature sums; non-affine mapped elements: see C77."
  },
  {
   "property": "C76",
   "status": "proved",
   "theorems": [
    "C76_transparent",
    "C76_same_object",
    "C76_different_objects",
    "C76_exceptions",
    "C76_reference_element_argument",
    "C76_elements",
    "C76_float_order_refuted",
    "C76_numpy",
    "C76_integrate",
    "C76_not_empty",
    "C76_exact",
    "C76_no_geometry_refuted",
    "C76_tuples",
    "C76_int_range",
    "C76_index"
   ],
   "note": "Two natural claims are refuted (C76_float_order_refuted, C76_no_geometry_refuted). pybind11, numpy and the code generator are represented by their documented behaviour: integer conversion, strided arrays, element wise evaluation; whether a module loads is a parameter. dim = 0 has no arrays (position()[0] is undefined)."
  },
  {
   "property": "C77",
   "status": "proved",
   "theorems": [
    "C77_divergence",
    "C77_closed",
    "C77_volume",
    "C77_defined",
    "C77_orientation"
   ],
   "note": "Exact integrals (iterated Riemann integrals), apex tolerance 0; world dimension = dimension of the element."
  },
  {
   "property": "C78",
   "status": "proved",
   "theorems": [
    "C78_one_class",
    "C78_quadrature_classes",
    "C78_reference_elements",
    "C78_geometry_class",
    "C78_geometry_class_refuted",
    "C78_flag_refuted",
    "C78_type_property",
    "C78_constructor",
    "C78_corner",
    "C78_missing_corners",
    "C78_missing_corners_refuted",
    "C78_surplus_corners",
    "C78_quadpy_shapes",
    "C78_quadpy_none_refuted",
    "C78_quadpy_vertices",
    "C78_quadpy_same_object",
    "C78_quadpy_different_objects",
    "C78_quadpy_value",
    "C78_quadpy_order_ignored",
    "C78_quadpy_order_refuted",
    "C78_quadpy_rules",
    "C78_quadpy_masked_refuted",
    "C78_quadpy_module",
    "C78_quadpy_errors"
   ],
   "note": "insertClass (dune-common) and pybind11's def are modelled by their documented behaviour; quadpy's schemes are a parameter. The parts of the claim that the code violates are the _refuted theorems."
  },
  {
   "property": "C79",
   "status": "proved",
   "theorems": [
    "C79_divergence",
    "C79_closed",
    "C79_defined",
    "C79_element",
    "C79_affine",
    "C79_points",
    "C79_apex_refuted"
   ],
   "note": "Exact real arithmetic apart from the decimal tables. Points computed with LAPACK are assumed accurate (lapackOk) and below 1 - tol (lapackBelow). For nonaffine elements the Gauss-Lobatto and right Gauss-Radau rules, and on facets the triangle rules of order 11, are excluded (in C79_element only when tol > 0)."
  },
  {
   "property": "C80",
   "status": "proved",
   "theorems": [
    "C80_partition",
    "C80_kronecker",
    "C80_nonneg",
    "C80_derivative",
    "C80_interpolate",
    "C80_unisolvent",
    "C80_reproduce",
    "C80_function"
   ],
   "note": "Exact real arithmetic; int shifts without overflow."
  },
  {
   "property": "C81",
   "status": "proved",
   "theorems": [
    "C81_compare",
    "C81_lagrange_map",
    "C81_lagrange_multilinear",
    "C81_affine_classes",
    "C81_mapped_lfe",
    "C81_local_derivative",
    "C81_flag_refuted",
    "C81_volume_refuted",
    "C81_near_apex_refuted"
   ],
   "note": "Exact real arithmetic. The parts of the comparison that fail in general are refuted with witnesses (C81_flag_refuted, C81_volume_refuted, C81_near_apex_refuted); points are those at which the multilinear map is not thrown off by its tolerance (usable)."
  },
  {
   "property": "C82",
   "status": "proved",
   "theorems": [
    "C82_check",
    "C82_affine_classes",
    "C82_centre_refuted",
    "C82_small_refuted",
    "C82_volume_unchecked"
   ],
   "note": "Exact real arithmetic; determinant() of dune-common as the determinant. The three parts that are false are refuted (C82_centre_refuted, C82_small_refuted) or shown as an insensitivity (C82_volume_unchecked)."
  },
  {
   "property": "C83",
   "status": "proved",
   "theorems": [
    "C83_analytic",
    "C83_check",
    "C83_weights",
    "C83_exact_accepted",
    "C83_library_accepted",
    "C83_main_section",
    "C83_limit_section",
    "C83_main",
    "C83_vacuous_from_47",
    "C83_one_moment_refuted",
    "C83_factor_two_refuted"
   ],
   "note": "Exact real arithmetic with eps as a parameter; the rules are the model rules of C40-C43, with LAPACK assumed accurate to 1e-20. The composite and Float128 calls of main are left out. Acceptance does not imply exactness: C83_one_moment_refuted, C83_factor_two_refuted, C83_vacuous_from_47."
  },
  {
   "property": "C84",
   "status": "proved",
   "theorems": [
    "C84_accepts",
    "C84_library_passes",
    "C84_main_exit",
    "C84_triangle_determined",
    "C84_quadrilateral_determined",
    "C84_numbers_unchecked",
    "C84_main_numbering_refuted"
   ],
   "note": "The tests of volume, checkInside, hash and comparison in main are left out. Acceptance does not imply the right numbering except for triangle and quadrilateral: C84_numbers_unchecked, C84_main_numbering_refuted."
  },
  {
   "property": "C85",
   "status": "proved",
   "theorems": [
    "C85_meet",
    "C85_simplex",
    "C85_neighbours",
    "C85_triangulation",
    "C85_cube",
    "C85_four_dim_refuted"
   ],
   "note": "The claim in all dimensions is false for the triangulated cube: C85_four_dim_refuted. C85_neighbours has the bound of three common corners as a hypothesis; in dimension at most three it follows for different simplices."
  },
  {
   "property": "C86",
   "status": "proved",
   "theorems": [
    "C86_geometry",
    "C86_geometry_triangulation",
    "C86_geometry_cube",
    "C86_vertex_indices",
    "C86_vertex_indices_triangulation",
    "C86_plane",
    "C86_order_refuted"
   ],
   "note": "That the index lists of all elements have one orientation is false from dimension three on: C86_order_refuted, for every dim >= 3 and n >= 2."
  },
  {
   "property": "C87",
   "status": "proved",
   "theorems": [
    "C87_constructor",
    "C87_corners_read",
    "C87_corners",
    "C87_quadrilateral_refuted",
    "C87_test",
    "C87_test_orthogonal",
    "C87_types",
    "C87_other_types",
    "C87_assertion_refuted",
    "C87_main",
    "C87_verdict",
    "C87_disabled"
   ],
   "note": "Exact arithmetic. That accepted corners are the corners of the geometry is false for quadrilaterals (C87_quadrilateral_refuted), and that |det B| = 1 makes the test succeed is false (C87_assertion_refuted)."
  },
  {
   "property": "C88",
   "status": "proved",
   "theorems": [
    "C88_code",
    "C88_virtual",
    "C88_static",
    "C88_virtual_library",
    "C88_static_library",
    "C88_many_intervals_refuted",
    "C88_main",
    "C88_hexahedron_untested",
    "C88_unnoticed_refuted",
    "C88_skipped"
   ],
   "note": "Exact arithmetic. That no number of intervals makes a correct refinement fail is false (C88_many_intervals_refuted), and that the program notices wrong refinements is false for those of C88_unnoticed_refuted."
  },
  {
   "property": "C89",
   "status": "proved",
   "theorems": [
    "C89_tested",
    "C89_geometry",
    "C89_full_untested",
    "C89_depends",
    "C89_zero",
    "C89_nonzero",
    "C89_main",
    "C89_unit_cubes_refuted"
   ],
   "note": "Exact arithmetic. That the program notices wrong geometries of full dimension is false (C89_unit_cubes_refuted)."
  },
  {
   "property": "C90",
   "status": "proved",
   "theorems": [
    "C90_no_solution",
    "C90_terminates",
    "C90_uniform",
    "C90_nearly_affine",
    "C90_trapezoid",
    "C90_double_refuted",
    "C90_single_refuted"
   ],
   "note": "Extends C63. Exact arithmetic, except C90_double_refuted and C90_single_refuted (IEEE model): a convex quadrilateral with a coordinate for which local never returns."
  },
  {
   "property": "C91",
   "status": "proved",
   "theorems": [
    "C91_checks",
    "C91_test",
    "C91_test_orthogonal",
    "C91_types",
    "C91_nonlinear",
    "C91_local_method",
    "C91_verdict",
    "C91_main",
    "C91_three_steps_refuted",
    "C91_affine_refuted"
   ],
   "note": "Exact arithmetic, so the NaN checks are left out and the verdict of the compiled program is not predicted. Quadrature points closer to an apex than the tolerance are excluded (hypothesis usable)."
  },
  {
   "property": "C92",
   "status": "proved",
   "theorems": [
    "C92_map_rank",
    "C92_check",
    "C92_library",
    "C92_verdict",
    "C92_main",
    "C92_interpolation_refuted",
    "C92_seven_refuted",
    "C92_disabled"
   ],
   "note": "Exact arithmetic. The rule of order 2 must not contain the centre, since local() stagnates when it starts at the solution (C36, C82)."
  },
  {
   "property": "C93",
   "status": "proved",
   "theorems": [
    "C93_mapped",
    "C93_check",
    "C93_library",
    "C93_verdict",
    "C93_main",
    "C93_flag_refuted",
    "C93_volume_refuted",
    "C93_derivative_refuted",
    "C93_centre_refuted",
    "C93_point_refuted"
   ],
   "note": "Exact arithmetic; the clocks are left out. The rules of the volume loop must be exact for constants and have points at which the multilinear geometry is not thrown off; the rule of order 2 must not contain the centre."
  },
  {
   "property": "C94",
   "status": "proved",
   "theorems": [
    "C94_enumeration",
    "C94_guess",
    "C94_determined",
    "C94_ambiguous",
    "C94_too_many",
    "C94_dimension_four_refuted",
    "C94_library",
    "C94_verdict",
    "C94_main",
    "C94_exceptions_refuted",
    "C94_none",
    "C94_none_main",
    "C94_none_refuted",
    "C94_id",
    "C94_id_main",
    "C94_id_refuted",
    "C94_constexpr",
    "C94_constexpr_main"
   ],
   "note": "The unsigned arithmetic of the guess is exact for dim <= 31; from dim = 32 on the shift is undefined, modelled as a failure. convBase, which is not called, and the output are left out."
  },
  {
   "property": "C95",
   "status": "proved",
   "theorems": [
    "C95_reference_or_copy",
    "C95_fresh",
    "C95_moved_corner",
    "C95_cached_stale",
    "C95_cached_follows",
    "C95_main",
    "C95_copy_fails",
    "C95_cached_fails",
    "C95_centre_refuted"
   ],
   "note": "Exact arithmetic. Vectors are named cells; a call on a geometry whose corners are dead is undefined in the model even where the cached class would not read them."
  },
  {
   "property": "C96",
   "status": "proved",
   "theorems": [
    "C96_types_verdict",
    "C96_types_library",
    "C96_types_refuted",
    "C96_elements_verdict",
    "C96_elements_library",
    "C96_elements_main_verdict",
    "C96_elements_main",
    "C96_elements_refuted",
    "C96_results",
    "C96_arrays",
    "C96_rules_verdict",
    "C96_rules_library",
    "C96_rules_refuted",
    "C96_rules_unchecked"
   ],
   "note": "Exact arithmetic, so the tolerance 1e-14 between loop and array sum is not about rounding. == of vectors is from dune-common and modelled by coordinates. LAPACK eigenvalues assumed accurate up to 1e-14 where used."
  },
  {
   "property": "C97",
   "status": "proved",
   "theorems": [
    "C97_geometry",
    "C97_one_corner",
    "C97_affine_classes",
    "C97_call",
    "C97_library",
    "C97_verdict",
    "C97_iterations",
    "C97_no_iteration",
    "C97_main",
    "C97_disabled",
    "C97_constant_refuted",
    "C97_values_refuted"
   ],
   "note": "Exact arithmetic. The sizes compared in lines 44-48 are fixed by the types; only that the calls return is modelled. Timers and output left out."
  },
  {
   "property": "C98",
   "status": "proved",
   "theorems": [
    "C98_weights",
    "C98_independent",
    "C98_edges",
    "C98_error",
    "C98_error_3",
    "C98_flat_refuted"
   ],
   "note": "Cubes only: on pyramids the Jacobian is scaled by the distance to the apex and has no uniform bound of this form; the mapping itself is treated in C68."
  },
  {
   "property": "C99",
   "status": "proved",
   "theorems": [
    "C99_quadrilateral",
    "C99_positive",
    "C99_hexahedron",
    "C99_relative_refuted"
   ],
   "note": "Dimension equal to the dimension of the world (2 and 3); surfaces and curves go through a root and are treated for the matrix helper alone (C71)."
  },
  {
   "property": "C100",
   "status": "proved",
   "theorems": [
    "C100_rows",
    "C100_reference",
    "C100_reference_3",
    "C100_quadrilateral",
    "C100_order",
    "C100_triangle",
    "C100_degenerate",
    "C100_collinear_refuted"
   ],
   "note": "Triangles as AffineGeometry and quadrilaterals as MultiLinearGeometry in the plane; other shapes through C99 and C71 only."
  },
  {
   "property": "C101",
   "status": "proved",
   "theorems": [
    "C101_global",
    "C101_round_trip",
    "C101_residual",
    "C101_corner_refuted"
   ],
   "note": "The residual of the stored inverse is bounded explicitly in the plane; in other dimensions it enters the bound as a quantity (C71_spdInvA gives its factors)."
  },
  {
   "property": "C102",
   "status": "proved",
   "theorems": [
    "C102_combination",
    "C102_p1_corners",
    "C102_q1_corners",
    "C102_quadrature",
    "C102_loop",
    "C102_overflow",
    "C102_finite_corners_refuted",
    "C102_q1_values",
    "C102_q1_error",
    "C102_p1_values",
    "C102_p1_jacobian",
    "C102_integration"
   ],
   "note": "local, affine and the inverse Jacobians of LocalFiniteElementGeometry in IEEE arithmetic are not part of it (matrix helper: C71; gaussNewton: C70)."
  },
  {
   "property": "C103",
   "status": "proved",
   "theorems": [
    "C103_finite",
    "C103_cube_error",
    "C103_cube",
    "C103_simplex_error",
    "C103_simplex",
    "C103_plane",
    "C103_space_refuted",
    "C103_jacobian_error",
    "C103_jacobian",
    "C103_quadrilateral",
    "C103_triangle",
    "C103_det",
    "C103_integration",
    "C103_simplex_integration",
    "C103_simplex_space_refuted"
   ],
   "note": "map, Jacobian and integration element; the inverse map is not compared; refuted: equality of the maps on hexahedra (C103_space_refuted) and of the integration elements on triangles and tetrahedra in space (C103_simplex_space_refuted)."
  },
  {
   "property": "C104",
   "status": "proved",
   "theorems": [
    "C104_cached",
    "C104_solve",
    "C104_inverse",
    "C104_determinant",
    "C104_global",
    "C104_jacobian",
    "C104_integrationElement",
    "C104_affine",
    "C104_local",
    "C104_AffineGeometry",
    "C104_gaussNewton",
    "C104_LocalFiniteElementGeometry"
   ],
   "note": "the storage each routine leaves uninitialised is an explicit argument of the model; class members and heap memory are not modelled."
  },
  {
   "property": "C105",
   "status": "proved",
   "theorems": [
    "C105_agree",
    "C105_equal_refuted"
   ],
   "note": "global only; bitwise equality is refuted (C105_equal_refuted)."
  },
  {
   "property": "C106",
   "status": "proved",
   "theorems": [
    "C106_inverse",
    "C106_integration",
    "C106_history",
    "C106_local",
    "C106_space_refuted",
    "C106_local_refuted",
    "C106_simplex",
    "C106_detInv",
    "C106_plane",
    "C106_carried"
   ],
   "note": "independence of the history is refuted for the integration element in space (C106_space_refuted) and for local (C106_local_refuted)."
  }
 ]
}