{
 "claims": [
  {
   "property": "C01",
   "status": "proved",
   "theorems": [
    "C01_edge_endpoints_exist"
   ],
   "note": ""
  },
  {
   "property": "C02",
   "status": "proved",
   "theorems": [
    "C02_nodes_apart",
    "C02_nodes_apart_exact"
   ],
   "note": "for f32 (NaN/inf included) and for exact arithmetic"
  },
  {
   "property": "C03",
   "status": "proved",
   "theorems": [
    "C03_add_node_reuses_or_appends"
   ],
   "note": ""
  },
  {
   "property": "C04",
   "status": "proved",
   "theorems": [
    "C04_add_node_splits_exactly"
   ],
   "note": ""
  },
  {
   "property": "C05",
   "status": "proved",
   "theorems": [
    "C05_adding_never_panics"
   ],
   "note": ""
  },
  {
   "property": "C06",
   "status": "proved",
   "theorems": [
    "C06_add_edge_rejects_and_ignores"
   ],
   "note": ""
  },
  {
   "property": "C07",
   "status": "proved",
   "theorems": [
    "C07_add_edge_reports_new_nodes"
   ],
   "note": ""
  },
  {
   "property": "C08",
   "status": "partial",
   "theorems": [
    "C08_add_edge_reports_edges_partial",
    "C08_new_edge_slot_reported_refuted"
   ],
   "note": "soundness and completeness for every slot that existed before are proved; the claim about the new edge's own slot is false (refuted with a T-junction)"
  },
  {
   "property": "C09",
   "status": "partial",
   "theorems": [
    "C09_planarity_refuted",
    "C09_add_node_clears_partial"
   ],
   "note": "false as stated (refuted: three concurrent edges); proved: after add_node no edge has the new node in its interior"
  },
  {
   "property": "C10",
   "status": "proved",
   "theorems": [
    "C10_edge_data_provenance"
   ],
   "note": ""
  },
  {
   "property": "C11",
   "status": "proved",
   "theorems": [
    "C11_additions_never_disconnect"
   ],
   "note": ""
  },
  {
   "property": "C12",
   "status": "proved",
   "theorems": [
    "C12_remove_node_exact",
    "C12_no_self_loops_suffices",
    "C12_self_loop_refuted"
   ],
   "note": "for every reachable graph in which the node's only edge is not a self-loop (implied by never asking for a self-loop, also proved); the self-loop corruption is the refuted theorem"
  },
  {
   "property": "C13",
   "status": "partial",
   "theorems": [
    "C13_remove_node_never_panics_refuted"
   ],
   "note": "false as stated (isolated node panics, refuted); the exact panic condition is C56"
  },
  {
   "property": "C14",
   "status": "proved",
   "theorems": [
    "C14_remove_edge_exact"
   ],
   "note": ""
  },
  {
   "property": "C15",
   "status": "partial",
   "theorems": [
    "C15_remove_edge_never_panics_refuted"
   ],
   "note": "false as stated (triangle, last edge; refuted); the exact panic condition is C57"
  },
  {
   "property": "C16",
   "status": "proved",
   "theorems": [
    "C16_removal_leaves_no_strays"
   ],
   "note": ""
  },
  {
   "property": "C17",
   "status": "partial",
   "theorems": [
    "C17_self_loops_only_on_request_partial",
    "C17_no_parallel_edges_refuted"
   ],
   "note": "self-loops only on request is proved; parallel edges do appear (refuted)"
  },
  {
   "property": "C18",
   "status": "partial",
   "theorems": [
    "C18_queries_partial",
    "C18_index_zero_refuted"
   ],
   "note": "proved except has_node_at_index(0)/has_edge_at_index(0), which are always false (refuted)"
  },
  {
   "property": "C19",
   "status": "partial",
   "theorems": [
    "C19_removal_reports_partial"
   ],
   "note": "proved for graphs without a lone self-loop; with one the renumbering is wrong (C12_self_loop_refuted)"
  },
  {
   "property": "C20",
   "status": "proved",
   "theorems": [
    "C20_find_closest_first_minimum",
    "C20_find_closest_exact"
   ],
   "note": "f32 with NaN/inf, and exact arithmetic"
  },
  {
   "property": "C21",
   "status": "proved",
   "theorems": [
    "C21_segment_intersection",
    "C21_intersection_unique",
    "C21_zero_denominator_f32"
   ],
   "note": "exact arithmetic; the zero-denominator case also in f32"
  },
  {
   "property": "C22",
   "status": "partial",
   "theorems": [
    "C22_unique_points_subsequence_partial",
    "C22_every_input_represented_refuted"
   ],
   "note": "subsequence and pairwise distance are proved (f32); 'every input is near a result' is false (refuted: duplicates are all dropped); exact behaviour is C58"
  },
  {
   "property": "C23",
   "status": "partial",
   "theorems": [
    "C23_on_segment_accepts_partial",
    "C23_on_segment_only_partial",
    "C23_rejects_ends_f32_partial",
    "C23_symmetric_f32_partial",
    "C23_include_endpoints_refuted"
   ],
   "note": "all but include_endpoints proved; that flag is ignored (refuted); exact region is C59"
  },
  {
   "property": "C24",
   "status": "proved",
   "theorems": [
    "C24_incenter",
    "C24_incenter_none_iff_degenerate"
   ],
   "note": ""
  },
  {
   "property": "C25",
   "status": "proved",
   "theorems": [
    "C25_degenerate_iff_collinear"
   ],
   "note": ""
  },
  {
   "property": "C26",
   "status": "proved",
   "theorems": [
    "C26_perpendicular_foot",
    "C26_degenerate_nan_f32"
   ],
   "note": "exact arithmetic for a<>b; for a=b both f32 coordinates are NaN"
  },
  {
   "property": "C27",
   "status": "partial",
   "theorems": [
    "C27_midpoint",
    "C27_midpoint_symmetric_f32",
    "C27_bisector_equidistant_partial",
    "C27_offset_distance_refuted",
    "C27_horizontal_not_finite"
   ],
   "note": "midpoint proved; bisector points equidistant for segments that are not axis-parallel; the documented offset distance is false (refuted) and horizontal segments give a non-finite f32 point; exact position is C60"
  },
  {
   "property": "C28",
   "status": "partial",
   "theorems": [
    "C28_result_on_both_lines_partial",
    "C28_lines_beyond_segments_refuted"
   ],
   "note": "what it returns lies on both lines; 'whenever not parallel' is false (refuted: None outside the segments); exact behaviour is C61"
  },
  {
   "property": "C29",
   "status": "proved",
   "theorems": [
    "C29_parallel_complete",
    "C29_parallel_sound",
    "C29_parallel_invariant",
    "C29_parallel_symmetric_f32",
    "C29_parallel_symmetric",
    "C29_degenerate_false_f32"
   ],
   "note": "exact arithmetic; symmetry and the degenerate case also in f32"
  },
  {
   "property": "C30",
   "status": "proved",
   "theorems": [
    "C30_orientation",
    "C30_area2_is_double_area",
    "C30_symmetries",
    "C30_swap_f32"
   ],
   "note": "exact arithmetic; the swap law in f32 for all inputs including NaN and infinities"
  },
  {
   "property": "C31",
   "status": "proved",
   "theorems": [
    "C31_between",
    "C31_intersect_prop",
    "C31_intersect",
    "C31_intersect_complete",
    "C31_degenerate_refuted"
   ],
   "note": "non-degenerate segments, as quantified; for a degenerate segment between over-reports (refuted), but no common point is missed"
  },
  {
   "property": "C32",
   "status": "partial",
   "theorems": [
    "C32_new_exact",
    "C32_new_f32_refuted"
   ],
   "note": "proved in exact arithmetic; in f32 the sign claim is false (refuted by a near-degenerate triangle with negative area both ways); see C62"
  },
  {
   "property": "C33",
   "status": "proved",
   "theorems": [
    "C33_area",
    "C33_area_invariant",
    "C33_triangle_area"
   ],
   "note": "exact arithmetic"
  },
  {
   "property": "C34",
   "status": "proved",
   "theorems": [
    "C34_transforms",
    "C34_transforms_any",
    "C34_orientation_kept",
    "C34_center"
   ],
   "note": "exact arithmetic; vertexwise action in every arithmetic"
  },
  {
   "property": "C35",
   "status": "proved",
   "theorems": [
    "C35_regular",
    "C35_regular_panics"
   ],
   "note": "exact arithmetic; the panic in every arithmetic"
  },
  {
   "property": "C36",
   "status": "proved",
   "theorems": [
    "C36_total",
    "C36_symmetric",
    "C36_neighbours",
    "C36_sound",
    "C36_complete"
   ],
   "note": "exact arithmetic, with the converse; totality in every arithmetic; on the f32 grid via C39"
  },
  {
   "property": "C37",
   "status": "partial",
   "theorems": [
    "C37_triangles",
    "C37_areas_refuted"
   ],
   "note": "count and vertices proved in every arithmetic; CCW and area claims are false for self-crossing polygons (refuted); proved for all simple polygons in C77; what holds for all is C63"
  },
  {
   "property": "C38",
   "status": "proved",
   "theorems": [
    "C38_terminates_convex",
    "C38_terminates_regular",
    "C38_terminates",
    "C38_terminates_new",
    "C38_convex_is_simple",
    "C38_terminates_f32"
   ],
   "note": "exact arithmetic for every simple polygon made by Polygon::new; f32 on the grid; polygons with no ear hang (C64)"
  },
  {
   "property": "C39",
   "status": "proved",
   "theorems": [
    "C39_bound_sharp",
    "C39_predicates_exact",
    "C39_diagonal_exact",
    "C39_triangulate_exact"
   ],
   "note": "for every grid k*2^e, |k|<=2048, -74<=e<=51; e=0 is the claim"
  },
  {
   "property": "C40",
   "status": "proved",
   "theorems": [
    "C40_spec_is_clifford",
    "C40_products",
    "C40_rotor_ring"
   ],
   "note": ""
  },
  {
   "property": "C41",
   "status": "partial",
   "theorems": [
    "C41_wedge_exterior",
    "C41_wedge_zero_iff_dependent",
    "C41_bivector_wedge_exterior_refuted"
   ],
   "note": "everything but the bivector clause is proved; the bivector wedge is not the exterior product (refuted); what it computes is C65"
  },
  {
   "property": "C42",
   "status": "proved",
   "theorems": [
    "C42_dot_is_grade_0",
    "C42_norm_squared_reversal",
    "C42_norm_positive",
    "C42_normalize",
    "C42_dot_symmetric_f32"
   ],
   "note": "identities over every commutative ring, positivity and normalize over the reals, dot symmetry bitwise in f32"
  },
  {
   "property": "C43",
   "status": "partial",
   "theorems": [
    "C43_inverse_vec_biv_tri",
    "C43_rotor_inverse_refuted"
   ],
   "note": "vectors, bivectors, trivectors proved; false for rotors that are not unit (refuted); exact condition is C66"
  },
  {
   "property": "C44",
   "status": "proved",
   "theorems": [
    "C44_project",
    "C44_reflect"
   ],
   "note": "exact arithmetic"
  },
  {
   "property": "C45",
   "status": "proved",
   "theorems": [
    "C45_rotate_sandwich",
    "C45_unit_isometry"
   ],
   "note": ""
  },
  {
   "property": "C46",
   "status": "proved",
   "theorems": [
    "C46_from_vectors",
    "C46_opposite_not_finite"
   ],
   "note": "exact arithmetic; opposite vectors give a non-finite rotor"
  },
  {
   "property": "C47",
   "status": "proved",
   "theorems": [
    "C47_angle_plane",
    "C47_plane_and_normal",
    "C47_axis_constructors"
   ],
   "note": "exact arithmetic"
  },
  {
   "property": "C48",
   "status": "partial",
   "theorems": [
    "C48_angle_exact",
    "C48_angle_number_f32_refuted",
    "C48_acos_argument_f32_refuted"
   ],
   "note": "proved in exact arithmetic; 'a number for all finite f32 vectors' is false (refuted); f32 symmetry and exact domain are C68"
  },
  {
   "property": "C49",
   "status": "proved",
   "theorems": [
    "C49_vector_space",
    "C49_division",
    "C49_assign_agree",
    "C49_is_zero_exact",
    "C49_is_zero_f32"
   ],
   "note": ""
  },
  {
   "property": "C50",
   "status": "proved",
   "theorems": [
    "C50_componentwise",
    "C50_scalar_laws",
    "C50_laws"
   ],
   "note": ""
  },
  {
   "property": "C51",
   "status": "partial",
   "theorems": [
    "C51_contains_exact",
    "C51_contains_line",
    "C51_base_point_f32",
    "C51_nan_rejected_f32",
    "C51_computed_points_f32_refuted"
   ],
   "note": "all clauses proved but the last: points base+t*direction computed in f32 can be rejected (refuted); exact region is C69"
  },
  {
   "property": "C52",
   "status": "partial",
   "theorems": [
    "C52_grade_0_refuted",
    "C52_total"
   ],
   "note": "false for k=0, where factorial(0)=0 makes it panic (refuted); the total is proved; exact behaviour for every k, and the sum, is C70"
  },
  {
   "property": "C53",
   "status": "partial",
   "theorems": [
    "C53_round_trip_refuted"
   ],
   "note": "false: renamed and skipped fields are lost, non-finite floats do not load (refuted); the exact result is C71"
  },
  {
   "property": "C54",
   "status": "proved",
   "theorems": [
    "C54_document",
    "C54_empty_document",
    "C54_unknown_ignored",
    "C54_order_irrelevant",
    "C54_malformed_panics",
    "C54_err_iff_unreadable"
   ],
   "note": "at the level of JSON values; the text lexer is not modelled"
  },
  {
   "property": "C55",
   "status": "partial",
   "theorems": [
    "C55_resolve_unchanged",
    "C55_validate_refuted",
    "C55_validate_accepts_all"
   ],
   "note": "resolve proved; validate accepts everything (refuted)"
  },
  {
   "property": "C56",
   "status": "proved",
   "theorems": [
    "C56_remove_node_panics_iff"
   ],
   "note": ""
  },
  {
   "property": "C57",
   "status": "proved",
   "theorems": [
    "C57_remove_edge_panics_iff"
   ],
   "note": ""
  },
  {
   "property": "C58",
   "status": "proved",
   "theorems": [
    "C58_unique_points_keeps_isolated"
   ],
   "note": ""
  },
  {
   "property": "C59",
   "status": "proved",
   "theorems": [
    "C59_on_segment_iff",
    "C59_include_endpoints_ignored"
   ],
   "note": ""
  },
  {
   "property": "C60",
   "status": "proved",
   "theorems": [
    "C60_bisector_second_point"
   ],
   "note": ""
  },
  {
   "property": "C61",
   "status": "proved",
   "theorems": [
    "C61_line_intersection_iff",
    "C61_agrees_with_segment_intersection"
   ],
   "note": ""
  },
  {
   "property": "C62",
   "status": "proved",
   "theorems": [
    "C62_new_any_arithmetic",
    "C62_new_triangle_grid"
   ],
   "note": ""
  },
  {
   "property": "C63",
   "status": "proved",
   "theorems": [
    "C63_triangulation_areas",
    "C63_partition_convex",
    "C63_partition_convex_f32"
   ],
   "note": ""
  },
  {
   "property": "C64",
   "status": "proved",
   "theorems": [
    "C64_degenerate_hangs",
    "C64_no_ear_hangs",
    "C64_result_stable"
   ],
   "note": ""
  },
  {
   "property": "C65",
   "status": "proved",
   "theorems": [
    "C65_bivector_wedge_commutator"
   ],
   "note": ""
  },
  {
   "property": "C66",
   "status": "proved",
   "theorems": [
    "C66_rotor_inverse_reversal",
    "C66_rotor_inverse_iff_unit"
   ],
   "note": ""
  },
  {
   "property": "C67",
   "status": "proved",
   "theorems": [
    "C67_from_vectors_general",
    "C67_from_vectors_direction"
   ],
   "note": ""
  },
  {
   "property": "C68",
   "status": "proved",
   "theorems": [
    "C68_angle_f32_symmetric",
    "C68_angle_finite_iff_nonzero",
    "C68_angle_cases"
   ],
   "note": ""
  },
  {
   "property": "C69",
   "status": "proved",
   "theorems": [
    "C69_region_f32",
    "C69_distance",
    "C69_degenerate",
    "C69_intersect_none",
    "C69_scale_matters"
   ],
   "note": ""
  },
  {
   "property": "C70",
   "status": "proved",
   "theorems": [
    "C70_binomial_spec",
    "C70_grade_0",
    "C70_value_iff_fits",
    "C70_above_n",
    "C70_release",
    "C70_total_overflow",
    "C70_total_truncates",
    "C70_sum"
   ],
   "note": ""
  },
  {
   "property": "C71",
   "status": "proved",
   "theorems": [
    "C71_save_load",
    "C71_loaded_is_typed"
   ],
   "note": "at the level of JSON values"
  },
  {
   "property": "C72",
   "status": "proved",
   "theorems": [
    "C72_loads_iff",
    "C72_otherwise_panics",
    "C72_reads_functional"
   ],
   "note": "at the level of JSON values"
  },
  {
   "property": "C73",
   "status": "proved",
   "theorems": [
    "C73_fractional_spec_panics",
    "C73_null_panics",
    "C73_id_range"
   ],
   "note": "at the level of JSON values"
  },
  {
   "property": "C74",
   "status": "proved",
   "theorems": [
    "C74_orientation",
    "C74_interior_angle",
    "C74_area_sign"
   ],
   "note": "exact arithmetic"
  },
  {
   "property": "C75",
   "status": "proved",
   "theorems": [
    "C75_diagonal_exact",
    "C75_diagonal_exact_f32"
   ],
   "note": "exact arithmetic; f32 on the grid"
  },
  {
   "property": "C76",
   "status": "proved",
   "theorems": [
    "C76_ears",
    "C76_two_ears",
    "C76_clip"
   ],
   "note": "exact arithmetic"
  },
  {
   "property": "C77",
   "status": "proved",
   "theorems": [
    "C77_tiling",
    "C77_tiling_f32"
   ],
   "note": "exact arithmetic; f32 on the grid"
  },
  {
   "property": "C78",
   "status": "proved",
   "theorems": [
    "C78_regions",
    "C78_infinities"
   ],
   "note": "approx 0.3.2 is modelled from its documentation; it is not part of the repository"
  },
  {
   "property": "C79",
   "status": "proved",
   "theorems": [
    "C79_add_edge_planar"
   ],
   "note": "exact arithmetic; the exact positive counterpart of C09"
  },
  {
   "property": "C80",
   "status": "proved",
   "theorems": [
    "C80_add_node_planar"
   ],
   "note": "exact arithmetic"
  },
  {
   "property": "C81",
   "status": "proved",
   "theorems": [
    "C81_remove_node_planar",
    "C81_remove_edge_planar"
   ],
   "note": "exact arithmetic"
  },
  {
   "property": "C82",
   "status": "proved",
   "theorems": [
    "C82_tidy_histories_planar"
   ],
   "note": "exact arithmetic; positive counterpart of C09 and C17 over histories"
  },
  {
   "property": "C83",
   "status": "proved",
   "theorems": [
    "C83_add_edge_reports_exactly"
   ],
   "note": "exact arithmetic; the exact positive counterpart of C08"
  },
  {
   "property": "C84",
   "status": "proved",
   "theorems": [
    "C84_removal_reports_without_loops"
   ],
   "note": "f32; the positive counterpart of C19"
  },
  {
   "property": "C85",
   "status": "proved",
   "theorems": [
    "C85_new_exact",
    "C85_new_ccw",
    "C85_tiling"
   ],
   "note": "f32; the bound 2048 is sharp (C39_bound_sharp)"
  },
  {
   "property": "C86",
   "status": "proved",
   "theorems": [
    "C86_area_exact",
    "C86_center_rounded"
   ],
   "note": "f32"
  },
  {
   "property": "C87",
   "status": "proved",
   "theorems": [
    "C87_segment_intersection_decides"
   ],
   "note": "f32"
  },
  {
   "property": "C88",
   "status": "proved",
   "theorems": [
    "C88_closest_exact",
    "C88_fails_at_765"
   ],
   "note": "f32; fails at |k| <= 765 (C88_fails_at_765)"
  },
  {
   "property": "C89",
   "status": "proved",
   "theorems": [
    "C89_on_grid_lines_exact",
    "C89_on_small_box_exact",
    "C89_fails_on_integers",
    "C89_grid_crossing_exact",
    "C89_crossing_fails_at_13"
   ],
   "note": "f32; the limits of spacing and size are shown by C89_fails_on_integers and C89_crossing_fails_at_13"
  },
  {
   "property": "C90",
   "status": "proved",
   "theorems": [
    "C90_histories_exact",
    "C90_calls_exact"
   ],
   "note": "f32 against exact arithmetic, via one simulation theorem for all families of segments closed under splitting whose crossings are grid points (GraphSim.v, GridGraph.v)"
  },
  {
   "property": "C91",
   "status": "proved",
   "theorems": [
    "C91_planar",
    "C91_edge",
    "C91_node"
   ],
   "note": "f32; C82 and C83 carried over by C90"
  },
  {
   "property": "C92",
   "status": "proved",
   "theorems": [
    "C92_products",
    "C92_dot_wedge",
    "C92_rotate",
    "C92_f32_f64"
   ],
   "note": "any binary format (Flocq), f32 and f64 as instances (C92_f32_f64); range shown necessary by C92_fails_at_overflow"
  },
  {
   "property": "C93",
   "status": "proved",
   "theorems": [
    "C93_norm_normalize"
   ],
   "note": "any binary format with 11 bits or more; range shown necessary by C93_fails_at_extremes in f32 and f64"
  },
  {
   "property": "C94",
   "status": "proved",
   "theorems": [
    "C94_inverse"
   ],
   "note": "any binary format with 11 bits or more"
  },
  {
   "property": "C95",
   "status": "proved",
   "theorems": [
    "C95_project_reflect",
    "C95_angle_argument"
   ],
   "note": "any binary format with 11 bits or more; acos itself is arbitrary"
  },
  {
   "property": "C96",
   "status": "proved",
   "theorems": [
    "C96_unit_rotor"
   ],
   "note": "any binary format with 11 bits or more"
  },
  {
   "property": "C97",
   "status": "proved",
   "theorems": [
    "C97_from_vectors"
   ],
   "note": "any binary format with 11 bits or more and tiny <= u^3; C97_fails_at_opposite"
  },
  {
   "property": "C98",
   "status": "proved",
   "theorems": [
    "C98_symmetric",
    "C98_is_zero",
    "C98_rotor_reverse"
   ],
   "note": "every binary format"
  },
  {
   "property": "C99",
   "status": "proved",
   "theorems": [
    "C99_distance"
   ],
   "note": "f32, all finite points"
  },
  {
   "property": "C100",
   "status": "proved",
   "theorems": [
    "C100_nodes_apart",
    "C100_add_node",
    "C100_closest",
    "C100_close_to"
   ],
   "note": "f32, all histories and all finite points"
  },
  {
   "property": "C101",
   "status": "proved",
   "theorems": [
    "C101_accepted_is_near",
    "C101_on_is_accepted",
    "C101_short_segments"
   ],
   "note": "f32, magnitudes up to 2^60; example of a point 2^-13 beside a unit segment that is accepted"
  },
  {
   "property": "C102",
   "status": "proved",
   "theorems": [
    "C102_area2_error",
    "C102_predicates",
    "C102_predicates_fail_at_flat_triples"
   ],
   "note": "f32, magnitudes up to 2^60; C102_predicates_fail_at_flat_triples"
  },
  {
   "property": "C103",
   "status": "proved",
   "theorems": [
    "C103_area",
    "C103_new",
    "C103_tiling"
   ],
   "note": "f32, simple polygons in robust position"
  },
  {
   "property": "C104",
   "status": "proved",
   "theorems": [
    "C104_on_first_segment",
    "C104_crossing"
   ],
   "note": "f32, magnitudes up to 2^60"
  },
  {
   "property": "C105",
   "status": "proved",
   "theorems": [
    "C105_new_nodes",
    "C105_crossing_gets_node",
    "C105_splitting_fails_at_scale_1"
   ],
   "note": "f32, every graph; C105_splitting_fails_at_scale_1"
  },
  {
   "property": "C106",
   "status": "proved",
   "theorems": [
    "C106_midpoint",
    "C106_midpoint_fails_at_overflow",
    "C106_center"
   ],
   "note": "f32; C106_midpoint_fails_at_overflow shows the range is needed"
  },
  {
   "property": "C107",
   "status": "proved",
   "theorems": [
    "C107_foot",
    "C107_foot_fails_at_short_segments"
   ],
   "note": "f32, magnitudes up to 2^60, |ab| >= 2^-40; C107_foot_fails_at_short_segments"
  },
  {
   "property": "C108",
   "status": "proved",
   "theorems": [
    "C108_line_intersection",
    "C108_short_segments_missed"
   ],
   "note": "f32, magnitudes up to 2^60"
  },
  {
   "property": "C109",
   "status": "proved",
   "theorems": [
    "C109_incenter",
    "C109_accepted",
    "C109_accepted_fails_at_collinear",
    "C109_accepted_fails_at_flat"
   ],
   "note": "f32, magnitudes up to 2^60, sides at least 2^-40; C109_accepted_fails_at_collinear and _fails_at_flat show the margin is needed"
  },
  {
   "property": "C110",
   "status": "proved",
   "theorems": [
    "C110_inradius",
    "C110_inradius_fails_at_large"
   ],
   "note": "f32, magnitudes up to 2^28, sides at least 2^-20; C110_inradius_fails_at_large"
  },
  {
   "property": "C111",
   "status": "proved",
   "theorems": [
    "C111_parallel_sound",
    "C111_cosine",
    "C111_parallel_fails_at_same_segment"
   ],
   "note": "f32, magnitudes up to 2^60, lengths at least 2^-40; C111_parallel_fails_at_same_segment"
  },
  {
   "property": "C112",
   "status": "proved",
   "theorems": [
    "C112_distance",
    "C112_parallel",
    "C112_distance_fails_at_small"
   ],
   "note": "f32, magnitudes up to 2^60, lengths at least 2^-60; C112_distance_fails_at_small"
  },
  {
   "property": "C113",
   "status": "proved",
   "theorems": [
    "C113_bisector",
    "C113_bisector_fails_at_far"
   ],
   "note": "f32, magnitudes up to 2^30, both coordinate differences at least 2^-30; C113_bisector_fails_at_far"
  },
  {
   "property": "C114",
   "status": "proved",
   "theorems": [
    "C114_corners",
    "C114_regular",
    "C114_regular_fails_at_far_centre"
   ],
   "note": "f32; accuracy of the platform's sin/cos is a hypothesis (a library meeting it is exhibited); C114_regular_fails_at_far_centre"
  },
  {
   "property": "C115",
   "status": "proved",
   "theorems": [
    "C115_regular_area"
   ],
   "note": "f32; hypotheses as C114"
  },
  {
   "property": "C116",
   "status": "proved",
   "theorems": [
    "C116_contains_rounding",
    "C116_accepted_close",
    "C116_computed_points"
   ],
   "note": "f32, magnitudes up to 2^60; C51_computed_points_f32_refuted shows a rejected computed point outside the bound"
  },
  {
   "property": "C117",
   "status": "proved",
   "theorems": [
    "C117_from_angle_plane",
    "C117_axis_rotations"
   ],
   "note": "any binary format with prec >= 11; accuracy of the platform's sin/cos is a hypothesis (an instance is exhibited); C117_fails_at_zero_libm"
  },
  {
   "property": "C118",
   "status": "proved",
   "theorems": [
    "C118_translate",
    "C118_scale",
    "C118_scale_power_of_two",
    "C118_translate_orientation"
   ],
   "note": "f32"
  },
  {
   "property": "C119",
   "status": "proved",
   "theorems": [
    "C119_add_edge"
   ],
   "note": "f32; distances and conditioning as hypotheses (`fine`, `spaced`, `clear_way` in MarginSpec.v); C119_example meets them with a crossing that is not an f32 point"
  },
  {
   "property": "C120",
   "status": "proved",
   "theorems": [
    "C120_add_node"
   ],
   "note": "f32; hypotheses as C119"
  },
  {
   "property": "C121",
   "status": "proved",
   "theorems": [
    "C121_histories"
   ],
   "note": "f32; hypotheses as C119 before every call; exact planarity is the conclusion"
  },
  {
   "property": "C122",
   "status": "proved",
   "theorems": [
    "C122_drawing_determined"
   ],
   "note": "for all plane drawings over the reals; the necessity of the node positions is machine-checked (C122_fails_at_same_picture)"
  },
  {
   "property": "C123",
   "status": "proved",
   "theorems": [
    "C123_order_irrelevant",
    "C123_nodes_at_crossings"
   ],
   "note": "exact arithmetic (XO); each segment joins two nodes of the start drawing and is in general position when drawn"
  },
  {
   "property": "C124",
   "status": "proved",
   "theorems": [
    "C124_adding_length",
    "C124_removing_length"
   ],
   "note": "exact arithmetic (XO); add_node at a good place and add_edge in general position, removals on any planar drawing"
  },
  {
   "property": "C125",
   "status": "proved",
   "theorems": [
    "C125_add_edge"
   ],
   "note": "f32 against exact arithmetic (XO); hypotheses as C119"
  },
  {
   "property": "C126",
   "status": "proved",
   "theorems": [
    "C126_histories",
    "C126_planar"
   ],
   "note": "f32 against exact arithmetic (XO); calm is a condition on the exact run only, drift M K n bounds the error of a node made by n levels of crossings; removals need no condition of their own"
  },
  {
   "property": "C127",
   "status": "proved",
   "theorems": [
    "C127_order_f32"
   ],
   "note": "f32; both orders calm on the exact run (C126), segments between nodes of the start drawing"
  },
  {
   "property": "C128",
   "status": "proved",
   "theorems": [
    "C128_histories",
    "C128_calls"
   ],
   "note": "exact arithmetic (XO); no validity hypothesis on the graph"
  },
  {
   "property": "C129",
   "status": "proved",
   "theorems": [
    "C129_histories",
    "C129_calls",
    "C129_zero_sign",
    "C129_fails_at_translation_and_scaling"
   ],
   "note": "f32; no hypothesis on the graph; witnesses for translation and scaling"
  },
  {
   "property": "C130",
   "status": "proved",
   "theorems": [
    "C130_triangulate",
    "C130_new_and_area",
    "C130_transforms",
    "C130_fails_at_repeated_points"
   ],
   "note": "exact arithmetic (RO); distinct vertices needed for general affine maps only"
  },
  {
   "property": "C131",
   "status": "proved",
   "theorems": [
    "C131_half_turn",
    "C131_quarter_turns",
    "C131_area",
    "C131_fails_at_between_off_the_grid"
   ],
   "note": "f32; half turn, area and orientation predicates without hypothesis, quarter turns of triangulate on the grid; witness for between off the grid"
  },
  {
   "property": "C132",
   "status": "proved",
   "theorems": [
    "C132_node_again",
    "C132_node_again_exact",
    "C132_not_finite"
   ],
   "note": "f32 for all finite points of all graphs; non-finite points on reachable graphs; exact arithmetic"
  },
  {
   "property": "C133",
   "status": "proved",
   "theorems": [
    "C133_undo_edge",
    "C133_undo_node",
    "C133_never_restored",
    "C133_strays_exactly",
    "C133_redraw"
   ],
   "note": "any arithmetic; the redrawing clause in exact arithmetic on well-drawn graphs (PlanarSpec.v)"
  },
  {
   "property": "C134",
   "status": "proved",
   "theorems": [
    "C134_add_edge",
    "C134_add_node",
    "C134_draws",
    "C134_f32",
    "C134_growth"
   ],
   "note": "exact arithmetic on well-drawn graphs in general position (PlanarSpec.v), f32 for calm histories (SimSpec.v), growth bounds for any scalars"
  },
  {
   "property": "C135",
   "status": "proved",
   "theorems": [
    "C135_same_answers",
    "C135_same_points",
    "C135_bisector"
   ],
   "note": "f32, all inputs; the bisector clause with its hypotheses and witnesses that they are needed"
  },
  {
   "property": "C136",
   "status": "proved",
   "theorems": [
    "C136_isometries",
    "C136_affine"
   ],
   "note": "exact arithmetic (XO, RO)"
  },
  {
   "property": "C137",
   "status": "proved",
   "theorems": [
    "C137_through_nodes",
    "C137_general_position"
   ],
   "note": "exact arithmetic on well-drawn graphs (PlanarSpec.v), segments without near misses (ThroughSpec.v); exact condition for C09 at passed nodes"
  },
  {
   "property": "C138",
   "status": "proved",
   "theorems": [
    "C138_rotations",
    "C138_improper",
    "C138_constructions",
    "C138_operations",
    "C138_from_vectors"
   ],
   "note": "exact arithmetic (XO, RO); maps of space as functions, small spec in SpinSpec.v"
  },
  {
   "property": "C139",
   "status": "proved",
   "theorems": [
    "C139_exact_planar",
    "C139_grid_planar",
    "C139_grid_edge",
    "C139_fails_at_two_edges"
   ],
   "note": "exact arithmetic without near misses (ThroughSpec.v), and f32 on the grids of C90 (GridThroughSpec.v)"
  },
  {
   "property": "C140",
   "status": "proved",
   "theorems": [
    "C140_what_is_left",
    "C140_determined",
    "C140_any_order",
    "C140_remove_node",
    "C140_clear",
    "C140_panic_fails_at_last_slot",
    "C140_remove_node_fails_at_parallel"
   ],
   "note": "any arithmetic; small spec in RemovalSpec.v; what depends on the order (panics, parallel edges) is stated as fails_at theorems"
  },
  {
   "property": "C141",
   "status": "proved",
   "theorems": [
    "C141_labels",
    "C141_exact",
    "C141_all_drawings",
    "C141_through",
    "C141_grid",
    "C141_margin",
    "C141_fails_at_parallel"
   ],
   "note": "exact arithmetic on well-drawn graphs (PlanarSpec.v); f32 bit for bit on the grids of C90 and with room to spare (MarginSpec.v); fails_at theorem for parallel edges"
  },
  {
   "property": "C142",
   "status": "proved",
   "theorems": [
    "C142_exact",
    "C142_picture",
    "C142_asks",
    "C142_grid",
    "C142_fails_at_isolated_node"
   ],
   "note": "exact arithmetic and f32 on the grids of C90, small spec in AnyOrderSpec.v; fails_at theorem for nodes without edges in the way"
  },
  {
   "property": "C143",
   "status": "proved",
   "theorems": [
    "C143_meaning",
    "C143_links",
    "C143_conditions",
    "C143_slots",
    "C143_tells",
    "C143_grid",
    "C143_grid_slots",
    "C143_panic_fails_at_slots"
   ],
   "note": "exact arithmetic and f32 on the grids of C90; set-based spec in MeaningSpec.v; fails_at theorem: panics of removals depend on the slots (C56, C57)"
  },
  {
   "property": "C144",
   "status": "proved",
   "theorems": [
    "C144_meaning",
    "C144_slots",
    "C144_order"
   ],
   "note": "f32 off any grid, with the room to spare of C126; words and strokes are those of the exact program on the same places"
  },
  {
   "property": "C145",
   "status": "proved",
   "theorems": [
    "C145_over_edges",
    "C145_unambiguous"
   ],
   "note": "exact arithmetic on well-drawn graphs (PlanarSpec.v), segments without near misses (ThroughSpec.v); exact condition for C09 at overlapping edges"
  },
  {
   "property": "C146",
   "status": "proved",
   "theorems": [
    "C146_edge",
    "C146_repaired",
    "C146_node",
    "C146_history",
    "C146_knot"
   ],
   "note": "exact arithmetic; spec in LooseSpec.v; exact condition for edges running through nodes (refuted part of C09) in histories, not only after one call (C137)"
  },
  {
   "property": "C147",
   "status": "proved",
   "theorems": [
    "C147_history",
    "C147_edge",
    "C147_node",
    "C147_knot"
   ],
   "note": "f32 on the grids of C90; GridLooseSpec.v; additions only"
  },
  {
   "property": "C148",
   "status": "proved",
   "theorems": [
    "C148_remove_node",
    "C148_remove_edge",
    "C148_history",
    "C148_grid_history",
    "C148_grid_remove_node",
    "C148_grid_remove_edge",
    "C148_fails_at_two_edges"
   ],
   "note": "exact arithmetic and f32 on the grids of C90; spec in LooseRemoveSpec.v; fails_at theorem: removing a node that two edges run through leaves a crossing without a node"
  },
  {
   "property": "C149",
   "status": "proved",
   "theorems": [
    "C149_picture",
    "C149_order",
    "C149_passings",
    "C149_either_end",
    "C149_grid",
    "C149_fails_at_edges"
   ],
   "note": "exact arithmetic and f32 on the grids of C90; spec in LooseOrderSpec.v; additions only; fails_at theorem: the edges themselves may differ"
  },
  {
   "property": "C150",
   "status": "proved",
   "theorems": [
    "C150_edge",
    "C150_history"
   ],
   "note": "f32 on the grids of C90; exact version of the refuted planarity claim (C09) for these grids; spec in GridOverSpec.v"
  },
  {
   "property": "C151",
   "status": "proved",
   "theorems": [
    "C151_edge",
    "C151_history"
   ],
   "note": "exact arithmetic; distances below the program's epsilons (near misses) excluded by hypothesis; spec in StaysSpec.v"
  },
  {
   "property": "C152",
   "status": "proved",
   "theorems": [
    "C152_node",
    "C152_edge",
    "C152_loop",
    "C152_history",
    "C152_planar",
    "C152_fails_at_removal"
   ],
   "note": "exact arithmetic and f32; histories of additions (removals do see loops: C152_fails_at_removal, and C12 for their renumbering); spec in LoopsSpec.v"
  },
  {
   "property": "C153",
   "status": "proved",
   "theorems": [
    "C153_node",
    "C153_edge",
    "C153_apart",
    "C153_history"
   ],
   "note": "f32; histories of additions from any valid graph; spec in FrozenSpec.v"
  },
  {
   "property": "C154",
   "status": "proved",
   "theorems": [
    "C154_calls",
    "C154_history",
    "C154_blind"
   ],
   "note": "every arithmetic; the four mutating calls; spec in CarrySpec.v"
  },
  {
   "property": "C155",
   "status": "proved",
   "theorems": [
    "C155_node",
    "C155_edge",
    "C155_history",
    "C155_plane"
   ],
   "note": "every arithmetic, with a reading in the plane in exact arithmetic; removals are not covered; spec in FrameSpec.v"
  },
  {
   "property": "C156",
   "status": "proved",
   "theorems": [
    "C156_calls",
    "C156_queries",
    "C156_history",
    "C156_blind"
   ],
   "note": "every arithmetic; all graphs; spec in BlindSpec.v"
  },
  {
   "property": "C157",
   "status": "proved",
   "theorems": [
    "C157_add_node",
    "C157_remove_node",
    "C157_remove_edge",
    "C157_queries"
   ],
   "note": "every arithmetic; single calls; add_edge is excluded by a witness; spec in ShuffleSpec.v"
  },
  {
   "property": "C158",
   "status": "proved",
   "theorems": [
    "C158_add_node",
    "C158_remove_node",
    "C158_remove_edge",
    "C158_queries"
   ],
   "note": "add_node for every arithmetic with the order laws (f32, XO, R), remove_node and remove_edge for every arithmetic; add_edge excluded by a witness; spec in DirectionSpec.v"
  },
  {
   "property": "C159",
   "status": "proved",
   "theorems": [
    "C159_new_nodes",
    "C159_any_order"
   ],
   "note": "every arithmetic with the order laws (f32, XO, R), all valid graphs; spec in NewNodesSpec.v"
  }
 ]
}