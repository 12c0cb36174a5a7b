{
 "claims": [
  {
   "property": "C01",
   "status": "proved",
   "theorems": [
    "C01_divide_total"
   ],
   "note": "unconditional: every list of naturals"
  },
  {
   "property": "C02",
   "status": "proved",
   "theorems": [
    "C02_divide_edges_sound"
   ],
   "note": ""
  },
  {
   "property": "C03",
   "status": "proved",
   "theorems": [
    "C03_divide_edges_once"
   ],
   "note": ""
  },
  {
   "property": "C04",
   "status": "proved",
   "theorems": [
    "C04_divide_maximal"
   ],
   "note": ""
  },
  {
   "property": "C05",
   "status": "proved",
   "theorems": [
    "C05_divide_bits"
   ],
   "note": ""
  },
  {
   "property": "C06",
   "status": "partial",
   "theorems": [
    "C06_divide_selfloop_refuted",
    "C06_divide_selfloop_partial"
   ],
   "note": "REFUTED in general (witnesses in the theorem): a self-looped vertex with one other neighbour makes the code walk a non-edge or lose an edge. Proved when no self-looped vertex has exactly two neighbours counting itself."
  },
  {
   "property": "C07",
   "status": "proved",
   "theorems": [
    "C07_rdp_subsequence"
   ],
   "note": "every scalar type satisfying the stated order law (exact reals and NaN-free floats)"
  },
  {
   "property": "C08",
   "status": "proved",
   "theorems": [
    "C08_rdp_tolerance"
   ],
   "note": "exact arithmetic"
  },
  {
   "property": "C09",
   "status": "proved",
   "theorems": [
    "C09_rdp_idempotent",
    "C09_rdp_idempotent_exact",
    "C09_rdp_idempotent_float"
   ],
   "note": ""
  },
  {
   "property": "C10",
   "status": "proved",
   "theorems": [
    "C10_rdp_needed_points_kept",
    "C10_rdp_zero_tolerance"
   ],
   "note": ""
  },
  {
   "property": "C11",
   "status": "proved",
   "theorems": [
    "C11_indexed_rdp_agrees"
   ],
   "note": ""
  },
  {
   "property": "C12",
   "status": "partial",
   "theorems": [
    "C12_indexed_rdp_degenerate_refuted",
    "C12_indexed_rdp_subsequence_partial"
   ],
   "note": "REFUTED in general (witness in the theorem); proved for the remaining inputs"
  },
  {
   "property": "C13",
   "status": "partial",
   "theorems": [
    "C13_rdp3_tolerance_refuted",
    "C13_rdp3_line_tolerance_partial"
   ],
   "note": "REFUTED for segments: the 3D distance is to the infinite line; the line-distance tolerance is proved"
  },
  {
   "property": "C32",
   "status": "proved",
   "theorems": [
    "C32_distance_to_segment"
   ],
   "note": ""
  },
  {
   "property": "C33",
   "status": "proved",
   "theorems": [
    "C33_distance_to_line_3d"
   ],
   "note": ""
  },
  {
   "property": "C14",
   "status": "proved",
   "theorems": [
    "C14_vw_count"
   ],
   "note": "any scalar type whose areas are ordered (reals; NaN-free floats), any heap tie-breaking"
  },
  {
   "property": "C15",
   "status": "proved",
   "theorems": [
    "C15_vw_subsequence"
   ],
   "note": "any scalar, any heap behaviour"
  },
  {
   "property": "C16",
   "status": "proved",
   "theorems": [
    "C16_vw_greedy",
    "C16_vw_area"
   ],
   "note": ""
  },
  {
   "property": "C17",
   "status": "partial",
   "theorems": [
    "C17_vw_closed_refuted",
    "C17_vw_closed_partial"
   ],
   "note": "REFUTED (witness, for every heap order); proved when nothing is deleted; C16 gives the ring reading"
  },
  {
   "property": "C18",
   "status": "proved",
   "theorems": [
    "C18_vw_total",
    "C18_vw_total_float",
    "C18_vw_nan_panics"
   ],
   "note": ""
  },
  {
   "property": "C19",
   "status": "partial",
   "theorems": [
    "C19_vw3_last_point_refuted",
    "C19_vw3_greedy_partial",
    "C19_vw3_area"
   ],
   "note": "REFUTED for the last point (always dropped); everything else proved"
  },
  {
   "property": "C20",
   "status": "proved",
   "theorems": [
    "C20_aabb_contains",
    "C20_aabb_contains_exact"
   ],
   "note": "any comparable scalars (reals, NaN-free f64/f32)"
  },
  {
   "property": "C21",
   "status": "proved",
   "theorems": [
    "C21_aabb_smallest"
   ],
   "note": ""
  },
  {
   "property": "C22",
   "status": "proved",
   "theorems": [
    "C22_aabb_order"
   ],
   "note": ""
  },
  {
   "property": "C25",
   "status": "proved",
   "theorems": [
    "C25_affine_inverse",
    "C25_affine_array_variants"
   ],
   "note": "exact arithmetic; the array variants for any scalar"
  },
  {
   "property": "C26",
   "status": "proved",
   "theorems": [
    "C26_affine_fit"
   ],
   "note": "exact arithmetic"
  },
  {
   "property": "C27",
   "status": "proved",
   "theorems": [
    "C27_affine_finite"
   ],
   "note": "any scalar, NaN and infinities included"
  },
  {
   "property": "C28",
   "status": "partial",
   "theorems": [
    "C28_affine_tiny_refuted",
    "C28_affine_fit_partial"
   ],
   "note": "REFUTED for destinations narrower than one unit; what does hold is proved"
  },
  {
   "property": "C41",
   "status": "proved",
   "theorems": [
    "C41_iterators",
    "C41_iterators_3d"
   ],
   "note": ""
  },
  {
   "property": "C42",
   "status": "proved",
   "theorems": [
    "C42_connected",
    "C42_connected_exact"
   ],
   "note": ""
  },
  {
   "property": "C43",
   "status": "proved",
   "theorems": [
    "C43_copies_reversible"
   ],
   "note": ""
  },
  {
   "property": "C44",
   "status": "partial",
   "theorems": [
    "C44_line_vs_linestring_refuted",
    "C44_line_vs_linestring_partial"
   ],
   "note": "REFUTED for the YZ plane; proved for the other two"
  },
  {
   "property": "C45",
   "status": "proved",
   "theorems": [
    "C45_plane_detection",
    "C45_plane_projection"
   ],
   "note": ""
  },
  {
   "property": "C79",
   "status": "partial",
   "theorems": [
    "C79_approx_lines_refl_sym",
    "C79_approx_direction_refuted",
    "C79_approx_direction_partial"
   ],
   "note": "direction-blindness REFUTED under a tolerance; proved for exact comparison and for lines longer than twice the tolerance"
  },
  {
   "property": "C29",
   "status": "proved",
   "theorems": [
    "C29_segment_intersection"
   ],
   "note": "exact arithmetic"
  },
  {
   "property": "C30",
   "status": "proved",
   "theorems": [
    "C30_intersection_symmetric"
   ],
   "note": "exact arithmetic"
  },
  {
   "property": "C31",
   "status": "proved",
   "theorems": [
    "C31_point_on_segment"
   ],
   "note": "exact arithmetic"
  },
  {
   "property": "C34",
   "status": "proved",
   "theorems": [
    "C34_ray_edge"
   ],
   "note": "exact arithmetic"
  },
  {
   "property": "C35",
   "status": "proved",
   "theorems": [
    "C35_closest_ray"
   ],
   "note": "exact arithmetic; also says which parallel edges can be passed over"
  },
  {
   "property": "C36",
   "status": "proved",
   "theorems": [
    "C36_linestring_intersections"
   ],
   "note": "any scalar"
  },
  {
   "property": "C37",
   "status": "partial",
   "theorems": [
    "C37_straight_refuted",
    "C37_straight_partial",
    "C37_straight_long"
   ],
   "note": "REFUTED on the diagonal for fewer than ten points; proved for non-vertical straight line strings with no point on x = y (fewer than ten points) and for all straight line strings of ten or more points"
  },
  {
   "property": "C38",
   "status": "partial",
   "theorems": [
    "C38_self_intersection_refuted",
    "C38_self_intersection_partial"
   ],
   "note": "REFUTED both ways because of the test on consecutive edges; proved for non-consecutive edges that do not overlap"
  },
  {
   "property": "C80",
   "status": "partial",
   "theorems": [
    "C80_scaling_refuted",
    "C80_scaling_partial"
   ],
   "note": "REFUTED in f64; proved in exact arithmetic"
  },
  {
   "property": "C39",
   "status": "proved",
   "theorems": [
    "C39_discretize",
    "C39_discretize_3d",
    "C39_discretize_terminates"
   ],
   "note": "exact arithmetic; termination for every scalar and step"
  },
  {
   "property": "C40",
   "status": "partial",
   "theorems": [
    "C40_discretize_step_refuted",
    "C40_discretize_step_partial"
   ],
   "note": "REFUTED for negative steps (f64 witness); what a negative step yields is characterised"
  },
  {
   "property": "C72",
   "status": "proved",
   "theorems": [
    "C72_parabola_ends"
   ],
   "note": "any scalar"
  },
  {
   "property": "C73",
   "status": "proved",
   "theorems": [
    "C73_parabola_on_curve",
    "C73_parabola_3d"
   ],
   "note": "exact arithmetic, proper arcs; also monotone along the segment; 3D variant is the 2D one plus z"
  },
  {
   "property": "C74",
   "status": "partial",
   "theorems": [
    "C74_parabola_error_refuted",
    "C74_parabola_error_partial"
   ],
   "note": "REFUTED for the chord as a segment; proved for its line, and for the segment when the focus does not project strictly between the samples"
  },
  {
   "property": "C75",
   "status": "proved",
   "theorems": [
    "C75_parabola_terminates"
   ],
   "note": "exact arithmetic, proper arcs, non-zero tolerance; unbounded"
  },
  {
   "property": "C76",
   "status": "partial",
   "theorems": [
    "C76_parabola_point_refuted",
    "C76_parabola_point_partial"
   ],
   "note": "REFUTED in f64 for arcs whose ends coincide (loops forever); proved for proper arcs in exact arithmetic"
  },
  {
   "property": "C81",
   "status": "proved",
   "theorems": [
    "C81_parabola_straight"
   ],
   "note": "exact arithmetic"
  },
  {
   "property": "C77",
   "status": "proved",
   "theorems": [
    "C77_obj_export"
   ],
   "note": "every formatting function, every hash iteration order; I/O errors not modelled"
  },
  {
   "property": "C23",
   "status": "proved",
   "theorems": [
    "C23_aabb_outline"
   ],
   "note": ""
  },
  {
   "property": "C24",
   "status": "partial",
   "theorems": [
    "C24_degenerate_outline_refuted",
    "C24_degenerate_outline_partial"
   ],
   "note": "REFUTED for degenerate boxes; exact characterisation of what the outline contains, and every point of the box is contained"
  },
  {
   "property": "C46",
   "status": "proved",
   "theorems": [
    "C46_graham_scan_is_hull",
    "C46_some_result"
   ],
   "note": "exact arithmetic; every order the unstable sort may return"
  },
  {
   "property": "C47",
   "status": "proved",
   "theorems": [
    "C47_hull_of_input_points",
    "C47_wo_atan2_can_panic"
   ],
   "note": "any scalar"
  },
  {
   "property": "C48",
   "status": "partial",
   "theorems": [
    "C48_hull_closed_refuted",
    "C48_hull_closed_partial"
   ],
   "note": "REFUTED (the hulls come back open for small inputs); proved for what does hold"
  },
  {
   "property": "C49",
   "status": "proved",
   "theorems": [
    "C49_indexed_graham_is_hull"
   ],
   "note": "exact arithmetic"
  },
  {
   "property": "C50",
   "status": "partial",
   "theorems": [
    "C50_duplicates_refuted",
    "C50_duplicates_partial"
   ],
   "note": "REFUTED when the lowest point is selected by two different indices; proved with any repetitions otherwise"
  },
  {
   "property": "C51",
   "status": "proved",
   "theorems": [
    "C51_gift_wrap_is_hull",
    "C51_indexed_gift_wrap_is_hull"
   ],
   "note": "exact arithmetic"
  },
  {
   "property": "C52",
   "status": "partial",
   "theorems": [
    "C52_duplicates_refuted",
    "C52_corner_lost_refuted",
    "C52_duplicates_partial",
    "C52_indexed_duplicates_partial"
   ],
   "note": "REFUTED when a corner of the hull is repeated, start point or not (f64 witnesses); proved when only points that are not corners are repeated"
  },
  {
   "property": "C53",
   "status": "proved",
   "theorems": [
    "C53_hulls_agree",
    "C53_indexed_hulls_agree"
   ],
   "note": "exact arithmetic"
  },
  {
   "property": "C54",
   "status": "partial",
   "theorems": [
    "C54_parallel_hull_refuted",
    "C54_parallel_hull_loops_refuted",
    "C54_one_chunk_partial",
    "C54_one_chunk_per_task_partial",
    "C54_every_run_is_a_tree"
   ],
   "note": "REFUTED: folding several chunks in one task can lose points or loop; proved exact (distinct points) when all points are in one chunk, and for every reduction tree whose tasks each get at most one chunk, provided no chunk is just three collinear points"
  },
  {
   "property": "C55",
   "status": "proved",
   "theorems": [
    "C55_parallel_hull_indices"
   ],
   "note": "every chunking and every reduction tree"
  },
  {
   "property": "C56",
   "status": "proved",
   "theorems": [
    "C56_contains_inclusive"
   ],
   "note": "exact arithmetic"
  },
  {
   "property": "C57",
   "status": "proved",
   "theorems": [
    "C57_contains_exclusive_sound"
   ],
   "note": "exact arithmetic"
  },
  {
   "property": "C58",
   "status": "partial",
   "theorems": [
    "C58_contains_exclusive_complete_refuted",
    "C58_contains_exclusive_partial"
   ],
   "note": "REFUTED as stated (strictly inside points can be missed); proved exactly which points are found: strictly inside and on no line from the pivot vertex to another vertex; so always correct for triangles"
  },
  {
   "property": "C59",
   "status": "partial",
   "theorems": [
    "C59_degenerate_refuted",
    "C59_degenerate_partial"
   ],
   "note": "REFUTED for two-point hulls; proved for the other degenerate hulls"
  },
  {
   "property": "C60",
   "status": "proved",
   "theorems": [
    "C60_hull_in_hull"
   ],
   "note": "exact arithmetic"
  },
  {
   "property": "C61",
   "status": "proved",
   "theorems": [
    "C61_orientation"
   ],
   "note": "exact arithmetic"
  },
  {
   "property": "C62",
   "status": "partial",
   "theorems": [
    "C62_scan_without_atan2_partial",
    "C62_comparator_inconsistent_refuted"
   ],
   "note": "the comparator is not a total order, so the sort may return any permutation or panic; proved when the points were sorted by angle"
  },
  {
   "property": "C78",
   "status": "proved",
   "theorems": [
    "C78_lowest_point",
    "C78_nan_rejected"
   ],
   "note": ""
  },
  {
   "property": "C82",
   "status": "proved",
   "theorems": [
    "C82_hull_depends_on_set"
   ],
   "note": "exact arithmetic"
  },
  {
   "property": "C83",
   "status": "proved",
   "theorems": [
    "C83_hull_contains_input"
   ],
   "note": "exact arithmetic"
  },
  {
   "property": "C84",
   "status": "proved",
   "theorems": [
    "C84_hull_is_smallest"
   ],
   "note": "exact arithmetic"
  },
  {
   "property": "C63",
   "status": "proved",
   "theorems": [
    "C63_reports_are_real"
   ],
   "note": "exact arithmetic; any iteration order, both options, any value for INFINITY"
  },
  {
   "property": "C64",
   "status": "proved",
   "theorems": [
    "C64_terminates",
    "C64_points_exist"
   ],
   "note": "exact arithmetic"
  },
  {
   "property": "C65",
   "status": "proved",
   "theorems": [
    "C65_output_order"
   ],
   "note": "exact arithmetic"
  },
  {
   "property": "C66",
   "status": "proved",
   "theorems": [
    "C66_shared_end_points"
   ],
   "note": "exact arithmetic"
  },
  {
   "property": "C69",
   "status": "proved",
   "theorems": [
    "C69_stop_at_first"
   ],
   "note": "exact arithmetic"
  },
  {
   "property": "C70",
   "status": "proved",
   "theorems": [
    "C70_non_finite_rejected"
   ],
   "note": "any scalar whose finite numbers are comparable (f32, f64, exact)"
  },
  {
   "property": "C71",
   "status": "proved",
   "theorems": [
    "C71_indexed_sweep",
    "C71_same_as_unindexed"
   ],
   "note": "exact arithmetic; the lock-step theorem over any scalar"
  },
  {
   "property": "C67",
   "status": "partial",
   "theorems": [
    "C67_general_position_partial",
    "C67_general_position_refuted"
   ],
   "note": "REFUTED as worded (a crossing is missed when an unrelated end point has the height of another crossing and lies to its right); proved when no two corners share a height"
  },
  {
   "property": "C68",
   "status": "partial",
   "theorems": [
    "C68_complete_partial",
    "C68_horizontal_refuted",
    "C68_overlap_refuted",
    "C68_start_inside_refuted",
    "C68_row_refuted"
   ],
   "note": "REFUTED; proved (exactly the meeting points, each with exactly its lines) for non-horizontal lines that meet at most once, none starting inside another, no corner at the height of and to the right of a point from which two lines go up; a counterexample for each condition"
  },
  {
   "property": "C85",
   "status": "partial",
   "theorems": [
    "C85_long_terminates",
    "C85_long_sound",
    "C85_long_exact_partial",
    "C85_long_refuted"
   ],
   "note": "termination and soundness of a positive answer hold always; exactness REFUTED (an end point inside an edge is missed), proved under the conditions of C68"
  },
  {
   "property": "C86",
   "status": "partial",
   "theorems": [
    "C86_indexed_complete_partial",
    "C86_indexed_refuted"
   ],
   "note": "REFUTED; proved under the conditions of C68"
  },
  {
   "property": "C87",
   "status": "partial",
   "theorems": [
    "C87_two_calls_refuted",
    "C87_options_partial"
   ],
   "note": "REFUTED: indices restart at 0 in each call; the order of options and lines does not matter"
  },
  {
   "property": "C88",
   "status": "partial",
   "theorems": [
    "C88_two_lines_refuted",
    "C88_two_lines_partial"
   ],
   "note": "REFUTED for a line that is a single point; proved without such lines, or when end points are ignored"
  },
  {
   "property": "C89",
   "status": "partial",
   "theorems": [
    "C89_append_refuted",
    "C89_append_partial"
   ],
   "note": "REFUTED when going from nine to ten points; proved for longer line strings in the conditions of C85"
  },
  {
   "property": "C90",
   "status": "partial",
   "theorems": [
    "C90_float_containment_refuted",
    "C90_containment_partial",
    "C90_empty_box"
   ],
   "note": "REFUTED in floats: the ulps comparison also accepts points slightly outside; exact in real arithmetic; the empty box for any scalar"
  },
  {
   "property": "C91",
   "status": "proved",
   "theorems": [
    "C91_box_accessors",
    "C91_empty_accessors"
   ],
   "note": "exact arithmetic; empty boxes for any scalar"
  },
  {
   "property": "C92",
   "status": "partial",
   "theorems": [
    "C92_apply_refuted",
    "C92_apply_partial"
   ],
   "note": "REFUTED (a mirrored box loses its points); proved for maps monotone in each coordinate, any ordered scalar"
  },
  {
   "property": "C93",
   "status": "partial",
   "theorems": [
    "C93_corners_refuted",
    "C93_corners_partial"
   ],
   "note": "REFUTED (corners are stored unsorted); proved when the first corner is nowhere greater"
  },
  {
   "property": "C94",
   "status": "partial",
   "theorems": [
    "C94_squared_tolerance_refuted",
    "C94_squared_tolerance_partial"
   ],
   "note": "REFUTED: the tolerance is a distance, not a squared distance; holds up to 1"
  },
  {
   "property": "C95",
   "status": "proved",
   "theorems": [
    "C95_iterator_states"
   ],
   "note": "any element type"
  },
  {
   "property": "C96",
   "status": "partial",
   "theorems": [
    "C96_apply",
    "C96_apply_closed",
    "C96_apply_closed_refuted",
    "C96_line_apply"
   ],
   "note": "REFUTED for closedness in floats (0 and -0 compare equal but may map to different values); everything else holds, closedness in exact arithmetic"
  },
  {
   "property": "C97",
   "status": "proved",
   "theorems": [
    "C97_closest",
    "C97_not_nearest_of_all"
   ],
   "note": "exact arithmetic; the second theorem records that closest is not the nearest of all common points"
  },
  {
   "property": "C98",
   "status": "partial",
   "theorems": [
    "C98_box_equality_refuted",
    "C98_box_equality_partial"
   ],
   "note": "REFUTED: not transitive in floats; reflexive, symmetric, and extensional in exact arithmetic"
  },
  {
   "property": "C99",
   "status": "partial",
   "theorems": [
    "C99_size_hint_refuted",
    "C99_size_hint_partial"
   ],
   "note": "REFUTED: (0, None); still a valid bound"
  },
  {
   "property": "C100",
   "status": "proved",
   "theorems": [
    "C100_larger_tolerance_keeps_fewer",
    "C100_exact",
    "C100_float"
   ],
   "note": "any scalar with transitive <="
  },
  {
   "property": "C101",
   "status": "proved",
   "theorems": [
    "C101_similar"
   ],
   "note": "exact arithmetic"
  },
  {
   "property": "C102",
   "status": "proved",
   "theorems": [
    "C102_more_deletions_keep_fewer"
   ],
   "note": "any scalar, any heap behaviour"
  },
  {
   "property": "C103",
   "status": "proved",
   "theorems": [
    "C103_affine"
   ],
   "note": "exact arithmetic"
  },
  {
   "property": "C104",
   "status": "proved",
   "theorems": [
    "C104_orientation_exact_f64",
    "C104_orientation_exact_f32"
   ],
   "note": ""
  },
  {
   "property": "C105",
   "status": "proved",
   "theorems": [
    "C105_gift_wrap_exact_f64",
    "C105_gift_wrap_exact_f32",
    "C105_indexed_gift_wrap_exact_f64",
    "C105_indexed_gift_wrap_exact_f32"
   ],
   "note": ""
  },
  {
   "property": "C106",
   "status": "proved",
   "theorems": [
    "C106_scan_exact_f64",
    "C106_scan_exact_f32"
   ],
   "note": ""
  },
  {
   "property": "C107",
   "status": "proved",
   "theorems": [
    "C107_graham_scan_exact_f64",
    "C107_graham_scan_exact_f32"
   ],
   "note": "the hypothesis on atan2 is part of the statement; C107_input meets it"
  },
  {
   "property": "C108",
   "status": "proved",
   "theorems": [
    "C108_containment_exact_f64",
    "C108_containment_exact_f32"
   ],
   "note": "completeness of the exclusive test fails already over the reals: C58"
  },
  {
   "property": "C109",
   "status": "proved",
   "theorems": [
    "C109_vw_exact_f64",
    "C109_vw_exact_f32",
    "C109_vw3_exact_f64",
    "C109_vw3_exact_f32"
   ],
   "note": "C109_limit: with coordinates near 2^27 two different areas are computed equal"
  },
  {
   "property": "C110",
   "status": "proved",
   "theorems": [
    "C110_rdp_tolerance_f64",
    "C110_rdp_tolerance_f32",
    "C110_rdp3_tolerance_f64",
    "C110_rdp3_tolerance_f32",
    "C110_factor_needed"
   ],
   "note": "epsilon is 2^-52 / 2^-23 in 2D, 2^-51 / 2^-22 in 3D; C110_factor_needed: without a factor the claim is false in 2D"
  },
  {
   "property": "C111",
   "status": "proved",
   "theorems": [
    "C111_hull_moves_along",
    "C111_gift_wrap_moves_along"
   ],
   "note": "exact arithmetic"
  },
  {
   "property": "C112",
   "status": "proved",
   "theorems": [
    "C112_inner_points_irrelevant"
   ],
   "note": "exact arithmetic"
  },
  {
   "property": "C113",
   "status": "partial",
   "theorems": [
    "C113_hull_of_hull_refuted",
    "C113_hull_of_hull_partial"
   ],
   "note": "REFUTED for hulls of one, two or three corners (exact results given); proved for four or more corners"
  },
  {
   "property": "C114",
   "status": "proved",
   "theorems": [
    "C114_hulls_are_nested"
   ],
   "note": "exact arithmetic"
  },
  {
   "property": "C115",
   "status": "proved",
   "theorems": [
    "C115_divide_depends_on_edge_set"
   ],
   "note": "any input"
  },
  {
   "property": "C116",
   "status": "proved",
   "theorems": [
    "C116_line_constructors"
   ],
   "note": "any scalar"
  },
  {
   "property": "C117",
   "status": "proved",
   "theorems": [
    "C117_intersection_f64",
    "C117_intersection_f32"
   ],
   "note": "segments with distinct ends; C117_limit shows the grid limit is needed (coordinates near 2^27)"
  },
  {
   "property": "C118",
   "status": "proved",
   "theorems": [
    "C118_point_found_f64",
    "C118_point_found_f32",
    "C118_point_close_f64",
    "C118_point_close_f32",
    "C118_point_exact_f64",
    "C118_point_exact_f32",
    "C118_one_point_segment_f64",
    "C118_point_refuted"
   ],
   "note": "C118_point_refuted: the point (20001,20000) is reported on the segment (0,0)-(40003,40001) although it is not on it"
  },
  {
   "property": "C119",
   "status": "proved",
   "theorems": [
    "C119_self_intersection_f64",
    "C119_self_intersection_f32",
    "C119_signed_zero_refuted"
   ],
   "note": "the dependence on the sign of zero is shown by C119_signed_zero_refuted"
  },
  {
   "property": "C120",
   "status": "partial",
   "theorems": [
    "C120_no_panic_f64_partial",
    "C120_no_panic_f32_partial",
    "C120_indexed_no_panic_f64_partial",
    "C120_indexed_no_panic_f32_partial",
    "C120_any_map_f64_partial",
    "C120_any_map_f32_partial",
    "C120_any_map_indexed_f64_partial",
    "C120_any_map_indexed_f32_partial",
    "C120_panic_refuted",
    "C120_integer_panic_refuted",
    "C120_finite_input_refuted"
   ],
   "note": "REFUTED without consistent keys (C120_panic_refuted, C120_integer_panic_refuted: std's map, finite coordinates, small integers); what remains true then is C120_any_map; C120_finite_input_refuted shows that finite input and consistent keys do not exclude InvalidData"
  },
  {
   "property": "C121",
   "status": "partial",
   "theorems": [
    "C121_succeeds_f64_partial",
    "C121_succeeds_f32_partial",
    "C121_indexed_succeeds_f64_partial",
    "C121_indexed_succeeds_f32_partial",
    "C121_self_intersection_answers_f64_partial",
    "C121_self_intersection_answers_f32_partial",
    "C121_panic_refuted",
    "C121_integer_error_refuted"
   ],
   "note": "REFUTED without consistent keys (C121_panic_refuted, C121_integer_error_refuted)"
  },
  {
   "property": "C122",
   "status": "partial",
   "theorems": [
    "C122_terminates_f64_partial",
    "C122_terminates_f32_partial",
    "C122_indexed_terminates_f64_partial",
    "C122_indexed_terminates_f32_partial"
   ],
   "note": "the bound exists but is not given explicitly; open without consistent keys (the first event may then stay in the map when another one is removed in its place)"
  },
  {
   "property": "C123",
   "status": "proved",
   "theorems": [
    "C123_reports_are_real_f64",
    "C123_reports_are_real_f32",
    "C123_indexed_reports_are_real_f64",
    "C123_indexed_reports_are_real_f32"
   ],
   "note": "the number of lines listed is C127"
  },
  {
   "property": "C124",
   "status": "proved",
   "theorems": [
    "C124_shared_end_points_f64",
    "C124_shared_end_points_f32",
    "C124_indexed_shared_end_points_f64",
    "C124_indexed_shared_end_points_f32",
    "C124_consistent_keys_f64",
    "C124_consistent_keys_f32"
   ],
   "note": ""
  },
  {
   "property": "C125",
   "status": "proved",
   "theorems": [
    "C125_apart_keys_f64",
    "C125_apart_keys_f32",
    "C125_apart_reports_nothing_f64",
    "C125_apart_reports_nothing_f32",
    "C125_ignore_ends_f64",
    "C125_ignore_ends_f32",
    "C125_long_self_intersection_f64",
    "C125_long_self_intersection_f32",
    "C125_long_simple_f64",
    "C125_long_simple_f32"
   ],
   "note": "the converse fails in exact arithmetic already (C85_long_refuted)"
  },
  {
   "property": "C126",
   "status": "proved",
   "theorems": [
    "C126_any_map",
    "C126_any_map_indexed",
    "C126_any_map_self",
    "C126_std_lawful",
    "C126_std_plain",
    "C126_std_indexed",
    "C126_std_self"
   ],
   "note": "BTree.v is written after std's source from memory, it is not code of /repo"
  },
  {
   "property": "C127",
   "status": "partial",
   "theorems": [
    "C127_some_or_none_f64",
    "C127_some_or_none_f32",
    "C127_indexed_some_or_none_f64",
    "C127_indexed_some_or_none_f32",
    "C127_two_lines_f64_partial",
    "C127_two_lines_f32_partial",
    "C127_indexed_two_lines_f64_partial",
    "C127_indexed_two_lines_f32_partial",
    "C127_no_line_refuted"
   ],
   "note": "REFUTED without consistent keys (C127_no_line_refuted)"
  },
  {
   "property": "C128",
   "status": "partial",
   "theorems": [
    "C128_no_repetition_f64_partial",
    "C128_no_repetition_f32_partial",
    "C128_indexed_no_repetition_f64_partial",
    "C128_indexed_no_repetition_f32_partial",
    "C128_repetition_refuted"
   ],
   "note": "REFUTED without consistent keys (C128_repetition_refuted; the plain sorted list of Sweep.v gives the same repetition)"
  },
  {
   "property": "C129",
   "status": "proved",
   "theorems": [
    "C129_three_points",
    "C129_three_indices",
    "C129_three_points_f64",
    "C129_three_indices_f64",
    "C129_three_points_f32",
    "C129_three_indices_f32",
    "C129_on_a_line"
   ],
   "note": ""
  },
  {
   "property": "C130",
   "status": "partial",
   "theorems": [
    "C130_box_f64_partial",
    "C130_box3_f64_partial",
    "C130_box_f32_partial",
    "C130_box3_f32_partial",
    "C130_centre_refuted"
   ],
   "note": "REFUTED for coordinates near the largest float (C130_centre_refuted); proved below 2^1022 / 2^126"
  },
  {
   "property": "C131",
   "status": "proved",
   "theorems": [
    "C131_line_string_exact",
    "C131_line_string_f64",
    "C131_line_string_f32"
   ],
   "note": ""
  },
  {
   "property": "C132",
   "status": "proved",
   "theorems": [
    "C132_transform_f64",
    "C132_transform_f32",
    "C132_fit_f64",
    "C132_fit_f32"
   ],
   "note": ""
  },
  {
   "property": "C133",
   "status": "partial",
   "theorems": [
    "C133_discretize_f64_partial",
    "C133_discretize_f32_partial",
    "C133_discretize3_f64_partial",
    "C133_discretize3_f32_partial",
    "C133_infinite_step_refuted",
    "C133_finite_step_refuted"
   ],
   "note": "Refuted for all positive steps: with an infinite step (or 2^1000 and an edge of length 2^-100) the computed number of steps is 0 and the corner is dropped. Proved for steps and coordinates in the stated ranges: corners exact, points within 12 u M of the exact subdivision (u = 2^-53 or 2^-24), step at most (1 + 32 u) d + 72 u M, number of steps least for a length known up to 16 u."
  },
  {
   "property": "C134",
   "status": "partial",
   "theorems": [
    "C134_indexed_graham_exact_f64",
    "C134_indexed_graham_exact_f32",
    "C134_parallel_hull_exact_f64_partial",
    "C134_parallel_hull_exact_f32_partial"
   ],
   "note": "The parallel hull is restricted as in C54 (one chunk per task, no chunk of three collinear points); without the restriction it is refuted by C54."
  },
  {
   "property": "C135",
   "status": "partial",
   "theorems": [
    "C135_graham_scan_f64",
    "C135_graham_scan_f32",
    "C135_indexed_graham_f64",
    "C135_indexed_graham_f32",
    "C135_parallel_hull_f64_partial",
    "C135_parallel_hull_f32_partial",
    "C135_rounded_atan2",
    "C135_equal_angles_refuted"
   ],
   "note": "Parallel hull restricted as in C54 (one chunk per task). An accurate atan2 that differs on equal angles is REFUTED (C135_equal_angles_refuted)."
  },
  {
   "property": "C136",
   "status": "proved",
   "theorems": [
    "C136_order_of_lines",
    "C136_scaled_lines",
    "C136_stretched_lines",
    "C136_indexed"
   ],
   "note": "stretched: the number standing for infinity exceeds every slope, as f64::INFINITY does. In floats scaling is not exact: C137, C138."
  },
  {
   "property": "C137",
   "status": "partial",
   "theorems": [
    "C137_deterministic_partial",
    "C137_deterministic_refuted",
    "C137_apart_f64_partial"
   ],
   "note": "REFUTED in f64: three upright lines 4 ulps apart and a slanted one are reported as two points or as one, depending on the hash order. Proved in exact arithmetic for every input; in f64 for grid lines that meet at end points only, end points ignored."
  },
  {
   "property": "C138",
   "status": "partial",
   "theorems": [
    "C138_general_position_partial",
    "C138_mirrored_refuted",
    "C138_turned_refuted",
    "C138_sheared_refuted",
    "C138_reversed_edge_refuted"
   ],
   "note": "REFUTED: two lines lose their intersection when mirrored or turned by a quarter, three when sheared; with indexed edges, when the ends of one edge are exchanged. Proved when both sets of lines meet the conditions of C68."
  },
  {
   "property": "C139",
   "status": "partial",
   "theorems": [
    "C139_long_partial",
    "C139_short_partial",
    "C139_moved_refuted",
    "C139_reversed_refuted"
   ],
   "note": "REFUTED for fewer than ten points: [(0,0),(1,1),(2,2)] is self-intersecting, shifted by (2,0) it is not; [(0,0),(1,0),(0,1)] is not, reversed it is. Proved in exact arithmetic for ten and more points, and for fewer points when x and y are shifted alike."
  },
  {
   "property": "C140",
   "status": "proved",
   "theorems": [
    "C140_ray_edge_f64",
    "C140_closest_ray_f64",
    "C140_closest_ray_f32"
   ],
   "note": "f64 and f32; C140_limit shows a missed hit beyond the grid"
  },
  {
   "property": "C141",
   "status": "partial",
   "theorems": [
    "C141_determined_by_common_points",
    "C141_order_and_direction",
    "C141_moves_along",
    "C141_f64_refuted"
   ],
   "note": "exact arithmetic; refuted for f64 rounding"
  },
  {
   "property": "C142",
   "status": "proved",
   "theorems": [
    "C142_direction",
    "C142_moves_along"
   ],
   "note": "exact arithmetic"
  },
  {
   "property": "C143",
   "status": "proved",
   "theorems": [
    "C143_ray_moves_along",
    "C143_ray_representation"
   ],
   "note": "exact arithmetic"
  },
  {
   "property": "C144",
   "status": "partial",
   "theorems": [
    "C144_simplified_backwards_refuted",
    "C144_simplified_backwards_partial"
   ],
   "note": "refuted for ties; proved without ties in exact arithmetic"
  },
  {
   "property": "C145",
   "status": "partial",
   "theorems": [
    "C145_vw_backwards_refuted",
    "C145_any_heap_partial",
    "C145_vw_backwards_partial"
   ],
   "note": "refuted for ties and 3D; proved without ties"
  },
  {
   "property": "C146",
   "status": "proved",
   "theorems": [
    "C146_discretize_2d",
    "C146_discretize_3d",
    "C146_planar"
   ],
   "note": "exact arithmetic; f64 runs show the same as examples"
  },
  {
   "property": "C147",
   "status": "proved",
   "theorems": [
    "C147_hull_affine",
    "C147_gift_wrap_affine"
   ],
   "note": "extends C111 (upward shears), where the list itself is mapped, to all invertible maps, where the start corner may change"
  },
  {
   "property": "C148",
   "status": "proved",
   "theorems": [
    "C148_contains_affine",
    "C148_hull_contains_affine",
    "C148_any_start"
   ],
   "note": "the exclusive answer does depend on the start corner, see C58"
  },
  {
   "property": "C149",
   "status": "proved",
   "theorems": [
    "C149_only_the_line",
    "C149_backwards",
    "C149_similar"
   ],
   "note": "exact arithmetic"
  },
  {
   "property": "C150",
   "status": "proved",
   "theorems": [
    "C150_segment_distance",
    "C150_line_distance_3d",
    "C150_planar"
   ],
   "note": "exact arithmetic"
  },
  {
   "property": "C151",
   "status": "partial",
   "theorems": [
    "C151_parabola_f64_refuted",
    "C151_parabola_f32_refuted",
    "C151_parabola_termination_partial"
   ],
   "note": "refuted as stated; exact termination and monotonicity in the tolerance proved"
  },
  {
   "property": "C152",
   "status": "proved",
   "theorems": [
    "C152_larger_tolerance_any_scalar",
    "C152_larger_tolerance",
    "C152_larger_tolerance_float"
   ],
   "note": ""
  },
  {
   "property": "C153",
   "status": "proved",
   "theorems": [
    "C153_simplified_with_more_points",
    "C153_discretize_adds_points",
    "C153_simplify_discretized"
   ],
   "note": "exact arithmetic"
  },
  {
   "property": "C154",
   "status": "proved",
   "theorems": [
    "C154_vw_2d",
    "C154_vw_3d",
    "C154_undo_discretize"
   ],
   "note": "exact arithmetic"
  },
  {
   "property": "C155",
   "status": "proved",
   "theorems": [
    "C155_box_of_denser_line",
    "C155_box_of_discretized_line",
    "C155_box_of_hull",
    "C155_box_of_simplified"
   ],
   "note": "exact arithmetic"
  },
  {
   "property": "C156",
   "status": "partial",
   "theorems": [
    "C156_discretized_refuted",
    "C156_same_points_partial",
    "C156_meeting_in_points_partial",
    "C156_ray_partial",
    "C156_discretized_partial"
   ],
   "note": "false in the three stated cases; proved otherwise, in exact arithmetic"
  },
  {
   "property": "C157",
   "status": "proved",
   "theorems": [
    "C157_hull_of_denser_line",
    "C157_hull_of_discretized_line",
    "C157_hull_of_simplified_line",
    "C157_hull_of_box_outline"
   ],
   "note": "exact arithmetic"
  },
  {
   "property": "C158",
   "status": "partial",
   "theorems": [
    "C158_distance_2d_f64",
    "C158_distance_2d_f32",
    "C158_distance_3d_f64",
    "C158_distance_3d_f32",
    "C158_close_ends_refuted"
   ],
   "note": "general floats refuted by C158_close_ends_refuted; the theorems hold on the stated grids"
  },
  {
   "property": "C159",
   "status": "proved",
   "theorems": [
    "C159_ends_kept_f64",
    "C159_ends_kept_f32",
    "C159_ends_kept_3d_f64",
    "C159_ends_kept_3d_f32"
   ],
   "note": "epsilon = 2^-52, 2^-23 (2D), 2^-51, 2^-22 (3D)"
  },
  {
   "property": "C160",
   "status": "proved",
   "theorems": [
    "C160_backwards_f64",
    "C160_backwards_f32",
    "C160_backwards_3d_f64",
    "C160_backwards_3d_f32"
   ],
   "note": "with ties the first of the farthest points is kept, so the reversed line may keep another (C-properties on exact arithmetic)"
  },
  {
   "property": "C161",
   "status": "proved",
   "theorems": [
    "C161_scaled_f64",
    "C161_scaled_f32",
    "C161_scaled_3d_f64",
    "C161_scaled_3d_f32"
   ],
   "note": "general factors are not covered: rounding differs"
  },
  {
   "property": "C162",
   "status": "proved",
   "theorems": [
    "C162_moved_f64",
    "C162_moved_f32",
    "C162_moved_3d_f64",
    "C162_moved_3d_f32"
   ],
   "note": "turns in 3D are not covered: the three squares are added in a fixed order"
  },
  {
   "property": "C163",
   "status": "proved",
   "theorems": [
    "C163_affine_f64",
    "C163_affine_f32",
    "C163_backwards_f64",
    "C163_backwards_f32"
   ],
   "note": "with ties the result depends on the heap and the direction (C145)"
  }
 ]
}