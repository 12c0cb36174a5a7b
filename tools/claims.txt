C01 | proved | C01_divide_total | unconditional: every list of naturals
C02 | proved | C02_divide_edges_sound |
C03 | proved | C03_divide_edges_once |
C04 | proved | C04_divide_maximal |
C05 | proved | C05_divide_bits |
C06 | partial | C06_divide_selfloop_refuted, C06_divide_selfloop_partial | REFUTED in general (witnesses in the theorem): a self-looped vertex with one other neighbour makes the code walk a non-edge or lose an edge. Proved when no self-looped vertex has exactly two neighbours counting itself.
C07 | proved | C07_rdp_subsequence | every scalar type satisfying the stated order law (exact reals and NaN-free floats)
C08 | proved | C08_rdp_tolerance | exact arithmetic
C09 | proved | C09_rdp_idempotent, C09_rdp_idempotent_exact, C09_rdp_idempotent_float |
C10 | proved | C10_rdp_needed_points_kept, C10_rdp_zero_tolerance |
C11 | proved | C11_indexed_rdp_agrees |
C12 | partial | C12_indexed_rdp_degenerate_refuted, C12_indexed_rdp_subsequence_partial | REFUTED in general (witness in the theorem); proved for the remaining inputs
C13 | partial | C13_rdp3_tolerance_refuted, C13_rdp3_line_tolerance_partial | REFUTED for segments: the 3D distance is to the infinite line; the line-distance tolerance is proved
C32 | proved | C32_distance_to_segment |
C33 | proved | C33_distance_to_line_3d |
C14 | proved | C14_vw_count | any scalar type whose areas are ordered (reals; NaN-free floats), any heap tie-breaking
C15 | proved | C15_vw_subsequence | any scalar, any heap behaviour
C16 | proved | C16_vw_greedy, C16_vw_area |
C17 | partial | C17_vw_closed_refuted, C17_vw_closed_partial | REFUTED (witness, for every heap order); proved when nothing is deleted; C16 gives the ring reading
C18 | proved | C18_vw_total, C18_vw_total_float, C18_vw_nan_panics |
C19 | partial | C19_vw3_last_point_refuted, C19_vw3_greedy_partial, C19_vw3_area | REFUTED for the last point (always dropped); everything else proved
C20 | proved | C20_aabb_contains, C20_aabb_contains_exact | any comparable scalars (reals, NaN-free f64/f32)
C21 | proved | C21_aabb_smallest |
C22 | proved | C22_aabb_order |
C25 | proved | C25_affine_inverse, C25_affine_array_variants | exact arithmetic; the array variants for any scalar
C26 | proved | C26_affine_fit | exact arithmetic
C27 | proved | C27_affine_finite | any scalar, NaN and infinities included
C28 | partial | C28_affine_tiny_refuted, C28_affine_fit_partial | REFUTED for destinations narrower than one unit; what does hold is proved
C41 | proved | C41_iterators, C41_iterators_3d |
C42 | proved | C42_connected, C42_connected_exact |
C43 | proved | C43_copies_reversible |
C44 | partial | C44_line_vs_linestring_refuted, C44_line_vs_linestring_partial | REFUTED for the YZ plane; proved for the other two
C45 | proved | C45_plane_detection, C45_plane_projection |
C79 | partial | C79_approx_lines_refl_sym, C79_approx_direction_refuted, C79_approx_direction_partial | direction-blindness REFUTED under a tolerance; proved for exact comparison and for lines longer than twice the tolerance
C29 | proved | C29_segment_intersection | exact arithmetic
C30 | proved | C30_intersection_symmetric | exact arithmetic
C31 | proved | C31_point_on_segment | exact arithmetic
C34 | proved | C34_ray_edge | exact arithmetic
C35 | proved | C35_closest_ray | exact arithmetic; also says which parallel edges can be passed over
C36 | proved | C36_linestring_intersections | any scalar
C37 | partial | C37_straight_refuted, C37_straight_partial, C37_straight_long | REFUTED on the diagonal for fewer than ten points; proved for non-vertical straight line strings with no point on x = y (fewer than ten points) and for all straight line strings of ten or more points
C38 | partial | C38_self_intersection_refuted, C38_self_intersection_partial | REFUTED both ways because of the test on consecutive edges; proved for non-consecutive edges that do not overlap
C80 | partial | C80_scaling_refuted, C80_scaling_partial | REFUTED in f64; proved in exact arithmetic
C39 | proved | C39_discretize, C39_discretize_3d, C39_discretize_terminates | exact arithmetic; termination for every scalar and step
C40 | partial | C40_discretize_step_refuted, C40_discretize_step_partial | REFUTED for negative steps (f64 witness); what a negative step yields is characterised
C72 | proved | C72_parabola_ends | any scalar
C73 | proved | C73_parabola_on_curve, C73_parabola_3d | exact arithmetic, proper arcs; also monotone along the segment; 3D variant is the 2D one plus z
C74 | partial | C74_parabola_error_refuted, C74_parabola_error_partial | REFUTED for the chord as a segment; proved for its line, and for the segment when the focus does not project strictly between the samples
C75 | proved | C75_parabola_terminates | exact arithmetic, proper arcs, non-zero tolerance; unbounded
C76 | partial | C76_parabola_point_refuted, C76_parabola_point_partial | REFUTED in f64 for arcs whose ends coincide (loops forever); proved for proper arcs in exact arithmetic
C81 | proved | C81_parabola_straight | exact arithmetic
C77 | proved | C77_obj_export | every formatting function, every hash iteration order; I/O errors not modelled
C23 | proved | C23_aabb_outline |
C24 | partial | C24_degenerate_outline_refuted, C24_degenerate_outline_partial | REFUTED for degenerate boxes; exact characterisation of what the outline contains, and every point of the box is contained
C46 | proved | C46_graham_scan_is_hull, C46_some_result | exact arithmetic; every order the unstable sort may return
C47 | proved | C47_hull_of_input_points, C47_wo_atan2_can_panic | any scalar
C48 | partial | C48_hull_closed_refuted, C48_hull_closed_partial | REFUTED (the hulls come back open for small inputs); proved for what does hold
C49 | proved | C49_indexed_graham_is_hull | exact arithmetic
C50 | partial | C50_duplicates_refuted, C50_duplicates_partial | REFUTED when the lowest point is selected by two different indices; proved with any repetitions otherwise
C51 | proved | C51_gift_wrap_is_hull, C51_indexed_gift_wrap_is_hull | exact arithmetic
C52 | partial | C52_duplicates_refuted, C52_corner_lost_refuted, C52_duplicates_partial, C52_indexed_duplicates_partial | REFUTED when a corner of the hull is repeated, start point or not (f64 witnesses); proved when only points that are not corners are repeated
C53 | proved | C53_hulls_agree, C53_indexed_hulls_agree | exact arithmetic
C54 | partial | C54_parallel_hull_refuted, C54_parallel_hull_loops_refuted, C54_one_chunk_partial, C54_one_chunk_per_task_partial, C54_every_run_is_a_tree | REFUTED: folding several chunks in one task can lose points or loop; proved exact (distinct points) when all points are in one chunk, and for every reduction tree whose tasks each get at most one chunk, provided no chunk is just three collinear points
C55 | proved | C55_parallel_hull_indices | every chunking and every reduction tree
C56 | proved | C56_contains_inclusive | exact arithmetic
C57 | proved | C57_contains_exclusive_sound | exact arithmetic
C58 | partial | C58_contains_exclusive_complete_refuted, C58_contains_exclusive_partial | REFUTED as stated (strictly inside points can be missed); proved exactly which points are found: strictly inside and on no line from the pivot vertex to another vertex; so always correct for triangles
C59 | partial | C59_degenerate_refuted, C59_degenerate_partial | REFUTED for two-point hulls; proved for the other degenerate hulls
C60 | proved | C60_hull_in_hull | exact arithmetic
C61 | proved | C61_orientation | exact arithmetic
C62 | partial | C62_scan_without_atan2_partial, C62_comparator_inconsistent_refuted | the comparator is not a total order, so the sort may return any permutation or panic; proved when the points were sorted by angle
C78 | proved | C78_lowest_point, C78_nan_rejected |
C82 | proved | C82_hull_depends_on_set | exact arithmetic
C83 | proved | C83_hull_contains_input | exact arithmetic
C84 | proved | C84_hull_is_smallest | exact arithmetic
C63 | proved | C63_reports_are_real | exact arithmetic; any iteration order, both options, any value for INFINITY
C64 | proved | C64_terminates, C64_points_exist | exact arithmetic
C65 | proved | C65_output_order | exact arithmetic
C66 | proved | C66_shared_end_points | exact arithmetic
C69 | proved | C69_stop_at_first | exact arithmetic
C70 | proved | C70_non_finite_rejected | any scalar whose finite numbers are comparable (f32, f64, exact)
C71 | proved | C71_indexed_sweep, C71_same_as_unindexed | exact arithmetic; the lock-step theorem over any scalar
C67 | partial | C67_general_position_partial, C67_general_position_refuted | REFUTED as worded (a crossing is missed when an unrelated end point has the height of another crossing and lies to its right); proved when no two corners share a height
C68 | partial | C68_complete_partial, C68_horizontal_refuted, C68_overlap_refuted, C68_start_inside_refuted, C68_row_refuted | REFUTED; proved (exactly the meeting points, each with exactly its lines) for non-horizontal lines that meet at most once, none starting inside another, no corner at the height of and to the right of a point from which two lines go up; a counterexample for each condition
C85 | partial | C85_long_terminates, C85_long_sound, C85_long_exact_partial, C85_long_refuted | termination and soundness of a positive answer hold always; exactness REFUTED (an end point inside an edge is missed), proved under the conditions of C68
C86 | partial | C86_indexed_complete_partial, C86_indexed_refuted | REFUTED; proved under the conditions of C68
C87 | partial | C87_two_calls_refuted, C87_options_partial | REFUTED: indices restart at 0 in each call; the order of options and lines does not matter
C88 | partial | C88_two_lines_refuted, C88_two_lines_partial | REFUTED for a line that is a single point; proved without such lines, or when end points are ignored
C89 | partial | C89_append_refuted, C89_append_partial | REFUTED when going from nine to ten points; proved for longer line strings in the conditions of C85
C90 | partial | C90_float_containment_refuted, C90_containment_partial, C90_empty_box | REFUTED in floats: the ulps comparison also accepts points slightly outside; exact in real arithmetic; the empty box for any scalar
C91 | proved | C91_box_accessors, C91_empty_accessors | exact arithmetic; empty boxes for any scalar
C92 | partial | C92_apply_refuted, C92_apply_partial | REFUTED (a mirrored box loses its points); proved for maps monotone in each coordinate, any ordered scalar
C93 | partial | C93_corners_refuted, C93_corners_partial | REFUTED (corners are stored unsorted); proved when the first corner is nowhere greater
C94 | partial | C94_squared_tolerance_refuted, C94_squared_tolerance_partial | REFUTED: the tolerance is a distance, not a squared distance; holds up to 1
C95 | proved | C95_iterator_states | any element type
C96 | partial | C96_apply, C96_apply_closed, C96_apply_closed_refuted, C96_line_apply | REFUTED for closedness in floats (0 and -0 compare equal but may map to different values); everything else holds, closedness in exact arithmetic
C97 | proved | C97_closest, C97_not_nearest_of_all | exact arithmetic; the second theorem records that closest is not the nearest of all common points
C98 | partial | C98_box_equality_refuted, C98_box_equality_partial | REFUTED: not transitive in floats; reflexive, symmetric, and extensional in exact arithmetic
C99 | partial | C99_size_hint_refuted, C99_size_hint_partial | REFUTED: (0, None); still a valid bound
C100 | proved | C100_larger_tolerance_keeps_fewer, C100_exact, C100_float | any scalar with transitive <=
C101 | proved | C101_similar | exact arithmetic
C102 | proved | C102_more_deletions_keep_fewer | any scalar, any heap behaviour
C103 | proved | C103_affine | exact arithmetic
C104 | proved | C104_orientation_exact_f64, C104_orientation_exact_f32 | 
C105 | proved | C105_gift_wrap_exact_f64, C105_gift_wrap_exact_f32, C105_indexed_gift_wrap_exact_f64, C105_indexed_gift_wrap_exact_f32 | 
C106 | proved | C106_scan_exact_f64, C106_scan_exact_f32 | 
C107 | proved | C107_graham_scan_exact_f64, C107_graham_scan_exact_f32 | the hypothesis on atan2 is part of the statement; C107_input meets it
C108 | proved | C108_containment_exact_f64, C108_containment_exact_f32 | completeness of the exclusive test fails already over the reals: C58
C109 | proved | C109_vw_exact_f64, C109_vw_exact_f32, C109_vw3_exact_f64, C109_vw3_exact_f32 | C109_limit: with coordinates near 2^27 two different areas are computed equal
C110 | proved | C110_rdp_tolerance_f64, C110_rdp_tolerance_f32, C110_rdp3_tolerance_f64, C110_rdp3_tolerance_f32, C110_factor_needed | epsilon is 2^-52 / 2^-23 in 2D, 2^-51 / 2^-22 in 3D; C110_factor_needed: without a factor the claim is false in 2D
C111 | proved | C111_hull_moves_along, C111_gift_wrap_moves_along | exact arithmetic
C112 | proved | C112_inner_points_irrelevant | exact arithmetic
C113 | partial | C113_hull_of_hull_refuted, C113_hull_of_hull_partial | REFUTED for hulls of one, two or three corners (exact results given); proved for four or more corners
C114 | proved | C114_hulls_are_nested | exact arithmetic
C115 | proved | C115_divide_depends_on_edge_set | any input
C116 | proved | C116_line_constructors | any scalar
C117 | proved | C117_intersection_f64, C117_intersection_f32 | segments with distinct ends; C117_limit shows the grid limit is needed (coordinates near 2^27)
C118 | proved | C118_point_found_f64, C118_point_found_f32, C118_point_close_f64, C118_point_close_f32, C118_point_exact_f64, C118_point_exact_f32, C118_one_point_segment_f64, C118_point_refuted | C118_point_refuted: the point (20001,20000) is reported on the segment (0,0)-(40003,40001) although it is not on it
C119 | proved | C119_self_intersection_f64, C119_self_intersection_f32, C119_signed_zero_refuted | the dependence on the sign of zero is shown by C119_signed_zero_refuted
C120 | partial | C120_no_panic_f64_partial, C120_no_panic_f32_partial, C120_indexed_no_panic_f64_partial, C120_indexed_no_panic_f32_partial, C120_any_map_f64_partial, C120_any_map_f32_partial, C120_any_map_indexed_f64_partial, C120_any_map_indexed_f32_partial, C120_panic_refuted, C120_integer_panic_refuted, C120_finite_input_refuted | REFUTED without consistent keys (C120_panic_refuted, C120_integer_panic_refuted: std's map, finite coordinates, small integers); what remains true then is C120_any_map; C120_finite_input_refuted shows that finite input and consistent keys do not exclude InvalidData
C121 | partial | C121_succeeds_f64_partial, C121_succeeds_f32_partial, C121_indexed_succeeds_f64_partial, C121_indexed_succeeds_f32_partial, C121_self_intersection_answers_f64_partial, C121_self_intersection_answers_f32_partial, C121_panic_refuted, C121_integer_error_refuted | REFUTED without consistent keys (C121_panic_refuted, C121_integer_error_refuted)
C122 | partial | C122_terminates_f64_partial, C122_terminates_f32_partial, C122_indexed_terminates_f64_partial, C122_indexed_terminates_f32_partial | the bound exists but is not given explicitly; open without consistent keys (the first event may then stay in the map when another one is removed in its place)
C123 | proved | C123_reports_are_real_f64, C123_reports_are_real_f32, C123_indexed_reports_are_real_f64, C123_indexed_reports_are_real_f32 | the number of lines listed is C127
C124 | proved | C124_shared_end_points_f64, C124_shared_end_points_f32, C124_indexed_shared_end_points_f64, C124_indexed_shared_end_points_f32, C124_consistent_keys_f64, C124_consistent_keys_f32 | 
C125 | proved | C125_apart_keys_f64, C125_apart_keys_f32, C125_apart_reports_nothing_f64, C125_apart_reports_nothing_f32, C125_ignore_ends_f64, C125_ignore_ends_f32, C125_long_self_intersection_f64, C125_long_self_intersection_f32, C125_long_simple_f64, C125_long_simple_f32 | the converse fails in exact arithmetic already (C85_long_refuted)
C126 | proved | C126_any_map, C126_any_map_indexed, C126_any_map_self, C126_std_lawful, C126_std_plain, C126_std_indexed, C126_std_self | BTree.v is written after std's source from memory, it is not code of /repo
C127 | partial | C127_some_or_none_f64, C127_some_or_none_f32, C127_indexed_some_or_none_f64, C127_indexed_some_or_none_f32, C127_two_lines_f64_partial, C127_two_lines_f32_partial, C127_indexed_two_lines_f64_partial, C127_indexed_two_lines_f32_partial, C127_no_line_refuted | REFUTED without consistent keys (C127_no_line_refuted)
C128 | partial | C128_no_repetition_f64_partial, C128_no_repetition_f32_partial, C128_indexed_no_repetition_f64_partial, C128_indexed_no_repetition_f32_partial, C128_repetition_refuted | REFUTED without consistent keys (C128_repetition_refuted; the plain sorted list of Sweep.v gives the same repetition)
C129 | proved | C129_three_points, C129_three_indices, C129_three_points_f64, C129_three_indices_f64, C129_three_points_f32, C129_three_indices_f32, C129_on_a_line | 
C130 | partial | C130_box_f64_partial, C130_box3_f64_partial, C130_box_f32_partial, C130_box3_f32_partial, C130_centre_refuted | REFUTED for coordinates near the largest float (C130_centre_refuted); proved below 2^1022 / 2^126
C131 | proved | C131_line_string_exact, C131_line_string_f64, C131_line_string_f32 | 
C132 | proved | C132_transform_f64, C132_transform_f32, C132_fit_f64, C132_fit_f32 | 
C133 | partial | C133_discretize_f64_partial, C133_discretize_f32_partial, C133_discretize3_f64_partial, C133_discretize3_f32_partial, C133_infinite_step_refuted, C133_finite_step_refuted | Refuted for all positive steps: with an infinite step (or 2^1000 and an edge of length 2^-100) the computed number of steps is 0 and the corner is dropped. Proved for steps and coordinates in the stated ranges: corners exact, points within 12 u M of the exact subdivision (u = 2^-53 or 2^-24), step at most (1 + 32 u) d + 72 u M, number of steps least for a length known up to 16 u.
C134 | partial | C134_indexed_graham_exact_f64, C134_indexed_graham_exact_f32, C134_parallel_hull_exact_f64_partial, C134_parallel_hull_exact_f32_partial | The parallel hull is restricted as in C54 (one chunk per task, no chunk of three collinear points); without the restriction it is refuted by C54.
C135 | partial | C135_graham_scan_f64, C135_graham_scan_f32, C135_indexed_graham_f64, C135_indexed_graham_f32, C135_parallel_hull_f64_partial, C135_parallel_hull_f32_partial, C135_rounded_atan2, C135_equal_angles_refuted | Parallel hull restricted as in C54 (one chunk per task). An accurate atan2 that differs on equal angles is REFUTED (C135_equal_angles_refuted).
C136 | proved | C136_order_of_lines, C136_scaled_lines, C136_stretched_lines, C136_indexed | stretched: the number standing for infinity exceeds every slope, as f64::INFINITY does. In floats scaling is not exact: C137, C138.
C137 | partial | C137_deterministic_partial, C137_deterministic_refuted, C137_apart_f64_partial | REFUTED in f64: three upright lines 4 ulps apart and a slanted one are reported as two points or as one, depending on the hash order. Proved in exact arithmetic for every input; in f64 for grid lines that meet at end points only, end points ignored.
C138 | partial | C138_general_position_partial, C138_mirrored_refuted, C138_turned_refuted, C138_sheared_refuted, C138_reversed_edge_refuted | REFUTED: two lines lose their intersection when mirrored or turned by a quarter, three when sheared; with indexed edges, when the ends of one edge are exchanged. Proved when both sets of lines meet the conditions of C68.
C139 | partial | C139_long_partial, C139_short_partial, C139_moved_refuted, C139_reversed_refuted | REFUTED for fewer than ten points: [(0,0),(1,1),(2,2)] is self-intersecting, shifted by (2,0) it is not; [(0,0),(1,0),(0,1)] is not, reversed it is. Proved in exact arithmetic for ten and more points, and for fewer points when x and y are shifted alike.
C140 | proved | C140_ray_edge_f64, C140_closest_ray_f64, C140_closest_ray_f32 | f64 and f32; C140_limit shows a missed hit beyond the grid
C141 | partial | C141_determined_by_common_points, C141_order_and_direction, C141_moves_along, C141_f64_refuted | exact arithmetic; refuted for f64 rounding
C142 | proved | C142_direction, C142_moves_along | exact arithmetic
C143 | proved | C143_ray_moves_along, C143_ray_representation | exact arithmetic
C144 | partial | C144_simplified_backwards_refuted, C144_simplified_backwards_partial | refuted for ties; proved without ties in exact arithmetic
C145 | partial | C145_vw_backwards_refuted, C145_any_heap_partial, C145_vw_backwards_partial | refuted for ties and 3D; proved without ties
C146 | proved | C146_discretize_2d, C146_discretize_3d, C146_planar | exact arithmetic; f64 runs show the same as examples
C147 | proved | C147_hull_affine, C147_gift_wrap_affine | extends C111 (upward shears), where the list itself is mapped, to all invertible maps, where the start corner may change
C148 | proved | C148_contains_affine, C148_hull_contains_affine, C148_any_start | the exclusive answer does depend on the start corner, see C58
C149 | proved | C149_only_the_line, C149_backwards, C149_similar | exact arithmetic
C150 | proved | C150_segment_distance, C150_line_distance_3d, C150_planar | exact arithmetic
C151 | partial | C151_parabola_f64_refuted, C151_parabola_f32_refuted, C151_parabola_termination_partial | refuted as stated; exact termination and monotonicity in the tolerance proved
C152 | proved | C152_larger_tolerance_any_scalar, C152_larger_tolerance, C152_larger_tolerance_float | 
C153 | proved | C153_simplified_with_more_points, C153_discretize_adds_points, C153_simplify_discretized | exact arithmetic
C154 | proved | C154_vw_2d, C154_vw_3d, C154_undo_discretize | exact arithmetic
C155 | proved | C155_box_of_denser_line, C155_box_of_discretized_line, C155_box_of_hull, C155_box_of_simplified | exact arithmetic
C156 | partial | C156_discretized_refuted, C156_same_points_partial, C156_meeting_in_points_partial, C156_ray_partial, C156_discretized_partial | false in the three stated cases; proved otherwise, in exact arithmetic
C157 | proved | C157_hull_of_denser_line, C157_hull_of_discretized_line, C157_hull_of_simplified_line, C157_hull_of_box_outline | exact arithmetic
C158 | partial | C158_distance_2d_f64, C158_distance_2d_f32, C158_distance_3d_f64, C158_distance_3d_f32, C158_close_ends_refuted | general floats refuted by C158_close_ends_refuted; the theorems hold on the stated grids
C159 | proved | C159_ends_kept_f64, C159_ends_kept_f32, C159_ends_kept_3d_f64, C159_ends_kept_3d_f32 | epsilon = 2^-52, 2^-23 (2D), 2^-51, 2^-22 (3D)
C160 | proved | C160_backwards_f64, C160_backwards_f32, C160_backwards_3d_f64, C160_backwards_3d_f32 | with ties the first of the farthest points is kept, so the reversed line may keep another (C-properties on exact arithmetic)
C161 | proved | C161_scaled_f64, C161_scaled_f32, C161_scaled_3d_f64, C161_scaled_3d_f32 | general factors are not covered: rounding differs
C162 | proved | C162_moved_f64, C162_moved_f32, C162_moved_3d_f64, C162_moved_3d_f32 | turns in 3D are not covered: the three squares are added in a fixed order
C163 | proved | C163_affine_f64, C163_affine_f32, C163_backwards_f64, C163_backwards_f32 | with ties the result depends on the heap and the direction (C145)
