{
 "claims": [
  {
   "property": "C01",
   "status": "proved",
   "theorems": [
    "C01_splay_tree_is_a_sorted_map"
   ],
   "note": ""
  },
  {
   "property": "C02",
   "status": "proved",
   "theorems": [
    "C02_lookups_are_pure"
   ],
   "note": ""
  },
  {
   "property": "C03",
   "status": "proved",
   "theorems": [
    "C03_next_is_strict_successor",
    "C03_prev_is_strict_predecessor"
   ],
   "note": ""
  },
  {
   "property": "C04",
   "status": "proved",
   "theorems": [
    "C04_min_max"
   ],
   "note": ""
  },
  {
   "property": "C05",
   "status": "proved",
   "theorems": [
    "C05_len_is_exact",
    "C01_splay_tree_is_a_sorted_map"
   ],
   "note": ""
  },
  {
   "property": "C06",
   "status": "proved",
   "theorems": [
    "C06_into_iter_is_a_deque"
   ],
   "note": ""
  },
  {
   "property": "C07",
   "status": "proved",
   "theorems": [
    "C07_index_panics_iff_absent",
    "C07_extend_last_value_wins"
   ],
   "note": ""
  },
  {
   "property": "C08",
   "status": "proved",
   "theorems": [
    "C08_splay_set_is_a_sorted_set"
   ],
   "note": ""
  },
  {
   "property": "C09",
   "status": "proved",
   "theorems": [
    "C09_panics_iff_nan_decides",
    "C09_total_lexicographic_order"
   ],
   "note": ""
  },
  {
   "property": "C10",
   "status": "proved",
   "theorems": [
    "C10_pop",
    "C10_any_tie",
    "C10_drain_is_sorted"
   ],
   "note": ""
  },
  {
   "property": "C11",
   "status": "proved",
   "theorems": [
    "C11_from_line_normalises"
   ],
   "note": ""
  },
  {
   "property": "C12",
   "status": "proved",
   "theorems": [
    "C12_antisymmetric"
   ],
   "note": ""
  },
  {
   "property": "C13",
   "status": "proved",
   "theorems": [
    "C13_comparison_is_below"
   ],
   "note": ""
  },
  {
   "property": "C14",
   "status": "proved",
   "theorems": [
    "C14_lines_always_comparable",
    "C14_precondition_not_detected"
   ],
   "note": ""
  },
  {
   "property": "C15",
   "status": "proved",
   "theorems": [
    "C15_consistent_order",
    "C15_truncation_keeps_order"
   ],
   "note": ""
  },
  {
   "property": "C16",
   "status": "proved",
   "theorems": [
    "C16_line_against_point",
    "C16_cross_is_above",
    "C16_points"
   ],
   "note": ""
  },
  {
   "property": "C17",
   "status": "proved",
   "theorems": [
    "C17_intersect_line_is_exact"
   ],
   "note": ""
  },
  {
   "property": "C18",
   "status": "proved",
   "theorems": [
    "C18_exact_ordered_is_plain",
    "C18_float_nudge_protects_self",
    "C18_float_other_unprotected"
   ],
   "note": ""
  },
  {
   "property": "C19",
   "status": "proved",
   "theorems": [
    "C19_crossings_sound"
   ],
   "note": ""
  },
  {
   "property": "C20",
   "status": "proved",
   "theorems": [
    "C20_strictly_increasing"
   ],
   "note": ""
  },
  {
   "property": "C21",
   "status": "proved",
   "theorems": [
    "C21_complete",
    "C21_points_exact"
   ],
   "note": ""
  },
  {
   "property": "C22",
   "status": "proved",
   "theorems": [
    "C22_next_never_panics"
   ],
   "note": ""
  },
  {
   "property": "C23",
   "status": "proved",
   "theorems": [
    "C23_terminates"
   ],
   "note": ""
  },
  {
   "property": "C24",
   "status": "proved",
   "theorems": [
    "C24_pieces_tile_inputs"
   ],
   "note": ""
  },
  {
   "property": "C25",
   "status": "proved",
   "theorems": [
    "C25_no_interior_intersection"
   ],
   "note": ""
  },
  {
   "property": "C26",
   "status": "proved",
   "theorems": [
    "C26_nonempty_and_fused"
   ],
   "note": ""
  },
  {
   "property": "C27",
   "status": "proved",
   "theorems": [
    "C27_overlap_next"
   ],
   "note": ""
  },
  {
   "property": "C32",
   "status": "proved",
   "theorems": [
    "C32_independent_of_ties"
   ],
   "note": ""
  },
  {
   "property": "C28",
   "status": "proved",
   "theorems": [
    "C28_first_segment_flag_lost"
   ],
   "note": "violation of the documented meaning, by a witness, for every order of equal events"
  },
  {
   "property": "C30",
   "status": "proved",
   "theorems": [
    "C30_intersections_incomplete"
   ],
   "note": "violation of the documented meaning, by a witness, for every order of equal events"
  },
  {
   "property": "C31",
   "status": "proved",
   "theorems": [
    "C31_intersections_duplicates"
   ],
   "note": "violation of the documented meaning, by a witness, for every order of equal events"
  },
  {
   "property": "C50",
   "status": "proved",
   "theorems": [
    "C50_neighbours",
    "C50_add_key",
    "C50_remove_key"
   ],
   "note": ""
  },
  {
   "property": "C29",
   "status": "proved",
   "theorems": [
    "C29_intersections_terminate",
    "C29_intersections_sound"
   ],
   "note": "Every input, tie-breaking; no panic at any call, in particular not the internal expect; exactness is against on_seg, not against line_intersection."
  },
  {
   "property": "C51",
   "status": "proved",
   "theorems": [
    "C51_proper_crossings_once"
   ],
   "note": "Exactly one triple per such pair of positions, in any order of the two."
  },
  {
   "property": "C33",
   "status": "proved",
   "theorems": [
    "C33_new_accepts_valid_pairs"
   ],
   "note": ""
  },
  {
   "property": "C34",
   "status": "proved",
   "theorems": [
    "C34_into_polygon"
   ],
   "note": ""
  },
  {
   "property": "C35",
   "status": "proved",
   "theorems": [
    "C35_bounding_rect_is_tight"
   ],
   "note": ""
  },
  {
   "property": "C36",
   "status": "proved",
   "theorems": [
    "C36_scan_is_gap_free",
    "C36_scan_lines"
   ],
   "note": "exact scalars; every scanner reachable by any sequence of advance_next calls"
  },
  {
   "property": "C37",
   "status": "proved",
   "theorems": [
    "C37_scanned_area_signed",
    "C37_scanned_area"
   ],
   "note": "exact scalars; any sequence of stops whose maximum reaches the right end"
  },
  {
   "property": "C38",
   "status": "proved",
   "theorems": [
    "C38_advance_to_upto_agree"
   ],
   "note": ""
  },
  {
   "property": "C39",
   "status": "proved",
   "theorems": [
    "C39_cross_ubounds",
    "C39_cross_bounds"
   ],
   "note": "never a panic; the empty answer exactly when the scanned trapezoids have no height or lie on one side of the band; otherwise exactly the rows needed; exact arithmetic"
  },
  {
   "property": "C40",
   "status": "proved",
   "theorems": [
    "C40_cross_area_per_row",
    "C40_cross_area_total",
    "area_above_0_is_area"
   ],
   "note": "every row receives the area of its part of the scanned trapezoids; the total is the area within the band; area_above_0_is_area characterises the specification's area function; exact arithmetic"
  },
  {
   "property": "C45",
   "status": "proved",
   "theorems": [
    "C45_every_edge_once"
   ],
   "note": "with the pairing condition in the order of insertion, which C52 shows to be necessary"
  },
  {
   "property": "C46",
   "status": "proved",
   "theorems": [
    "C46_rings_repeat_no_vertex"
   ],
   "note": ""
  },
  {
   "property": "C52",
   "status": "proved",
   "theorems": [
    "C52_assembly_needs_alternation",
    "C52_even_degrees_refuted"
   ],
   "note": "the documented expectation (even degrees) is refuted by a witness"
  },
  {
   "property": "C43",
   "status": "proved",
   "theorems": [
    "C43_label_is_the_operation",
    "C43_unbounded_region_is_outside"
   ],
   "note": "Label after any sequence of crossings."
  },
  {
   "property": "C44",
   "status": "proved",
   "theorems": [
    "C44_edges_of_the_operands",
    "C44_open_ring_panics"
   ],
   "note": "All inputs."
  },
  {
   "property": "C53",
   "status": "proved",
   "theorems": [
    "C53_union_of_touching_triangles_panics"
   ],
   "note": "Concrete failing input of the faithful model, debug assertions on."
  },
  {
   "property": "C54",
   "status": "proved",
   "theorems": [
    "C54_depends_on_the_order_of_equal_crossings",
    "C54_wrong_polygon"
   ],
   "note": "Concrete operands and a permitted outcome of the unstable sort."
  },
  {
   "property": "C48",
   "status": "proved",
   "theorems": [
    "C48_sweep_emits_the_boundary",
    "C48_operation_assembles_the_boundary",
    "C48_pieces_meet_at_ends",
    "C48_both_sides_are_seen",
    "C48_inside_is_constant_off_the_edges",
    "C48_far_points_are_outside"
   ],
   "note": "All operands with closed rings, all operations, every tie-breaking of the heap; the sort keeps equal crossings in order, or no two edges run along each other (needed, see C54)."
  },
  {
   "property": "C49",
   "status": "proved",
   "theorems": [
    "C49_boundary_is_unique",
    "C49_operands_commute",
    "C49_empty_result",
    "C49_difference_with_itself"
   ],
   "note": "Consequences of C48 and of the uniqueness of boundaries."
  },
  {
   "property": "C55",
   "status": "proved",
   "theorems": [
    "C55_boundary_is_balanced",
    "C55_boundary_encloses_the_result"
   ],
   "note": "All operands with closed rings; a statement about boundaries as specified in S_Boundary, with or without the program."
  },
  {
   "property": "C56",
   "status": "proved",
   "theorems": [
    "C56_rings_are_the_boundary",
    "C56_simple_vertices_do_not_panic"
   ],
   "note": "Sort hypothesis as in C48. That it returns cannot be proved for all inputs (C53)."
  },
  {
   "property": "C57",
   "status": "proved",
   "theorems": [
    "C57_rings_enclose_the_result"
   ],
   "note": "Sort hypothesis as in C48; whenever the operation returns."
  },
  {
   "property": "C47",
   "status": "proved",
   "theorems": [
    "C47_every_ring_is_placed_once",
    "C47_holes_go_to_their_parents",
    "C47_parents_must_not_be_holes"
   ],
   "note": "All lists of closed rings and all parent lists; that the parents computed by the sweep are not holes is C58."
  },
  {
   "property": "C58",
   "status": "proved",
   "theorems": [
    "C58_returned_polygons_are_the_result",
    "C58_returned_rings_are_the_boundary",
    "C58_enough_fuel"
   ],
   "note": "Whenever the operation returns; sort hypothesis as in C48."
  },
  {
   "property": "C59",
   "status": "proved",
   "theorems": [
    "C59_simple_vertices_return"
   ],
   "note": "Sort hypothesis as in C48. With four pieces at a vertex the operation may panic (C53)."
  },
  {
   "property": "C60",
   "status": "proved",
   "theorems": [
    "C60_one_polygon_at_every_point"
   ],
   "note": "Sort hypothesis as in C48; at most two pieces at a vertex."
  },
  {
   "property": "C41",
   "status": "proved",
   "theorems": [
    "C41_pieces_are_monotone"
   ],
   "note": "whatever the sort leaves among equal events and whatever the shape of the B-tree"
  },
  {
   "property": "C42",
   "status": "proved",
   "theorems": [
    "C42_edges_of_the_pieces",
    "C42_edges_of_valid_polygons"
   ],
   "note": "Edges of the pieces, directed, as a multiset: the non-degenerate edges of the polygon each once, with the interior on the right, plus diagonals each in both directions; for every polygon on which monotone_chains returns, every permutation left by the unstable sort and every sequence of comparisons of the B-tree."
  },
  {
   "property": "C61",
   "status": "proved",
   "theorems": [
    "C61_decomposition_succeeds"
   ],
   "note": "For every valid polygon, every permutation left by the unstable sort and every sequence of comparisons of the B-tree. simple_merge_valid shows a polygon with a hole that meets the hypothesis."
  },
  {
   "property": "C62",
   "status": "proved",
   "theorems": [
    "C62_each_point_in_one_piece",
    "C62_pieces_as_polygons"
   ],
   "note": "For every valid polygon and every point of the plane."
  },
  {
   "property": "C63",
   "status": "proved",
   "theorems": [
    "C63_top_over_bottom",
    "C63_scanned_pieces"
   ],
   "note": "For every valid polygon, every piece and every vertical line; this discharges the hypothesis of C37_scanned_area for the pieces of a decomposition."
  },
  {
   "property": "C64",
   "status": "proved",
   "theorems": [
    "C64_areas_add_up",
    "C64_winding_and_area"
   ],
   "note": "For every valid polygon, every order of equal events and every shape of the ordered set."
  },
  {
   "property": "C65",
   "status": "proved",
   "theorems": [
    "C65_cells",
    "C65_area_of_a_cell",
    "C65_whole_area"
   ],
   "note": "For every valid polygon and every grid."
  },
  {
   "property": "C66",
   "status": "proved",
   "theorems": [
    "C66_scanned_area"
   ],
   "note": "For every valid polygon and every number of slices."
  },
  {
   "property": "C67",
   "status": "proved",
   "theorems": [
    "C67_benchmark_areas",
    "C67_total_refuted"
   ],
   "note": "The array is described for every polygon valid after the exchange of coordinates; the expectation is refuted by an example."
  },
  {
   "property": "C68",
   "status": "proved",
   "theorems": [
    "C68_results_are_valid",
    "C68_even_odd_rule",
    "C68_results_can_be_decomposed"
   ],
   "note": "For operands for which at no vertex more than two pieces of the boundary of the result meet."
  },
  {
   "property": "C69",
   "status": "proved",
   "theorems": [
    "C69_union_and_intersection",
    "C69_difference_and_intersection",
    "C69_xor_and_intersection",
    "C69_areas_compare"
   ],
   "note": "For non-overlapping valid operands with simple boundary vertices in the results."
  },
  {
   "property": "C70",
   "status": "proved",
   "theorems": [
    "C70_no_cell_is_missed",
    "C70_no_row_is_superfluous"
   ],
   "note": "Points on the lower border of the band are excluded."
  },
  {
   "property": "C71",
   "status": "proved",
   "theorems": [
    "C71_bounds_of_the_area",
    "C71_gap_refuted"
   ],
   "note": "The margins of the test are arguments; its last assertion is refuted."
  },
  {
   "property": "C72",
   "status": "proved",
   "theorems": [
    "C72_what_is_marked",
    "C72_full_cell_refuted",
    "C72_empty_cell_refuted"
   ],
   "note": "Described for every polygon valid after the exchange of coordinates; the expectation is refuted by examples."
  },
  {
   "property": "C73",
   "status": "proved",
   "theorems": [
    "C73_no_new_vertices"
   ],
   "note": "For arbitrary polygons."
  },
  {
   "property": "C74",
   "status": "proved",
   "theorems": [
    "C74_order_type",
    "C74_affine"
   ],
   "note": "For arbitrary polygons, by a relation between the two runs."
  },
  {
   "property": "C75",
   "status": "proved",
   "theorems": [
    "C75_crossings",
    "C75_intersections",
    "C75_line_intersection"
   ],
   "note": "For all inputs and all order-keeping affine maps."
  },
  {
   "property": "C76",
   "status": "proved",
   "theorems": [
    "C76_boolean_operations",
    "C76_rotation_refuted"
   ],
   "note": "For all operands and all order-keeping affine maps; the extension to rotations is refuted."
  },
  {
   "property": "C77",
   "status": "proved",
   "theorems": [
    "C77_ubounds",
    "C77_our_rasterize",
    "C77_our_area",
    "C77_scanned_area"
   ],
   "note": "For arbitrary polygons, pieces and grids."
  },
  {
   "property": "C78",
   "status": "proved",
   "theorems": [
    "C78_nothing_left",
    "C78_empty_result",
    "C78_same_points",
    "C78_separated"
   ],
   "note": "Without conditions on the vertices of the result."
  },
  {
   "property": "C79",
   "status": "proved",
   "theorems": [
    "C79_expressions",
    "C79_same_set",
    "C79_smaller_set",
    "C79_results_are_tiles",
    "C79_laws"
   ],
   "note": "By induction over expressions."
  },
  {
   "property": "C80",
   "status": "proved",
   "theorems": [
    "C80_pieces_are_valid_polygons",
    "C80_decomposed_again",
    "C80_nothing_is_lost",
    "C80_united"
   ],
   "note": "For all valid polygons."
  },
  {
   "property": "C81",
   "status": "proved",
   "theorems": [
    "C81_number_of_pieces",
    "C81_number_of_sides",
    "C81_linear"
   ],
   "note": "For all valid polygons."
  },
  {
   "property": "C82",
   "status": "proved",
   "theorems": [
    "C82_one_piece",
    "C82_monotone_polygons_stay",
    "C82_pieces_stay"
   ],
   "note": "For all valid polygons."
  },
  {
   "property": "C83",
   "status": "proved",
   "theorems": [
    "C83_where_lines_are_cut",
    "C83_same_lines",
    "C83_more_lines",
    "C83_number_of_points"
   ],
   "note": "For all finite inputs of any type."
  },
  {
   "property": "C84",
   "status": "proved",
   "theorems": [
    "C84_written_differently",
    "C84_order_of_events",
    "C84_operands_exchanged",
    "C84_same_edges"
   ],
   "note": "For all collections of closed rings; the layout of the polygons where the boundary does not touch itself at a vertex, the edges in general."
  },
  {
   "property": "C85",
   "status": "proved",
   "theorems": [
    "C85_kept",
    "C85_with_nothing",
    "C85_with_itself",
    "C85_results_stay"
   ],
   "note": "For all valid multi-polygons."
  },
  {
   "property": "C86",
   "status": "proved",
   "theorems": [
    "C86_crossings_do_not_depend_on_rounding",
    "C86_intersections_do_not_depend_on_rounding",
    "C86_boolean_operations_do_not_depend_on_rounding"
   ],
   "note": "For all inputs without proper crossings; comparisons and orient2d are taken to be exact, as they are for f64."
  },
  {
   "property": "C87",
   "status": "proved",
   "theorems": [
    "C87_touch_missed",
    "C87_assertion_fails",
    "C87_operations_fail",
    "C87_two_lines_fail",
    "C87_boxes_suffice"
   ],
   "note": "The expectation is refuted by examples; C87_assertion_fails and C87_operations_fail are for one order of equal events. The formulas of the geo crate are modelled, not verified against its source, which is not in the repository."
  },
  {
   "property": "C88",
   "status": "proved",
   "theorems": [
    "C88_crossings_of_the_input",
    "C88_intersections_never_wrong",
    "C88_reported_pairs_meet"
   ],
   "note": "for every routine that computes crossing points; first theorem for every arithmetic"
  },
  {
   "property": "C89",
   "status": "proved",
   "theorems": [
    "C89_exteriors_run_either_way",
    "C89_holes_may_run_like_the_exterior"
   ],
   "note": "refutation: the expected orientation is not kept"
  }
 ]
}