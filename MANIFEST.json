{
 "claims": [
  {
   "property": "C01",
   "status": "proved",
   "theorems": [
    "C01_execute_without_contributing_rings",
    "C01_execute_with_contributing_rings"
   ],
   "note": ""
  },
  {
   "property": "C02",
   "status": "proved",
   "theorems": [
    "C02_add_polygon_is_the_sequence_of_its_rings",
    "C02_empty_polygon_changes_nothing",
    "C02_false_changes_nothing"
   ],
   "note": ""
  },
  {
   "property": "C03",
   "status": "proved",
   "theorems": [
    "C03_edges_form_closed_chain"
   ],
   "note": ""
  },
  {
   "property": "C04",
   "status": "proved",
   "theorems": [
    "C04_no_degenerate_vertices"
   ],
   "note": ""
  },
  {
   "property": "C05",
   "status": "proved",
   "theorems": [
    "C05_edges_total_in_range",
    "C05_edges_always_end"
   ],
   "note": ""
  },
  {
   "property": "C06",
   "status": "proved",
   "theorems": [
    "C06_edges_use_ring_points"
   ],
   "note": ""
  },
  {
   "property": "C07",
   "status": "proved",
   "theorems": [
    "C07_edges_preserve_region"
   ],
   "note": ""
  },
  {
   "property": "C08",
   "status": "proved",
   "theorems": [
    "C08_add_reports_contribution",
    "C08_add_always_ends"
   ],
   "note": "for coordinates whose differences are at most 2^1023 (then no exception); for all others the only exception is OverflowError"
  },
  {
   "property": "C09",
   "status": "proved",
   "theorems": [
    "C09_bounds_are_monotone_chains",
    "C09_no_consecutive_horizontals"
   ],
   "note": ""
  },
  {
   "property": "C10",
   "status": "proved",
   "theorems": [
    "C10_bounds_partition_edges",
    "C10_recorded_edges_well_made"
   ],
   "note": ""
  },
  {
   "property": "C11",
   "status": "proved",
   "theorems": [
    "C11_minimum_labels",
    "C11_new_minimum_sides",
    "C11_left_is_left_exact"
   ],
   "note": "left/right by exact integer geometry for |coordinates| <= 2^24, by the compared float slopes otherwise; sides at recording time (execute may change them)"
  },
  {
   "property": "C12",
   "status": "proved",
   "theorems": [
    "C12_maximum_pairing",
    "C12_partner_same_ring"
   ],
   "note": ""
  },
  {
   "property": "C13",
   "status": "proved",
   "theorems": [
    "C13_clear_is_a_fresh_start"
   ],
   "note": "after clear an object accepts rings, answers and fails exactly as a new one (all sequences of rings, all operations), and execute directly after clear returns []"
  },
  {
   "property": "C14",
   "status": "proved",
   "theorems": [
    "C14_execute_keeps_its_input"
   ],
   "note": ""
  },
  {
   "property": "C15",
   "status": "proved",
   "theorems": [
    "C15_bubble_sort_sorts_and_reports_swaps",
    "C15_bubble_sort_swaps_once_per_inversion",
    "C15_bubble_sort_permutes_for_any_callbacks"
   ],
   "note": "termination, permutation, sortedness and exact swap report for every total comparator; permutation for arbitrary effectful callbacks"
  },
  {
   "property": "C16",
   "status": "proved",
   "theorems": [
    "C16_quicksort_sorts",
    "C16_quicksort_permutes_for_any_comparator"
   ],
   "note": "for every total transitive comparator; permutation for any comparator"
  },
  {
   "property": "C17",
   "status": "proved",
   "theorems": [
    "C17_insort_unique_keeps_strictly_increasing_set"
   ],
   "note": ""
  },
  {
   "property": "C18",
   "status": "proved",
   "theorems": [
    "C18_rotate_sequence_is_cyclic_shift",
    "C18_find_if_returns_first_index"
   ],
   "note": ""
  },
  {
   "property": "C19",
   "status": "proved",
   "theorems": [
    "C19_almost_equal_is_four_ulps",
    "C19_float_comparisons_are_a_trichotomy",
    "C19_almost_equal_reflexive_symmetric",
    "C19_almost_equal_transitive_refuted"
   ],
   "note": "transitivity is refuted by a witness (not claimed by the property)"
  },
  {
   "property": "C20",
   "status": "proved",
   "theorems": [
    "C20_round_half_up_nearest",
    "C20_round_half_up_range",
    "C20_round_towards_nearest",
    "C20_ties_and_integers",
    "C20_integers_unchanged",
    "C20_nearest_beyond_2_50_refuted"
   ],
   "note": "in the documented range |x| < 2^50 (floats) / 10^28 (ints); beyond it a witness shows that towards-rounding is not to nearest"
  },
  {
   "property": "C21",
   "status": "proved",
   "theorems": [
    "C21_edge_normalised",
    "C21_edge_total",
    "C21_reverse_horizontal"
   ],
   "note": ""
  },
  {
   "property": "C22",
   "status": "proved",
   "theorems": [
    "C22_intersection_iff_segments_meet",
    "C22_meeting_segments_found",
    "C22_intersection_accuracy",
    "C22_parallel_none",
    "C22_not_found_symmetric",
    "C22_unbounded_coordinates_refuted"
   ],
   "note": "equivalence and accuracy for |coordinates| <= 2^24; completeness for all coordinates in the float range; a witness shows the equivalence fails for larger coordinates"
  },
  {
   "property": "C23",
   "status": "proved",
   "theorems": [
    "C23_box_containment_is_a_partial_order",
    "C23_box_containment_is_inclusion"
   ],
   "note": ""
  },
  {
   "property": "C24",
   "status": "proved",
   "theorems": [
    "C24_counts_are_winding_numbers_between_scanbeams",
    "C24_counts_are_winding_numbers_without_horizontal_edges",
    "C24_counts_are_winding_numbers_when_the_sweep_ends_empty",
    "C24_between_scanbeams_refuted_without_the_proviso",
    "C24_counts_are_winding_numbers_after_inserting_a_minimum",
    "C24_counts_are_winding_numbers_after_a_maximum",
    "C24_counts_are_winding_numbers_after_a_horizontal_or_the_bound_left_alone"
   ],
   "note": "every step, and the whole sweep of any recorded rings: between any two scanbeams the active list is right provided bounds left it in pairs; no proviso without horizontal input edges or when the sweep ends with an empty list. The unconditional version is refuted by a concrete run (a bound dropped at the end of a horizontal top side before its partner is met)"
  },
  {
   "property": "C25",
   "status": "proved",
   "theorems": [
    "C25_contributing_iff_membership_changes"
   ],
   "note": ""
  },
  {
   "property": "C26",
   "status": "proved",
   "theorems": [
    "C26_counts_after_the_intersections_of_any_scanbeam",
    "C26_counts_after_a_crossing",
    "C26_action_at_a_crossing",
    "C26_counts_after_the_intersections_of_a_scanbeam"
   ],
   "note": "single crossings, all the intersections of a scanbeam, and the scanbeams of the whole sweep of any recorded rings (positions are proved comparable there: no NaN)"
  },
  {
   "property": "C27",
   "status": "proved",
   "theorems": [
    "C27_hot_pixels_sorted_without_duplicates"
   ],
   "note": ""
  },
  {
   "property": "C28",
   "status": "proved",
   "theorems": [
    "C28_create_alone",
    "C28_insert_before",
    "C28_reverse",
    "C28_iterate",
    "C28_any_start"
   ],
   "note": "creation, insertion, reversal, iteration on an arbitrary vertex ring of the heap"
  },
  {
   "property": "C29",
   "status": "proved",
   "theorems": [
    "C29_cut",
    "C29_cut_conserves",
    "C29_join",
    "C29_switch_joins",
    "C29_switch_cuts",
    "C29_switch_inverse",
    "C29_drop_next",
    "C29_drop_prev"
   ],
   "note": "cutting (correct_self_intersection), joining (append_ring's join_chains), successor exchange and vertex removal; conservation of area, winding numbers and directed edges at coincident vertices"
  },
  {
   "property": "C30",
   "status": "proved",
   "theorems": [
    "C30_stats",
    "C30_area_in_output_order",
    "C30_recalculate",
    "C30_lazy_properties"
   ],
   "note": "stats on an arbitrary vertex ring: size, tight box, correctly rounded signed area; stored statistics and lazy properties"
  },
  {
   "property": "C31",
   "status": "proved",
   "theorems": [
    "C31_point_in_polygon",
    "C31_total"
   ],
   "note": "integer query points (Ring.inside_of); the centroid queries of inside_or_outside_special use float points and are only approximate"
  },
  {
   "property": "C32",
   "status": "proved",
   "theorems": [
    "C32_ring_tree_is_consistent"
   ],
   "note": "Consistency of parent and children links after each phase of execute, for every input (TreeP.v: invariant through every function that touches the tree)."
  },
  {
   "property": "C33",
   "status": "proved",
   "theorems": [
    "C33_output_lists_every_ring_once",
    "C33_result_rings_are_closed"
   ],
   "note": "From the final consistent tree: polygons = rings of even depth in NoDup order with their children as holes, every ring of the tree written exactly once, direction decided by reverse_output only; closedness as an API corollary."
  },
  {
   "property": "C34",
   "status": "proved",
   "theorems": [
    "C34_bounds_of_nothing",
    "C34_bounds_is_the_bounding_box_refuted",
    "C34_bounds_is_a_query_refuted"
   ],
   "note": "The property is false of the code and the negation is what is proved: for the square standing on its corner, however its point objects are shared, the reported box has no height and the call moves a recorded point. On an object without minima the answer is the zero box and nothing changes. Alias model in BoundsM.v."
  },
  {
   "property": "C35",
   "status": "proved",
   "theorems": [
    "C35_local_minimum_list_insert_refuted"
   ],
   "note": "the property is false of the code: insert calls itself; the theorem proves the negation for every argument and recursion depth"
  },
  {
   "property": "C36",
   "status": "proved",
   "theorems": [
    "C36_vertices_come_from_the_input",
    "C36_crossings_and_ends_alone_refuted"
   ],
   "note": "Invariant of both sweeps over all states (OriginP.v) followed by a pointer invariant of the topology correction (PointersP.v). Statement in terms of the edges of the added rings; the version without the horizontal-level case is refuted by a concrete input."
  },
  {
   "property": "C37",
   "status": "proved",
   "theorems": [
    "C37_execute_never_fails_refuted"
   ],
   "note": "the property is false of the code: a witness with coordinates 0..3 raises RuntimeError for every sufficient number of steps (negation proved)"
  },
  {
   "property": "C38",
   "status": "proved",
   "theorems": [
    "C38_initial_scanbeams",
    "C38_scanbeam_history",
    "C38_levels_distinct_refuted"
   ],
   "note": "order/no-skip/no-loss proved for every history; 'each level once' is refuted for the initial queue (duplicate levels), and proved for strict histories"
  },
  {
   "property": "C39",
   "status": "proved",
   "theorems": [
    "C39_to_int32_wraps"
   ],
   "note": ""
  },
  {
   "property": "C40",
   "status": "proved",
   "theorems": [
    "C40_active_list_is_ordered_on_every_scan_line",
    "C40_active_list_is_ordered_after_the_intersections"
   ],
   "note": "for any scanbeam of the sweep of any recorded rings whose bounds left in pairs; also as a step theorem with comparability of positions as hypothesis"
  },
  {
   "property": "C41",
   "status": "proved",
   "theorems": [
    "C41_execute_has_one_outcome",
    "C41_more_steps_keep_the_outcome"
   ],
   "note": ""
  },
  {
   "property": "C42",
   "status": "proved",
   "theorems": [
    "C42_answer_depends_on_the_rings_only",
    "C42_execute_again",
    "C42_working_values_play_no_role"
   ],
   "note": "relational logic over two runs of the whole pipeline (RelP.v): answers agree for all histories with the same rings and for arbitrary leftover working values"
  },
  {
   "property": "C43",
   "status": "proved",
   "theorems": [
    "C43_operands_can_be_exchanged"
   ],
   "note": "relation between the two runs of the whole pipeline (RelP.v generalised to renamed kinds); an example shows the difference has to be excluded"
  },
  {
   "property": "C44",
   "status": "proved",
   "theorems": [
    "C44_without_clip_rings_the_operations_agree",
    "C44_without_clip_rings_the_intersection_is_empty",
    "C44_without_subject_rings_nothing_is_left",
    "C44_without_subject_rings_the_clip_is_left"
   ],
   "note": "the same relation with the invariant that all bounds are subject bounds outside the clip; the empty intersection by an invariant of the sweep (SoloP.v)"
  },
  {
   "property": "C45",
   "status": "proved",
   "theorems": [
    "C45_rings_are_whole_after_the_sweep",
    "C45_corrections_keep_rings_whole",
    "C45_rings_are_closed_after_the_corrections",
    "C45_output_rings_are_single_laps"
   ],
   "note": "exact (one circle per ring) up to correct_tree for every input; after the chained-ring correction the theorem states closed chains of live vertices, not that each ring owns exactly one (the code may route a chain through its origin)"
  },
  {
   "property": "C46",
   "status": "proved",
   "theorems": [
    "C46_reverse_output_reverses_every_ring",
    "C46_flag_and_history"
   ],
   "note": "equality of outcomes (result or exception) for all inputs; also across different histories of calls"
  },
  {
   "property": "C47",
   "status": "proved",
   "theorems": [
    "C47_rings_are_turned_by_depth",
    "C47_rings_hang_below_the_ring_around_them",
    "C47_rings_are_nested_after_the_sweep"
   ],
   "note": "For whole rings (C45), and for the whole path from the sweep to the tree. The separate tree theorem needs up-to-date stored statistics, which the orientation theorem establishes and the steps in between keep. Areas are compared as the correctly rounded floats the program computes. If every vertex of a ring lies on the border of another one the statement allows either answer of the containment test."
  },
  {
   "property": "C48",
   "status": "proved",
   "theorems": [
    "C48_no_ring_visits_a_point_twice",
    "C48_rings_are_simple_after_the_sweep"
   ],
   "note": "For whole rings (C45). The first theorem assumes that rings already marked as corrected are simple, which holds because no ring is marked before (proved for the whole path in the second theorem). The final joining of chained rings is not covered."
  },
  {
   "property": "C49",
   "status": "proved",
   "theorems": [
    "C49_self_intersections_keep_the_sides",
    "C49_chained_rings_keep_the_sides",
    "C49_repeated_corrections_keep_the_sides",
    "C49_ring_tree_drops_only_flat_rings",
    "C49_output_sides_come_from_the_rings",
    "C49_collinear_edges_unbalance_sides_refuted"
   ],
   "note": "SpecEdges.v: sides = one directed side per vertex that belongs to a ring. Permutation of sides for correct_self_intersections, correct_chained_rings and their loop; correct_tree drops only sides of rings with zero shoelace sum; every side of every output ring is a side of the final rings. The correction of collinear edges does not conserve the balance of sides: C49_collinear_edges_unbalance_sides_refuted gives valid polygons for which it makes execute raise RuntimeError."
  },
  {
   "property": "C50",
   "status": "proved",
   "theorems": [
    "C50_open_rings_hang_between_their_bounds",
    "C50_at_most_two_bounds_hold_a_ring",
    "C50_both_ends_held_refuted"
   ],
   "note": "SpecChain.v: points_of, holds, is_end, open_chains. Invariant over every operation of the sweep (intersections, maxima, horizontals, promotions, minima). C50_both_ends_held_refuted: the exception (a bound that left while holding a ring) is reached by the sweep of PropSweep.v."
  },
  {
   "property": "C51",
   "status": "proved",
   "theorems": [
    "C51_collecting_the_hot_pixels_ends"
   ],
   "note": "PropHalt.v: ends. Measure: scanbeam entries + edges still to come + minima still to enter; inner loops each by their own measure."
  },
  {
   "property": "C52",
   "status": "proved",
   "theorems": [
    "C52_the_building_of_the_rings_ends",
    "C52_the_two_passes_end"
   ],
   "note": "C52_the_building_of_the_rings_ends: from the state the first pass leaves, execute_vatti ends for every operation and fill rules; C52_the_two_passes_end: both passes in sequence. Termination of the topology correction that follows is not claimed."
  },
  {
   "property": "C53",
   "status": "proved",
   "theorems": [
    "C53_reconnection_makes_two_rings_of_a_tour"
   ],
   "note": "C53_reconnection_makes_two_rings_of_a_tour: from every state of whole rings, for every tour of length at least two. That the code only ever reconnects tours is part of C54."
  },
  {
   "property": "C54",
   "status": "proved",
   "theorems": [
    "C54_correcting_touching_rings_keeps_them_whole",
    "C54_correcting_until_nothing_touches_keeps_rings_whole",
    "C54_rings_are_whole_when_the_result_is_written"
   ],
   "note": "The three theorems assume two_at_most: no place where three ring vertices meet (kept by every step, so it is needed only where the corrections start). That the rounds end is not claimed."
  },
  {
   "property": "C55",
   "status": "proved",
   "theorems": [
    "C55_the_last_corrections_leave_no_repeated_point",
    "C55_no_ring_of_the_answer_visits_a_point_twice",
    "C55_no_point_is_visited_more_than_twice"
   ],
   "note": "For executions whose rings meet in twos when the tree has been built (meet_in_twos: two_at_most of that state); the example shows that the hypothesis holds where rings are reconnected."
  },
  {
   "property": "C56",
   "status": "proved",
   "theorems": [
    "C56_repetitions_do_not_change_the_edges",
    "C56_repetitions_do_not_change_adding",
    "C56_repetitions_do_not_change_the_answer",
    "C56_refused_rings_play_no_role",
    "C56_starting_point_does_not_matter_refuted",
    "C56_direction_does_not_matter_refuted"
   ],
   "note": "Repetitions: edges, adding and answers are the same. Starting point and direction (even-odd): refuted by examples evaluated by the kernel."
  },
  {
   "property": "C57",
   "status": "proved",
   "theorems": [
    "C57_the_edges_are_the_shape",
    "C57_flat_rings_have_no_edges",
    "C57_the_edges_are_those_of_the_reduced_ring",
    "C57_flat_rings_play_no_role"
   ],
   "note": "For rings whose edges can be computed (no OverflowError). That answers do not depend on where a ring starts is refuted in C56 (order of polygons), so the statement is about edges, and about answers for rings without edges."
  },
  {
   "property": "C58",
   "status": "proved",
   "theorems": [
    "C58_the_minima_follow_the_shape",
    "C58_an_object_holds_the_shapes_of_its_rings",
    "C58_heights_and_order_of_the_sweep"
   ],
   "note": "the links between neighbouring bounds (maximum_bound) are not part of what is compared: C12 states them; the order of the minima in the list is the order of insertion, the sweep sorts them"
  },
  {
   "property": "C59",
   "status": "proved",
   "theorems": [
    "C59_a_ring_backwards_has_its_edges_backwards",
    "C59_backwards_edges_mean_a_backwards_ring",
    "C59_backwards_exchanges_the_ends_of_level_edges",
    "C59_direction_does_not_change_what_is_reported"
   ],
   "note": "That answers do not depend on the direction is refuted in C56; the statement is about edges and reports"
  },
  {
   "property": "C60",
   "status": "proved",
   "theorems": [
    "C60_a_moved_ring_has_moved_edges",
    "C60_a_moved_ring_has_moved_minima",
    "C60_the_image_has_the_image_of_the_edges",
    "C60_the_image_is_added_alike",
    "C60_an_object_of_images_holds_the_images"
   ],
   "note": "about what is recorded for a ring; the sweep computes abscissas in floats, whose rounding depends on where the ring lies, so answers are not claimed to move or grow"
  }
 ]
}