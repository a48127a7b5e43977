{
 "claims": [
  {
   "property": "C01",
   "status": "proved",
   "theorems": [
    "C01_ids_unique_under_concurrency",
    "C01_register_completes_solo"
   ],
   "note": "all schedules, spurious CAS failures included; precondition: ids stay inside the 64-bit range"
  },
  {
   "property": "C02",
   "status": "partial",
   "theorems": [
    "C02_register_max_id_refuted",
    "C02_registered_id_not_reissued_partial"
   ],
   "note": "false for the largest id (signed overflow); proved for all smaller ids that leave room for the next getId"
  },
  {
   "property": "C03",
   "status": "proved",
   "theorems": [
    "C03_self_contained"
   ],
   "note": "add histories on an empty map; found means: an element with that id"
  },
  {
   "property": "C04",
   "status": "proved",
   "theorems": [
    "C04_add_terminates"
   ],
   "note": "every state of the map with a positive id counter, also with colliding ids"
  },
  {
   "property": "C05",
   "status": "proved",
   "theorems": [
    "C05_add_keeps",
    "C05_add_existing"
   ],
   "note": ""
  },
  {
   "property": "C06",
   "status": "partial",
   "theorems": [
    "C06_assigned_id_unused",
    "C06_added_found",
    "C06_all_found_partial",
    "C06_all_found_refuted"
   ],
   "note": "the assigned id is unused and the added element is found; an id reserved for a parameter of a regulatory element can be lost to a preset id above the counter"
  },
  {
   "property": "C07",
   "status": "partial",
   "theorems": [
    "C07_unique_id_partial",
    "C07_create_map_refuted"
   ],
   "note": "true after add histories; false for maps from createMap, whose ids are not registered"
  },
  {
   "property": "C08",
   "status": "partial",
   "theorems": [
    "C08_usages_after_add",
    "C08_usages_create_map_partial",
    "C08_usages_create_map_refuted"
   ],
   "note": "exact count per user for add histories; for createMap only if ids are valid and registered"
  },
  {
   "property": "C09",
   "status": "partial",
   "theorems": [
    "C09_find_nearest_partial",
    "C09_find_nearest_lines",
    "C09_count_zero_refuted",
    "C09_stale_iterator_refuted",
    "C09_layer_size_refuted"
   ],
   "note": "exact for the elements of the spatial index (index below 2^32 elements); elements with an empty box are never returned; count 0 is undefined; insert uses an iterator invalidated by pop_back"
  },
  {
   "property": "C10",
   "status": "partial",
   "theorems": [
    "C10_search_until",
    "C10_nearest_until",
    "C10_pure",
    "C10_size_truncation_refuted"
   ],
   "note": "nearestUntil for less than 2^32 elements"
  },
  {
   "property": "C11",
   "status": "proved",
   "theorems": [
    "C11_shortest_path_optimal"
   ],
   "note": "every graph, tie-breaking and cost arithmetic satisfying CostLaws (no associativity assumed); a total cost that overflows to infinity counts as no path"
  },
  {
   "property": "C12",
   "status": "partial",
   "theorems": [
    "C12_reachable_set_exact",
    "C12_start_always_included_refuted"
   ],
   "note": "the set is exact for every budget; 'start is always included' is false for a negative budget"
  },
  {
   "property": "C13",
   "status": "partial",
   "theorems": [
    "C13_possible_paths_partial",
    "C13_shortest_refuted",
    "C13_least_lane_changes_refuted"
   ],
   "note": "paths are exactly the branches of the pruned shortest path tree; 'shortest path to its last lanelet' and 'least number of lane changes' are false in general"
  },
  {
   "property": "C14",
   "status": "proved",
   "theorems": [
    "C14_for_each"
   ],
   "note": "visit functions with state and exceptions; completeness also in the exception case"
  },
  {
   "property": "C15",
   "status": "proved",
   "theorems": [
    "C15_shortest_path_via"
   ],
   "note": ""
  },
  {
   "property": "C16",
   "status": "partial",
   "theorems": [
    "C16_filters_exact_partial",
    "C16_without_conflicting_refuted"
   ],
   "note": "all views but withoutConflicting are exact; withoutConflicting admits Conflicting edges"
  },
  {
   "property": "C17",
   "status": "proved",
   "theorems": [
    "C17_stored_edges",
    "C17_edges_valid",
    "C17_add_edge_result"
   ],
   "note": ""
  },
  {
   "property": "C18",
   "status": "partial",
   "theorems": [
    "C18_neighbours_listed_once",
    "C18_neighbours_terminate_partial",
    "C18_neighbour_is_edge",
    "C18_no_neighbour_no_edge",
    "C18_besides",
    "C18_lefts_refuted"
   ],
   "note": "termination holds for acyclic neighbour relations only; a ring of left edges loops forever"
  },
  {
   "property": "C19",
   "status": "partial",
   "theorems": [
    "C19_remaining_lane",
    "C19_full_lane",
    "C19_remaining_of_full",
    "C19_same_lane",
    "C19_not_on_route",
    "C19_remaining_path_partial",
    "C19_path_not_on_route",
    "C19_single_refuted"
   ],
   "note": "Lanes: proved for every graph, also circular lanes. remainingShortestPath: proved except for a path of one lanelet, for which it is refuted (returns nothing)."
  },
  {
   "property": "C20",
   "status": "proved",
   "theorems": [
    "C20_inverted_reads",
    "C20_invert_involutive"
   ],
   "note": ""
  },
  {
   "property": "C21",
   "status": "partial",
   "theorems": [
    "C21_mutation_partial",
    "C21_history_partial",
    "C21_range_iterator_refuted",
    "C21_empty_range_refuted",
    "C21_move_assign_refuted"
   ],
   "note": "contents after every history of calls through both views; false for the iterator returned by an inverted range insertion, an empty range at begin() of an inverted view (undefined behaviour) and assignment from an rvalue vector"
  },
  {
   "property": "C22",
   "status": "proved",
   "theorems": [
    "C22_compound_points",
    "C22_polygon_segments_refuted",
    "C22_polygon_segments_partial"
   ],
   "note": "the refutation concerns numSegments of compound polygons with less than two points, which is not part of the statement"
  },
  {
   "property": "C23",
   "status": "partial",
   "theorems": [
    "C23_hybrid_map_partial",
    "C23_nul_key_refuted"
   ],
   "note": "all histories of calls on any number of maps with keys without NUL characters; a key with an embedded NUL breaks the enum lookup"
  },
  {
   "property": "C24",
   "status": "partial",
   "theorems": [
    "C24_getters_stable_partial",
    "C24_constructed_value_partial",
    "C24_double_condition_partial",
    "C24_double_refuted",
    "C24_velocity_refuted"
   ],
   "note": "attributes from strings, bools, ints and ids; attributes from doubles and velocities exactly if the printed value reads back. False in general for doubles and velocities"
  },
  {
   "property": "C25",
   "status": "partial",
   "theorems": [
    "C25_values_partial",
    "C25_single_reader_partial",
    "C25_no_store_partial",
    "C25_use_after_free_refuted"
   ],
   "note": "the values returned are right in every schedule, but the raw pointer returned by load may dangle; no dangling access with a single reader or if no reader stores"
  },
  {
   "property": "C26",
   "status": "proved",
   "theorems": [
    "C26_centerline_coherent",
    "C26_concurrent_readers",
    "C26_invalid_id_refuted",
    "C26_no_reset_refuted"
   ],
   "note": "all histories in which custom centerlines have a valid id and changed points are notified with resetCache, as documented; the refuted theorems show that these conditions are needed"
  },
  {
   "property": "C27",
   "status": "partial",
   "theorems": [
    "C27_lane_change_partial",
    "C27_inverted_partial",
    "C27_incomplete_override_refuted",
    "C27_both_sides_refuted"
   ],
   "note": "documented tags (lane_change:left and :right both or none), lanelets that are not left and right of each other at once; false without these"
  },
  {
   "property": "C28",
   "status": "partial",
   "theorems": [
    "C28_area_area_partial",
    "C28_other_overloads",
    "C28_area_area_refuted",
    "C28_vehicle_refuted"
   ],
   "note": "false for canPass(area, area): && instead of ||; the other overloads are right"
  },
  {
   "property": "C29",
   "status": "partial",
   "theorems": [
    "C29_overrides_partial",
    "C29_unrelated_partial",
    "C29_unrelated_refuted",
    "C29_bus_lane_refuted"
   ],
   "note": "documented tags and subtypes other than bus_lane; any other key beginning with participant closes the lanelet, bus lanes are closed for buses"
  },
  {
   "property": "C30",
   "status": "partial",
   "theorems": [
    "C30_regulatory_element",
    "C30_signs",
    "C30_tags_partial",
    "C30_bus_lane_refuted",
    "C30_fine_mandatory_refuted",
    "C30_zero_refuted"
   ],
   "note": "regulatory elements, documented tags and the types of the table; false for bus lanes (0 km/h), finer mandatory overrides and other keys beginning with speed_limit"
  },
  {
   "property": "C31",
   "status": "partial",
   "theorems": [
    "C31_pairing_partial",
    "C31_expired_refuted",
    "C31_remove_refuted",
    "C31_parameter_kinds_refuted"
   ],
   "note": "Pairing holds for every history of calls and expirations as long as no lanelet in front has expired; refuted in general: wrong stop line after an expiry, undefined behaviour in removeLanelet after all lanelets expired, polygons counted as stop lines by the constructor."
  },
  {
   "property": "C32",
   "status": "partial",
   "theorems": [
    "C32_round_trip_partial",
    "C32_ele_refuted",
    "C32_loss_refuted",
    "C32_elevation_refuted"
   ],
   "note": "Proved for every file whose map keys are the ids, whose pointers refer to elements of the file and whose strings contain no NUL and no attribute key \"ele\": everything comes back, coordinates as the number their text denotes (printing and parsing of numbers by boost/pugixml are parameters). Refuted: an attribute \"ele\" is lost or becomes the height; strings are cut at NUL; josm_format_elevation rounds heights."
  },
  {
   "property": "C33",
   "status": "partial",
   "theorems": [
    "C33_read_partial",
    "C33_write_partial",
    "C33_write_corrected",
    "C33_write_refuted"
   ],
   "note": "Reading: proved for every document and every way the deque relocates its elements (only assumption: attribute names of a tag are distinct, as XML demands). Writing a map: proved when no lanelet or area of a regulatory element follows one that is not in the map, and for every map if the writer corrected positions like the reader does; otherwise undefined behaviour (refuted)."
  },
  {
   "property": "C34",
   "status": "partial",
   "theorems": [
    "C34_round_trip_partial",
    "C34_file_partial",
    "C34_type_refuted",
    "C34_kind_refuted",
    "C34_orientation_refuted",
    "C34_role_refuted",
    "C34_ids_refuted",
    "C34_empty_refuted"
   ],
   "note": "Proved for maps whose tags do not contradict the kind of the element, with ids distinct where ways and relations share them, centerlines and parameters not inverted, rings that can be told apart by the validity check; also with the XML text in between. geometry::align, is_valid, the projector and the factory are parameters. The refutations show what is lost without an error otherwise."
  },
  {
   "property": "C35",
   "status": "proved",
   "theorems": [
    "C35_value"
   ],
   "note": ""
  },
  {
   "property": "C36",
   "status": "partial",
   "theorems": [
    "C36_rings_partial",
    "C36_rings_found",
    "C36_outer_ring",
    "C36_unreported_refuted"
   ],
   "note": "Every ring returned is closed and made of the given line strings, each used once (inverted or not); when the line strings of rings with distinct junctions are given, exactly these rings come back. Refuted: an open chain at the end is dropped without an error."
  },
  {
   "property": "C37",
   "status": "partial",
   "theorems": [
    "C37_relation_equality_partial",
    "C37_way_equality_partial",
    "C37_relation_equality_refuted",
    "C37_file_equality_refuted"
   ],
   "note": "The claim is false: the comparison uses && where || is meant, and roles and attributes are not compared. Proved: what equality of relations and of ways means exactly."
  },
  {
   "property": "C38",
   "status": "proved",
   "theorems": [
    "C38_reverse_forward",
    "C38_forward_reverse"
   ],
   "note": "Over the real numbers of the standard library (see its axioms in DESIGN.md); rounding of double is not modelled."
  },
  {
   "property": "C39",
   "status": "partial",
   "theorems": [
    "C39_traffic_light_partial",
    "C39_right_of_way_partial",
    "C39_traffic_sign_partial",
    "C39_invariant_refuted"
   ],
   "note": "Every history changes exactly the named role by one occurrence; refuted: removing does not keep the constructor invariants."
  },
  {
   "property": "C40",
   "status": "partial",
   "theorems": [
    "C40_lanelet_bounds",
    "C40_lanelet_invert",
    "C40_sequence_bounds_partial",
    "C40_inverted_lanelets_refuted",
    "C40_concatenate_refuted",
    "C40_equality_refuted"
   ],
   "note": "lanelets completely; the bounds of an inverted sequence are not the bounds of its lanelets(), which are reversed but not inverted"
  },
  {
   "property": "C41",
   "status": "proved",
   "theorems": [
    "C41_following_previous"
   ],
   "note": ""
  },
  {
   "property": "C42",
   "status": "partial",
   "theorems": [
    "C42_usages_in_lanelets",
    "C42_usages_in_lanelets_once_refuted"
   ],
   "note": "the set is exact; duplicates are possible"
  },
  {
   "property": "C43",
   "status": "proved",
   "theorems": [
    "C43_index_exact"
   ],
   "note": ""
  },
  {
   "property": "C44",
   "status": "proved",
   "theorems": [
    "C44_create_map_self_contained",
    "C44_create_map_invalid_ids_refuted"
   ],
   "note": "the condition on the ids is needed, see the refutation"
  },
  {
   "property": "C45",
   "status": "partial",
   "theorems": [
    "C45_submap_add",
    "C45_submap_add_twice_refuted"
   ],
   "note": "a second add doubles usage and index entries"
  },
  {
   "property": "C46",
   "status": "proved",
   "theorems": [
    "C46_find_within",
    "C46_box_search_complete"
   ],
   "note": ""
  },
  {
   "property": "C47",
   "status": "partial",
   "theorems": [
    "C47_units_partial",
    "C47_other_unit_refuted",
    "C47_kmph_refuted"
   ],
   "note": "the documented units are read as documented; other units are not rejected"
  },
  {
   "property": "C48",
   "status": "partial",
   "theorems": [
    "C48_lanelet_area_partial",
    "C48_area_area_partial",
    "C48_two_bounds_refuted"
   ],
   "note": "sound always, complete if there is one common bound; with several common bounds only the first one counts"
  },
  {
   "property": "C49",
   "status": "proved",
   "theorems": [
    "C49_direction"
   ],
   "note": ""
  },
  {
   "property": "C50",
   "status": "partial",
   "theorems": [
    "C50_centerline_partial",
    "C50_early_stop",
    "C50_inside_refuted",
    "C50_one_point_refuted",
    "C50_end_refuted",
    "C50_direction_refuted"
   ],
   "note": "for any geometry; the closing segment is not checked against the bounds; undefined for a one point left bound shared with the right bound; end missing for a triangle of a two and a one point bound"
  },
  {
   "property": "C51",
   "status": "proved",
   "theorems": [
    "C51_conformal",
    "C51_true_at_origin"
   ],
   "note": "Over the real numbers of the standard library."
  },
  {
   "property": "C52",
   "status": "proved",
   "theorems": [
    "C52_reverse_forward",
    "C52_forward_reverse",
    "C52_origin",
    "C52_zone",
    "C52_errors"
   ],
   "note": "GeographicLib is a parameter with the laws stated in lib_laws; exact arithmetic. A GeographicErr thrown in the constructor is not converted."
  },
  {
   "property": "C53",
   "status": "partial",
   "theorems": [
    "C53_chain",
    "C53_terminates_partial",
    "C53_foreign_refuted",
    "C53_ring_refuted"
   ],
   "note": "What is returned is the chain of neighbours; undefined behaviour for a lanelet that is not on the route (documented: nothing returned); endless loop on cyclic neighbour relations."
  },
  {
   "property": "C54",
   "status": "partial",
   "theorems": [
    "C54_missing_partial",
    "C54_consistent_refuted",
    "C54_inconsistent_refuted"
   ],
   "note": "Refuted: the check of the kind of the relation back is inverted. Proved: missing lanelets and missing relations back are reported exactly."
  },
  {
   "property": "C55",
   "status": "partial",
   "theorems": [
    "C55_double_laws_partial",
    "C55_shortest_path_partial",
    "C55_closed_plus",
    "C55_closed_plus_refuted"
   ],
   "note": "Proved for IEEE double with addition rounded to nearest (Flocq). boost::closed_plus differs exactly if an operand is the largest double; there it is not monotone (refuted)."
  },
  {
   "property": "C56",
   "status": "partial",
   "theorems": [
    "C56_build_total",
    "C56_vertices",
    "C56_undrawn",
    "C56_safe_refuted"
   ],
   "note": "Proved if the bounds of usable lanelets have points and the costs are not negative; a usable lanelet with an empty bound is undefined behaviour (refuted). The search structures and the overlap tests of polygons are parameters with the laws in `sane`."
  },
  {
   "property": "C57",
   "status": "partial",
   "theorems": [
    "C57_successors",
    "C57_edges_once",
    "C57_once_refuted"
   ],
   "note": "The characterisation of the edges is proved for every map; uniqueness of all edges but the successors for every map, of successors if no usable lanelet ends where it begins, refuted otherwise."
  },
  {
   "property": "C58",
   "status": "partial",
   "theorems": [
    "C58_adjacent_sound",
    "C58_adjacent_complete"
   ],
   "note": "Completeness for neighbours that are not also the lanelet ahead or on the other side; where the lane can be changed see C59_change_complete."
  },
  {
   "property": "C59",
   "status": "partial",
   "theorems": [
    "C59_change_sound",
    "C59_change_complete",
    "C59_second_neighbour_refuted",
    "C59_order_refuted"
   ],
   "note": "Proved for every iteration order on maps with one neighbour per side. Refuted: a second neighbour to which the lane can be changed gets no edge; where lanes merge the cost depends on the iteration order."
  },
  {
   "property": "C60",
   "status": "partial",
   "theorems": [
    "C60_conflicts",
    "C60_conflicts_mutual",
    "C60_inverted_refuted",
    "C60_head_on_refuted"
   ],
   "note": "Exact characterisation proved; it differs from the English statement for two inverted lanelets (no edge) and lanelets that meet head-on (not taken as neighbours)."
  },
  {
   "property": "C61",
   "status": "partial",
   "theorems": [
    "C61_area_edges",
    "C61_area_conflicts",
    "C61_mutual_refuted"
   ],
   "note": "Area edges as stated. Conflicts with areas: exact characterisation proved; they are not mutual and missing for the inverted direction (refuted)."
  },
  {
   "property": "C62",
   "status": "partial",
   "theorems": [
    "C62_relations_sound",
    "C62_relations_complete",
    "C62_relations_end",
    "C62_end_refuted",
    "C62_prefix_refuted"
   ],
   "note": "What is returned is proved to be a complete walk; returning is proved without rings of neighbours and refuted with them; with both kinds of neighbours the walk depends on how a lanelet was reached."
  },
  {
   "property": "C63",
   "status": "partial",
   "theorems": [
    "C63_check_exact",
    "C63_check_ends",
    "C63_end_refuted",
    "C63_no_module_refuted"
   ],
   "note": "Exactness proved for every graph; the check does not end on rings (also consistent ones) and throws InvalidInputError for a graph without cost modules (refuted)."
  },
  {
   "property": "C64",
   "status": "partial",
   "theorems": [
    "C64_history",
    "C64_built_valid",
    "C64_relations_map",
    "C64_fork_refuted"
   ],
   "note": "Proved under the conditions of the quantifier; with two lanelets on the same side the built graph does not pass the check (refuted)."
  },
  {
   "property": "C65",
   "status": "partial",
   "theorems": [
    "C65_build_ends",
    "C65_without_lane_changes",
    "C65_get_route",
    "C65_defined_refuted",
    "C65_end_refuted"
   ],
   "note": "Without lane changes a route always results, and getRoute finds one exactly if there is a way. With lane changes: no endless loop and no exception without rings of neighbours; refuted: a write behind the end of a vector, and an endless loop on a ring of neighbours."
  },
  {
   "property": "C66",
   "status": "partial",
   "theorems": [
    "C66_route_lanelets",
    "C66_route_edges",
    "C66_conflicts"
   ],
   "note": "Proved whenever the builder returns a route (see C65) and driving leads from lanelets to lanelets only, which holds in every graph built from a map (C109); the debug map is C105, the submap of the route C115."
  },
  {
   "property": "C67",
   "status": "partial",
   "theorems": [
    "C67_lanes_sound",
    "C67_lanes_exact",
    "C67_num_lanes",
    "C67_full_lane",
    "C67_lanes_refuted"
   ],
   "note": "Equal ids imply the same lane always; the converse and the number of lanes if every determined lanelet was kept, refuted otherwise."
  },
  {
   "property": "C68",
   "status": "partial",
   "theorems": [
    "C68_leads_to_end_partial",
    "C68_end_refuted",
    "C68_dead_end_refuted"
   ],
   "note": "Every lanelet leads to the end or into a circle of following lanelets; refuted for the circle, and for ways that stay on the route."
  },
  {
   "property": "C69",
   "status": "partial",
   "theorems": [
    "C69_neighbours_partial",
    "C69_three_lanes_refuted"
   ],
   "note": "Proved where the lane can be changed in at most one way; refuted with three lanes."
  },
  {
   "property": "C70",
   "status": "proved",
   "theorems": [
    "C70_growth"
   ],
   "note": "The property names the conditions under which a lanelet joins, with the growing set of lanelets as intermediate states; it does not say that every lanelet that may join does so (see C69 for mutual lane changes). Driving leads from lanelets to lanelets, as in every graph built from a map (C109)."
  },
  {
   "property": "C71",
   "status": "partial",
   "theorems": [
    "C71_spaces",
    "C71_project",
    "C71_closest_segment",
    "C71_query",
    "C71_empty_refuted"
   ],
   "note": "Proved for exact coordinates; refuted for the empty line string (undefined behaviour)."
  },
  {
   "property": "C72",
   "status": "partial",
   "theorems": [
    "C72_closest_2d",
    "C72_closest_3d",
    "C72_on_lines",
    "C72_empty_throws",
    "C72_short_refuted",
    "C72_degenerate_refuted",
    "C72_border_refuted",
    "C72_overlaps_refuted"
   ],
   "note": "Proved for coordinates on a grid (e.g. centimetres) and line strings that are not constant; refuted for short segments, constant line strings and for polygon borders, whose closing edge is left out."
  },
  {
   "property": "C73",
   "status": "partial",
   "theorems": [
    "C73_side",
    "C73_off_corners",
    "C73_distance",
    "C73_tree_refuted",
    "C73_double_refuted"
   ],
   "note": "The sign is proved for line strings below 50 points without repeated points or reversals, and for line strings of any length if the nearest points are not at corners; refuted with the tree search (from 50 points on) and for doubled points. The absolute value is proved for every line string."
  },
  {
   "property": "C74",
   "status": "partial",
   "theorems": [
    "C74_interpolated",
    "C74_nearest",
    "C74_short",
    "C74_spaces"
   ],
   "note": "Proved for real coordinates without rounding: the interpolated point is exact up to 1e-8 (the tolerance in the code). The empty line string is undefined behaviour."
  },
  {
   "property": "C75",
   "status": "partial",
   "theorems": [
    "C75_ratios",
    "C75_accumulated",
    "C75_equal_points_refuted"
   ],
   "note": "Proved for real coordinates without rounding if the length is not zero; refuted otherwise for three or more points (not a number)."
  },
  {
   "property": "C76",
   "status": "partial",
   "theorems": [
    "C76_to_arc",
    "C76_search",
    "C76_loop_refuted"
   ],
   "note": "Proved if no segment starts where another starts; refuted for line strings with a loop. Real coordinates without rounding."
  },
  {
   "property": "C77",
   "status": "partial",
   "theorems": [
    "C77_inside",
    "C77_beyond",
    "C77_short",
    "C77_round_trip",
    "C77_lateral",
    "C77_corner_refuted",
    "C77_negative_refuted",
    "C77_doubled_refuted",
    "C77_lateral_first_refuted"
   ],
   "note": "Proved for lengths that are not negative and, for the inverse, points whose nearest points are not corners; refuted for negative lengths, at a doubled end, for corners, and for the negative index of the first point."
  },
  {
   "property": "C78",
   "status": "proved",
   "theorems": [
    "C78_partition_fills",
    "C78_partition_area"
   ],
   "note": "Proved if the edges of the polygon are edges of the triangulation (see C80 for others). The Voronoi diagram of boost is given from outside; the parts are compared by their edges and signed areas."
  },
  {
   "property": "C79",
   "status": "partial",
   "theorems": [
    "C79_parts_convex",
    "C79_number_refuted"
   ],
   "note": "Convexity proved under the same conditions, for the test of convexity as a parameter. The bound 2N+1 on the number of parts is refuted: eight parts for a polygon that three parts fill, whatever the order of the gates."
  },
  {
   "property": "C80",
   "status": "partial",
   "theorems": [
    "C80_triangulate_partial",
    "C80_triangles_outside_refuted",
    "C80_partition_throws_refuted",
    "C80_endless_recursion_refuted",
    "C80_accuracy_refuted"
   ],
   "note": "triangulate is refuted for polygons that are not convex (it returns the Delaunay triangulation of the points); proved is that the triangles have the areas of all Voronoi polygons. convexPartition is refuted: an exception, or a recursion without end, for simple polygons with other edges."
  },
  {
   "property": "C81",
   "status": "partial",
   "theorems": [
    "C81_unknown_tags",
    "C81_documented_partial",
    "C81_documented_refuted"
   ],
   "note": "The words of the tables are proved exactly; refuted for some documented keys (road_name, road_surface, participants of areas), which are reported."
  },
  {
   "property": "C82",
   "status": "partial",
   "theorems": [
    "C82_values_partial",
    "C82_line_types_partial",
    "C82_line_subtypes_refuted",
    "C82_combined_key_refuted",
    "C82_exit_refuted"
   ],
   "note": "Proved for all but the subtypes of line strings, which are never reported (refuted)."
  },
  {
   "property": "C83",
   "status": "proved",
   "theorems": [
    "C83_mandatory_tags",
    "C83_bool_tags"
   ],
   "note": "Exactly the missing tags and the values that are no truth values."
  },
  {
   "property": "C84",
   "status": "partial",
   "theorems": [
    "C84_duplicated_points",
    "C84_none",
    "C84_polygon_refuted"
   ],
   "note": "Proved for points in succession; refuted for the edge of a polygon from the last to the first point."
  },
  {
   "property": "C85",
   "status": "partial",
   "theorems": [
    "C85_points_too_close_partial",
    "C85_heights_refuted"
   ],
   "note": "Soundness proved; completeness proved if the points nearby have the same height, refuted otherwise. Real coordinates without rounding."
  },
  {
   "property": "C86",
   "status": "partial",
   "theorems": [
    "C86_circle_partial",
    "C86_triples",
    "C86_doubled",
    "C86_reversal_refuted"
   ],
   "note": "Proved for points whose distances have a product of 1e-20 or more; refuted as a test for sharp bends: a reversal has curvature zero. Real coordinates without rounding."
  },
  {
   "property": "C87",
   "status": "partial",
   "theorems": [
    "C87_available_checks",
    "C87_validate_map",
    "C87_report",
    "C87_info_refuted"
   ],
   "note": "Proved with regular expressions and checks as parameters; issues of severity Info are not in the report (refuted for all issues)."
  },
  {
   "property": "C88",
   "status": "partial",
   "theorems": [
    "C88_angles",
    "C88_distance",
    "C88_determined",
    "C88_not_negative",
    "C88_opposite",
    "C88_throws",
    "C88_kappa_refuted",
    "C88_determinant_refuted"
   ],
   "note": "Proved over real numbers; refuted for the documented meaning of kappa (1 / variance: the code squares it) and of the exception (thrown for regular covariances of millimetres)."
  },
  {
   "property": "C89",
   "status": "partial",
   "theorems": [
    "C89_deterministic",
    "C89_probabilistic",
    "C89_throws_partial",
    "C89_throws_refuted",
    "C89_close",
    "C89_compliant"
   ],
   "note": "Proved for every sorting function and search; the exception for singular covariances is not thrown without a lanelet nearby (refuted)."
  },
  {
   "property": "C90",
   "status": "partial",
   "theorems": [
    "C90_conflicting",
    "C90_all_graphs",
    "C90_route",
    "C90_inverted_refuted"
   ],
   "note": "Proved with overlaps and search as parameters; an inverted lanelet is in conflict with itself (refuted)."
  },
  {
   "property": "C91",
   "status": "partial",
   "theorems": [
    "C91_samples",
    "C91_length",
    "C91_refused",
    "C91_distance",
    "C91_time",
    "C91_zero_limit_refuted",
    "C91_infinite_limit_refuted",
    "C91_inverse_refuted"
   ],
   "note": "Proved over real numbers for positive finite limits; refuted for a limit of zero (meant to be a large one), for infinite limits (the program ends) and for inverse lanelets."
  },
  {
   "property": "C92",
   "status": "partial",
   "theorems": [
    "C92_outline",
    "C92_exact",
    "C92_lanelets",
    "C92_no_doubled_points",
    "C92_points",
    "C92_outcome",
    "C92_single_area_refuted",
    "C92_bent_border_refuted",
    "C92_return_refuted",
    "C92_unrelated_refuted"
   ],
   "note": "Proved for paths that do not come back by the side they came from, exact if borders crossed at the end of a lanelet have two points; refuted for borders with a bend, for paths that turn back and for lanelets that are not related, which are joined without an error."
  },
  {
   "property": "C93",
   "status": "proved",
   "theorems": [
    "C93_remaining_lane",
    "C93_longest"
   ],
   "note": "For every path and position."
  },
  {
   "property": "C94",
   "status": "partial",
   "theorems": [
    "C94_not_further",
    "C94_convex",
    "C94_sharp_right_refuted",
    "C94_doubled_point_refuted",
    "C94_restart_refuted"
   ],
   "note": "The upper bound holds for all line strings without doubled points, both bounds for those that turn away from the offset, over real numbers. Refuted for sharp corners and negative distances, where the overshoot has the wrong sign, for doubled points, and for a point shortly behind a corner, from where the walk goes back."
  },
  {
   "property": "C95",
   "status": "partial",
   "theorems": [
    "C95_joined",
    "C95_join_ends",
    "C95_checked",
    "C95_too_short",
    "C95_too_short_refuted",
    "C95_negative_unchecked",
    "C95_inverted_refuted",
    "C95_self_intersection_refuted"
   ],
   "note": "Proved for positive distances and, about the joining, for parts that meet in first segments only. Refuted: negative distances are never checked, the result may cross itself if the line string does, and offsetNoThrow does not throw for less than two points."
  },
  {
   "property": "C96",
   "status": "proved",
   "theorems": [
    "C96_no_self_intersections"
   ],
   "note": "For every line string, over real numbers, with a tree that returns all segments that touch and exact common points."
  },
  {
   "property": "C97",
   "status": "partial",
   "theorems": [
    "C97_round_trip",
    "C97_library_rules",
    "C97_ids",
    "C97_unknown_rule_refuted",
    "C97_no_light_refuted",
    "C97_outside_refuted",
    "C97_expired",
    "C97_ids_refuted",
    "C97_same_id_refuted"
   ],
   "note": "Proved for maps whose regulatory elements can be constructed and whose lanelet and area parameters are in the map; the archive is a list of tokens. Refuted without these conditions: the file of a regulatory element with unknown subtype or a traffic light without lights cannot be read, a lanelet outside of the map is gone after reading, regulatory elements with the same id become one, and ids that were not registered are issued again."
  },
  {
   "property": "C98",
   "status": "partial",
   "theorems": [
    "C98_touches",
    "C98_touches_symmetric",
    "C98_adjacent",
    "C98_areas",
    "C98_areas_symmetric",
    "C98_common_adjacent",
    "C98_ahead",
    "C98_behind",
    "C98_either",
    "C98_beside",
    "C98_sideways",
    "C98_left_right",
    "C98_anywhere",
    "C98_direction",
    "C98_follows",
    "C98_followed",
    "C98_follows_common",
    "C98_lanelets",
    "C98_lanelets_symmetric",
    "C98_twice_refuted",
    "C98_empty_polygon_refuted",
    "C98_sideways_refuted",
    "C98_follows_refuted",
    "C98_empty_bound_refuted",
    "C98_same_side_refuted"
   ],
   "note": "Proved for polygons that pass no point twice and bounds with points. Refuted: a common edge is missed behind a point that occurs twice, empty compound polygons and bounds are accessed, the overloads of determineCommonLineSideways give different line strings, follows(lanelet, area) ignores the direction, and lanelets on the same side of a bound have no common line."
  },
  {
   "property": "C99",
   "status": "partial",
   "theorems": [
    "C99_points",
    "C99_lanelet",
    "C99_area",
    "C99_rule",
    "C99_order",
    "C99_tests",
    "C99_combinations",
    "C99_distance",
    "C99_rule_distance",
    "C99_empty_refuted"
   ],
   "note": "Proved over real numbers; intersects is refuted for empty boxes other than that of setEmpty."
  },
  {
   "property": "C100",
   "status": "partial",
   "theorems": [
    "C100_bounds",
    "C100_exact",
    "C100_straight",
    "C100_zigzag_refuted"
   ],
   "note": "Bounds for every metric; from 20 points on the result may be zero for a bound of any length (refuted as an approximation)."
  },
  {
   "property": "C101",
   "status": "partial",
   "theorems": [
    "C101_lanelets",
    "C101_neighbours",
    "C101_polygons",
    "C101_inside",
    "C101_ramp_refuted",
    "C101_hook_refuted"
   ],
   "note": "Proved for lanelets that are not neighbours, with boost's relate as parameter; refuted for neighbours that bend back and cross, which never overlap for the library."
  },
  {
   "property": "C102",
   "status": "partial",
   "theorems": [
    "C102_this",
    "C102_same",
    "C102_other_refuted"
   ],
   "note": "Proved for the first lanelet; the distances on the other lanelet are computed on the centerline of the first one (refuted)."
  },
  {
   "property": "C103",
   "status": "partial",
   "theorems": [
    "C103_layers",
    "C103_conversion_partial",
    "C103_nothing_else",
    "C103_tracked",
    "C103_survivors",
    "C103_second_level_refuted",
    "C103_ids_refuted"
   ],
   "note": "Proved if the bounds and points of lanelets and areas have ids. Refuted: add gives no ids to bounds and points, so that laneletMap() loses them; parameters of regulatory elements of parameters are not kept alive."
  },
  {
   "property": "C104",
   "status": "partial",
   "theorems": [
    "C104_cost_id",
    "C104_points",
    "C104_lines",
    "C104_both_ways_refuted",
    "C104_parallel_refuted"
   ],
   "note": "Proved for different ids and at most one shown edge per ordered pair. Refuted for lanelets that can be used in both directions, whose points collapse, and for parallel edges, which are shown as reverse relation."
  },
  {
   "property": "C105",
   "status": "partial",
   "theorems": [
    "C105_points",
    "C105_line_partial",
    "C105_lines_refuted",
    "C105_single_refuted"
   ],
   "note": "Points proved. Refuted: all line strings have the invalid id and the map keeps only one of them; a route of one lanelet has a point with a new id and without lane."
  },
  {
   "property": "C106",
   "status": "proved",
   "theorems": [
    "C106_extension",
    "C106_load",
    "C106_load_by",
    "C106_write",
    "C106_write_by",
    "C106_available"
   ],
   "note": "For all handlers. Paths as on POSIX."
  },
  {
   "property": "C107",
   "status": "partial",
   "theorems": [
    "C107_osm_partial",
    "C107_ids",
    "C107_messages",
    "C107_bin",
    "C107_locale_refuted",
    "C107_replaced_refuted",
    "C107_class_refuted",
    "C107_origin_refuted"
   ],
   "note": "The round trips are proved for the maps of C34 and C97. Refuted: the warning about the locale is never reported; a file is replaced although write throws; writers throw ParseError; a default origin is not reported as documented."
  },
  {
   "property": "C108",
   "status": "partial",
   "theorems": [
    "C108_align_partial",
    "C108_segments",
    "C108_documented",
    "C108_directions",
    "C108_empty",
    "C108_touching_refuted",
    "C108_spiral_refuted"
   ],
   "note": "Proved for bounds whose middle is seen on the proper side from all nearest points of the other bound. Refuted for bounds that touch in the middle and for lanes that wind around themselves with a small gap. In the plane only."
  },
  {
   "property": "C109",
   "status": "partial",
   "theorems": [
    "C109_shortest_path",
    "C109_reachable",
    "C109_route",
    "C109_lane_changes_partial"
   ],
   "note": "Composition of C11, C12, C56, C57, C59, C65 and C66. Without lane changes in full, for lanelets. With lane changes existence and steps only, for maps with at most one lanelet on each side and modules that refuse nothing; the cost of a lane change depends on the stretch (C59), and that the path is cheapest is C11."
  },
  {
   "property": "C110",
   "status": "partial",
   "theorems": [
    "C110_lines",
    "C110_lanelets",
    "C110_areas_partial",
    "C110_rules",
    "C110_usages",
    "C110_find_partial",
    "C110_parameters",
    "C110_add",
    "C110_create",
    "C110_areas_refuted",
    "C110_bounds_refuted",
    "C110_find_refuted",
    "C110_create_refuted"
   ],
   "note": "Proved for everything but areas and the id 0. Refuted: regulatory elements and holes of areas are not looked at; find of any parameter with the id 0 returns an expired one; an unknown rule throws instead of giving a generic element, after the subtype of the data was changed. Line strings are not found in the lanelets they bound."
  },
  {
   "property": "C111",
   "status": "partial",
   "theorems": [
    "C111_following_partial",
    "C111_previous_partial",
    "C111_conflict_refuted"
   ],
   "note": "Answers, order and absence of undefined behaviour in full. That the relation is the way one gets there is proved for different lanelets that are not beside each other on both sides; refuted for the two directions of one lanelet whose bounds meet in a point (a conflict is reported)."
  },
  {
   "property": "C112",
   "status": "partial",
   "theorems": [
    "C112_exit_code",
    "C112_lines",
    "C112_agree_partial",
    "C112_returns_partial",
    "C112_own_agree",
    "C112_own_all",
    "C112_own_plain_partial",
    "C112_participant_refuted",
    "C112_empty_bound_refuted",
    "C112_ring_refuted",
    "C112_info_refuted"
   ],
   "note": "Exit code and lines in full. Number and code agree for checks without severity Info, in particular for those of the repository. That the program ends by itself is proved for well drawn maps with at most one lanelet on each side and without rings of lanes; refuted for unknown participants, bounds without points and lanes in a ring. Parsing of the command line is not modelled."
  },
  {
   "property": "C113",
   "status": "partial",
   "theorems": [
    "C113_shortest_path",
    "C113_shortest_path_via",
    "C113_reachable",
    "C113_towards",
    "C113_route_partial",
    "C113_order_refuted",
    "C113_route_refuted"
   ],
   "note": "Paths, paths over points and reachable sets in both directions in full for a fixed price of a lane change. Routes: proved unless the route builder runs into undefined behaviour, for which a map is given (C113_route_refuted). With a minimal length of a lane change the iteration order of a hash map decides whether a path exists (C113_order_refuted)."
  },
  {
   "property": "C114",
   "status": "partial",
   "theorems": [
    "C114_statement",
    "C114_program",
    "C114_defined",
    "C114_swap_refuted",
    "C114_rotate_refuted",
    "C114_append_refuted"
   ],
   "note": "Every single statement in full; programs that do not use what ls[i] returned after a change. Refuted for the others: the usual swap of two elements loses a point, and after append the returned point may be memory that is gone."
  },
  {
   "property": "C115",
   "status": "partial",
   "theorems": [
    "C115_graph_lanelets",
    "C115_graph_areas",
    "C115_graph_partial",
    "C115_graph_refuted",
    "C115_route",
    "C115_query",
    "C115_route_refuted"
   ],
   "note": "Nothing else, and every lanelet found by its id, in full; all lanelets with their directions if none is used in both. Refuted otherwise: of a lanelet in both directions the submap has one."
  },
  {
   "property": "C116",
   "status": "partial",
   "theorems": [
    "C116_renumber",
    "C116_script_partial",
    "C116_failure",
    "C116_zero_refuted",
    "C116_inplace_refuted"
   ],
   "note": "The change of ids in full for maps whose references stay in the map. The script from file to file for maps that come back from a file at all (as C34). Refuted: ids that are 0 stay, and relations the loader does not know are removed from the file. Wrap-around of the counter is excluded."
  },
  {
   "property": "C117",
   "status": "partial",
   "theorems": [
    "C117_graphviz_partial",
    "C117_declared",
    "C117_graphml",
    "C117_graphml_determines",
    "C117_direction_refuted"
   ],
   "note": "Both files can be read back in full, boost's writers are modelled by their output. The DOT file does not tell the two directions of a lanelet apart, so it bears less than the GraphML document instead of more (refuted). Costs are printed by a parameter (six digits in reality)."
  },
  {
   "property": "C118",
   "status": "partial",
   "theorems": [
    "C118_round_trip_partial",
    "C118_loop",
    "C118_back_partial",
    "C118_origin",
    "C118_conformal",
    "C118_pole_refuted",
    "C118_length_refuted"
   ],
   "note": "Over exact reals. Positions up to 89.5 degrees come back (5e-10 degrees), the loop needs at most 6 rounds, angles are kept. Refuted: positions beyond 89.5 degrees (clamped), and lengths close to the origin: from 45 degrees on they are more than 40% too long because, unlike in the spherical projector, nothing is scaled by the latitude of the origin."
  },
  {
   "property": "C119",
   "status": "partial",
   "theorems": [
    "C119_geocentric",
    "C119_distances",
    "C119_up",
    "C119_defined",
    "C119_round_trip",
    "C119_back",
    "C119_axes",
    "C119_origin_refuted"
   ],
   "note": "Over exact reals, GeographicLib's forward formulas are modelled by their documentation, its geodetic coordinates are a parameter: the round trips hold where these are exact. Refuted: the origin that GeocentricProjector reports is not projected to zero but to more than a centimetre from it."
  },
  {
   "property": "C120",
   "status": "partial",
   "theorems": [
    "C120_returns",
    "C120_level",
    "C120_ground",
    "C120_slope_refuted",
    "C120_gap_refuted",
    "C120_lanelets",
    "C120_lanelets_found_partial",
    "C120_bridge_refuted"
   ],
   "note": "Lines that are level each at its height are decided right, close to height zero nothing is missed, centerlines that meet are found (coordinates on a grid). Refuted: on slopes lines that share a point are missed and lines further apart than the tolerance are found, because the point with height zero is projected in space; a bridge that descends beside a road counts as intersecting it. boost's intersection in the plane is a parameter."
  },
  {
   "property": "C121",
   "status": "partial",
   "theorems": [
    "C121_attributes",
    "C121_point",
    "C121_line",
    "C121_lanelet",
    "C121_area",
    "C121_distinct",
    "C121_regulatory_refuted",
    "C121_with_regulatory_refuted",
    "C121_flat_point_partial",
    "C121_flat_refuted",
    "C121_const_refuted",
    "C121_not_finite_refuted",
    "C121_precision_refuted"
   ],
   "note": "Attribute maps, 3D points, line strings, polygons, and lanelets and areas without regulatory elements come back but for the rounding of the coordinates. Refuted: the texts of regulatory elements, and so of all lanelets and areas that have some, raise; 2D points with attributes and 2D line strings with points raise; immutable lanelets raise; points with NaN raise; coordinates keep six digits only. How numbers and strings are written and read are parameters with a contract that an instance satisfies."
  },
  {
   "property": "C122",
   "status": "partial",
   "theorems": [
    "C122_keywords",
    "C122_declared",
    "C122_positional",
    "C122_undefined",
    "C122_origin_refuted",
    "C122_possible_paths_refuted",
    "C122_load_robust_refuted",
    "C122_speed_limit_refuted",
    "C122_intersects3d_refuted",
    "C122_names_refuted",
    "C122_renamed",
    "C122_nearest"
   ],
   "note": "Proved for every binding whose declaration tells the same, which is shown for 59 functions. Refuted: Origin(lat, lon, alt) by names sets the altitude to the longitude; possiblePaths(allowLaneChanges=...) sets the cost id and routingCostId=... the lane changes; loadRobust by names is undefined behaviour; SpeedLimitInformation accepts no argument; intersects3d of line strings needs the tolerance; 15 declared names are unknown to their binding (but for the names nine of these declarations are right). Boost.Python's argument matching is modelled from its published source; the table leaves out bindings without keywords and part of the methods of regulatory elements and maps in core.cpp."
  },
  {
   "property": "C123",
   "status": "partial",
   "theorems": [
    "C123_reads",
    "C123_exact",
    "C123_exact_refuted",
    "C123_reference",
    "C123_reference_refuted",
    "C123_race",
    "C123_accesses",
    "C123_share",
    "C123_share_refuted",
    "C123_map_race",
    "C123_map_share"
   ],
   "note": "Reads by value give what was written last. Refuted: a negative zero is read with the wrong sign from basicPoint2d(); a reference returned by it does not follow the point; const reads of a point that was assigned to, or that has a NaN, race, because basicPoint2d() writes the copy of x and y. The exact condition for a race is proved, for one point and for all points of a map. Memory is sequentially consistent up to the race."
  },
  {
   "property": "C124",
   "status": "partial",
   "theorems": [
    "C124_rules",
    "C124_mixed",
    "C124_mixed_refuted",
    "C124_empty",
    "C124_other",
    "C124_none_refuted",
    "C124_object",
    "C124_covariance",
    "C124_object_refuted",
    "C124_hull_refuted"
   ],
   "note": "Proved for lists of one class and for objects whose covariance is given. Refuted: from a list with both classes the Mahalanobis distances are lost; None as traffic rules follows a null pointer; an object made without a covariance has an uninitialised one where C++ has zero, so matching it reads indeterminate numbers; the hull cannot be assigned. The computation of the distance and the conversions of numbers and poses are parameters."
  },
  {
   "property": "C125",
   "status": "partial",
   "theorems": [
    "C125_all",
    "C125_order",
    "C125_found_partial",
    "C125_missing_refuted",
    "C125_zero_refuted",
    "C125_layers_refuted",
    "C125_debug_partial",
    "C125_debug_refuted"
   ],
   "note": "Listing all ids and finding an id other than 0 in full; the debug map exactly for vehicle, bicycle and pedestrian. Refuted: for an id that is not in the map the script raises a TypeError instead of telling so; the id 0 counts as no id; of several layers with the id only the first is told; train has no traffic rules, and the default participant is never used because the option is required. Loading, the graph and its map are parameters."
  },
  {
   "property": "C126",
   "status": "partial",
   "theorems": [
    "C126_encode",
    "C126_read",
    "C126_read_refuted",
    "C126_dict",
    "C126_assign_partial",
    "C126_init_partial",
    "C126_nul_refuted",
    "C126_surrogate_refuted",
    "C126_no_strings"
   ],
   "note": "UTF-8 in both directions and attributes given as a dictionary in full; assignments and AttributeMap(d) for values without NUL. Refuted: these cut a value at its first NUL, so that the same dictionary gives different attributes in the two ways; a value with a surrogate follows a null pointer instead of raising; bytes that are no UTF-8 cannot be read. The conversion of std::string and map_indexing_suite are modelled from the published source of Boost.Python."
  },
  {
   "property": "C127",
   "status": "partial",
   "theorems": [
    "C127_other_dimension",
    "C127_numbers",
    "C127_unchanged",
    "C127_round_trip",
    "C127_hybrid_refuted",
    "C127_distance",
    "C127_dimensions",
    "C127_accepted",
    "C127_defined",
    "C127_exchange",
    "C127_exchange_refuted",
    "C127_missing_refuted",
    "C127_intersects",
    "C127_boxes",
    "C127_boxes_refuted",
    "C127_boxes2d_refuted"
   ],
   "note": "to2D and to3D in full for the classes they know; the value of distance for every pair it accepts, and exactly which pairs these are. Refuted: hybrid line strings, hybrid polygons and bounding boxes are handed back unconverted although C++ can convert them; the distance of a polygon from a point is not defined in the other order, nor that of a compound polygon from a polygon; a lanelet or an area has no distance from a point of the map; intersects2d of boxes is defined for three-dimensional ones and compares their heights, and refuses two-dimensional ones. Distances and intersections other than of boxes are a parameter; classes derived in Python and the other functions of the module are not modelled."
  },
  {
   "property": "C128",
   "status": "partial",
   "theorems": [
    "C128_graph",
    "C128_as_in_cpp",
    "C128_negative",
    "C128_error_refuted",
    "C128_cpp_error",
    "C128_none_refuted",
    "C128_from_python"
   ],
   "note": "The graph in full for costs that give a number for every edge. Refuted: the wrappers are noexcept, so a method that raises, answers no number or is missing ends the process, and so does an infinite speed limit in RoutingCostTravelTime, which C++ raises for successors; None in the list follows a null pointer. Which edges are asked for is a parameter; the effects of a method beside its answer are not modelled."
  },
  {
   "property": "C129",
   "status": "partial",
   "theorems": [
    "C129_extract",
    "C129_call",
    "C129_choice",
    "C129_distance_to_lines",
    "C129_round_trip",
    "C129_stop_line",
    "C129_const_stop_line_refuted",
    "C129_overloads_refuted",
    "C129_nested_optional_refuted"
   ],
   "note": "The conversion of one object in full, for all types built of vectors, Optionals and pairs; back and forth for types without an Optional of an Optional; which overload a call takes exactly, and that it takes one whenever one fits where no parameter has one of these converters. Refuted: of two definitions for lists of different types the one defined later takes every iterable; an Optional of an Optional does not come back; ConstLaneletWithStopLine cannot be made in Python at all, as no conversion to its Optional is registered. Iterables without an end and reference counts are not modelled; the other conversions of Boost.Python are a parameter."
  }
 ]
}