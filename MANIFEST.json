{
 "claims": [
  {
   "property": "C01",
   "status": "proved",
   "theorems": [
    "srange_ctor_valid",
    "srange_intersects_iff_near",
    "srange_intersects_negative_tolerance",
    "srange_intersects_throws_iff",
    "srange_intersects_symmetric",
    "srange_intersects_direction_free",
    "srange_intersects_widens_both_refuted"
   ],
   "note": "Finding: the header says the tolerance widens both ranges; the code widens one."
  },
  {
   "property": "C02",
   "status": "proved",
   "theorems": [
    "srange_contains_iff_within",
    "srange_contains_negative_tolerance",
    "srange_contains_throws_iff",
    "srange_contains_order"
   ],
   "note": ""
  },
  {
   "property": "C03",
   "status": "partial",
   "theorems": [
    "srange_get_intersection_iff_intersects",
    "srange_get_intersection_exact",
    "srange_get_intersection_tolerant_partial",
    "srange_get_intersection_order_refuted",
    "srange_get_intersection_negative_refuted",
    "lane_srange_get_intersection"
   ],
   "note": "Exact at tolerance 0; for tol > 0 the result can be reversed and for tol < 0 it can leave the argument (refuted)."
  },
  {
   "property": "C04",
   "status": "partial",
   "theorems": [
    "lane_srange_intersects_iff",
    "lane_sroute_intersects_partial",
    "lane_sroute_intersects_sound",
    "lane_sroute_intersects_symmetric_partial",
    "lane_sroute_intersects_refuted",
    "lane_sroute_length_additive"
   ],
   "note": "Only for arguments visiting each lane once; refuted otherwise."
  },
  {
   "property": "C05",
   "status": "partial",
   "theorems": [
    "is_included_sound",
    "is_included_complete_partial",
    "is_included_order_refuted",
    "is_included_throws_iff"
   ],
   "note": "Completeness only when one range decides; refuted otherwise."
  },
  {
   "property": "C06",
   "status": "proved",
   "theorems": [
    "box_ctor",
    "box_contains_iff_inflated",
    "box_get_intersection_exact",
    "box_overlaps_exact"
   ],
   "note": ""
  },
  {
   "property": "C07",
   "status": "proved",
   "theorems": [
    "kd_tree_build",
    "kd_tree_3d_build",
    "kd_tree_empty_throws"
   ],
   "note": ""
  },
  {
   "property": "C08",
   "status": "proved",
   "theorems": [
    "kd_tree_nearest_point",
    "kd_tree_nearest_point_rejects_tolerance"
   ],
   "note": ""
  },
  {
   "property": "C09",
   "status": "partial",
   "theorems": [
    "kd_tree_range_search",
    "kd_tree_range_search_complete",
    "kd_tree_range_search_band_refuted"
   ],
   "note": "Exact for points in the closed box; in the tolerance band the pruning ignores the tolerance (refuted)."
  },
  {
   "property": "C10",
   "status": "proved",
   "theorems": [
    "find_road_positions_exact",
    "find_road_positions_order",
    "find_road_positions_once",
    "find_road_positions_throws_iff"
   ],
   "note": ""
  },
  {
   "property": "C11",
   "status": "proved",
   "theorems": [
    "to_road_position_closest",
    "to_road_position_hinted",
    "to_road_position_throws_iff",
    "to_road_position_closest_refuted"
   ],
   "note": "Minimal up to 1e-12 per lane; minimal up to 1e-12 is refuted."
  },
  {
   "property": "C12",
   "status": "proved",
   "theorems": [
    "closer_strict",
    "closer_distance",
    "closer_tie",
    "closer_transitive_refuted"
   ],
   "note": "Transitivity refuted."
  },
  {
   "property": "C13",
   "status": "partial",
   "theorems": [
    "kd_strategy_sampling",
    "kd_find_road_positions_partial",
    "kd_find_road_positions_all",
    "kd_find_road_positions_complete_refuted",
    "kd_find_road_positions_once_refuted",
    "kd_to_road_position_partial",
    "kd_to_road_position_closest"
   ],
   "note": "Agreement with brute force needs a sample grid dense enough; refuted in general."
  },
  {
   "property": "C14",
   "status": "proved",
   "theorems": [
    "branch_point_consistent",
    "branch_point_add_ok_iff",
    "branch_point_set_default_ok_iff",
    "branch_point_add_effect",
    "branch_point_set_default_effect",
    "branch_point_back_pointer",
    "branch_point_back_pointer_success",
    "branch_point_back_pointer_refuted"
   ],
   "note": "Back pointers hold for histories without a throwing call; a throwing AddABranch leaves the lane end behind (refuted)."
  },
  {
   "property": "C15",
   "status": "proved",
   "theorems": [
    "hierarchy_any_order",
    "hierarchy_add_succeeds",
    "hierarchy_moved_iff",
    "hierarchy_left_right",
    "hierarchy_duplicate_id_refuted"
   ],
   "note": "For distinct ids; a duplicate id leaves an unindexed junction behind (refuted)."
  },
  {
   "property": "C16",
   "status": "proved",
   "theorems": [
    "id_index_first_added",
    "id_index_add_throws_iff",
    "id_index_walk"
   ],
   "note": ""
  },
  {
   "property": "C17",
   "status": "proved",
   "theorems": [
    "find_confluent_segments_reachable",
    "find_confluent_segments_component"
   ],
   "note": ""
  },
  {
   "property": "C18",
   "status": "proved",
   "theorems": [
    "analyze_confluent_segments_partition",
    "analyze_confluent_segments_coverage_refuted"
   ],
   "note": "Needs every segment to be confluent with itself; without it coverage is refuted."
  },
  {
   "property": "C19",
   "status": "proved",
   "theorems": [
    "sample_waypoints_outcome",
    "sample_waypoints_even",
    "sample_waypoints_backwards_refuted",
    "sample_waypoints_empty_refuted"
   ],
   "note": "Ranges travelled against s get no samples (refuted)."
  },
  {
   "property": "C20",
   "status": "partial",
   "theorems": [
    "range_validator_constructor",
    "range_validator_clamps_partial",
    "range_validator_relative_half",
    "range_validator_inverted_clamp_refuted"
   ],
   "note": "For epsilon at most half the range; the constructor admits more and then std::clamp is undefined (refuted)."
  },
  {
   "property": "C21",
   "status": "proved",
   "theorems": [
    "saturate_clamps",
    "double_comparisons_numeric"
   ],
   "note": "IEEE doubles, no rounding simplification."
  },
  {
   "property": "C22",
   "status": "proved",
   "theorems": [
    "rulebook_find_rules",
    "rulebook_find_rules_no_throw",
    "rulebook_find_rules_negative_throws"
   ],
   "note": "For zones visiting a lane at most once, or histories without a throwing call; see C24 for the rest."
  },
  {
   "property": "C23",
   "status": "proved",
   "theorems": [
    "rulebook_refines_contents",
    "rulebook_contents_unique",
    "rulebook_get_rule_step",
    "rulebook_add_ok_iff"
   ],
   "note": ""
  },
  {
   "property": "C24",
   "status": "partial",
   "theorems": [
    "rulebook_remove_rule_partial",
    "rulebook_remove_repeated_lane_refuted"
   ],
   "note": "Holds for zones visiting each lane at most once; refuted for a zone with two ranges on one lane."
  },
  {
   "property": "C25",
   "status": "partial",
   "theorems": [
    "phase_ring_constructor",
    "phase_ring_contents",
    "phase_ring_bulbs_refuted",
    "phase_ring_next_outside_refuted"
   ],
   "note": "Exact acceptance condition proved. Bulb coverage and absence of undefined behaviour are refuted; so is the documented check on next phases."
  },
  {
   "property": "C26",
   "status": "partial",
   "theorems": [
    "constructed_rings_ok",
    "ring_book_lookup_partial",
    "ring_book_returns_partial",
    "ring_book_add_refuted"
   ],
   "note": "For histories without an addition that overlaps a present ring; a failed addition is not atomic (refuted)."
  },
  {
   "property": "C27",
   "status": "proved",
   "theorems": [
    "phase_provider_step",
    "phase_provider_last_written",
    "default_phase_provider"
   ],
   "note": ""
  },
  {
   "property": "C28",
   "status": "proved",
   "theorems": [
    "phase_based_state",
    "phased_discrete_state",
    "phased_discrete_undefined_refuted",
    "default_provider_state_refuted"
   ],
   "note": "The discrete provider falls back to manual states (its definedness claim is refuted)."
  },
  {
   "property": "C29",
   "status": "partial",
   "theorems": [
    "discrete_state_accepted",
    "manual_provider_step",
    "manual_provider_last_set",
    "manual_provider_valid",
    "manual_provider_state_refuted",
    "manual_provider_at_position",
    "manual_provider_default",
    "manual_right_of_way_provider"
   ],
   "note": "Returned states compare == to a state of the rule; being one of the rule's states is refuted because == is not symmetric."
  },
  {
   "property": "C30",
   "status": "partial",
   "theorems": [
    "rule_state_eq_iff",
    "rule_state_eq_reflexive",
    "rule_state_eq_transitive",
    "rule_state_eq_both_ways",
    "rule_state_eq_symmetric_partial",
    "rule_state_eq_symmetric_refuted",
    "rule_constructors_order_free",
    "discrete_rule_constructor",
    "range_rule_constructor"
   ],
   "note": "Reflexive, transitive and order free duplicate detection proved; symmetry refuted."
  },
  {
   "property": "C31",
   "status": "proved",
   "theorems": [
    "range_less_strict_weak_order",
    "range_less_iff",
    "range_less_nan_refuted"
   ],
   "note": "For bounds that are numbers; with NaN bounds it is refuted."
  },
  {
   "property": "C32",
   "status": "proved",
   "theorems": [
    "registry_register",
    "registry_possible_states",
    "registry_once",
    "registry_build_discrete",
    "registry_build_range"
   ],
   "note": ""
  },
  {
   "property": "C33",
   "status": "proved",
   "theorems": [
    "filter_rules_conjunction",
    "filter_rules_empty"
   ],
   "note": ""
  },
  {
   "property": "C34",
   "status": "partial",
   "theorems": [
    "intersection_book_lookup",
    "intersection_book_defined",
    "intersection_book_duplicate_refuted",
    "intersection_find_by_rule",
    "intersection_governs_iff_covers",
    "intersection_find_no_phase_refuted",
    "intersection_find_order_free",
    "intersection_find_by_position",
    "intersection_find_by_region"
   ],
   "note": "Lookups proved; duplicates reach undefined behaviour (refuted) and an intersection without a current phase is not found (refuted)."
  },
  {
   "property": "C35",
   "status": "partial",
   "theorems": [
    "build_graph_returns",
    "build_graph_incidence",
    "build_graph_nodes_partial",
    "build_graph_merge_refuted",
    "build_graph_loop_refuted",
    "find_node_at"
   ],
   "note": "Edges and incidence proved for all inputs; node contents when multi-lane ends are met first; otherwise branch points are dropped or doubled (refuted)."
  },
  {
   "property": "C36",
   "status": "proved",
   "theorems": [
    "find_all_edge_sequences",
    "find_all_edge_sequences_degenerate",
    "determine_edge_end"
   ],
   "note": ""
  },
  {
   "property": "C37",
   "status": "proved",
   "theorems": [
    "find_lane_sequences_finds_exactly_the_paths",
    "find_lane_sequences_no_repeats",
    "find_lane_sequences_monotone",
    "find_lane_sequences_no_repeats_refuted"
   ],
   "note": "Exact for every finite network with lengths >= 0 (as a set). Finding: lanes joined at both ends make sequences appear twice."
  },
  {
   "property": "C38",
   "status": "partial",
   "theorems": [
    "u_turn_removal_is_a_filter",
    "u_turn_removal_exact_partial",
    "u_turn_kept_refuted",
    "u_turn_free_dropped_refuted"
   ],
   "note": "Exact where all joints are finish-to-start and single. Finding: HasUTurn compares the wrong ends, so with opposing lanes it keeps U-turns and drops U-turn free paths."
  },
  {
   "property": "C39",
   "status": "partial",
   "theorems": [
    "derived_routes_follow_the_sequences",
    "derived_routes_contiguous_partial",
    "derived_routes_contiguous_refuted",
    "derived_routes_traverse_refuted"
   ],
   "note": "Contiguous where lanes are joined at most once; full traversal where the sequence has no U-turn. Findings: ring networks give discontiguous routes; U-turns give zero-length middle ranges."
  },
  {
   "property": "C40",
   "status": "partial",
   "theorems": [
    "relation_unknown_iff_off_route",
    "relation_follows_indices",
    "relation_mirrored",
    "relation_mirrored_between_phases",
    "relation_mirror_refuted",
    "coincident_equal_refuted"
   ],
   "note": "Total classification proved from the indices the ranges resolve to; mirror images proved inside a phase, for straight relations and between phases with equal frames; refuted when the gap is dead ahead; coincident means same index, not equality."
  },
  {
   "property": "C41",
   "status": "partial",
   "theorems": [
    "phase_constructor_guarantees",
    "phase_right_to_left_refuted",
    "route_constructor_connectivity_refuted",
    "connected_sound",
    "connected_complete_same_lane",
    "connected_one_to_one_refuted",
    "lane_s_route_on_route",
    "lane_s_route_reaches_end",
    "lane_s_route_begins_at_start_refuted",
    "lane_s_route_off_route_throws",
    "lane_s_route_terminates_refuted"
   ],
   "note": "The constructor does not check connectivity (refuted); the connectivity check is sound; the lane route search terminates and reaches the end when no range repeats an earlier one; non-termination witnessed otherwise."
  },
  {
   "property": "C42",
   "status": "partial",
   "theorems": [
    "find_phase_position_closest",
    "find_route_position_closest",
    "find_route_position_first_phase",
    "find_phase_position_minimal_refuted",
    "find_phase_position_range_refuted"
   ],
   "note": "Closest among what the ranges offer, up to the accumulated comparison tolerance; true minimality refuted because the clamped candidate drops the lateral offset."
  },
  {
   "property": "C43",
   "status": "partial",
   "theorems": [
    "constraints_accepted_iff",
    "compute_routes_throws",
    "compute_routes_sound",
    "compute_routes_filtered_partial",
    "no_lane_switch_sound_refuted",
    "no_lane_switch_complete_refuted",
    "one_bad_route_throws_refuted",
    "fork_without_route_refuted",
    "segment_behind_refuted",
    "compute_routes_same_node",
    "router_made"
   ],
   "note": "Limits, connectivity, end points and order-preserving exact filtering proved for all networks; the lane-switch part needs consecutive phases to list joined positions in the same order and is refuted without it; completeness is refuted (one non-connected route makes the query throw; no route to the segment right behind)."
  },
  {
   "property": "C44",
   "status": "proved",
   "theorems": [
    "pool_fifo",
    "pool_at_most_once",
    "finish_runs_everything",
    "no_lost_wake_up",
    "finished_pool_accepts_nothing"
   ],
   "note": "interleaving semantics with explicit mutexes and condition variables, spurious wake-ups, any number of workers and any program of calls by one owner thread; executed or cancelled, since cancel_pending may drop tasks."
  },
  {
   "property": "C45",
   "status": "partial",
   "theorems": [
    "finish_terminates",
    "finish_without_start_blocks",
    "never_started_destructor_refuted"
   ],
   "note": "proved for every started pool (all schedules are finite after Finish and end with Finish returned); refuted for a pool that was never started: its destructor blocks for ever."
  },
  {
   "property": "C46",
   "status": "proved",
   "theorems": [
    "mesh_operations_succeed",
    "mesh_round_trip",
    "mesh_indices_unique",
    "mesh_indices_stable",
    "mesh_vertices_were_given"
   ],
   "note": "Coordinates are numbers (a NaN coordinate terminates in the hash); a mesh is not appended to itself."
  },
  {
   "property": "C47",
   "status": "proved",
   "theorems": [
    "obj_faces_refer_to_their_vertices",
    "obj_faces_have_their_material"
   ],
   "note": "On the emitted records, not on the characters of the file; a mesh with an empty material name inherits the material of the mesh before it."
  },
  {
   "property": "C48",
   "status": "partial",
   "theorems": [
    "douglas_peucker_keeps_shape",
    "douglas_peucker_within_tolerance_partial",
    "douglas_peucker_closed_refuted",
    "douglas_peucker_segment_refuted",
    "douglas_peucker_minimal_refuted"
   ],
   "note": "Subsequence with both ends for all polylines; the tolerance for polylines that do not pass a point twice; refuted for closed polylines (everything is dropped). Distances compared by their exact squares."
  },
  {
   "property": "C49",
   "status": "proved",
   "theorems": [
    "simplify_partitions_faces",
    "simplify_rejects_repeated_edges",
    "simplify_closed_group_refuted",
    "simplify_hole_refuted",
    "simplify_degenerate_face_refuted",
    "simplify_scaled_tolerance_refuted"
   ],
   "note": "For meshes with at least three vertices per face and non-zero normals (as documented); findings: closed groups abort, holes are filled, faces may degenerate to two vertices, normals not of length one scale the tolerance."
  },
  {
   "property": "C50",
   "status": "partial",
   "theorems": [
    "precise_mesh_tiles_partial",
    "precise_mesh_tiles_constant",
    "precise_mesh_tiles_refuted",
    "optimized_mesh_covers",
    "optimized_mesh_tiles_linear",
    "optimized_mesh_tiles_refuted"
   ],
   "note": "Termination, vertices on the surface, no overlap and orientation for all lanes; exact tiling with constant bounds (precise) or straight bounds (optimized); refuted for widening lanes."
  },
  {
   "property": "C51",
   "status": "proved",
   "theorems": [
    "note_value_change_invalidates",
    "note_value_change_once",
    "repeated_event_ignored",
    "built_graphs_consistent",
    "unsubscribe_removes_one"
   ],
   "note": "Includes cyclic graphs; the initiator's own cache entry is not invalidated, as in the code."
  },
  {
   "property": "C52",
   "status": "proved",
   "theorems": [
    "cached_values_current",
    "cached_evaluation_returns",
    "evaluation_effects"
   ],
   "note": "Calculators are deterministic programs over sources and other entries that may write partially and throw; histories include disabling/enabling caching, freezing and cloning."
  },
  {
   "property": "C53",
   "status": "partial",
   "theorems": [
    "phase_ring_rule_states",
    "phase_ring_defaults_refuted",
    "phase_ring_defaults_partial",
    "phase_ring_bulb_states",
    "phase_ring_transitions",
    "phase_ring_accepted",
    "phase_ring_abort_only",
    "phase_ring_abort_refuted",
    "phase_ring_invalid_bulb_state_refuted",
    "phase_ring_graph_refuted"
   ],
   "note": "Refuted as stated: a phase that omits a rule keeps the state the previous phase gave it. Proved: the state is that of the last phase mentioning the rule, else the default; acceptance characterised exactly. yaml-cpp is modelled by its documented behaviour."
  },
  {
   "property": "C54",
   "status": "partial",
   "theorems": [
    "unique_id_strings_refuted",
    "unique_bulb_strings",
    "unique_group_strings",
    "unique_id_equality",
    "unique_id_order"
   ],
   "note": "Refuted for ids containing the delimiter; proved for ids without it; equality and order proved for all."
  },
  {
   "property": "C55",
   "status": "partial",
   "theorems": [
    "create_directories_partial",
    "create_directories_defined",
    "one_letter_directory_refuted",
    "existing_directory_refuted",
    "trailing_slash_refuted",
    "append_extends",
    "append_to_empty_refuted"
   ],
   "note": "As mkdir -p for absolute paths and relative paths whose first name has two letters or more, when the directory is not there yet; refuted for one-letter first names, existing directories (documented as mkdir -p) and a slash at the end. No symbolic links in the model of the file system."
  },
  {
   "property": "C56",
   "status": "proved",
   "theorems": [
    "determinant_volume",
    "volume_form_unique",
    "determinant_product",
    "determinant_transposed",
    "product_composes",
    "inverse_undoes",
    "inverse_only",
    "inverse_solves",
    "inverse_throws_iff",
    "no_inverse_throws",
    "invertible_matrix_refuted"
   ],
   "note": "Proved for every size above one over exact reals (the library instantiates 2, 3 and 4); rounding is not modelled. Also a finding: invertible matrices with small determinants are refused."
  },
  {
   "property": "C57",
   "status": "proved",
   "theorems": [
    "transform_rotation",
    "transform_length",
    "transform_composes",
    "inverse_undoes_rotation",
    "inverse_of_quaternion",
    "norm_of_product",
    "product_associative",
    "unit_matrix_transforms",
    "rotation_matrix_transforms",
    "rotation_matrix_rotates",
    "transform_non_unit_refuted"
   ],
   "note": "Over exact reals. Finding beyond the claim: for a quaternion that is not a unit one TransformVector is not the rotation of ToRotationMatrix."
  },
  {
   "property": "C58",
   "status": "partial",
   "theorems": [
    "two_vectors_partial",
    "two_vectors_opposite_partial",
    "two_vectors_down_refuted",
    "two_vectors_small_refuted"
   ],
   "note": "Refuted for a straight down with b opposite (NaN) and for tiny vectors (identity returned); proved for all other pairs with 1+cos >= 1e-15 and for exactly opposite ones."
  },
  {
   "property": "C59",
   "status": "proved",
   "theorems": [
    "rpy_matrix_product",
    "rpy_matrix_rotates",
    "rpy_quaternion"
   ],
   "note": "Over exact reals with the real sine and cosine."
  },
  {
   "property": "C60",
   "status": "partial",
   "theorems": [
    "make_box_accepts",
    "box_contains_iff",
    "box_vertices_hull",
    "box_contained_iff",
    "overlaps_contained_iff",
    "overlaps_aligned_partial",
    "overlaps_one_turn_partial",
    "overlap_columns_refuted",
    "overlap_missed_refuted",
    "overlap_invented_refuted",
    "box_orientation_refuted",
    "box_tolerance_refuted"
   ],
   "note": "Containment of points and boxes proved for all boxes (with the orientation applied backwards, a finding); intersection proved up to 1e-6 of the size for boxes whose axes are the inertial ones up to sign, never missed when the first box is not turned and the other about one axis only, and refuted in both directions for others; the tolerance is ignored for intersections."
  },
  {
   "property": "C61",
   "status": "partial",
   "theorems": [
    "validate_ok_iff",
    "hierarchy_check_iff",
    "branch_point_ends_near",
    "validate_null_refuted",
    "validate_coverage_refuted",
    "validate_zones_refuted",
    "validate_light_refuted",
    "validate_phase_state_refuted",
    "validate_branch_point_refuted"
   ],
   "note": "Validation returns iff every enabled check holds for every entity, for all networks and options, in the form the code checks it; refuted where the documented condition is stronger: coverage of whole lanes, contiguity of zones of old-style rules, traffic lights with no listed groups, phase states with extra related rules, branch points outside the geometry, and null pointers with the default options."
  },
  {
   "property": "C62",
   "status": "proved",
   "theorems": [
    "stripes_follow_bounds",
    "lane_arrows",
    "arrow_drawn",
    "lane_arrows_within_lane_refuted",
    "grid_unit"
   ],
   "note": "Finding beyond the claim: where the lane narrows an arrow may leave it sideways."
  },
  {
   "property": "C63",
   "status": "proved",
   "theorems": [
    "bulb_made",
    "traffic_light_book_loaded",
    "traffic_light_book_never_aborts",
    "traffic_light_book_good",
    "traffic_light_book_round_trip"
   ],
   "note": "Documents are given parsed; yaml-cpp is modelled by its documented behaviour."
  },
  {
   "property": "C64",
   "status": "partial",
   "theorems": [
    "rule_registry_loaded",
    "rule_registry_sound",
    "rule_registry_never_aborts",
    "unknown_attribute_refuted"
   ],
   "note": "Acceptance characterised exactly for documents whose value nodes have no repeated keys; refuted: a value with unknown attributes is accepted beside a clean one."
  },
  {
   "property": "C65",
   "status": "proved",
   "theorems": [
    "rpy_matrix_derivative"
   ],
   "note": "Over exact reals."
  },
  {
   "property": "C66",
   "status": "proved",
   "theorems": [
    "rpy_ranges",
    "rpy_from_quaternion_exact",
    "rpy_from_quaternion_close",
    "rpy_round_trip"
   ],
   "note": "Over exact reals."
  },
  {
   "property": "C67",
   "status": "proved",
   "theorems": [
    "quaternion_of_rotation",
    "angle_axis_turns",
    "angle_axis_tiny",
    "slerp_unit",
    "slerp_nearly_unit",
    "angular_distance_largest_angle",
    "angular_distance_metric",
    "same_rotation_iff",
    "is_approx_symmetric"
   ],
   "note": "Over exact reals; Slerp of nearly equal quaternions is linear and its squared norm within 1e-15 of one."
  },
  {
   "property": "C68",
   "status": "proved",
   "theorems": [
    "orientation_rotates",
    "orientation_of_rpy",
    "reverse_turns",
    "distance_of_axes",
    "rotation_distance_metric",
    "distance_reversed",
    "distance_against_angle",
    "position_distance_metric",
    "headings_together"
   ],
   "note": "Over exact reals."
  },
  {
   "property": "C69",
   "status": "partial",
   "theorems": [
    "distance_is_nan",
    "distance_to_itself_refuted",
    "invariants_upside_down_refuted"
   ],
   "note": "Refuted in IEEE double precision: when an inner product rounds above one the distance is NaN, so the same heading is not contiguous with itself and upside-down lane ends pass the invariants; proved that this is what happens for every such pair."
  },
  {
   "property": "C70",
   "status": "partial",
   "theorems": [
    "expressions_mean_arithmetic",
    "like_monomials_combine",
    "addition_refuted",
    "constructor_value",
    "constructor_good",
    "constructor_merges_refuted",
    "evaluate_multivariate",
    "evaluate_partial",
    "subs_renames",
    "subs_combines_refuted",
    "substitute_means",
    "substitute_refuted",
    "equal_same_value",
    "equality_refuted",
    "almost_equal_values",
    "almost_equal_itself",
    "factor_divides",
    "variables_listed",
    "affine_iff"
   ],
   "note": "Proved for every polynomial built by the operators. Refuted: the constructor from terms leaves adjacent duplicates of a variable unmerged, after which addition and evaluation are wrong; Subs does not recombine; Substitute is wrong for products of several variables; x*y and y*x are not equal."
  },
  {
   "property": "C71",
   "status": "partial",
   "theorems": [
    "slope_unique",
    "evaluate_univariate",
    "derivative_means",
    "integral_means",
    "integral_of_constant_throws",
    "univariate_flag_refuted",
    "coefficients_listed",
    "from_coefficients",
    "roots_vanish"
   ],
   "note": "Proved for every polynomial flagged univariate. Refuted: x + y - y is x but is never flagged univariate again. Roots of degree two and more (Eigen eigenvalues) are not modelled."
  },
  {
   "property": "C72",
   "status": "partial",
   "theorems": [
    "names_round_trip",
    "names_rejected",
    "names_distinct",
    "long_names_refuted",
    "nul_name_refuted"
   ],
   "note": "Proved for documented names. Refuted: long names whose number overflows are accepted and collide; NUL is accepted as a letter."
  },
  {
   "property": "C73",
   "status": "partial",
   "theorems": [
    "time_in_range",
    "segment_found",
    "evaluation",
    "scalar_value",
    "scalar_value_refuted",
    "vector_values_listed",
    "derivative_trajectory",
    "integral_trajectory",
    "integral_of_derivative_refuted"
   ],
   "note": "Proved for all well formed trajectories. Refuted: scalarValue extrapolates outside the time range although documented as equal to value; constant segments cannot be integrated."
  },
  {
   "property": "C74",
   "status": "partial",
   "theorems": [
    "shift_right",
    "scale_time",
    "scale_time_rejects",
    "reverse_time",
    "slice_values",
    "slice_rejects",
    "empty_slice_refuted",
    "concatenate_values",
    "concatenate_rejects",
    "concatenate_tolerance_refuted",
    "append_cubic_values",
    "append_linear_values",
    "append_spacing_refuted",
    "remove_final_values",
    "remove_only_refuted"
   ],
   "note": "Proved for all well formed trajectories. Refuted: tolerance of ConcatenateInTime, appending segments shorter than kEpsilonTime, empty slices, removing the only segment."
  },
  {
   "property": "C75",
   "status": "partial",
   "theorems": [
    "add_values",
    "sub_values",
    "mul_values",
    "coefficient_wise_product_refuted",
    "operators_reject",
    "operator_sizes_refuted",
    "offset_values",
    "opposite_values",
    "block_values",
    "block_rejects",
    "reshape_values",
    "reshape_rejects",
    "set_block",
    "approx_itself",
    "approx_means",
    "constructor_accepts"
   ],
   "note": "Proved for well formed trajectories over equal times. Refuted: * is the matrix product, documented as coefficient-wise; sizes that do not fit are not detected."
  },
  {
   "property": "C76",
   "status": "partial",
   "theorems": [
    "zero_order_hold",
    "first_order_hold",
    "cubic_hermite",
    "shape_preserving",
    "shape_preserving_refuted",
    "clamped_spline",
    "clamped_solvable",
    "free_spline",
    "free_solvable",
    "lagrange_interpolates",
    "lagrange_solvable",
    "samples_rejected"
   ],
   "note": "Proved, given that Eigen returns a solution of the linear system. Refuted: with end slopes under kSlopeEpsilon shape is not preserved. The spline systems have exactly one solution."
  },
  {
   "property": "C77",
   "status": "partial",
   "theorems": [
    "collector_counts",
    "zones_compared",
    "speed_limits_compared",
    "direction_usages_compared",
    "right_of_way_results_compared",
    "next_phases_compared",
    "traffic_lights_compared",
    "range_rules_compared",
    "discrete_rules_compared_partial",
    "right_of_way_rules_compared_partial",
    "phases_compared_partial",
    "rule_states_compared_refuted",
    "discrete_value_compared_refuted",
    "discrete_values_compared_refuted",
    "bulb_groups_compared_refuted",
    "double_compared_refuted"
   ],
   "note": "Exact for zones, speed limits, direction usages, results, next phases, traffic lights and range rules (ranges by their ==). Findings: RuleStates compare by size only, discrete values by their string only, vectors of discrete values and bulb groups one way only."
  },
  {
   "property": "C78",
   "status": "partial",
   "theorems": [
    "comparisons_return",
    "comparisons_symmetric",
    "comparisons_reflexive",
    "lane_ends_compared",
    "optional_comparison_refuted",
    "phase_comparison_refuted",
    "lane_end_null_refuted"
   ],
   "note": "Rules, zones and results always return. Findings: an optional double against a missing one throws, a phase with a rule the other lacks throws, bulb states against none and a null lane end are undefined behaviour."
  },
  {
   "property": "C79",
   "status": "partial",
   "theorems": [
    "closeness_exact",
    "closeness_symmetric_double",
    "nan_close_refuted"
   ],
   "note": "Exact over the rationals, symmetric in double precision. Finding: NaN is close to everything."
  },
  {
   "property": "C80",
   "status": "partial",
   "theorems": [
    "compare_vectors_symmetric",
    "compare_vectors_reflexive",
    "compare_vectors_special",
    "compare_relative_refuted"
   ],
   "note": "In IEEE doubles. Finding: with a relative tolerance an infinity passes for any number."
  },
  {
   "property": "C81",
   "status": "partial",
   "theorems": [
    "id_indexing_checked_partial",
    "id_indexing_refuted"
   ],
   "note": "Exact when there is a junction. Finding: without junctions the branch points are not checked."
  },
  {
   "property": "C82",
   "status": "partial",
   "theorems": [
    "rulebook_loaded",
    "rulebook_never_aborts",
    "rulebook_sound",
    "rulebook_zone_refuted",
    "rulebook_values_lost_refuted",
    "rulebook_related_dropped_refuted",
    "rulebook_values_contained_refuted"
   ],
   "note": "Accepted documents and the resulting rulebook are characterised exactly for every tidy document (distinct keys). Findings: reversed ranges may start beyond the lane, values beside ranges are lost, malformed related entries are dropped, values are told apart by containment of related ids, so different values are refused as duplicates."
  },
  {
   "property": "C83",
   "status": "partial",
   "theorems": [
    "old_rulebook_loaded",
    "old_rulebook_never_aborts",
    "old_rulebook_derived",
    "old_rulebook_delimiter_refuted",
    "old_rulebook_yield_refuted"
   ],
   "note": "Characterised exactly for every tidy document. Findings: two bulb groups whose joined ids collide, and a repeated yield, make a rule throw only because of the derived rule."
  },
  {
   "property": "C84",
   "status": "proved",
   "theorems": [
    "old_rulebook_is_paired",
    "old_ring_accepted",
    "old_ring_phases",
    "old_ring_transitions",
    "old_ring_never_aborts",
    "ring_loaders_disagree_refuted"
   ],
   "note": "For every rulebook in which each right of way rule has its derived rule (as loaded ones do). Finding beyond the claim: the loader for registry rules treats unmentioned rules differently."
  },
  {
   "property": "C85",
   "status": "partial",
   "theorems": [
    "intersections_loaded",
    "intersections_provided",
    "intersections_refused_provided",
    "intersections_abort_only",
    "intersections_refused_unchanged_refuted",
    "intersections_initial_phase_refuted"
   ],
   "note": "Accepted documents, intersections and provider are characterised exactly. Findings: a refused document has changed the provider, intersections sharing a ring overwrite each other, a repeated id may dereference a null pointer."
  },
  {
   "property": "C86",
   "status": "partial",
   "theorems": [
    "combinations_exact",
    "combinations_once",
    "direction_usage_type_documented",
    "right_of_way_type_documented_refuted",
    "stop_type_documented_refuted",
    "derived_values_registered_partial",
    "derived_values_registered_refuted",
    "direction_undefined_refuted"
   ],
   "note": "Findings: the right of way type has StopAndGo where documentation and loader have StopThenGo; the stop types differ from the documentation; Undefined directions cannot be loaded."
  },
  {
   "property": "C87",
   "status": "partial",
   "theorems": [
    "solve_steps",
    "no_further_stops_at_events",
    "no_further_past_events",
    "initialize_accepts",
    "initialize_chooses",
    "initialize_again_refuted",
    "accuracy_met_or_throws_refuted"
   ],
   "note": "Over real numbers, error-controlled Runge-Kutta 3, NaN as a separate value. Finding: a step cut down to exactly the minimum size is taken with any error although the integrator is set to throw."
  },
  {
   "property": "C88",
   "status": "partial",
   "theorems": [
    "solve_refuses",
    "solve_at_initial_time",
    "solve_quadrature",
    "solve_linear_invariant",
    "solve_restart",
    "solve_repeatable_refuted",
    "solve_again_after_exception_refuted"
   ],
   "note": "Proved after any history of calls. Findings: the result of Solve depends on the times solved for before (only a call that starts over does not), and a call that threw returns the refused state when made again."
  },
  {
   "property": "C89",
   "status": "partial",
   "theorems": [
    "solve_ends",
    "quadrature_ends",
    "solve_outcome_unique",
    "solve_nan_never_ends",
    "zero_steps_never_end",
    "minimum_step_kept_refuted"
   ],
   "note": "Proved for calls that start from their initial values. Findings: a NaN derivative and a default constructed IntegratorConfiguration never come back; the requested minimum step is lost when the problem starts over."
  },
  {
   "property": "C90",
   "status": "partial",
   "theorems": [
    "dense_solve_interpolates",
    "dense_solve_agrees",
    "dense_solve_quadratic",
    "dense_solve_empty_throws",
    "segment_appended"
   ],
   "note": "Proved after any history of calls, for derivatives that are not NaN. Finding: an empty interval throws, the documentation promises an empty dense output."
  },
  {
   "property": "C91",
   "status": "partial",
   "theorems": [
    "arc_length_evaluate",
    "arc_length_total",
    "integrators_at_start",
    "inverse_at_start",
    "integrators_refuse",
    "inverse_evaluate_bounds",
    "round_trip",
    "functor_evaluates",
    "integral_function_quadratic",
    "inverse_epsilon",
    "integral_from_p0_refuted",
    "image_lower_bound_refuted"
   ],
   "note": "Findings: image_lower_bound has no effect on ArcLengthIntegrator, IntegralFunction integrates from the configured lower bound and not from p0, epsilon has no effect."
  },
  {
   "property": "C92",
   "status": "partial",
   "theorems": [
    "fresnel_integrals_exist",
    "fresnel_accurate",
    "fresnel_accurate_far",
    "fresnel_odd",
    "fresnel_total",
    "fresnel_nearby",
    "fresnel_accurate_everywhere_refuted",
    "fresnel_nearby_everywhere_refuted"
   ],
   "note": "Over real numbers: rounding of doubles, infinities and NaN are not modelled. Finding: from 36974 on the result is one half, which is off by more than 8e-6 at some arguments, and the sine coordinate has a step there."
  },
  {
   "property": "C93",
   "status": "proved",
   "theorems": [
    "spiral_heading_rate",
    "spiral_tangent",
    "spiral_followed"
   ],
   "note": "Over real numbers."
  },
  {
   "property": "C94",
   "status": "partial",
   "theorems": [
    "search_path_parts",
    "suffix_of_path",
    "files_listed",
    "files_listing_throws",
    "dotted_suffix_finds_nothing",
    "suffix_finds_its_files_refuted"
   ],
   "note": "Directory trees that do not change during a call. Finding: a suffix with a dot in it finds nothing."
  },
  {
   "property": "C95",
   "status": "partial",
   "theorems": [
    "library_search",
    "manager_constructed",
    "manager_construction_outcome",
    "add_plugin_replaces",
    "plugins_listed",
    "libraries_open",
    "plugin_pointer_stable",
    "plugin_pointer_valid_refuted",
    "bad_library_skipped_refuted"
   ],
   "note": "Library functions that return normally. Findings: replacing a plugin leaves earlier pointers dangling; one library that is not a plugin makes the constructor throw."
  },
  {
   "property": "C96",
   "status": "partial",
   "theorems": [
    "first_loader",
    "loader_settled",
    "failed_search_retried",
    "later_plugins_found_refuted"
   ],
   "note": "Finding: only the environment of the first successful search counts; plugins installed later are not found."
  },
  {
   "property": "C97",
   "status": "proved",
   "theorems": [
    "text_shows",
    "text_tells",
    "text_tells_tree",
    "text_tells_any_id_refuted",
    "text_tells_long_id_refuted",
    "details_shown_refuted"
   ],
   "note": "Proved with the conditions on ids in the statement; without them it is false (refuted theorems). Finding: details of lanes are silently left out unless the ids of lanes are asked for. The texts of numbers and positions are parameters."
  },
  {
   "property": "C98",
   "status": "proved",
   "theorems": [
    "graph_drawn",
    "route_drawn",
    "drawing_tells",
    "drawing_tells_red_refuted"
   ],
   "note": "Proved with the conditions on ids in the statement; nothing is escaped, so without them it is false (refuted theorem). A phase is represented by the segments of its start positions, of which the code uses the first."
  },
  {
   "property": "C99",
   "status": "proved",
   "theorems": [
    "log_delivers",
    "log_safe",
    "level_named",
    "level_restored",
    "documented_levels_refuted",
    "default_sink_blank_line"
   ],
   "note": "Findings: the documented name \"warning\" is refused, the code knows \"warn\"; the default sink writes an empty line after each message. Calls from several threads are not modelled."
  },
  {
   "property": "C100",
   "status": "proved",
   "theorems": [
    "lane_contains_rounded",
    "lane_contains_nan",
    "exact_membership_refuted",
    "contains_answers_refuted",
    "box_built",
    "box_contains_rounded",
    "box_disjoint_exact",
    "box_contained_exact",
    "box_intersection_exact"
   ],
   "note": "Finding: the bounds of the lane are asked for before s is compared, so that a position within the tolerance of the end throws in a lane whose segment_bounds checks s exactly. Membership itself is not exact (refuted theorem); the error is bounded."
  },
  {
   "property": "C101",
   "status": "proved",
   "theorems": [
    "validator_rounded",
    "validator_rejects_nan",
    "open_range_refuted",
    "clamp_defined_refuted"
   ],
   "note": "Findings: the open range that is promised is closed when epsilon is lost in rounding; a range narrower than two epsilons is accepted and inverts the bounds of std::clamp."
  },
  {
   "property": "C102",
   "status": "proved",
   "theorems": [
    "ranges_rounded",
    "range_self",
    "ranges_exact",
    "intersects_symmetric_refuted"
   ],
   "note": "Finding: with a tolerance Intersects is not symmetric on doubles. Negative tolerances are treated over exact numbers in Regions."
  },
  {
   "property": "C103",
   "status": "proved",
   "theorems": [
    "sampling_loop_ends",
    "sampling_loop_ends_refuted",
    "sampling_step_zero",
    "waypoints_rounded"
   ],
   "note": "Ranges travelled backwards get no samples (see Waypoints). Findings: a loop beyond 2^53 steps from zero never ends; KDTreeStrategy does not check its step and never ends with step 0."
  },
  {
   "property": "C104",
   "status": "proved",
   "theorems": [
    "nearest_is_rounded_minimum",
    "nearest_is_accurate",
    "nearest_of_nan",
    "nearest_refuses",
    "nearest_is_exact_minimum_refuted"
   ],
   "note": "Coordinates are finite; stored NaN coordinates break the order std::nth_element needs. Findings: the nearest point in exact arithmetic is not always the one returned; a query with a NaN coordinate silently returns the root."
  },
  {
   "property": "C105",
   "status": "proved",
   "theorems": [
    "range_search_rounded",
    "range_search_accurate",
    "region_refuses_nan",
    "range_search_reports_contained_refuted"
   ],
   "note": "Stored coordinates are finite. Finding: a stored point outside the corners that the region contains thanks to its tolerance need not be reported; it depends on the tree."
  },
  {
   "property": "C106",
   "status": "partial",
   "theorems": [
    "network_built",
    "network_built_deprecated",
    "network_contains_lane",
    "network_contains_position_refuted"
   ],
   "note": "The claim about Contains(RoadPosition) is refuted: it asks the lane of the position and never looks at the network, and dereferences a null lane. Lane ids are distinct."
  },
  {
   "property": "C107",
   "status": "proved",
   "theorems": [
    "light_book_finds",
    "light_book_add_throws",
    "light_book_lists",
    "current_yield_group",
    "current_yield_group_extends_rule",
    "current_yield_group_of_rule_refuted"
   ],
   "note": "The state provider is the manual one. Finding: the current yield group need not be the yield group of any state of the rule."
  },
  {
   "property": "C108",
   "status": "partial",
   "theorems": [
    "fcloser_strict",
    "fcloser_distance",
    "fcloser_nan",
    "find_positions_rounded",
    "to_road_position_rounded",
    "to_road_position_hint_rounded",
    "to_road_position_finite_refuted"
   ],
   "note": "The last sentence is refuted: a lane with a NaN distance can be returned though another lane is at a finite distance. Lanes are given by the results of their ToLanePosition and by their bounds."
  },
  {
   "property": "C109",
   "status": "partial",
   "theorems": [
    "kd_find_rounded",
    "kd_to_road_position_rounded",
    "kd_refuses_nan",
    "kd_find_negative_refuted"
   ],
   "note": "A negative radius that is lost in rounding is accepted. Sampled points are given (their generation on doubles is in C103); lanes are given by the results of their ToLanePosition."
  },
  {
   "property": "C110",
   "status": "partial",
   "theorems": [
    "vector_operands_commute",
    "vector_equality",
    "vector_difference_zero",
    "vector_neutral",
    "dot_unit",
    "norm_number",
    "cross_antisymmetric",
    "cross_itself",
    "vector_access",
    "normalized_unit_refuted",
    "infinite_difference_refuted"
   ],
   "note": "The last sentence is refuted: squares underflow and overflow, so normalized() can be infinite and NaN, or zero. No contraction of products and sums is assumed."
  },
  {
   "property": "C111",
   "status": "partial",
   "theorems": [
    "from_str_reads",
    "from_str_dimension",
    "from_str_to_str",
    "from_str_format_refuted"
   ],
   "note": "The last sentence is refuted. std::stod and operator<< for doubles are parameters."
  },
  {
   "property": "C112",
   "status": "partial",
   "theorems": [
    "matrix_transpose",
    "matrix_product_transposed",
    "matrix_product_columns",
    "matrix_sums",
    "matrix_identity",
    "determinant_transposed_partial",
    "determinant_transposed_refuted",
    "inverse_nan_refuted"
   ],
   "note": "Determinants of transposes agree for dimension 2 and are refuted for 3; a matrix with NaN is not reported as singular."
  },
  {
   "property": "C113",
   "status": "partial",
   "theorems": [
    "fixed_text_throws",
    "fixed_text_nearest",
    "fixed_text_words",
    "fixed_text_order",
    "fixed_text_same",
    "fixed_text_exact",
    "vertex_text_distance",
    "normal_text_nonzero",
    "material_throws",
    "material_text",
    "material_visible",
    "fixed_text_zero_sign_refuted",
    "material_visible_refuted"
   ],
   "note": "The last sentence is refuted: -0.001 is written as -0.00, and with precision 0 all materials but asphalt are written as wholly transparent; with a digit or more none is. operator<< with std::fixed is taken to round to nearest, ties to even. The precision is any with 10^precision * tolerance >= 5 sqrt 3; the logarithms that compute it are not modelled."
  }
 ]
}