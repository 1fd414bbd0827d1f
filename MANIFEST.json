{
 "claims": [
  {
   "property": "C01",
   "status": "proved",
   "theorems": [
    "C01_rotate_direction_is_plane_rotation",
    "C01_zero_vector_unchanged"
   ],
   "note": ""
  },
  {
   "property": "C02",
   "status": "proved",
   "theorems": [
    "C02_rotations_add",
    "C02_inverse_undoes_rotate"
   ],
   "note": ""
  },
  {
   "property": "C03",
   "status": "proved",
   "theorems": [
    "C03_from_directions_exact",
    "C03_partial_rotation_angle"
   ],
   "note": ""
  },
  {
   "property": "C04",
   "status": "proved",
   "theorems": [
    "C04_close_pair_error_bound",
    "C04_same_direction_exact",
    "C04_degenerate_is_an_error",
    "C04_close_pair_exactness_refuted"
   ],
   "note": "The exactness clause is stated negatively in the property and refuted by C04_close_pair_exactness_refuted; antiparallel inputs need dimension < 10^16 (else np.allclose(u,-u) could hold)."
  },
  {
   "property": "C05",
   "status": "proved",
   "theorems": [
    "C05_rotate_array_columnwise",
    "C05_rotate_array_normalises",
    "C05_rotate_sequence"
   ],
   "note": ""
  },
  {
   "property": "C06",
   "status": "proved",
   "theorems": [
    "C06_directional_addition",
    "C06_zero_operand"
   ],
   "note": ""
  },
  {
   "property": "C07",
   "status": "proved",
   "theorems": [
    "C07_sequence_from_vectors",
    "C07_end_vector",
    "C07_invalid_vectors_rejected"
   ],
   "note": ""
  },
  {
   "property": "C08",
   "status": "proved",
   "theorems": [
    "C08_weighted_rotation_is_isometry",
    "C08_reaches_each_vector",
    "C08_zero_weights_identity",
    "C08_full_rotation_reaches_end"
   ],
   "note": ""
  },
  {
   "property": "C09",
   "status": "partial",
   "theorems": [
    "C09_append_direction_partial",
    "C09_append_direction_refuted"
   ],
   "note": "Refuted: the new rotation starts at the second base vector of the last rotation, not at the end vector. The end vector part holds (C09_append_direction_partial)."
  },
  {
   "property": "C10",
   "status": "proved",
   "theorems": [
    "C10_history_is_rooted_tree",
    "C10_insertion_effect",
    "C10_insertion_accepted"
   ],
   "note": ""
  },
  {
   "property": "C11",
   "status": "partial",
   "theorems": [
    "C11_atomic_rejections_partial",
    "C11_unknown_parent_refuted"
   ],
   "note": "Refuted for an unknown parent: the rejected call leaves nodes without attributes, the id cannot be inserted again and every reduction raises KeyError (C11_unknown_parent_refuted). Zero direction, duplicate id, missing level and too large explicit level leave the tree unchanged (C11_atomic_rejections_partial)."
  },
  {
   "property": "C12",
   "status": "proved",
   "theorems": [
    "C12_descendants"
   ],
   "note": ""
  },
  {
   "property": "C13",
   "status": "proved",
   "theorems": [
    "C13_node_weights_are_subtree_sums",
    "C13_independent_of_history_and_entry_order",
    "C13_independent_of_order_within_levels",
    "C13_length_mismatch"
   ],
   "note": ""
  },
  {
   "property": "C14",
   "status": "proved",
   "theorems": [
    "C14_reduction_geometry",
    "C14_no_weight_is_an_error"
   ],
   "note": ""
  },
  {
   "property": "C15",
   "status": "proved",
   "theorems": [
    "C15_full_weight_on_one_node"
   ],
   "note": ""
  },
  {
   "property": "C16",
   "status": "proved",
   "theorems": [
    "C16_mean_around_root"
   ],
   "note": ""
  },
  {
   "property": "C17",
   "status": "partial",
   "theorems": [
    "C17_contiguous_partial",
    "C17_repeated_rotation",
    "C17_contiguous_refuted"
   ],
   "note": "Refuted: all weight on a node with children makes its rotation appear twice (C17_contiguous_refuted, for all such trees C17_repeated_rotation). Contiguous whenever every weighted inner node has a weighted child (C17_contiguous_partial)."
  },
  {
   "property": "C18",
   "status": "partial",
   "theorems": [
    "C18_limited_weights_partial",
    "C18_total_is_number_of_saturated",
    "C18_sum_at_most_one_refuted"
   ],
   "note": "Refuted part: with k saturated entries the sum is k, not one (C18_sum_at_most_one_refuted, C18_total_is_number_of_saturated). Everything else holds (C18_limited_weights_partial)."
  },
  {
   "property": "C19",
   "status": "proved",
   "theorems": [
    "C19_gamma_weights"
   ],
   "note": ""
  },
  {
   "property": "C20",
   "status": "proved",
   "theorems": [
    "C20_weights_from_distances"
   ],
   "note": ""
  },
  {
   "property": "C21",
   "status": "proved",
   "theorems": [
    "C21_tree_weight"
   ],
   "note": ""
  },
  {
   "property": "C22",
   "status": "proved",
   "theorems": [
    "C22_rotation_weight"
   ],
   "note": ""
  },
  {
   "property": "C23",
   "status": "proved",
   "theorems": [
    "C23_component_weights"
   ],
   "note": ""
  },
  {
   "property": "C24",
   "status": "partial",
   "theorems": [
    "C24_partition_partial",
    "C24_avoidance_weights_partial",
    "C24_base_share_nonnegative_refuted"
   ],
   "note": "Refuted: in contact with two obstacle trees the base velocity gets weight -1 (C24_base_share_nonnegative_refuted). With at most one tree in contact it holds for all trees and positions (C24_avoidance_weights_partial)."
  },
  {
   "property": "C25",
   "status": "proved",
   "theorems": [
    "C25_parent_occlusion"
   ],
   "note": ""
  },
  {
   "property": "C26",
   "status": "partial",
   "theorems": [
    "C26_occlusion_array_partial",
    "C26_largest_gets_weight_refuted"
   ],
   "note": "Refuted: without positive entry the last entry gets the weight, not the largest (C26_largest_gets_weight_refuted)."
  },
  {
   "property": "C27",
   "status": "proved",
   "theorems": [
    "C27_convergence_radiuses",
    "C27_repulsion_disabled",
    "C27_init_range"
   ],
   "note": ""
  },
  {
   "property": "C28",
   "status": "proved",
   "theorems": [
    "C28_slowfactor"
   ],
   "note": ""
  },
  {
   "property": "C29",
   "status": "proved",
   "theorems": [
    "C29_safe_scaling",
    "C29_long_normal_undefined"
   ],
   "note": ""
  },
  {
   "property": "C30",
   "status": "partial",
   "theorems": [
    "C30_safe_magnitude_partial",
    "C30_speed_bound_refuted"
   ],
   "note": "Refuted for inputs faster than 1/ds: the damping base 1 + ds*<v,n>/... turns negative and the result is reversed and too long (C30_speed_bound_refuted). Holds whenever that base is positive (C30_safe_magnitude_partial)."
  },
  {
   "property": "C31",
   "status": "partial",
   "theorems": [
    "C31_limit_magnitude_partial",
    "C31_contact_stop_refuted"
   ],
   "note": "Refuted part: in contact and moving obliquely into the obstacle up to a quarter of the speed remains (C31_contact_stop_refuted). The rest holds (C31_limit_magnitude_partial)."
  },
  {
   "property": "C32",
   "status": "partial",
   "theorems": [
    "C32_no_velocity",
    "C32_no_obstacles",
    "C32_speed_bound_partial",
    "C32_speed_bound_refuted"
   ],
   "note": "Refuted: when no component has a weight (heading straight for the reference point) the result has speed one whatever the initial magnitude (C32_speed_bound_refuted). With a weighted component the bound holds for every scene (C32_speed_bound_partial); compute_convergence_sequence and the projected tangent are arguments of the model."
  },
  {
   "property": "C33",
   "status": "proved",
   "theorems": [
    "C33_without_near_obstacles",
    "C33_inside_is_contact",
    "C33_speed_bound",
    "C33_static_speed_bound",
    "C33_speed_kept"
   ],
   "note": ""
  },
  {
   "property": "C34",
   "status": "proved",
   "theorems": [
    "C34_weighted_mean",
    "C34_static_is_zero",
    "C34_contact_velocity",
    "C34_translation_speed",
    "C34_spatial_rotation_raises"
   ],
   "note": ""
  },
  {
   "property": "C35",
   "status": "proved",
   "theorems": [
    "C35_walk_is_parent_chain",
    "C35_walk_total",
    "C35_population",
    "C35_population_projected"
   ],
   "note": ""
  },
  {
   "property": "C36",
   "status": "partial",
   "theorems": [
    "C36_component_tree_partial",
    "C36_add_parent",
    "C36_without_reference",
    "C36_component_tree_refuted"
   ],
   "note": "Refuted: with an explicit reference point add_component accepts the new component's own id as parent, which becomes its own parent (C36_component_tree_refuted). For all other histories, including moves and deformations, the tree holds (C36_component_tree_partial, C36_add_parent); without an explicit reference point the case cannot occur (C36_without_reference)."
  },
  {
   "property": "C37",
   "status": "partial",
   "theorems": [
    "C37_rejected_unchanged_partial",
    "C37_rejected_unchanged_refuted"
   ],
   "note": "Refuted: an unknown parent raises KeyError after the component was stored; it stays without parent (C37_rejected_unchanged_refuted). Calls refused for a missing intersection or an index out of range without explicit reference point change nothing (C37_rejected_unchanged_partial)."
  },
  {
   "property": "C38",
   "status": "proved",
   "theorems": [
    "C38_collision_free",
    "C38_no_components",
    "C38_excluding_components",
    "C38_container",
    "C38_empty_container"
   ],
   "note": ""
  },
  {
   "property": "C39",
   "status": "proved",
   "theorems": [
    "C39_component_poses",
    "C39_rigid",
    "C39_deformation"
   ],
   "note": ""
  },
  {
   "property": "C40",
   "status": "partial",
   "theorems": [
    "C40_boundary_graph_partial",
    "C40_chain",
    "C40_collision_free",
    "C40_boundary_graph_refuted",
    "C40_second_parent_refuted"
   ],
   "note": "Refuted: chaining the first element makes it its own child and get_level_numbers never ends (C40_boundary_graph_refuted); re-parenting leaves the old entry (C40_second_parent_refuted). Histories without these two cases satisfy all clauses (C40_boundary_graph_partial, C40_chain, C40_collision_free)."
  },
  {
   "property": "C41",
   "status": "proved",
   "theorems": [
    "C41_alignment_closes_joints",
    "C41_tracking_closes_joints",
    "C41_rejected_component_refuted"
   ],
   "note": "All clauses proved for every body built by accepted calls, also with arbitrary pose updates before the alignment (C41_tracking_closes_joints). The additional C41_rejected_component_refuted records that a refused component stays in the obstacle list."
  },
  {
   "property": "C42",
   "status": "proved",
   "theorems": [
    "C42_nearest_point"
   ],
   "note": ""
  },
  {
   "property": "C43",
   "status": "partial",
   "theorems": [
    "C43_segment_distance",
    "C43_segment_direction",
    "C43_weights_partial",
    "C43_weights_refuted"
   ],
   "note": "Refuted: a position on two segments (a corner of a path without margin) gets weight sum two. Partial: the sum is the larger of one and the number of segments which contain the position."
  },
  {
   "property": "C44",
   "status": "partial",
   "theorems": [
    "C44_simple_circular",
    "C44_on_circle",
    "C44_maximum_velocity_refuted"
   ],
   "note": "Refuted clause: the maximum velocity is only applied in the slow down zone, the speed elsewhere is one. Everything else is proved for all positions."
  },
  {
   "property": "C45",
   "status": "proved",
   "theorems": [
    "C45_wavy",
    "C45_large_deviation"
   ],
   "note": ""
  },
  {
   "property": "C46",
   "status": "proved",
   "theorems": [
    "C46_deflate_shift",
    "C46_inflate_shift",
    "C46_inflate_deflate",
    "C46_deflate_inflate",
    "C46_partial_deflation_refuted",
    "C46_surface_collapses"
   ],
   "note": "For full deflation (the documented case) both directions are proved. A theorem shows that a fractional deflation weight is not undone in one order, and that the surface itself collapses to the reference point."
  },
  {
   "property": "C47",
   "status": "proved",
   "theorems": [
    "C47_projected_weight",
    "C47_decreasing"
   ],
   "note": ""
  },
  {
   "property": "C48",
   "status": "partial",
   "theorems": [
    "C48_surface_point_partial",
    "C48_local_frame",
    "C48_tolerance_refuted"
   ],
   "note": "Proved for clusters whose centers are at least 2e-9 radii apart: the points of the ray up to the returned one are exactly those of the region. Refuted below that distance: the code skips planes with |normal . direction| <= 1e-9 (C48_tolerance_refuted). Clusters with the same center (NaN normals) are excluded."
  },
  {
   "property": "C49",
   "status": "proved",
   "theorems": [
    "C49_sequence_weights",
    "C49_no_parent",
    "C49_handover"
   ],
   "note": "Closed form of both weights. The distance value is an argument (float_info.max counts as infinite); C58 describes the real one."
  },
  {
   "property": "C50",
   "status": "proved",
   "theorems": [
    "C50_chain",
    "C50_coincident"
   ],
   "note": "Holds for every descending permutation, since argsort is not stable. Errors for coincident centers are characterised."
  },
  {
   "property": "C51",
   "status": "partial",
   "theorems": [
    "C51_kept_points",
    "C51_labels_in_range_partial",
    "C51_out_of_range_refuted",
    "C51_wrong_center_refuted"
   ],
   "note": "Points of kept clusters keep their center (C51_kept_points, all patterns). Labels are in range for at most one removed cluster. Refuted: with two removed clusters a label can be out of range; with one, a point of the removed cluster can be moved to a center which is not the nearest."
  },
  {
   "property": "C52",
   "status": "partial",
   "theorems": [
    "C52_lookup",
    "C52_consistent_partial",
    "C52_forest",
    "C52_set_parent_atomic",
    "C52_reattach_refuted",
    "C52_failed_add_refuted",
    "C52_self_parent_refuted",
    "C52_roots_refuted"
   ],
   "note": "Lookups match the history for all well-formed histories; parents and children agree unless an element is re-attached. Refuted: re-attached elements stay with the old parent, a failing add leaves the value behind and shifts the parents, a new element may be its own parent, `roots` holds only None and get_nodes_hirarchy_descending always raises."
  },
  {
   "property": "C53",
   "status": "proved",
   "theorems": [
    "C53_equilibrium",
    "C53_constant_field",
    "C53_linear_field",
    "C53_scalar_field",
    "C53_pos_vel",
    "C53_speed_limit"
   ],
   "note": ""
  },
  {
   "property": "C54",
   "status": "partial",
   "theorems": [
    "C54_neighbours_partial",
    "C54_fraction_refuted"
   ],
   "note": "Refuted: later bases are rotated away by +angle*(1-weight) instead of back. Partial: weights on two neighbouring rotations which sum to one."
  },
  {
   "property": "C55",
   "status": "proved",
   "theorems": [
    "C55_rotation_weight",
    "C55_circular_rotation",
    "C55_sense"
   ],
   "note": ""
  },
  {
   "property": "C56",
   "status": "partial",
   "theorems": [
    "C56_path_partial",
    "C56_margin_refuted",
    "C56_half_margin_raises",
    "C56_magnitude"
   ],
   "note": "Refuted: a margin above half of a leg reverses the segment (exactly half raises). Partial: legs longer than two margins."
  },
  {
   "property": "C57",
   "status": "partial",
   "theorems": [
    "C57_is_inside_partial",
    "C57_surface_refuted"
   ],
   "note": "Right everywhere off the surface. Refuted on the surface: index -1 selects the last cluster's plane, so the surface counts as inside if that cluster is not relevant."
  },
  {
   "property": "C58",
   "status": "proved",
   "theorems": [
    "C58_transparent_face"
   ],
   "note": ""
  },
  {
   "property": "C59",
   "status": "partial",
   "theorems": [
    "C59_obstacle_gamma_refuted"
   ],
   "note": "Refuted: the value computed at line 364 is not returned, the method returns None off the surface and is_inside raises TypeError."
  },
  {
   "property": "C60",
   "status": "partial",
   "theorems": [
    "C60_projected_tangent",
    "C60_never_raises",
    "C60_not_inward",
    "C60_boundary_kept_partial",
    "C60_boundary_kept_refuted",
    "C60_aligned_unchanged",
    "C60_aligned_refuted"
   ],
   "note": "C60_projected_tangent, C60_never_raises and C60_not_inward hold for all dimensions. Refuted clauses: a direction on the circle is mirrored when the reference direction is tilted (C60_boundary_kept_refuted; kept when the reference lies inside: C60_boundary_kept_partial), and an initial direction equal to the reference direction stays pointing into the obstacle (C60_aligned_refuted)."
  },
  {
   "property": "C61",
   "status": "proved",
   "theorems": [
    "C61_no_penetration"
   ],
   "note": "Holds for any number of trees and components and any parent chain. Hypotheses: scene (valid directions, direction tree without opposite or nearly equal neighbours), reference direction against the surface normal by more than 1e-3 (the stop threshold of the code)."
  },
  {
   "property": "C62",
   "status": "partial",
   "theorems": [
    "C62_dynamics_sequence_partial",
    "C62_without_attractor",
    "C62_tiny_velocity_raises",
    "C62_near_attractor_refuted"
   ],
   "note": "Holds for base and velocity longer than 1e-8 and not opposite (C62_dynamics_sequence_partial). Refuted: within 1e-8 of the attractor of a linear system the call raises ValueError (C62_near_attractor_refuted)."
  },
  {
   "property": "C63",
   "status": "proved",
   "theorems": [
    "C63_rotation_to_reference"
   ],
   "note": "All cases; the coincidence of end and center raises NotImplementedError (stated). The exact end holds for equal or distinguishable directions."
  },
  {
   "property": "C64",
   "status": "proved",
   "theorems": [
    "C64_no_influence",
    "C64_transported_sequence"
   ],
   "note": "The sequences pass through neighbouring directions which are not opposite and equal or distinguishable (related_path)."
  },
  {
   "property": "C65",
   "status": "partial",
   "theorems": [
    "C65_convergence_sequence",
    "C65_overlap_refuted"
   ],
   "note": "C65_convergence_sequence holds for every ready scene (conv_ready) in which at most one component has full influence. The last clause is refuted: two obstacles of full influence double the rotation although all dynamics agree (C65_overlap_refuted)."
  },
  {
   "property": "C66",
   "status": "partial",
   "theorems": [
    "C66_at_rest",
    "C66_no_obstacles",
    "C66_around_obstacles_partial",
    "C66_away_raises",
    "C66_raises_refuted"
   ],
   "note": "C66_at_rest and C66_no_obstacles are complete for dynamics with an attractor and without evaluate_dynamics_sequence of their own. C66_around_obstacles_partial needs a ready scene (conv_ready of C65, scene of C32/C61), at most one component of full influence; C66_raises_refuted: close to the attractor of a linear system it raises, C66_away_raises: also where the dynamics point exactly away from the attractor; when no component has an avoidance weight the speed is one instead of the initial speed (the defect of C32)."
  },
  {
   "property": "C67",
   "status": "partial",
   "theorems": [
    "C67_folded_position",
    "C67_unfold_fold",
    "C67_fold_injective",
    "C67_reference_kept",
    "C67_argument_kept_refuted"
   ],
   "note": "The inverse is proved up to a folded radial coordinate of 1000 and 1000 dimensions (beyond, np.allclose no longer tells the directions apart). Refuted: in the obstacle frame unfolding overwrites the array of the caller (C67_argument_kept_refuted)."
  },
  {
   "property": "C68",
   "status": "partial",
   "theorems": [
    "C68_projected_position",
    "C68_weight",
    "C68_weight_attractor_inside",
    "C68_injective",
    "C68_orientation_refuted"
   ],
   "note": "Positions whose folded image is farther than 1e10 are returned in the obstacle frame; C68_weight assumes that such points are outside of the obstacle. C68_injective inherits the bounds of C67. The last clause is refuted (C68_orientation_refuted)."
  },
  {
   "property": "C69",
   "status": "proved",
   "theorems": [
    "C69_full_influence",
    "C69_contact_direction",
    "C69_attractor_covered"
   ],
   "note": "Uses the exact weight of C68 inside the convergence sequence of C65 (conv_ready scenes)."
  },
  {
   "property": "C70",
   "status": "proved",
   "theorems": [
    "C70_continuation_weight"
   ],
   "note": ""
  },
  {
   "property": "C71",
   "status": "proved",
   "theorems": [
    "C71_away_kept",
    "C71_tangent",
    "C71_not_inward",
    "C71_tail_rotation"
   ],
   "note": ""
  },
  {
   "property": "C72",
   "status": "partial",
   "theorems": [
    "C72_contact_partial",
    "C72_contact_full_speed_partial",
    "C72_opposite_convergence_fails",
    "C72_contact_refuted"
   ],
   "note": "Assumes full importance on the touched obstacle, a convergence radius of at least a right angle, and for every near obstacle that the convergence velocity is not straight away from it (`admissible`) and told apart by np.allclose (`apart`). The last clause is refuted: a convergence velocity straight away from the touched obstacle, or opposite to the initial velocity, gives NaN (C72_opposite_convergence_fails, C72_contact_refuted)."
  },
  {
   "property": "C73",
   "status": "proved",
   "theorems": [
    "C73_opposite_neighbours_break_every_mean"
   ],
   "note": ""
  },
  {
   "property": "C74",
   "status": "partial",
   "theorems": [
    "C74_influence_partial",
    "C74_into_obstacle_refuted"
   ],
   "note": "directional_convergence_summing hands convergence and reference to the continuation weight in swapped order (line 1092), so the influence depends on the wrong angle; the last clause is refuted at every distance 1 < gamma < 10 (C74_into_obstacle_refuted)."
  },
  {
   "property": "C75",
   "status": "proved",
   "theorems": [
    "C75_contact",
    "C75_defined",
    "C75_without_importance",
    "C75_head_on"
   ],
   "note": "Convergence radius of a right angle, or above it with cosine at most -1/1000. The end direction in contact assumes that the convergence direction lies in the touched surface or leaves it by a cosine of at least 1/1000 (tolerance of np.allclose); C75_defined assumes this for all obstacles."
  },
  {
   "property": "C76",
   "status": "partial",
   "theorems": [
    "C76_own_radius_refuted"
   ],
   "note": "Refuted: the radius of the obstacle only decides about the intermediate node, the tangent uses the radius of the avoider (exact angle: last clause of C72_contact_partial and C72_contact_full_speed_partial)."
  },
  {
   "property": "C77",
   "status": "partial",
   "theorems": [
    "C77_speed_and_angle",
    "C77_executions_converge",
    "C77_far_and_center",
    "C77_defined",
    "C77_fades",
    "C77_defined_refuted",
    "C77_at_attractor_error",
    "C77_continuity_refuted"
   ],
   "note": "Refuted clauses: NaN at positions behind the attractor inside the influence, AttributeError everywhere for an obstacle centered at the attractor, jump where the attractor direction is perpendicular to the axis of the obstacle."
  },
  {
   "property": "C78",
   "status": "partial",
   "theorems": [
    "C78_spiral",
    "C78_progress",
    "C78_speed",
    "C78_center_refuted",
    "C78_center_nan_refuted"
   ],
   "note": "Proved for a center at the origin. With another center the velocity is transformed like a position: the motion goes backwards or is NaN."
  },
  {
   "property": "C79",
   "status": "partial",
   "theorems": [
    "C79_speed_and_height",
    "C79_never_rest",
    "C79_rest_refuted"
   ],
   "note": "Refuted clause: at the attractor the velocity has full speed (NaN for an attractor on the axis of the rotation)."
  },
  {
   "property": "C80",
   "status": "partial",
   "theorems": [
    "C80_speed_and_angle",
    "C80_no_obstacle",
    "C80_contact",
    "C80_weights",
    "C80_contact_weights_refuted",
    "C80_fallback_refuted"
   ],
   "note": "Refuted clauses: in contact the weights grow with gamma (the comparison is not part of the assigned name), and far away the field is the linear one (the averaged velocity is not returned)."
  },
  {
   "property": "C81",
   "status": "proved",
   "theorems": [
    "C81_speed_and_progress",
    "C81_exact_deviation",
    "C81_executions",
    "C81_check_needed"
   ],
   "note": "C81_check_needed: without the limit the velocity can go against the flow."
  },
  {
   "property": "C82",
   "status": "partial",
   "theorems": [
    "C82_predictions",
    "C82_speed",
    "C82_approach",
    "C82_untrained",
    "C82_lyapunov_refuted",
    "C82_fit_dimension",
    "C82_convergence_limit_refuted"
   ],
   "note": "Model in the plane. Refuted clauses: a regressor within the limits can increase the distance for every choice of the bases; the fit raises IndexError in every dimension other than two (C82_fit_dimension); the convergence velocity is not limited."
  },
  {
   "property": "C83",
   "status": "partial",
   "theorems": [
    "C83_shares",
    "C83_nearer",
    "C83_none",
    "C83_fade_refuted"
   ],
   "note": "Refuted clause: the influence does not fade out, one obstacle has the whole weight up to the cut-off."
  },
  {
   "property": "C84",
   "status": "partial",
   "theorems": [
    "C84_far",
    "C84_mean_partial",
    "C84_alone",
    "C84_within",
    "C84_standstill",
    "C84_wrong_obstacle_refuted"
   ],
   "note": "Proved where the relevant obstacles come first in the environment. Otherwise the direction around the wrong obstacle is used (index of the pass instead of the obstacle), so the order matters (refuted clause). A vanishing direction raises ValueError (C84_standstill)."
  },
  {
   "property": "C85",
   "status": "proved",
   "theorems": [
    "C85_speed",
    "C85_full_weight",
    "C85_no_weight",
    "C85_arc",
    "C85_deviation",
    "C85_behind",
    "C85_rejected"
   ],
   "note": "Hypotheses: obstacle not at the attractor, dynamics not at rest in either point (else the errors of C85_rejected)."
  },
  {
   "property": "C86",
   "status": "proved",
   "theorems": [
    "C86_sequence",
    "C86_other",
    "C86_plain"
   ],
   "note": "Without singularity the sequence starts at the reference point instead (C86_plain)."
  },
  {
   "property": "C87",
   "status": "partial",
   "theorems": [
    "C87_sequence",
    "C87_unaligned",
    "C87_plain_refuted"
   ],
   "note": "Refuted clause: the obstacle convergence without singularity starts at the reference point and is rejected with ValueError (C87_unaligned, C87_plain_refuted). Sequences shorter than 92 rotations without opposite or confusable steps."
  },
  {
   "property": "C88",
   "status": "partial",
   "theorems": [
    "C88_undisturbed",
    "C88_contact_partial",
    "C88_moving_refuted"
   ],
   "note": "Proved in a static environment, in contact with one obstacle. Refuted clause: with a moving obstacle, its velocity is subtracted from the normalized velocity and scaled back with it, so the robot can move into the obstacle."
  },
  {
   "property": "C89",
   "status": "proved",
   "theorems": [
    "C89_rest",
    "C89_undisturbed",
    "C89_speed",
    "C89_contact"
   ],
   "note": "Hypothesis: the convergence sequence over the obstacles has no confusable steps (the tree rejects none, but its rotations are then inexact)."
  },
  {
   "property": "C90",
   "status": "partial",
   "theorems": [
    "C90_wall",
    "C90_free",
    "C90_frame_refuted"
   ],
   "note": "Proved in the frame of the object. Refuted clause: is_inside ignores the pose, evaluate does not."
  },
  {
   "property": "C91",
   "status": "partial",
   "theorems": [
    "C91_outside_refuted",
    "C91_overlap_refuted",
    "C91_wall_refuted",
    "C91_gates_refuted",
    "C91_routes_partial",
    "C91_found"
   ],
   "note": "Proved for an attractor in one region, evaluations outside only if the attractor is outside or in the first hull, at most one entrance in these cases. Every other case of the statement is refuted: evaluations outside (livelock), other entrances (KeyError), common attractors (TypeError), attractor in the wall (always the first hull)."
  },
  {
   "property": "C92",
   "status": "partial",
   "theorems": [
    "C92_single",
    "C92_frame_refuted",
    "C92_rest_refuted"
   ],
   "note": "Refuted clauses: velocities of a turned object are returned in the wrong frame; the speed is one arbitrarily close to the attractor."
  },
  {
   "property": "C93",
   "status": "partial",
   "theorems": [
    "C93_gate_refuted",
    "C93_graph"
   ],
   "note": "Refuted clause: an entrance can lie in the wall (the hull is checked twice, the outer obstacle never)."
  },
  {
   "property": "C94",
   "status": "partial",
   "theorems": [
    "C94_weight",
    "C94_jump_refuted"
   ],
   "note": "Refuted clause: the weight jumps at the outer surface."
  },
  {
   "property": "C95",
   "status": "proved",
   "theorems": [
    "C95_u_shape"
   ],
   "note": "Hypothesis on the cuboid of dynamic_obstacle_avoidance: gamma is at most one exactly in the box."
  },
  {
   "property": "C96",
   "status": "partial",
   "theorems": [
    "C96_mean",
    "C96_prepared",
    "C96_append_refuted"
   ],
   "note": "Refuted clause: objects appended later are not prepared when the same attractor is set again."
  },
  {
   "property": "C97",
   "status": "proved",
   "theorems": [
    "C97_mixing_weights",
    "C97_degenerate"
   ],
   "note": "det and pinv of numpy are arguments; the determinants of the covariances are positive. Degenerate mixtures raise or are not numbers (C97_degenerate)."
  },
  {
   "property": "C98",
   "status": "proved",
   "theorems": [
    "C98_deviation",
    "C98_velocity"
   ],
   "note": "The columns of the orthogonal base (vartools) are an argument with the hypothesis that they complete the direction to an orthonormal frame; planar instance given."
  },
  {
   "property": "C99",
   "status": "partial",
   "theorems": [
    "C99_shrinks",
    "C99_attraction",
    "C99_option_lost_refuted"
   ],
   "note": "Refuted clause: the default argument resets the option of the learner, and the velocity can point away from the attractor."
  },
  {
   "property": "C100",
   "status": "partial",
   "theorems": [
    "C100_one_sample",
    "C100_equal_samples",
    "C100_independent_refuted",
    "C100_overwritten_refuted",
    "C100_kept"
   ],
   "note": "Proved for batches of one sample and, as an exact formula, for equal samples (angle scaled by k^(power-1)). Refuted: independence of the samples; the array of the caller is overwritten."
  },
  {
   "property": "C101",
   "status": "partial",
   "theorems": [
    "C101_reproduced",
    "C101_other_attractor_refuted",
    "C101_attractor",
    "C101_first_left_out_refuted"
   ],
   "note": "Proved for an attractor at the origin and for the attractor of the mixture. Refuted: any other attractor; a given attractor of the mixture raises a NameError; the Gaussian process and support vector learners leave out the first demonstration."
  },
  {
   "property": "C102",
   "status": "partial",
   "theorems": [
    "C102_trajectories",
    "C102_starting_points_refuted",
    "C102_mixture_refuted"
   ],
   "note": "Proved for recorded starting points. Refuted: given starting points are ignored; the method of the mixture always raises."
  },
  {
   "property": "C103",
   "status": "partial",
   "theorems": [
    "C103_gaussian",
    "C103_conditional",
    "C103_density_refuted"
   ],
   "note": "Refuted clause: the value is not the normal density, the factor one half in the exponent is missing."
  },
  {
   "property": "C104",
   "status": "proved",
   "theorems": [
    "C104_normalized",
    "C104_at_rest"
   ],
   "note": "crop_vel is one, its default."
  },
  {
   "property": "C105",
   "status": "proved",
   "theorems": [
    "C105_covered",
    "C105_samples_inside",
    "C105_neighbours"
   ],
   "note": "The clustering is an argument; a sample belongs to a nearest center. The dynamics of the clusters and the rotational avoidance of predict are arguments."
  },
  {
   "property": "C106",
   "status": "partial",
   "theorems": [
    "C106_weights_refuted",
    "C106_single",
    "C106_cutoff_refuted",
    "C106_behind",
    "C106_speed"
   ],
   "note": "Proved: exact angle for one cluster in reach, unit speed, outside velocity kept behind. Refuted: the weight of the outside velocity is never positive (sum one tenth or one), and the velocity jumps by at least pi/20 at the cut-off. The weighted sum of directions of vartools is modelled as the sum of weighted angle vectors for weights of any sign."
  },
  {
   "property": "C107",
   "status": "partial",
   "theorems": [
    "C107_two_clusters",
    "C107_refuted"
   ],
   "note": "Refuted with the default factor: two clusters where the direction of the parent points and the returned one never does. For two clusters in any dimension: the returned direction points exactly when the half-way direction does, for every number of iterations."
  },
  {
   "property": "C108",
   "status": "partial",
   "theorems": [
    "C108_inside",
    "C108_face_refuted",
    "C108_from_centers_refuted",
    "C108_outside",
    "C108_averaged"
   ],
   "note": "Proved: inside and outside cases, weights, totality up to the argument dynamics. Refuted: on the face to the predecessor the convergence radius is zero although the weight is with the predecessor; learners from given centers raise AttributeError outside of the regions."
  },
  {
   "property": "C109",
   "status": "partial",
   "theorems": [
    "C109_edges_kept",
    "C109_refit_refuted"
   ],
   "note": "Exact edges after a refit; refuted: old edges stay, and a cluster with two parents raises NotImplementedError."
  },
  {
   "property": "C110",
   "status": "proved",
   "theorems": [
    "C110_tree"
   ],
   "note": "The mixing weights of the end points and the sorted preferences (argsort) are arguments; ties may be sorted in any way. The break point after more than 100 rounds is passed over; it is not reached for up to 100 hulls."
  },
  {
   "property": "C111",
   "status": "partial",
   "theorems": [
    "C111_choice_refuted",
    "C111_first_preference"
   ],
   "note": "Proved for the first preference. Refuted for later ones: the comparison reads the column of the number of the preference instead of the column of the parent."
  },
  {
   "property": "C112",
   "status": "partial",
   "theorems": [
    "C112_parent",
    "C112_root_refuted"
   ],
   "note": "Proved for hulls with a parent. Refuted for a root which does not contain the attractor: the parent -1 is read as the last hull. The intersection with the surface is an argument which gives a point ahead of the end point."
  },
  {
   "property": "C113",
   "status": "partial",
   "theorems": [
    "C113_relative",
    "C113_passage",
    "C113_reference_refuted",
    "C113_reset"
   ],
   "note": "Proved when the reference point of the hull is its center. Refuted otherwise: the relative gamma may be negative within the hull. Gamma and surface points are arguments."
  },
  {
   "property": "C114",
   "status": "partial",
   "theorems": [
    "C114_weights",
    "C114_radius",
    "C114_unset_point_refuted",
    "C114_attraction_refuted",
    "C114_attraction_outside"
   ],
   "note": "Weights and radius proved; power_value is not used. Refuted: an intersection point which is not set raises, and the attraction raises TypeError at each position within a hull (argument weight of directional_convergence_summing)."
  },
  {
   "property": "C115",
   "status": "partial",
   "theorems": [
    "C115_shape",
    "C115_moved",
    "C115_block_moved_refuted"
   ],
   "note": "Blocks without margin; the gamma of a block is an argument which is at most one exactly within the block. Refuted for BlockArchObstacle after a move: update_obstacles assigns to shape, not to pose."
  },
  {
   "property": "C116",
   "status": "proved",
   "theorems": [
    "C116_references"
   ],
   "note": "For both factories, blocks without margin."
  },
  {
   "property": "C117",
   "status": "partial",
   "theorems": [
    "C117_rejected_partial",
    "C117_second_root_refuted",
    "C117_second_parent_refuted",
    "C117_failed_parent_refuted",
    "C117_way_refuted",
    "C117_inside"
   ],
   "note": "Refuted: zero counts as not set, so the root 0 is replaced and a child of 0 gets a second parent; a parent without intersection raises but is kept; the parent of the root is -1, so the way to the root never ends."
  },
  {
   "property": "C118",
   "status": "proved",
   "theorems": [
    "C118_tangent",
    "C118_ellipse",
    "C118_ellipse_global"
   ],
   "note": "The columns of the basis and the product with the pseudo inverse are arguments (the vector is written with the basis); the intersection with a circle is an argument."
  },
  {
   "property": "C119",
   "status": "partial",
   "theorems": [
    "C119_directions",
    "C119_radius_refuted",
    "C119_without_attractor",
    "C119_attractor_partial",
    "C119_attractor_refuted"
   ],
   "note": "Proved: entries over all histories; dynamics without attractor; attractor at the origin or dynamics which do not point to the origin. Refuted otherwise: the test for the linear system uses the position instead of the direction to the attractor; radiuses are dropped. LocallyRotated is an argument which has the given direction at its center."
  },
  {
   "property": "C120",
   "status": "proved",
   "theorems": [
    "C120_hierarchy",
    "C120_evaluated"
   ],
   "note": "The values of predict_proba are an argument. Evaluated whenever there are at least as many components as dimensions (else C121_missing_refuted)."
  },
  {
   "property": "C121",
   "status": "partial",
   "theorems": [
    "C121_root_below_dimension",
    "C121_closest_refuted",
    "C121_missing_refuted"
   ],
   "note": "Refuted: the norm is taken per dimension, so the root is the index of a dimension; with fewer components than dimensions it may not exist."
  },
  {
   "property": "C122",
   "status": "proved",
   "theorems": [
    "C122_hidden",
    "C122_weights",
    "C122_inside",
    "C122_outside"
   ],
   "note": "The graph has a root (C120); where some value is not defined (NaN) the function is taken to fail. The parameters gamma_min_factor and gamma_min_summand are not used."
  },
  {
   "property": "C123",
   "status": "partial",
   "theorems": [
    "C123_surface",
    "C123_center_refuted"
   ],
   "note": "Refuted at the center: gamma is zero there and negative around it for a radius above one."
  },
  {
   "property": "C124",
   "status": "partial",
   "theorems": [
    "C124_inverse",
    "C124_projection",
    "C124_gamma_value",
    "C124_gamma_refuted"
   ],
   "note": "Refuted: gamma uses the triangular factor of the precision as if it were the precision; on the surface of a round component of variance v it is the fourth root of v. The intersection with the circle (vartools) is modelled as the farther solution."
  },
  {
   "property": "C125",
   "status": "partial",
   "theorems": [
    "C125_normal",
    "C125_triangular_refuted",
    "C125_reference",
    "C125_center",
    "C125_half",
    "C125_derivative_refuted"
   ],
   "note": "The normal for symmetric matrices; refuted for the triangular factor which the code uses. The normal is NaN at the center, the default is not reached; the derivative is half of the derivative."
  },
  {
   "property": "C126",
   "status": "partial",
   "theorems": [
    "C126_set_refuted",
    "C126_first_component",
    "C126_projection",
    "C126_towards_refuted",
    "C126_unit_velocity"
   ],
   "note": "Refuted: set_kernel_point assigns nothing; the comparison with one (and its direction) returns velocities towards the kernel point; the index within the graph (always zero) is used as index of the component."
  },
  {
   "property": "C127",
   "status": "partial",
   "theorems": [
    "C127_unit",
    "C127_round",
    "C127_round_refuted",
    "C127_single"
   ],
   "note": "Refuted: without offset (as for every round component) the division by zero is not avoided. The mean reference is an argument, the normals are summed without weights."
  },
  {
   "property": "C128",
   "status": "partial",
   "theorems": [
    "C128_same_center",
    "C128_middle",
    "C128_descent",
    "C128_overlap_refuted"
   ],
   "note": "Proved: the cases of equal centers and equal precisions; for all pairs the search starts in the middle, each round goes downhill for the sum of the powers of the two gammas, and it ends after the rounds or where this sum is almost stationary. Refuted: the point may lie outside of both components. Missing: where the search ends for different precisions within the given number of rounds."
  },
  {
   "property": "C129",
   "status": "partial",
   "theorems": [
    "C129_weight",
    "C129_negative_refuted"
   ],
   "note": "Refuted for negative gamma only."
  },
  {
   "property": "C130",
   "status": "partial",
   "theorems": [
    "C130_trajectory",
    "C130_stopped",
    "C130_step_length",
    "C130_counted",
    "C130_classification_refuted",
    "C130_minimum_refuted",
    "C130_start_refuted"
   ],
   "note": "Refuted: a run which collides is counted as a local minimum; the last point before a local minimum is dropped; the start is not tested for collision. Reading and writing of files is not modelled (run of both evaluators fails there, the module os is not imported)."
  },
  {
   "property": "C131",
   "status": "partial",
   "theorems": [
    "C131_distance",
    "C131_signed",
    "C131_cancel_refuted",
    "C131_empty_refuted"
   ],
   "note": "Proved for evaluation_trajectories_with_std.py; refuted for evaluation_trajectories.py, where points inside and outside cancel. An empty trajectory gives NaN."
  },
  {
   "property": "C132",
   "status": "proved",
   "theorems": [
    "C132_dot",
    "C132_time_step",
    "C132_standing",
    "C132_acceleration",
    "C132_scaled"
   ],
   "note": "A trajectory without motion is a ValueError, with one moving step NaN (as part of the theorems)."
  },
  {
   "property": "C133",
   "status": "partial",
   "theorems": [
    "C133_following",
    "C133_own_field",
    "C133_squared",
    "C133_range",
    "C133_speed_refuted",
    "C133_pause_refuted"
   ],
   "note": "Refuted: with a pause the later steps are compared with the field at earlier points; the squared deviation compares unit velocities with the field of any speed."
  },
  {
   "property": "C134",
   "status": "partial",
   "theorems": [
    "C134_common",
    "C134_means",
    "C134_spread_refuted"
   ],
   "note": "Refuted: the spread of the occupied fraction is the deviation of one number, zero. The variances of pandas are not modelled; tables have the same length."
  },
  {
   "property": "C135",
   "status": "partial",
   "theorems": [
    "C135_followed",
    "C135_ahead_refuted",
    "C135_attractor_refuted",
    "C135_long_refuted"
   ],
   "note": "For at most 98 segments, off the attractor and off the points where two segments meet. Refuted: no command (NaN) straight ahead of the attractor; a number instead of an array at the attractor; a ValueError everywhere for more than 98 segments. Maximum velocity and slow down distance are the defaults."
  },
  {
   "property": "C136",
   "status": "partial",
   "theorems": [
    "C136_update",
    "C136_executions",
    "C136_evaluate_refuted"
   ],
   "note": "The debugger call at the end of update_base is not modelled. Refuted: evaluate does not update the base (the call is commented out)."
  },
  {
   "property": "C137",
   "status": "partial",
   "theorems": [
    "C137_search",
    "C137_default_refuted"
   ],
   "note": "Refuted for the default arguments: two disks with common points, the search ends outside of both. That the search balances within the iterations is not proved."
  },
  {
   "property": "C138",
   "status": "partial",
   "theorems": [
    "C138_deviation",
    "C138_deviation_jump_refuted",
    "C138_inverted",
    "C138_inverted_jump_refuted",
    "C138_projected",
    "C138_into_refuted"
   ],
   "note": "Refuted: both weights jump, and a velocity along the surface opposite to the tangent is turned straight into the obstacle."
  },
  {
   "property": "C139",
   "status": "partial",
   "theorems": [
    "C139_average",
    "C139_opposite_refuted"
   ],
   "note": "Refuted: between two touched walls with opposite normals the average vanishes and the velocity is not reduced. Without components min raises a ValueError."
  },
  {
   "property": "C140",
   "status": "partial",
   "theorems": [
    "C140_normal_partial",
    "C140_faces",
    "C140_center_refuted",
    "C140_sphere_refuted",
    "C140_wrong_side_refuted"
   ],
   "note": "Off the center and off the surface. Refuted: at the center the position itself with first entry one is returned and written into the array of the caller; on the sphere of a region without neighbours an IndexError; on a face the normal can point to the wrong side. np.argsort and the second base vector are arguments."
  },
  {
   "property": "C141",
   "status": "partial",
   "theorems": [
    "C141_gamma",
    "C141_obstacle_refuted",
    "C141_surface_points"
   ],
   "note": "Refuted for an obstacle which is no boundary: above one inside, the difference of the distances outside."
  },
  {
   "property": "C142",
   "status": "partial",
   "theorems": [
    "C142_conversion",
    "C142_neutral_base_partial",
    "C142_conversion_refuted"
   ],
   "note": "The body stays where it is for the default base only; refuted for other bases: the components are the same objects, so the body moves."
  },
  {
   "property": "C143",
   "status": "partial",
   "theorems": [
    "C143_tracking",
    "C143_robot",
    "C143_message_without_id",
    "C143_unmeasured_limb_refuted"
   ],
   "note": "Filters, yaw and the frame of the robot are arguments; sharing of the position array between filter and root is not modelled. Refuted: a limb which is not measured in a cycle takes the orientation of its parent. A measurement with id -1 raises AttributeError when a node has no id."
  },
  {
   "property": "C144",
   "status": "partial",
   "theorems": [
    "C144_limb_axis_partial",
    "C144_limb_axis_refuted",
    "C144_downwards_refuted"
   ],
   "note": "Sine and cosine of the half angle are swapped: the axis is mirrored to point downwards, right exactly for directions which do not point up, or straight up. Refuted for upward and straight down directions."
  },
  {
   "property": "C145",
   "status": "proved",
   "theorems": [
    "C145_gamma",
    "C145_conversion_keeps_gamma",
    "C145_lookup"
   ],
   "note": ""
  },
  {
   "property": "C146",
   "status": "partial",
   "theorems": [
    "C146_rotated",
    "C146_monotone",
    "C146_away_refuted"
   ],
   "note": "Refuted: with a reference direction farther from the normal the first part of the turn leads towards the normal."
  },
  {
   "property": "C147",
   "status": "partial",
   "theorems": [
    "C147_crossing",
    "C147_missing",
    "C147_inside",
    "C147_projected",
    "C147_between_refuted",
    "C147_raises_refuted"
   ],
   "note": "Both forms of get_intersection_with_circle by contract; the breakpoint is left out. Refuted: with the convergence turned by more than the radius the result passes it to the opposite side, and a smaller weight turns farther than a full one; with the circle behind the convergence the projection raises NotImplementedError."
  },
  {
   "property": "C148",
   "status": "partial",
   "theorems": [
    "C148_along",
    "C148_on_ellipse_partial",
    "C148_on_ellipse_refuted"
   ],
   "note": "eigh by contract. The line 232 takes the first row of the matrix of eigenvectors, not the first eigenvector: on the ellipse if the matrix is symmetric; refuted for a rotation. Direction and bounds hold always."
  },
  {
   "property": "C149",
   "status": "partial",
   "theorems": [
    "C149_gradient",
    "C149_modulation",
    "C149_opposite_refuted",
    "C149_projected_gamma_refuted",
    "C149_sequence_refuted"
   ],
   "note": "The modulation is an argument. Refuted: opposite velocities give NaN, the projected gamma is None or an AttributeError below the largest gamma, the sequence always fails with TypeError."
  },
  {
   "property": "C150",
   "status": "partial",
   "theorems": [
    "C150_rest",
    "C150_weights",
    "C150_contact",
    "C150_fresh_refuted",
    "C150_no_obstacles_refuted",
    "C150_outside_refuted",
    "C150_not_inward"
   ],
   "note": "compute_weights of dynamic_obstacle_avoidance, the local velocity and the sorting by levels are arguments. Refuted: an avoider which was not evaluated before has no _rotation_weights (AttributeError); without obstacles np.concatenate raises; an obstacle without influence adds a weight without a node (ValueError)."
  },
  {
   "property": "C151",
   "status": "partial",
   "theorems": [
    "C151_speed",
    "C151_carried_refuted"
   ],
   "note": "Refuted: the relative velocity is added before the speed is limited to the initial one, so that an agent at rest is not carried along."
  },
  {
   "property": "C152",
   "status": "partial",
   "theorems": [
    "C152_between",
    "C152_attractor",
    "C152_hull_refuted",
    "C152_normalized_refuted"
   ],
   "note": "det and pinv are arguments. Refuted: the weights are divided by their Euclidean norm, so that two components of equal mean predict more than this mean; for normalized data the attractor is compared with the normalized position, and the value there is the mean of the outputs."
  },
  {
   "property": "C153",
   "status": "proved",
   "theorems": [
    "C153_conditional_covariance",
    "C153_known"
   ],
   "note": "pinv is an argument with the laws of a pseudo inverse (symmetric, P A P = P)."
  },
  {
   "property": "C154",
   "status": "partial",
   "theorems": [
    "C154_in_both",
    "C154_order_refuted",
    "C154_center_refuted"
   ],
   "note": "The corners of the drawn circle and the intersection of polygons (shapely) are arguments with the laws that the corners are on the circle and that common points are in both polygons. Refuted: the kind of the second obstacle is not tested, so that an ellipse and a polygon raise in one order; the first corner of the ring counts twice, so that the point of a symmetric intersection is not its center."
  },
  {
   "property": "C155",
   "status": "partial",
   "theorems": [
    "C155_points",
    "C155_positions_refuted",
    "C155_outside_refuted",
    "C155_no_point",
    "C155_projection"
   ],
   "note": "Proved for polygons placed by the library. Refuted: ellipses are drawn around the origin, so that the points do not depend on their positions and lie outside of every ellipse which is far from the origin."
  },
  {
   "property": "C156",
   "status": "partial",
   "theorems": [
    "C156_accepted",
    "C156_refused",
    "C156_reproduced",
    "C156_limited",
    "C156_speed_refuted"
   ],
   "note": "The regressor (sklearn) is an argument; interpolation is a hypothesis on it. Refuted: the speed of the demonstrations is not reproduced."
  },
  {
   "property": "C157",
   "status": "partial",
   "theorems": [
    "C157_reproduced",
    "C157_unused",
    "C157_mismatch",
    "C157_deviation",
    "C157_attractor_refuted"
   ],
   "note": "In the plane, the only dimension in which the fit succeeds (C82). The regressor (sklearn) is an argument; interpolation is a hypothesis on it. Refuted: the predicted deviation is taken from the position instead of the position relative to the attractor: a straight motion to an attractor away from the origin has a deviation, and at the attractor it is not defined."
  },
  {
   "property": "C158",
   "status": "proved",
   "theorems": [
    "C158_mean",
    "C158_accepted",
    "C158_forward",
    "C158_local",
    "C158_predicted"
   ],
   "note": "The regressor (sklearn) and the avoidance of the region are arguments; interpolation is a hypothesis on the regressor. The local dynamics of the root is modelled in the plane, the only dimension in which its fit succeeds (C82). The speed of the demonstrations is not reproduced: the passed velocity has at most speed one."
  },
  {
   "property": "C159",
   "status": "proved",
   "theorems": [
    "C159_spread",
    "C159_common_direction"
   ],
   "note": "The conditions on neighbouring directions are those of C14; the bound also holds when all weight is on a node with children and the last rotation is repeated (C17)."
  },
  {
   "property": "C160",
   "status": "proved",
   "theorems": [
    "C160_attractor",
    "C160_needs_reference",
    "C160_uniform_field",
    "C160_varying_raises",
    "C160_reference_raises"
   ],
   "note": "Uniform means: same direction at every point, norm above 1e-8, no own sequence. The case of a varying field is stated for the first tree and for the first further component."
  },
  {
   "property": "C161",
   "status": "proved",
   "theorems": [
    "C161_histories",
    "C161_delete",
    "C161_added_with_parent",
    "C161_equal_values_refuted"
   ],
   "note": "Values are numbers; arrays as values, whose comparison is not a truth value, are not modelled."
  },
  {
   "property": "C162",
   "status": "proved",
   "theorems": [
    "C162_frame",
    "C162_hyperplane"
   ],
   "note": "The tolerance of allclose depends on the frame, hence the condition on both trees."
  },
  {
   "property": "C163",
   "status": "proved",
   "theorems": [
    "C163_continuous"
   ],
   "note": "Convergence is that of the standard library (Un_cv), per entry."
  },
  {
   "property": "C164",
   "status": "proved",
   "theorems": [
    "C164_embedded",
    "C164_insertions"
   ],
   "note": "Containment is stated by an injective map of the names that keeps attributes and edges."
  },
  {
   "property": "C165",
   "status": "proved",
   "theorems": [
    "C165_continuous"
   ],
   "note": "Convergence is that of the standard library (Un_cv), per entry; the restriction on allclose is necessary by C04_close_pair_exactness_refuted."
  },
  {
   "property": "C166",
   "status": "proved",
   "theorems": [
    "C166_direction",
    "C166_velocity",
    "C166_order"
   ],
   "note": "A scene is the record of C32: obstacles with unit normals and reference directions, at most one in contact, no child of the tangent tree opposite to its parent. The condition on the tangent tree is asked only for the longer list; for the shorter one it is derived. Without any remaining obstacle the code takes another path (C32)."
  },
  {
   "property": "C167",
   "status": "partial",
   "theorems": [
    "C167_direction",
    "C167_velocity",
    "C167_unit_refuted"
   ],
   "note": "Both scenes are ready in the sense of C32. Reference directions must not point straight out of their component, and the absolute tolerances of the tests for equal directions and for the centre must decide alike in both frames. C167_unit_refuted: when no component has an influence the code drops the speed limit and commands speed one in every unit, so that a change of unit shows."
  },
  {
   "property": "C168",
   "status": "partial",
   "theorems": [
    "C168_convergence_partial",
    "C168_velocity_partial",
    "C168_influence_partial"
   ],
   "note": "The convergence can be computed in both frames (conv_ready of C65), the systems can be followed at the agent and at the reference points in both frames, at most one component has full influence (C65_overlap_refuted), and for the velocity the hypotheses of C167. C168_influence_partial: rigid motions only, and not where the folded position is further than 1e10 away, because the code returns it in the obstacle frame."
  },
  {
   "property": "C169",
   "status": "partial",
   "theorems": [
    "C169_items_refuted",
    "C169_history_refuted",
    "C169_intersection",
    "C169_intersection_errors",
    "C169_free_space",
    "C169_free_space_refuted"
   ],
   "note": "Removal and replacement are false: both calls fail for every container and key and change nothing (C169_items_refuted), so that no obstacle ever leaves (C169_history_refuted). The free space would be right (C169_free_space), but no tree of the package has the method, so a non-empty container raises AttributeError (C169_free_space_refuted). The intersection positions hold in full."
  },
  {
   "property": "C170",
   "status": "partial",
   "theorems": [
    "C170_tangent",
    "C170_turn",
    "C170_shares",
    "C170_shares_refuted"
   ],
   "note": "Tangents and turned velocities are continuous outside the singular configurations named in the theorems (C170_tangent, C170_turn). The shares are continuous where the total of weights below one is not one and at most one weight has reached one (C170_shares); they jump where the total reaches one and where two weights reach one together (C170_shares_refuted)."
  },
  {
   "property": "C171",
   "status": "proved",
   "theorems": [
    "C171_direction"
   ],
   "note": "The conditions of the statement are hypotheses of the theorem; `scene` is the same well-formedness of the scene as in C61 and C166. The weights of the trees are assumed to converge. A component whose weight dies in the limit is not covered. C171_case slides along a wall while the wanted velocity turns."
  },
  {
   "property": "C172",
   "status": "partial",
   "theorems": [
    "C172_rotation_weight",
    "C172_rotation_weight_refuted",
    "C172_component_weights",
    "C172_component_weights_refuted",
    "C172_tree_weights"
   ],
   "note": "Proved except for two configurations in which the weights jump: contact with the velocity along the reference direction (C172_rotation_weight_refuted) and two components reached together (C172_component_weights_refuted). The convergence of the occlusions is a hypothesis of C172_tree_weights."
  },
  {
   "property": "C173",
   "status": "partial",
   "theorems": [
    "C173_slowfactor",
    "C173_safe_scaling",
    "C173_safe_scaling_refuted",
    "C173_scaled_velocity",
    "C173_velocity"
   ],
   "note": "Proved except where the scaling jumps: a velocity that points into the surface by less than 1/1000 loses its speed on the way to contact and has the full speed in contact (C173_safe_scaling_refuted). The continuity of the weights, branches and slow-down records of each tree is a hypothesis of C173_velocity (C172 covers the weights), as is that of the relative velocity."
  },
  {
   "property": "C174",
   "status": "partial",
   "theorems": [
    "C174_direction",
    "C174_velocity",
    "C174_velocity_refuted"
   ],
   "note": "Proved for sequences on which the set of weighted components is constant (C175 drops this), for any limit at which a part of them dies. That the tree of all these components, populated at the limit, has no opposite or coinciding neighbours is a hypothesis, as is the continuity of the weights and branches of each tree. When the last weight dies the command jumps (C174_velocity_refuted)."
  },
  {
   "property": "C175",
   "status": "partial",
   "theorems": [
    "C175_direction_partial",
    "C175_velocity_partial"
   ],
   "note": "That the trees of the components weighted along the way, populated at the limit, have no opposite or coinciding neighbours is a hypothesis, as is the continuity of the weights, branches and slow-down records of each tree (C172 covers the weights). Without a weight at the limit the velocity jumps (C174_velocity_refuted)."
  },
  {
   "property": "C176",
   "status": "partial",
   "theorems": [
    "C176_direction_partial",
    "C176_velocity_partial"
   ],
   "note": "max_repulsion disabled. Continuity is asked of the queries only (gamma, normal, reference direction, occlusion, branch), with general position at the limit: at most one component of a tree in contact, velocity not along the root's reference direction, not tangent to a normal, obstacle weights not summing to exactly one, no opposite or coinciding neighbours in the tree of directions, and, for the velocity only, some weight left. Where these fail the command can jump (C172-C174, refuted parts)."
  },
  {
   "property": "C177",
   "status": "partial",
   "theorems": [
    "C177_direction_partial",
    "C177_velocity_partial",
    "C177_tame",
    "C177_right_angle_partial"
   ],
   "note": "The queries of a ball (a class of dynamic_obstacle_avoidance, outside of the repository) are defined in PropBalls.v. C177_right_angle_partial is for a convergence radius of a right angle: left as hypotheses are that np.allclose tells velocities towards a ball apart from the tangent (apart), and that the influences of the trees do not add up to exactly one below saturation. For other radii the tree of directions must have no opposite or almost coinciding neighbours (tame; C177_tame proves it for the right angle). For the velocity also some weight left and no jump of the slow-down (C173, C174). max_repulsion disabled."
  },
  {
   "property": "C178",
   "status": "partial",
   "theorems": [
    "C178_touched_partial",
    "C178_run_partial"
   ],
   "note": "The queries of a ball (a class of dynamic_obstacle_avoidance, outside of the repository) are those of PropBalls.v. The convergence radius is a right angle and max_repulsion is disabled. Hypothesis at each visited state: no initial velocity exactly inward or numerically equal to its sliding direction (apart). The run is for a static environment; C178_touched_partial allows moving obstacles. Exact reals."
  },
  {
   "property": "C179",
   "status": "partial",
   "theorems": [
    "C179_forward_partial",
    "C179_run_partial"
   ],
   "note": "Same setting as C178: queries of balls from PropBalls.v, convergence radius of a right angle, max_repulsion disabled, the hypothesis apart at each visited state, exact reals. The run is for a static environment. That the robot moves at all is C180."
  },
  {
   "property": "C180",
   "status": "partial",
   "theorems": [
    "C180_moves_partial",
    "C180_run_partial"
   ],
   "note": "Same setting as C178: queries of balls from PropBalls.v, convergence radius of a right angle, max_repulsion disabled, the hypothesis apart (velocity not exactly inward, not almost sliding) at each visited state, exact reals. The runs are for a static environment. No lower bound of the speed is given."
  },
  {
   "property": "C181",
   "status": "partial",
   "theorems": [
    "C181_approach_partial"
   ],
   "note": "Same setting as C178 and C180 (balls from PropBalls.v, convergence radius of a right angle, max_repulsion disabled, hypothesis apart, exact reals). A statement about each state: the bound of the duration depends on the state, and convergence to the attractor is not claimed."
  }
 ]
}