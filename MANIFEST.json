{
 "claims": [
  {
   "property": "C01",
   "status": "proved",
   "theorems": [
    "C01_merge_is_least_upper_bound",
    "C01_contains_preorder",
    "C01_contains_is_subset",
    "C01_intersects_iff_common_point",
    "C01_intersects_symmetric",
    "C01_contains_vect_spec",
    "C01_expand_is_least",
    "C01_float64_intersects_iff_common_point",
    "C01_proximity_center_distance",
    "C01_offset_moves",
    "C01_circle_box_least",
    "C01_merged_area",
    "C01_area_grows"
   ],
   "note": ""
  },
  {
   "property": "C02",
   "status": "proved",
   "theorems": [
    "C02_segment_query_first_entry",
    "C02_intersects_segment_iff"
   ],
   "note": "Exact real arithmetic; float64 rounding not covered."
  },
  {
   "property": "C03",
   "status": "proved",
   "theorems": [
    "C03_clamp_in_box",
    "C03_clamp_fixes_inside",
    "C03_clamp_nearest",
    "C03_wrap_modular"
   ],
   "note": "Range and fixpoint also for float64; nearest-point and modular parts over reals."
  },
  {
   "property": "C04",
   "status": "partial",
   "theorems": [
    "C04_scale",
    "C04_scale_in_place_partial",
    "C04_scale_in_place_refuted",
    "C04_mult_is_composition",
    "C04_inverse_two_sided",
    "C04_rigid_inverse",
    "C04_rotations_add",
    "C04_bb_is_tight_hull",
    "C04_bone_scale",
    "C04_axial_scale",
    "C04_ortho",
    "C04_wrap_conjugates"
   ],
   "note": "Over the reals. Transform.Scale is right only for transforms that do not turn: C04_scale_in_place_refuted."
  },
  {
   "property": "C05",
   "status": "proved",
   "theorems": [
    "C05_frame_is_rigid",
    "C05_set_position",
    "C05_set_angle_rotates_about_cog",
    "C05_accumulate_keeps_frame",
    "C05_velocity_queries_agree",
    "C05_set_transform_then_set_position_refuted"
   ],
   "note": ""
  },
  {
   "property": "C06",
   "status": "proved",
   "theorems": [
    "C06_hashset_refines_finite_map"
   ],
   "note": ""
  },
  {
   "property": "C07",
   "status": "proved",
   "theorems": [
    "C07_each_and_filter_exactly_once"
   ],
   "note": ""
  },
  {
   "property": "C08",
   "status": "proved",
   "theorems": [
    "C08_load_factor_below_one",
    "C08_no_panic_below_limit"
   ],
   "note": ""
  },
  {
   "property": "C09",
   "status": "proved",
   "theorems": [
    "C09_tree_invariant",
    "C09_membership"
   ],
   "note": "Any number type with the order laws, so float64; boxes and velocities finite. Tree as a value instead of nodes with parent pointers."
  },
  {
   "property": "C10",
   "status": "proved",
   "theorems": [
    "C10_fat_box_covers",
    "C10_float64_fat_box_covers",
    "C10_indexed_covers",
    "C10_left_alone"
   ],
   "note": "Including float64, for finite boxes and velocities."
  },
  {
   "property": "C11",
   "status": "proved",
   "theorems": [
    "C11_query_exact",
    "C11_query_complete"
   ],
   "note": ""
  },
  {
   "property": "C12",
   "status": "proved",
   "theorems": [
    "C12_pairs_exactly_once",
    "C12_no_overlap_missed",
    "C12_no_static_overlap_missed"
   ],
   "note": "Any number type with the order laws, so float64; stamps do not wrap around; the callback does not change the trees."
  },
  {
   "property": "C13",
   "status": "proved",
   "theorems": [
    "C13_first_hit",
    "C13_all_hits",
    "C13_at_most_once"
   ],
   "note": "First hit and all hits over the reals; at most once for every number type and callback."
  },
  {
   "property": "C14",
   "status": "partial",
   "theorems": [
    "C14_thin_cast_partial",
    "C14_thin_found_partial",
    "C14_thick_cast_refuted"
   ],
   "note": "False for radius > 0 (refuted theorem, float64). Proved over the reals for radius 0: the nearest hit is reported and no shape met before the end is missed, for casts covered by C45."
  },
  {
   "property": "C15",
   "status": "proved",
   "theorems": [
    "C15_runs",
    "C15_same_as_values",
    "C15_same_queries",
    "C15_nodes_apart",
    "C15_pair_lists",
    "C15_in_two_lists",
    "C15_pairs_apart",
    "C15_clear",
    "C15_insert"
   ],
   "note": "For every history of Insert, Remove, ReindexObject, ReindexQuery on the pair of trees, with any boxes and any pool size; the pointer program also equals the tree model of C09-C13. Callbacks that change the trees while they are walked are not modelled."
  },
  {
   "property": "C16",
   "status": "partial",
   "theorems": [
    "C16_total",
    "C16_query",
    "C16_query_real",
    "C16_float_grid",
    "C16_pairs",
    "C16_pairs_real",
    "C16_static",
    "C16_reindex_refuted"
   ],
   "note": "Any arithmetic with a monotone grid function: the reals, and float64 within 2^62 cells of the origin. False after Reindex (refuted theorem). Callbacks that call back into the index are not modelled."
  },
  {
   "property": "C17",
   "status": "proved",
   "theorems": [
    "C17_counts"
   ],
   "note": "All histories, any arithmetic, any hash collisions, any choice of sync.Pool and of the handle order."
  },
  {
   "property": "C18",
   "status": "partial",
   "theorems": [
    "C18_ray_partial",
    "C18_cells_partial",
    "C18_edge_refuted",
    "C18_corner_refuted"
   ],
   "note": "Over the reals, for rays that per axis go up, start inside a cell or stay put. False when going left or down from a cell edge, and at corners passed up-left (refuted theorems)."
  },
  {
   "property": "C19",
   "status": "proved",
   "theorems": [
    "C19_reject_symmetric",
    "C19_same_group_rejected",
    "C19_accept_iff",
    "C19_filter_all_none"
   ],
   "note": ""
  },
  {
   "property": "C20",
   "status": "proved",
   "theorems": [
    "C20_hash_pair_symmetric",
    "C20_lookup_order_independent",
    "C20_arbiter_cache_order_independent",
    "C20_uncache_order_independent"
   ],
   "note": ""
  },
  {
   "property": "C21",
   "status": "proved",
   "theorems": [
    "C21_right_handler",
    "C21_user_callback",
    "C21_wildcard_order",
    "C21_reregister"
   ],
   "note": "Shape types other than the wildcard value; user callbacks that call CallWildcard* themselves are not modelled."
  },
  {
   "property": "C22",
   "status": "proved",
   "theorems": [
    "C22_callbacks",
    "C22_begin_separate_alternate",
    "C22_edges",
    "C22_zero_persistence_refuted"
   ],
   "note": "All histories for CollisionPersistence >= 1 as stated; the companion refuted theorem shows 0 is outside. Order assumptions in valid (CollideSpec.v)."
  },
  {
   "property": "C23",
   "status": "proved",
   "theorems": [
    "C23_ignored_from_begin",
    "C23_ignored_from_presolve",
    "C23_solved_exactly_if",
    "C23_sensor_never_solved",
    "C23_postsolve_exactly_solved"
   ],
   "note": "All histories, CollisionPersistence >= 1. Post-solve and impulses identified with membership in Space.Arbiters."
  },
  {
   "property": "C24",
   "status": "partial",
   "theorems": [
    "C24_contacts_intact_partial",
    "C24_handed_out_fresh_partial",
    "C24_buffer_size",
    "C24_contacts_intact_refuted"
   ],
   "note": "1024 bound for all histories; contents and freshness proved when no separated pair is frozen asleep; false otherwise (refuted theorem)."
  },
  {
   "property": "C25",
   "status": "partial",
   "theorems": [
    "C25_in_order",
    "C25_outermost_unlock",
    "C25_operations_flush",
    "C25_runs_unlocked",
    "C25_registration",
    "C25_registered_inside_refuted"
   ],
   "note": "Everything but registrations made by a post-step callback itself, which are accepted and lost (refuted theorem)."
  },
  {
   "property": "C26",
   "status": "partial",
   "theorems": [
    "C26_balanced",
    "C26_nesting",
    "C26_visit_refused",
    "C26_step_refused",
    "C26_outside_allowed",
    "C26_called_locked_partial",
    "C26_bbquery_refuted",
    "C26_mutation_refused_refuted"
   ],
   "note": "Depth balance and ReindexShape proved; add/remove operations are not refused while locked and BBQuery calls back unlocked (refuted theorems)."
  },
  {
   "property": "C27",
   "status": "proved",
   "theorems": [
    "C27_contact_lists",
    "C27_active_arbiters",
    "C27_unthread",
    "C27_waking_callback_refuted",
    "C27_pointer_lists",
    "C27_pointer_unthread",
    "C27_double_push_refuted"
   ],
   "note": "Pointer level for all sequences of Init/push/Unthread in which an arbiter is pushed only when not threaded; and in every reachable state of the space. Companion refuted theorems: pushing twice, and the callback that causes it."
  },
  {
   "property": "C28",
   "status": "proved",
   "theorems": [
    "C28_constraint_lists",
    "C28_solved_constraints",
    "C28_query_reject",
    "C28_query_reject_symmetric",
    "C28_hinge_lost_refuted",
    "C28_pointer_lists",
    "C28_self_joint_refuted"
   ],
   "note": "Pointer level and space level, for constraints between two different bodies; companion refuted theorems for bodyA = bodyB and for SetType on a static body a sleeper hangs on."
  },
  {
   "property": "C29",
   "status": "partial",
   "theorems": [
    "C29_falls_asleep",
    "C29_stays_awake",
    "C29_idle_times",
    "C29_group_closed",
    "C29_group_list",
    "C29_no_inconsistency",
    "C29_ground_freed_refuted"
   ],
   "note": "Proved for all states reached by operations obeying the rules `valid` of SpaceSpec.v; the inconsistency exit is reachable by changing the type of a static body under a sleeping one (refuted theorem)."
  },
  {
   "property": "C30",
   "status": "proved",
   "theorems": [
    "C30_wakes_group",
    "C30_one_place",
    "C30_restores",
    "C30_unlock"
   ],
   "note": "All states reached by operations obeying the rules of SpaceSpec.v."
  },
  {
   "property": "C31",
   "status": "partial",
   "theorems": [
    "C31_set_gravity_refuted",
    "C31_set_gravity_exact",
    "C31_set_gravity_partial"
   ],
   "note": "False with three or more sleeping groups (refuted theorem); exact behaviour proved, and the claim for at most two groups."
  },
  {
   "property": "C32",
   "status": "proved",
   "theorems": [
    "C32_contains",
    "C32_runs",
    "C32_one_index",
    "C32_ids_distinct",
    "C32_ids_not_reused",
    "C32_shapes_of_body"
   ],
   "note": "All histories obeying the rules of SpaceSpec.v. Shapes of a sleeping dynamic body are in the static index."
  },
  {
   "property": "C33",
   "status": "partial",
   "theorems": [
    "C33_remove_with_shapes_refuted",
    "C33_remove_with_shapes_partial",
    "C33_add_with_shapes"
   ],
   "note": "AddBodyWithShapes proved. RemoveBodyWithShapes is false for bodies with two or more shapes (refuted theorem); exact count of shapes left proved."
  },
  {
   "property": "C34",
   "status": "partial",
   "theorems": [
    "C34_set_type_partial",
    "C34_set_type_sleeping_refuted",
    "C34_set_type_two_places_refuted"
   ],
   "note": "Proved under the rules of SpaceSpec.v; false for sleeping bodies (refuted theorems)."
  },
  {
   "property": "C35",
   "status": "proved",
   "theorems": [
    "C35_mass_from_shapes",
    "C35_order_irrelevant"
   ],
   "note": ""
  },
  {
   "property": "C36",
   "status": "partial",
   "theorems": [
    "C36_area_translation",
    "C36_centroid_translation",
    "C36_moment_offset",
    "C36_moment_offset_refuted",
    "C36_moment_parallel_axis",
    "C36_poly_mass_info",
    "C36_area_start",
    "C36_centroid_start",
    "C36_moment_start",
    "C36_area_reversed",
    "C36_centroid_reversed",
    "C36_area_cut",
    "C36_centroid_cut",
    "C36_moment_cut",
    "C36_triangle_area",
    "C36_triangle_centroid",
    "C36_triangle_moment",
    "C36_box_area",
    "C36_box_centroid",
    "C36_box_moment",
    "C36_centred_box_moment",
    "C36_area_sign_refuted",
    "C36_disc_area",
    "C36_disc_moment",
    "C36_ring_moment",
    "C36_circle_parallel_axis",
    "C36_circle_mass",
    "C36_circle2_diameter",
    "C36_circle2_refuted",
    "C36_circle2_exact",
    "C36_segment_moment",
    "C36_segment_area",
    "C36_point_area"
   ],
   "note": "Over the reals. False for MomentForCircle2 (four times the moment of the circle shape) and for the offset with two vertices (refuted theorems); the rest proved."
  },
  {
   "property": "C37",
   "status": "proved",
   "theorems": [
    "C37_step_momentum",
    "C37_infinite_mass_unmoved",
    "C37_angular_momentum_common_point",
    "C37_joint_angular_momentum",
    "C37_gear_angular_momentum_refuted",
    "C37_gear_weighted_momentum"
   ],
   "note": "Over the reals. Gear joints conserve the ratio-weighted sum instead of plain angular momentum (refuted theorem recorded as a finding)."
  },
  {
   "property": "C38",
   "status": "proved",
   "theorems": [
    "C38_contact_impulse_bounds",
    "C38_total_impulse_pushes"
   ],
   "note": "Generic in the number type: holds for float64 when the impulses are not NaN / finite."
  },
  {
   "property": "C39",
   "status": "partial",
   "theorems": [
    "C39_impulse_within_limit",
    "C39_one_iteration_within_limit",
    "C39_spring_limit_refuted",
    "C39_rotary_spring_report_refuted",
    "C39_slide_satisfied_is_inert",
    "C39_rotary_limit_satisfied_is_inert",
    "C39_ratchet_satisfied_is_inert",
    "C39_slide_direction",
    "C39_rotary_limit_direction",
    "C39_ratchet_direction"
   ],
   "note": "Proved for the eight limited joints over the reals; false for damped springs, which ignore maxForce (refuted theorem)."
  },
  {
   "property": "C40",
   "status": "partial",
   "theorems": [
    "C40_groove_exact",
    "C40_groove_refuted",
    "C40_pivot_exact",
    "C40_pin_exact",
    "C40_slide_exact",
    "C40_gear_exact",
    "C40_motor_exact",
    "C40_rotary_limit_exact",
    "C40_ratchet_exact",
    "C40_frictionless_contact_exact",
    "C40_friction_contact_refuted"
   ],
   "note": "Proved for joints and frictionless contacts over the reals; false for contacts with friction and for groove joints when pushing across the groove moves the anchor along it (refuted theorems)."
  },
  {
   "property": "C41",
   "status": "partial",
   "theorems": [
    "C41_circles",
    "C41_circle_segment",
    "C41_circles_swapped",
    "C41_kinds_swapped",
    "C41_swap_refuted"
   ],
   "note": "Circle/circle and circle/segment exact over the reals, order swap for any arithmetic; concentric circles keep the same normal when swapped (refuted theorem). Segment neighbours (SetNeighbors) are part of the statement."
  },
  {
   "property": "C42",
   "status": "partial",
   "theorems": [
    "C42_segments_polygons",
    "C42_circle_polygon_partial",
    "C42_swapped_refuted",
    "C42_rounded_refuted"
   ],
   "note": "Proved for segments and polygons given in the order of their kinds (any arithmetic) and for a circle against a sharp-cornered polygon (reals, epsilon 0); false for swapped shapes and for rounded polygons (refuted theorems)."
  },
  {
   "property": "C43",
   "status": "proved",
   "theorems": [
    "C43_epa_ends",
    "C43_gjk_ends_real",
    "C43_gjk_ends_float",
    "C43_collide_real",
    "C43_collide_float",
    "C43_shapes_collide_float"
   ],
   "note": "For the reals and for float64, NaN and infinities included."
  },
  {
   "property": "C44",
   "status": "partial",
   "theorems": [
    "C44_circle",
    "C44_segment",
    "C44_polygon",
    "C44_nearest",
    "C44_circle_centre_refuted",
    "C44_polygon_boundary_refuted",
    "C44_segment_point_refuted",
    "C44_segment_middle_refuted"
   ],
   "note": "Distances, signs, surface points and PointQueryNearest proved over the reals; float64 gives NaN at circle centres, polygon boundaries and degenerate segments, and thick segments give no surface point on their middle line (refuted theorems)."
  },
  {
   "property": "C45",
   "status": "partial",
   "theorems": [
    "C45_circle",
    "C45_segment_partial",
    "C45_polygon_partial",
    "C45_start_inside_refuted",
    "C45_segment_late_refuted",
    "C45_segment_lost_refuted"
   ],
   "note": "Circles complete; segments for casts starting outside the strip around them; polygons for casts not parallel to a side. False for casts starting beside the end of a thick segment and for Point when starting inside (refuted theorems)."
  },
  {
   "property": "C46",
   "status": "proved",
   "theorems": [
    "C46_box_contains_shape",
    "C46_box_contains_image",
    "C46_circle_made",
    "C46_segment_made",
    "C46_polygon_made"
   ],
   "note": "Over the reals, for every transform; images of local points for rigid ones."
  },
  {
   "property": "C47",
   "status": "partial",
   "theorems": [
    "C47_total",
    "C47_hull",
    "C47_strictly_convex_partial",
    "C47_strictly_convex_refuted"
   ],
   "note": "Any arithmetic: total, outputs are inputs. Reals, tolerance 0: same convex set, all input left of every side, no repeated vertex; strictly convex when no three inputs are collinear. Strict convexity in general is false (refuted theorem). Missing: the out-parameter first (nil in both calls)."
  },
  {
   "property": "C48",
   "status": "proved",
   "theorems": [
    "C48_segments",
    "C48_segments_exact",
    "C48_joined"
   ],
   "note": "For any arithmetic up to Vec2.Equal of the points (0 and -0), exactly over the reals. Lines as values: Join and Push copy instead of aliasing slices."
  },
  {
   "property": "C49",
   "status": "partial",
   "theorems": [
    "C49_vertexes_partial",
    "C49_vertexes_exact",
    "C49_closed_refuted",
    "C49_vertexes_total",
    "C49_curves_open_partial",
    "C49_curves_closed_partial",
    "C49_curves_total_partial",
    "C49_panic_refuted",
    "C49_single_refuted"
   ],
   "note": "Open lines: subsequence, ends, tolerance (distance to the line through the kept neighbours, reals). False for closed lines under SimplifyVertexes and SimplifyCurves panics when two chord ends are close (refuted theorems). math.Cos is a parameter."
  },
  {
   "property": "C50",
   "status": "proved",
   "theorems": [
    "C50_balanced_soft_float",
    "C50_balanced_soft",
    "C50_balanced_hard_float",
    "C50_balanced_hard",
    "C50_once_soft_float",
    "C50_once_soft",
    "C50_once_hard_float",
    "C50_ends_soft",
    "C50_interpolated",
    "C50_sides_soft",
    "C50_contours_float",
    "C50_contours",
    "C50_panic_refuted"
   ],
   "note": "Soft and hard, bit for bit in float64 and over the reals; points shared by several crossings are counted by balance. MarchCells panics without columns (refuted theorem)."
  },
  {
   "property": "C51",
   "status": "partial",
   "theorems": [
    "C51_round_trip",
    "C51_wrong_count_refused",
    "C51_cached_write_back_refuted"
   ],
   "note": "Proved for active arbiters over the reals; false in the cached state (refuted theorem)."
  },
  {
   "property": "C52",
   "status": "proved",
   "theorems": [
    "C52_kinematic_velocity_untouched",
    "C52_velocity_integration",
    "C52_position_integration",
    "C52_rest_keeps_transform"
   ],
   "note": ""
  },
  {
   "property": "C53",
   "status": "partial",
   "theorems": [
    "C53_dispatch_terminates_refuted",
    "C53_dispatch_terminates"
   ],
   "note": "True when wildcard handlers come from AddWildcardCollisionHandler; false for AddCollisionHandler(t, WildcardCollisionType) (refuted theorem)."
  },
  {
   "property": "C54",
   "status": "partial",
   "theorems": [
    "C54_gjk_partial",
    "C54_contact_partial",
    "C54_phantom_refuted",
    "C54_collinear_refuted",
    "C54_normal_refuted"
   ],
   "note": "Over the reals: exact whenever GJK stops at a separating axis with a positive distance; nothing is said when it stops at its iteration limit. False when the nearest edge of the difference is collinear with the origin: phantom contacts and wrong normals (refuted theorems, float64)."
  },
  {
   "property": "C55",
   "status": "partial",
   "theorems": [
    "C55_each_body",
    "C55_each_dynamic_body",
    "C55_each_static_body",
    "C55_each_shape",
    "C55_each_static_shape",
    "C55_each_dynamic_shape",
    "C55_each_constraint",
    "C55_each_body_any",
    "C55_remove_each_constraint",
    "C55_waking_callback_refuted",
    "C55_group_skipped_refuted",
    "C55_locked_refuted",
    "C55_each_constraint_all_refuted"
   ],
   "note": "Exact for shapes and static bodies with any callback and for all bodies with callbacks that wake nobody; any callback: no panic, nothing foreign, awake bodies all met. False when the callback wakes sleeping bodies, for EachBody inside a locked section, and for constraints of sleeping bodies (refuted theorems)."
  },
  {
   "property": "C56",
   "status": "proved",
   "theorems": [
    "C56_impulses_carried",
    "C56_no_stale_memory",
    "C56_contact_point_set",
    "C56_surface_velocity",
    "C56_update_either_order",
    "C56_solve_either_order",
    "C56_reports_either_order"
   ],
   "note": "Carried impulses and stale memory in any arithmetic; the rest over the reals, through the whole solver."
  },
  {
   "property": "C57",
   "status": "partial",
   "theorems": [
    "C57_normal_speed",
    "C57_pushes",
    "C57_new_pair_fresh",
    "C57_rejoined_pair_pulls_refuted",
    "C57_shrinking_step_pulls_refuted"
   ],
   "note": "The exact change of speed along the normal; pushing for new pairs and for time steps that do not shrink, for one arbiter alone. A pair that returns while its arbiter is cached, or a shrinking time step, pulls (refuted theorems)."
  },
  {
   "property": "C58",
   "status": "proved",
   "theorems": [
    "C58_pairs_examined",
    "C58_reject",
    "C58_reject_symmetric"
   ],
   "note": "In any ordered arithmetic; callbacks do not change the space. The leaves of static shapes must be up to date (C10)."
  },
  {
   "property": "C59",
   "status": "partial",
   "theorems": [
    "C59_bb_query",
    "C59_shape_query_calls",
    "C59_shape_query_circles",
    "C59_shape_query_result",
    "C59_shape_query_result_sound",
    "C59_last_sensor_refuted",
    "C59_far_hit_refuted"
   ],
   "note": "BBQuery exact; ShapeQuery: sound and complete relative to the narrow phase for boxes that meet, exact among circles, result exact without sensors. False in general: the last hit decides the result, and a shape whose box is apart can be reported (refuted theorems)."
  },
  {
   "property": "C60",
   "status": "partial",
   "theorems": [
    "C60_mass_matches",
    "C60_frame_stays",
    "C60_info_matches",
    "C60_set_mass",
    "C60_density",
    "C60_moments",
    "C60_setters",
    "C60_set_verts_refuted",
    "C60_massless_refuted",
    "C60_set_type_refuted"
   ],
   "note": "Over the reals, for histories that do not set the mass of the body by hand, while the shapes have some mass. False for SetVerts (stale mass data), when the last mass is taken away, and for SetType(Static) and back of a body with its own mass (refuted theorems). SetBody is not modelled. The centre of gravity of a circle shape is taken from its mass data (circle_mass_info); no theorem states separately that it is the offset of the circle (seed ma12)."
  },
  {
   "property": "C61",
   "status": "partial",
   "theorems": [
    "C61_new_joints",
    "C61_rest",
    "C61_immovable_refuted",
    "C61_immovable_pin_refuted"
   ],
   "note": "Over the reals, without gravity, when each joint can act on one of its bodies (a movable one). Between two immovable bodies a pivot makes velocities NaN and a pin reports an impulse of MaxFloat64 dt (refuted theorems)."
  },
  {
   "property": "C62",
   "status": "partial",
   "theorems": [
    "C62_solve",
    "C62_bounce",
    "C62_contact",
    "C62_spring",
    "C62_rotary_spring",
    "C62_groove_refuted",
    "C62_pivot_limit_refuted",
    "C62_friction_release_refuted"
   ],
   "note": "Over the reals. False for groove joints, for pivots at their force limit and for friction that is released when the normal impulse drops (refuted theorems); joints that are out of place gain energy from their bias by design and are excluded."
  },
  {
   "property": "C63",
   "status": "proved",
   "theorems": [
    "C63_spring_damping",
    "C63_rotary_spring_damping"
   ],
   "note": "Over the reals, without gravity and space damping, for anchors that are not at the same point."
  },
  {
   "property": "C64",
   "status": "proved",
   "theorems": [
    "C64_switch",
    "C64_each",
    "C64_counts",
    "C64_pairs_examined",
    "C64_bb_query",
    "C64_same_as_tree"
   ],
   "note": "Any arithmetic with a monotone grid function: the reals, and float64 within 2^62 cells of the origin. The indexes must hold the shapes of the lists of the space, resting shapes hashed with their current boxes. Callbacks do not change the space. Ray casts are C18."
  },
  {
   "property": "C65",
   "status": "partial",
   "theorems": [
    "C65_momentum",
    "C65_spin",
    "C65_joint_impulse",
    "C65_weight",
    "C65_two_views",
    "C65_time_step",
    "C65_time_step_refuted",
    "C65_damped_spring_refuted"
   ],
   "note": "Over the reals, for a step of the same length as the one before and first contacts that start from zero (else C57_rejoined_pair_pulls_refuted); C65_time_step says exactly what a changed time step does. Bodies on a damped spring need a space without damping, spin needs a body without rotary springs (C51, C65_damped_spring_refuted). The list EachArbiter walks is C27."
  },
  {
   "property": "C66",
   "status": "partial",
   "theorems": [
    "C66_space",
    "C66_shape",
    "C66_joint",
    "C66_contacts",
    "C66_flags_ignored",
    "C66_flags_refuted",
    "C66_sleeping_refuted",
    "C66_short_spring_refuted",
    "C66_moved_refuted"
   ],
   "note": "The calls DrawSpace makes, in order, with their arguments; what a backend does with them is outside. Missing: the flags are never consulted (C66_flags_refuted), joints and contacts of sleeping bodies are not drawn (C66_sleeping_refuted), a spring of length 0 draws NaN points (C66_short_spring_refuted), a shape is drawn where its data was last computed (C66_moved_refuted)."
  },
  {
   "property": "C67",
   "status": "proved",
   "theorems": [
    "C67_idle_time",
    "C67_speed",
    "C67_free_fall",
    "C67_fast_awake",
    "C67_kinetic_energy",
    "C67_kinetic_energy_refuted"
   ],
   "note": "Over the reals for the comparison itself (C67_idle_time, C67_speed, C67_free_fall); the effect on sleeping for every number structure and for steps without shapes added in callbacks. KineticEnergy itself returns twice the kinetic energy (C67_kinetic_energy_refuted); the threshold is doubled alike, so the comparison is right."
  },
  {
   "property": "C68",
   "status": "partial",
   "theorems": [
    "C68_equilibrium_persists",
    "C68_damped_spring_refuted"
   ],
   "note": "Over the reals, for a constant time step and the same contacts found in every step. Slide, groove, rotary limit and ratchet joints are covered only unloaded. Springs under load need a space without damping (C68_damped_spring_refuted)."
  },
  {
   "property": "C69",
   "status": "partial",
   "theorems": [
    "C69_overlap_decays",
    "C69_gear_decays",
    "C69_pivot_decays",
    "C69_longer_step_refuted"
   ],
   "note": "Over the reals, for a constant time step. Contacts: two balls at rest without gravity, friction or joints. Joints: gear joints, and pivot joints at centres of gravity, alone on their bodies; other joints have no theorem. C69_longer_step_refuted: with time steps that change the correction overshoots."
  },
  {
   "property": "C70",
   "status": "partial",
   "theorems": [
    "C70_apart",
    "C70_alone",
    "C70_apart_on_ground",
    "C70_alone_on_ground",
    "C70_floats_on_ground_refuted"
   ],
   "note": "Any arithmetic when nothing is shared; over the reals also with immovable bodies in common. The collision phase is any function of the moved bodies and old arbiters that meets the stated locality, and phases that test each pair alone are proved to meet it; that a pair found by the real spatial index is found independently of other shapes is C12. Sleeping is outside (C29, C30). With floats a shared static body does pass on NaN after an overflow: C70_floats_on_ground_refuted."
  },
  {
   "property": "C71",
   "status": "partial",
   "theorems": [
    "C71_origin",
    "C71_boost",
    "C71_balls",
    "C71_collide",
    "C71_shapes_origin",
    "C71_damped_boost_refuted",
    "C71_floats_origin_refuted"
   ],
   "note": "Over the reals; with floats it is refuted, and with damping the moving observer is refuted. The collision phase is any function of the moved bodies and old arbiters that does not depend on the origin; phases that test pairs of balls are proved to be such without bounds, and phases that test pairs of circles, segments and polygons as long as the coordinates stay within 2^500 of both origins (beyond that the code compares with its infinity, the largest float). The collision id of a pair is given per step. Missing: the moving observer for segments and polygons, and the broad phase that chooses the pairs. That transforms keep lengths is met by bodies of any history (C03); that the normal of a groove has length 1 by what NewGrooveJoint makes."
  },
  {
   "property": "C72",
   "status": "partial",
   "theorems": [
    "C72_pivot",
    "C72_pin",
    "C72_slide",
    "C72_gear",
    "C72_rotary_limit",
    "C72_ratchet",
    "C72_ratchet_tooth",
    "C72_groove",
    "C72_friction",
    "C72_warm_start",
    "C72_variable_step_impulse_refuted"
   ],
   "note": "Over the reals, for one iteration of one joint after any other impulses; ErrorBias between 0 (excluded) and 1. Friction for contacts whose arms lie along the normal (balls); in general it is not exact (C40_friction_contact_refuted). Refuted: after a step of another length TotalImpulse is not the impulse of the step. Missing: the rate of a groove joint, whose impulse is projected after it has been solved for both directions."
  },
  {
   "property": "C73",
   "status": "proved",
   "theorems": [
    "C73_setters_wake",
    "C73_set_collide_bodies"
   ],
   "note": "The stored numbers themselves are plain assignments and not part of this model; reachable is C29's: any sequence of operations that obeys the rules listed there. A joint changed while the space is locked has its bodies put back when the lock ends (C30_unlock)."
  },
  {
   "property": "C74",
   "status": "proved",
   "theorems": [
    "C74_impulse_work",
    "C74_impulse_pushes",
    "C74_impulse_reciprocal",
    "C74_force_is_impulse",
    "C74_local_forms",
    "C74_set_mass",
    "C74_set_moment",
    "C74_set_type_stops"
   ],
   "note": "Over the reals. The work theorem is for finite mass and moment; KineticEnergy is twice the kinetic energy (C67_kinetic_energy_refuted), hence no factor 1/2. SetMass(0) and SetMoment(0) divide by zero and are outside."
  }
 ]
}