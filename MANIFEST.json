{
 "claims": [
  {
   "property": "C01",
   "status": "proved",
   "theorems": [
    "C01_bezier_eval",
    "C01_bezier_panics_iff_empty"
   ],
   "note": ""
  },
  {
   "property": "C02",
   "status": "proved",
   "theorems": [
    "C02_bezier_endpoints",
    "C02_bernstein_endpoints_f64"
   ],
   "note": ""
  },
  {
   "property": "C03",
   "status": "proved",
   "theorems": [
    "C03_bezier_convex_hull",
    "C03_bezier_weights",
    "C03_bezier_translation"
   ],
   "note": ""
  },
  {
   "property": "C04",
   "status": "proved",
   "theorems": [
    "C04_bezier_derivative"
   ],
   "note": ""
  },
  {
   "property": "C05",
   "status": "proved",
   "theorems": [
    "C05_rational_bezier",
    "C05_rational_convex_hull",
    "C05_rational_scale_invariant"
   ],
   "note": ""
  },
  {
   "property": "C06",
   "status": "proved",
   "theorems": [
    "C06_basis_is_cox_de_boor",
    "C06_span_unique"
   ],
   "note": ""
  },
  {
   "property": "C07",
   "status": "proved",
   "theorems": [
    "C07_basis_nonneg",
    "C07_basis_local_support",
    "C07_partition_of_unity"
   ],
   "note": ""
  },
  {
   "property": "C08",
   "status": "proved",
   "theorems": [
    "C08_span_index",
    "C08_span_index_never_panics_f64",
    "C08_span_index_never_panics"
   ],
   "note": ""
  },
  {
   "property": "C09",
   "status": "proved",
   "theorems": [
    "C09_above_range",
    "C09_below_range_all_zero",
    "C09_below_range_degree0_panics",
    "C09_symmetric_extrapolation_refuted",
    "C09_below_range",
    "C09_above_range_extrapolates"
   ],
   "note": "The statement is the exact behaviour of the code. C09_symmetric_extrapolation_refuted shows that the natural expectation (symmetric treatment of both ends) is false."
  },
  {
   "property": "C10",
   "status": "proved",
   "theorems": [
    "C10_bspline_derivative"
   ],
   "note": ""
  },
  {
   "property": "C11",
   "status": "proved",
   "theorems": [
    "C11_add_knot_keeps_curve",
    "C11_add_knot_panics_iff",
    "C11_insertion_sequences"
   ],
   "note": ""
  },
  {
   "property": "C12",
   "status": "proved",
   "theorems": [
    "C12_split",
    "C12_split_at_start",
    "C12_split_at_end"
   ],
   "note": ""
  },
  {
   "property": "C13",
   "status": "proved",
   "theorems": [
    "C13_clamp_start_clamped",
    "C13_clamp_panics_iff"
   ],
   "note": ""
  },
  {
   "property": "C14",
   "status": "proved",
   "theorems": [
    "C14_piecewise_bezier",
    "C14_one_knot_value"
   ],
   "note": ""
  },
  {
   "property": "C15",
   "status": "proved",
   "theorems": [
    "C15_bezier_knot",
    "C15_uniform_knot",
    "C15_from_values_and_multiplicities",
    "C15_uniform_clamped_surface",
    "C15_new"
   ],
   "note": ""
  },
  {
   "property": "C16",
   "status": "proved",
   "theorems": [
    "C16_add_knot_inserts",
    "C16_add_knots_sorted",
    "C16_position"
   ],
   "note": ""
  },
  {
   "property": "C17",
   "status": "proved",
   "theorems": [
    "C17_normalize",
    "C17_shrink",
    "C17_spans",
    "C17_range"
   ],
   "note": ""
  },
  {
   "property": "C18",
   "status": "proved",
   "theorems": [
    "C18_get_point",
    "C18_get_point_rational",
    "C18_new",
    "C18_degree_truncated",
    "C18_surface_without_points"
   ],
   "note": ""
  },
  {
   "property": "C19",
   "status": "proved",
   "theorems": [
    "C19_derivative_u",
    "C19_derivative_v",
    "C19_degree0_u",
    "C19_degree0_v",
    "C19_normals",
    "C19_normals_of_partials"
   ],
   "note": ""
  },
  {
   "property": "C20",
   "status": "proved",
   "theorems": [
    "C20_bezier_surface",
    "C20_rational_bezier_surface",
    "C20_isoparametric",
    "C20_boundary",
    "C20_corners",
    "C20_convex_hull",
    "C20_new"
   ],
   "note": ""
  },
  {
   "property": "C21",
   "status": "proved",
   "theorems": [
    "C21_uniform_divide_any_arithmetic",
    "C21_uniform_divide_zero_panics",
    "C21_uniform_divide_exact"
   ],
   "note": ""
  },
  {
   "property": "C22",
   "status": "proved",
   "theorems": [
    "C22_division_shape",
    "C22_division_strictly_monotone",
    "C22_probe_range"
   ],
   "note": ""
  },
  {
   "property": "C23",
   "status": "proved",
   "theorems": [
    "C23_division_terminates",
    "C23_division_terminates_exists",
    "C23_division_endless_R",
    "C23_division_endless_f64"
   ],
   "note": ""
  },
  {
   "property": "C24",
   "status": "proved",
   "theorems": [
    "C24_nearest_R",
    "C24_nearest_f64",
    "C24_empty_gives_0",
    "C24_grid_search"
   ],
   "note": ""
  },
  {
   "property": "C25",
   "status": "proved",
   "theorems": [
    "C25_segment_distance_3d",
    "C25_segment_distance_2d",
    "C25_symmetric_3d",
    "C25_symmetric_2d"
   ],
   "note": ""
  },
  {
   "property": "C26",
   "status": "proved",
   "theorems": [
    "C26_exact_hit_is_kept",
    "C26_in_range",
    "C26_total",
    "C26_bezier_project",
    "C26_bspline_project",
    "C26_newton_f64"
   ],
   "note": ""
  },
  {
   "property": "C27",
   "status": "proved",
   "theorems": [
    "C27_line_nearest",
    "C27_line_inverse",
    "C27_line_nearest_iff_unit",
    "C27_nonunit_refuted"
   ],
   "note": "C27_nonunit_refuted exhibits a non-unit direction for which project is wrong (the code neither documents nor enforces unit length)."
  },
  {
   "property": "C28",
   "status": "proved",
   "theorems": [
    "C28_on_circle",
    "C28_periodic",
    "C28_project_range",
    "C28_project_inverse",
    "C28_all_points",
    "C28_project_nearest"
   ],
   "note": ""
  },
  {
   "property": "C29",
   "status": "proved",
   "theorems": [
    "C29_refine",
    "C29_full_circle_refuted"
   ],
   "note": "C29_full_circle_refuted: the natural expectation that a closed circular edge gives a full turn is false of the code."
  },
  {
   "property": "C30",
   "status": "proved",
   "theorems": [
    "C30_new",
    "C30_get_point",
    "C30_get_point_iff",
    "C30_unreachable_reached_f64",
    "C30_degenerate_nan_f64"
   ],
   "note": ""
  },
  {
   "property": "C31",
   "status": "proved",
   "theorems": [
    "C31_project_value",
    "C31_in_range",
    "C31_nearest",
    "C31_roundtrip",
    "C31_corner_refuted"
   ],
   "note": "C31_corner_refuted: at a corner project can run past the corner, so the unconditional nearest-point expectation is false of the code."
  },
  {
   "property": "C32",
   "status": "proved",
   "theorems": [
    "C32_chord_length_curve",
    "C32_project_roundtrip",
    "C32_general_knots_refuted"
   ],
   "note": "C32_general_knots_refuted: with knots not proportional to arc length project does not even find the curve's own points."
  },
  {
   "property": "C33",
   "status": "proved",
   "theorems": [
    "C33_inverse",
    "C33_nearest",
    "C33_isometry"
   ],
   "note": ""
  },
  {
   "property": "C34",
   "status": "proved",
   "theorems": [
    "C34_on_cylinder",
    "C34_project_range",
    "C34_project_inverse",
    "C34_get_point_project",
    "C34_project_nearest",
    "C34_ring_inverse",
    "C34_trim_apex",
    "C34_trim_refuted"
   ],
   "note": "C34_trim_refuted: a strip at heights 10..11 for which trim's ring map is not invertible."
  },
  {
   "property": "C35",
   "status": "proved",
   "theorems": [
    "C35_spin_is_rotation",
    "C35_rotation_laws",
    "C35_spin_panics_with_section"
   ],
   "note": ""
  },
  {
   "property": "C36",
   "status": "proved",
   "theorems": [
    "C36_sweep",
    "C36_sweep_translates",
    "C36_umbrella",
    "C36_umbrella_profile"
   ],
   "note": ""
  },
  {
   "property": "C37",
   "status": "proved",
   "theorems": [
    "C37_empty",
    "C37_ccw_iff_positive_area",
    "C37_invariance"
   ],
   "note": ""
  },
  {
   "property": "C38",
   "status": "proved",
   "theorems": [
    "C38_vertex_convexity",
    "C38_find_concave",
    "C38_repeated_corner_lost"
   ],
   "note": ""
  },
  {
   "property": "C39",
   "status": "proved",
   "theorems": [
    "C39_terminates",
    "C39_too_small",
    "C39_indices_and_count",
    "C39_general_position",
    "C39_panic_refuted"
   ],
   "note": "C39_panic_refuted: a simple counter-clockwise pentagon with exactly representable coordinates on which the call panics."
  },
  {
   "property": "C40",
   "status": "proved",
   "theorems": [
    "C40_area_balance",
    "C40_general_position",
    "C40_convex",
    "C40_distinct_corners_refuted",
    "C40_simple"
   ],
   "note": "C40_distinct_corners_refuted: simple polygon with output triangle (2,3,2). When both neighbours of an ear are dropped at once the lost quadrilateral is only known to have two straight corners."
  },
  {
   "property": "C41",
   "status": "proved",
   "theorems": [
    "C41_structure",
    "C41_merge",
    "C41_bridge_crosses_refuted"
   ],
   "note": "C41_bridge_crosses_refuted: the natural expectation that bridges do not cross edges is false of the code."
  },
  {
   "property": "C42",
   "status": "proved",
   "theorems": [
    "C42_structure",
    "C42_edges_match",
    "C42_endless_refuted",
    "C42_order64",
    "C42_bisector"
   ],
   "note": "C42_endless_refuted: the expectation that the mesher always returns is false of the code (square with a repeated corner)."
  },
  {
   "property": "C43",
   "status": "proved",
   "theorems": [
    "C43_segments_intersect",
    "C43_underflow_refuted"
   ],
   "note": "Exact arithmetic; C43_underflow_refuted shows the f64 failure for coordinates around 2^-600."
  },
  {
   "property": "C44",
   "status": "proved",
   "theorems": [
    "C44_ear_test",
    "C44_mesher_test",
    "C44_mesher_accepts_all",
    "C44_clockwise_never_inside"
   ],
   "note": ""
  },
  {
   "property": "C45",
   "status": "proved",
   "theorems": [
    "C45_loops",
    "C45_structure",
    "C45_no_loops",
    "C45_convex",
    "C45_facing",
    "C45_vanishes",
    "C45_nonconvex",
    "C45_holes",
    "C45_clockwise_refuted",
    "C45_small_refuted",
    "C45_simple",
    "C45_proper"
   ],
   "note": "The statement includes the refutations (clockwise and small faces), shown by C45_vanishes, C45_clockwise_refuted, C45_small_refuted. Geometric parts in exact arithmetic; C45_loops, C45_structure, C45_no_loops for every arithmetic."
  },
  {
   "property": "C46",
   "status": "proved",
   "theorems": [
    "C46_bspline",
    "C46_cylinder",
    "C46_ring_section",
    "C46_several_on_cylinder",
    "C46_several_misplaced_refuted",
    "C46_orientation_refuted"
   ],
   "note": "C46_bspline holds for every arithmetic, C46_cylinder in exact arithmetic (trigonometry). The statement includes the refutations C46_orientation_refuted and C46_several_misplaced_refuted. Tiling of the parameter polygon is C59. The file bound.obj that bspline trim writes is not modelled."
  },
  {
   "property": "C47",
   "status": "proved",
   "theorems": [
    "C47_grid_triangulation",
    "C47_no_wrap",
    "C47_empty_grid_panics",
    "C47_undefined64"
   ],
   "note": ""
  },
  {
   "property": "C48",
   "status": "proved",
   "theorems": [
    "C48_samples",
    "C48_total",
    "C48_normals",
    "C48_point_grid",
    "C48_zero_division_panics",
    "C48_uniform_parameters"
   ],
   "note": ""
  },
  {
   "property": "C49",
   "status": "proved",
   "theorems": [
    "C49_reverses",
    "C49_involution",
    "C49_panics_iff"
   ],
   "note": ""
  },
  {
   "property": "C50",
   "status": "proved",
   "theorems": [
    "C50_roundtrip",
    "C50_faces_unique",
    "C50_ragged_panics",
    "C50_boundary",
    "C50_boundary_empty",
    "C50_single"
   ],
   "note": ""
  },
  {
   "property": "C51",
   "status": "proved",
   "theorems": [
    "C51_header",
    "C51_roundtrip",
    "C51_ragged",
    "C51_single_precision"
   ],
   "note": ""
  },
  {
   "property": "C52",
   "status": "proved",
   "theorems": [
    "C52_scale",
    "C52_scale_distances",
    "C52_scale_compose",
    "C52_grammar",
    "C52_bad_number_panics",
    "C52_roundtrip",
    "C52_normals_lost",
    "C52_plane_points_lost"
   ],
   "note": ""
  },
  {
   "property": "C53",
   "status": "proved",
   "theorems": [
    "C53_selection",
    "C53_covers",
    "C53_empty_panics",
    "C53_total",
    "C53_degenerate",
    "C53_spacing",
    "C53_closing_distinct_refuted",
    "C53_straight_loop"
   ],
   "note": "C53_closing_distinct_refuted is a witness for the last clause of the property (only one closing vertex is removed)."
  },
  {
   "property": "C54",
   "status": "proved",
   "theorems": [
    "C54_curve",
    "C54_segment",
    "C54_polygon",
    "C54_trim",
    "C54_patch",
    "C54_normals_refuted"
   ],
   "note": "C54_normals_refuted is a witness that the missing get_normals forwarding is observable, as the property says."
  },
  {
   "property": "C55",
   "status": "proved",
   "theorems": [
    "C55_segment_points",
    "C55_samples_on_curve"
   ],
   "note": ""
  },
  {
   "property": "C56",
   "status": "proved",
   "theorems": [
    "C56_drawing",
    "C56_cubic_bspline",
    "C56_range_ignored",
    "C56_only_segment_drawn_refuted",
    "C56_one_path_per_curve"
   ],
   "note": "C56_only_segment_drawn_refuted is the witness for the last sentence of the property. The rendering {:.2} is a parameter; decimals of two digits are not modelled."
  },
  {
   "property": "C57",
   "status": "proved",
   "theorems": [
    "C57_transfer",
    "C57_flags_ignored",
    "C57_line_edge",
    "C57_circle_edge",
    "C57_full_circle_vanishes",
    "C57_polyline_edge",
    "C57_plane",
    "C57_placement_defaults_panic",
    "C57_complex_order_panics",
    "C57_reversed_edge_refuted",
    "C57_line_scaled_refuted",
    "C57_bspline_surface",
    "C57_rational_surface",
    "C57_bspline_curve",
    "C57_weights_by_row",
    "C57_negative_multiplicity"
   ],
   "note": "The statement describes what the code does; C57_reversed_edge_refuted and C57_line_scaled_refuted are the files for which the natural expectation (orientation respected, any direction length) fails."
  },
  {
   "property": "C58",
   "status": "proved",
   "theorems": [
    "C58_clamp_in_range",
    "C58_inv_or_zero",
    "C58_range_at",
    "C58_min_max",
    "C58_near",
    "C58_near_not_transitive",
    "C58_near_f64",
    "C58_near2",
    "C58_grid_index"
   ],
   "note": ""
  },
  {
   "property": "C59",
   "status": "proved",
   "theorems": [
    "C59_tiling"
   ],
   "note": ""
  },
  {
   "property": "C60",
   "status": "proved",
   "theorems": [
    "C60_same_triangles",
    "C60_simple",
    "C60_same_orientation",
    "C60_segments",
    "C60_integers"
   ],
   "note": ""
  },
  {
   "property": "C61",
   "status": "proved",
   "theorems": [
    "C61_project_points",
    "C61_sample_is_hit",
    "C61_newton_system",
    "C61_newton_f64"
   ],
   "note": ""
  },
  {
   "property": "C62",
   "status": "proved",
   "theorems": [
    "C62_bernstein_f64",
    "C62_bezier_f64",
    "C62_bezier_surface_f64",
    "C62_basis_f64",
    "C62_bspline_f64",
    "C62_bspline_surface_f64",
    "C62_rational_bezier_f64",
    "C62_rational_bspline_f64",
    "C62_rational_bezier_surface_f64",
    "C62_rational_bspline_surface_f64"
   ],
   "note": ""
  },
  {
   "property": "C63",
   "status": "proved",
   "theorems": [
    "C63_same_triangles",
    "C63_simple",
    "C63_orientation",
    "C63_segments",
    "C63_point_in_triangle"
   ],
   "note": ""
  },
  {
   "property": "C64",
   "status": "proved",
   "theorems": [
    "C64_sound",
    "C64_complete",
    "C64_grid",
    "C64_integers",
    "C64_plus_refuted"
   ],
   "note": "C64_plus_refuted: without the condition on inward vertices the tiling is incomplete (the plus sign loses its middle square), also in doubles."
  },
  {
   "property": "C65",
   "status": "proved",
   "theorems": [
    "C65_watertight",
    "C65_tjunction_refuted"
   ],
   "note": "Exact arithmetic (the T-junction also in doubles). C65_tjunction_refuted shows that the condition on straight corners is needed."
  },
  {
   "property": "C66",
   "status": "proved",
   "theorems": [
    "C66_face",
    "C66_projection",
    "C66_watertight",
    "C66_lines_refuted"
   ],
   "note": "Single loop, three corners never near a line (exact collinearity does not survive the projection in doubles). C66_lines_refuted shows that corners computed from lines need not agree between faces."
  },
  {
   "property": "C67",
   "status": "proved",
   "theorems": [
    "C67_straight_edge",
    "C67_line",
    "C67_bezier",
    "C67_straight_loop",
    "C67_face",
    "C67_line_between",
    "C67_lines"
   ],
   "note": "Lines and degree-1 Bezier edges; one loop; corners in general position. Edges of other curves are not covered in doubles."
  },
  {
   "property": "C68",
   "status": "proved",
   "theorems": [
    "C68_read",
    "C68_shared_edge",
    "C68_text",
    "C68_polyhedron",
    "C68_edge64",
    "C68_random_free",
    "C68_doubles",
    "C68_shared_edges_refuted"
   ],
   "note": "C68_read and C68_shared_edge hold over any arithmetic; C68_polyhedron in exact arithmetic; C68_doubles, C68_edge64 and C68_random_free in doubles. The hypothesis none_reversed is needed: C68_shared_edges_refuted is a cube with shared edge curves that loses three faces. In doubles the meshes of neighbouring faces agree up to rounding only. Parsing of the STEP text is outside the model."
  },
  {
   "property": "C69",
   "status": "proved",
   "theorems": [
    "C69_border",
    "C69_border64",
    "C69_joint64",
    "C69_joint",
    "C69_load",
    "C69_load_panics",
    "C69_load_bspline",
    "C69_written",
    "C69_reversed_refuted",
    "C69_counts_refuted"
   ],
   "note": "C69_load, C69_load_panics, C69_load_bspline and C69_written hold over any arithmetic and any number parser; C69_border and C69_joint in exact arithmetic; C69_border64 and C69_joint64 in doubles, bit for bit. The same-direction hypothesis of C69_joint64 is needed: C69_reversed_refuted (three patches of assets/teapot.bpt, doubles). C69_counts_refuted: the second count of a patch is not checked. Drawing on screen is outside the model."
  },
  {
   "property": "C70",
   "status": "proved",
   "theorems": [
    "C70_holes",
    "C70_volume",
    "C70_turns_refuted",
    "C70_plate_refuted",
    "C70_crossing_refuted",
    "C70_face64",
    "C70_watertight64"
   ],
   "note": "C70_holes in exact arithmetic, any number of holes; C70_volume for the volume. Needed hypotheses: C70_turns_refuted, C70_plate_refuted and C70_crossing_refuted (doubles, computed). C70_face64 in doubles for positions clear of the tolerance by a margin; C70_watertight64 for solids whose faces have holes, shown on a box with a rectangular hole through it. Not covered: holes in special position (three points on a line)."
  },
  {
   "property": "C71",
   "status": "proved",
   "theorems": [
    "C71_bspline",
    "C71_cylinder",
    "C71_solid64",
    "C71_edge_twice",
    "C71_mixed_box_refuted",
    "C71_wedge_refuted"
   ],
   "note": "C71_bspline and C71_cylinder: the border of one face, any arithmetic, any reading of the vertices as points. C71_solid64 for solids in doubles, for any sin, cos and atan2, under the hypothesis that the mesher of the curved faces returns (it need not, see C43 and C46); C71_edge_twice is the consequence for one edge. C71_mixed_box_refuted and C71_wedge_refuted: concrete solids, computed in doubles, whose meshes are not closed; C71_solid64_nonvacuous: six B-spline faces, closed."
  },
  {
   "property": "C72",
   "status": "proved",
   "theorems": [
    "C72_insertions64",
    "C72_evaluated64",
    "C72_split64",
    "C72_piecewise64",
    "C72_same_bits_refuted"
   ],
   "note": "C72_insertions64, C72_split64 and C72_piecewise64 compare the exact curves defined by the computed numbers with the original; C72_evaluated64 also evaluates in doubles. Knots that nearly coincide (closer than 2^-50 relative, where the code treats them as equal) are excluded by the hypothesis `separated`, as in C11 to C14."
  },
  {
   "property": "C73",
   "status": "proved",
   "theorems": [
    "C73_newton_converges",
    "C73_newton_quadratic",
    "C73_find_nearest",
    "C73_bezier_project",
    "C73_farthest_refuted"
   ],
   "note": "C73_newton_converges and C73_newton_quadratic for any curve given with its derivatives (the Bezier and B-spline curves of the library have them by C04 and C10); C73_find_nearest and C73_bezier_project with the bounds on the whole range; C73_farthest_refuted in doubles."
  },
  {
   "property": "C74",
   "status": "proved",
   "theorems": [
    "C74_circle64",
    "C74_cylinder64",
    "C74_line64",
    "C74_plane64",
    "C74_cylinder_round_trip64",
    "C74_circle_round_trip64",
    "C74_exact_refuted"
   ],
   "note": "sin, cos and atan2 of the platform are parameters with the stated accuracy (C74_trig_nonvacuous builds correctly rounded ones); the exact circle and cylinder have the stored centre and radius and exact unit directions near the stored ones. PI_digits bounds pi by the series of Machin from the standard library."
  },
  {
   "property": "C75",
   "status": "proved",
   "theorems": [
    "C75_mesh_distance",
    "C75_refinement",
    "C75_mesh_distance64"
   ],
   "note": "C75_mesh_distance in exact arithmetic for any range inside the unit square, C75_mesh_distance64 in doubles over the unit square (the ranges the examples use). The distance is taken coordinate by coordinate. C75_nonvacuous: a bent sheet with 10 x 10 divisions, within 0.021."
  },
  {
   "property": "C76",
   "status": "proved",
   "theorems": [
    "C76_read",
    "C76_solid"
   ],
   "note": "Extends C68 to faces with holes by C70; the conditions on the holes are those of C70 (where they fail, C70 shows wrong meshes). C76_nonvacuous: a file with a square plate with a triangular hole. In exact arithmetic; C70_watertight64 treats the meshes of such faces in doubles."
  },
  {
   "property": "C77",
   "status": "proved",
   "theorems": [
    "C77_quadratic",
    "C77_parabola",
    "C77_circle",
    "C77_count",
    "C77_circle_sampled",
    "C77_bspline_refuted",
    "C77_cubic_refuted",
    "C77_two_turns_refuted"
   ],
   "note": "Exact arithmetic, every generator result in [0,1). The general claim (sampled within a multiple of the tolerance for every curve) is false: C77_bspline_refuted, C77_cubic_refuted, C77_two_turns_refuted. The constant 553/500 rounds up 8/(5+sqrt 5), the value for a full circle probed at 0.4. C77_nonvacuous: half a circle and an arch, three points each."
  },
  {
   "property": "C78",
   "status": "proved",
   "theorems": [
    "C78_mesh_distance",
    "C78_sweep",
    "C78_spin",
    "C78_cylinder",
    "C78_torus",
    "C78_umbrella",
    "C78_cylinder_patch",
    "C78_cylinder_sharp"
   ],
   "note": "Exact arithmetic. C78_mesh_distance is the general statement; C78_cylinder, C78_sweep, C78_spin, C78_torus and C78_umbrella give the derivatives of the surfaces of the library; C78_cylinder_sharp is the bound from below. C78_nonvacuous: a cylinder with ten columns (1/800) and a sphere in steps of 1/10 (1/200)."
  },
  {
   "property": "C79",
   "status": "proved",
   "theorems": [
    "C79_bezier_crossings",
    "C79_bspline_crossings",
    "C79_rational_bezier_crossings",
    "C79_monotone"
   ],
   "note": "Exact arithmetic. Bezier curves through sign changes of exponential sums (C79_bezier_crossings, C79_rational_bezier_crossings), B-splines through inserting every sampled parameter as often as the degree (C79_bspline_crossings); the insertions are on knot functions and need no distance between knots and parameters. C79_monotone is the consequence for curves that proceed in a direction. C79_nonvacuous: a cubic that crosses a plane three times."
  },
  {
   "property": "C80",
   "status": "proved",
   "theorems": [
    "C80_rational_bspline",
    "C80_rational_hull",
    "C80_unit_weights",
    "C80_scale_invariant",
    "C80_rational_crossings",
    "C80_arc",
    "C80_full_circle"
   ],
   "note": "Exact arithmetic. C80_rational_bspline gives the quotient and the positive divisor; C80_rational_hull, C80_scale_invariant, C80_unit_weights and C80_rational_crossings (through C79) follow. C80_arc and C80_full_circle: the conics. C80_nonvacuous: a curve with weights 1, 2, 1, 3 and an arc of a quarter turn."
  },
  {
   "property": "C81",
   "status": "proved",
   "theorems": [
    "C81_bezier_patch_hull",
    "C81_bspline_patch_hull",
    "C81_revolution",
    "C81_nurbs_revolution",
    "C81_torus_patch",
    "C81_sphere_patch",
    "C81_full_torus"
   ],
   "note": "Exact arithmetic. C81_bezier_patch_hull and C81_bspline_patch_hull: convex weights in both directions. C81_revolution and C81_nurbs_revolution: the double sum factors. C81_torus_patch, C81_sphere_patch, C81_full_torus: with C80_arc and C80_full_circle. on_torus names the signed distance from the axis, so it covers self-intersecting tori. C81_nonvacuous: a patch of the sphere, a point of the torus with radii 3 and 1, a cone."
  },
  {
   "property": "C82",
   "status": "proved",
   "theorems": [
    "C82_convex",
    "C82_two_crossings",
    "C82_bezier",
    "C82_rational_bezier",
    "C82_bspline",
    "C82_rational_bspline"
   ],
   "note": "Exact arithmetic, from the crossing bounds of C79 and C80 alone: C82_convex (a line just above a chord would be crossed by the polygon in the order below, above, below) and C82_two_crossings (the diagonals of a convex quadrangle meet); C82_bezier, C82_rational_bezier, C82_bspline, C82_rational_bspline apply them to the model. C82_nonvacuous: a bowl and a pentagon."
  },
  {
   "property": "C83",
   "status": "proved",
   "theorems": [
    "C83_bezier",
    "C83_bspline",
    "C83_rational_bezier",
    "C83_rational_bspline",
    "C83_segment"
   ],
   "note": "Exact arithmetic. Summation by parts; the sums of the basis functions from any index on increase with the parameter because of the crossing bounds of C79 and C80 applied to control points 0, ..., 0, 1, ..., 1 (family_length). C83_bezier, C83_bspline, C83_rational_bezier, C83_rational_bspline; C83_segment for the sampled points. C83_nonvacuous: the curves of C10 and C80."
  },
  {
   "property": "C84",
   "status": "proved",
   "theorems": [
    "C84_line",
    "C84_bezier",
    "C84_rational_bezier",
    "C84_bspline",
    "C84_rational_bspline",
    "C84_jump",
    "C84_bspline_jump",
    "C84_broken"
   ],
   "note": "Exact arithmetic. C84_line, C84_bezier, C84_rational_bezier, C84_bspline, C84_rational_bspline: the curves are Lipschitz, also across knots of multiplicity at most the degree (cdb_joint), and C23 gives a depth. C84_jump: a curve that stays within r of one point before a parameter and within r of another from there on is sampled for ever at tolerances up to 2/5 of the distance of the points less 2 r. C84_bspline_jump: every knot of multiplicity degree + 1 between different control points is such a jump. C84_broken: a concrete B-spline over its whole range. C84_nonvacuous: the curves of C10 and C80 satisfy the hypotheses."
  },
  {
   "property": "C85",
   "status": "proved",
   "theorems": [
    "C85_points",
    "C85_bezier_speed",
    "C85_bezier",
    "C85_bspline",
    "C85_rational_bezier",
    "C85_rational_bspline"
   ],
   "note": "Exact arithmetic. A piece that is divided is at least 5/3 of the tolerance long (divided_long), the pieces of one level do not overlap, and by C83 their lengths, least upper bounds of inscribed lines, add up to at most the length of the polygon (lens_add, count_bound). C85_points for every curve with the bound of C83; C85_bezier_speed and C85_bezier with an explicit depth; C85_bspline, C85_rational_bezier, C85_rational_bspline with a depth from C84. C85_nonvacuous: an arch sampled at 1/5 gives at most 212 points."
  },
  {
   "property": "C86",
   "status": "proved",
   "theorems": [
    "C86_jump",
    "C86_jump_f64",
    "C86_steps"
   ],
   "note": "C86_jump for any instance of the number class, with the two sides given by any boolean function of the parameter. C86_jump_f64 in doubles: the probe lies between 0.39 and 0.61 (probe_middle) and the computed distance to the chord is not below the tolerance (far_test). C86_steps: a B-spline of degree 0 evaluated in doubles at every parameter, NaN included. C86_nonvacuous: ranges from 0 to 2 and between neighbouring doubles, tolerance 1/4."
  }
 ]
}