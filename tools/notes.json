{
 "C09": {
  "status": "proved",
  "note": "The statement is the exact behaviour of the code. C09_symmetric_extrapolation_refuted shows that the natural expectation (symmetric treatment of both ends) is false."
 },
 "C15": {},
 "C27": {
  "status": "proved",
  "note": "C27_nonunit_refuted exhibits a non-unit direction for which project is wrong (the code neither documents nor enforces unit length)."
 },
 "C29": {
  "status": "proved",
  "note": "C29_full_circle_refuted: the natural expectation that a closed circular edge gives a full turn is false of the code."
 },
 "C34": {
  "status": "proved",
  "note": "C34_trim_refuted: a strip at heights 10..11 for which trim's ring map is not invertible."
 },
 "C31": {
  "status": "proved",
  "note": "C31_corner_refuted: at a corner project can run past the corner, so the unconditional nearest-point expectation is false of the code."
 },
 "C32": {
  "status": "proved",
  "note": "C32_general_knots_refuted: with knots not proportional to arc length project does not even find the curve's own points."
 },
 "C39": {
  "status": "proved",
  "note": "C39_panic_refuted: a simple counter-clockwise pentagon with exactly representable coordinates on which the call panics."
 },
 "C40": {
  "status": "proved",
  "note": "C40_distinct_corners_refuted: simple polygon with output triangle (2,3,2). When both neighbours of an ear are dropped at once the lost quadrilateral is only known to have two straight corners."
 },
 "C41": {
  "status": "proved",
  "note": "C41_bridge_crosses_refuted: the natural expectation that bridges do not cross edges is false of the code."
 },
 "C42": {
  "status": "proved",
  "note": "C42_endless_refuted: the expectation that the mesher always returns is false of the code (square with a repeated corner)."
 },
 "C43": {
  "status": "proved",
  "note": "Exact arithmetic; C43_underflow_refuted shows the f64 failure for coordinates around 2^-600."
 },
 "C53": {
  "status": "proved",
  "note": "C53_closing_distinct_refuted is a witness for the last clause of the property (only one closing vertex is removed)."
 },
 "C54": {
  "status": "proved",
  "note": "C54_normals_refuted is a witness that the missing get_normals forwarding is observable, as the property says."
 },
 "C56": {
  "status": "proved",
  "note": "C56_only_segment_drawn_refuted is the witness for the last sentence of the property. The rendering {:.2} is a parameter; decimals of two digits are not modelled."
 },
 "C57": {
  "status": "proved",
  "note": "The statement describes what the code does; C57_reversed_edge_refuted and C57_line_scaled_refuted are the files for which the natural expectation (orientation respected, any direction length) fails."
 },
 "C45": {
  "status": "proved",
  "note": "The statement includes the refutations (clockwise and small faces), shown by C45_vanishes, C45_clockwise_refuted, C45_small_refuted. Geometric parts in exact arithmetic; C45_loops, C45_structure, C45_no_loops for every arithmetic."
 },
 "C46": {
  "status": "proved",
  "note": "C46_bspline holds for every arithmetic, C46_cylinder in exact arithmetic (trigonometry). The statement includes the refutations C46_orientation_refuted and C46_several_misplaced_refuted. Tiling of the parameter polygon is C59. The file bound.obj that bspline trim writes is not modelled."
 },
 "C64": {
  "status": "proved",
  "note": "C64_plus_refuted: without the condition on inward vertices the tiling is incomplete (the plus sign loses its middle square), also in doubles."
 },
 "C65": {
  "status": "proved",
  "note": "Exact arithmetic (the T-junction also in doubles). C65_tjunction_refuted shows that the condition on straight corners is needed."
 },
 "C66": {
  "status": "proved",
  "note": "Single loop, three corners never near a line (exact collinearity does not survive the projection in doubles). C66_lines_refuted shows that corners computed from lines need not agree between faces."
 },
 "C67": {
  "status": "proved",
  "note": "Lines and degree-1 Bezier edges; one loop; corners in general position. Edges of other curves are not covered in doubles."
 },
 "C68": {
  "status": "proved",
  "note": "C68_read and C68_shared_edge hold over any arithmetic; C68_polyhedron in exact arithmetic; C68_doubles, C68_edge64 and C68_random_free in doubles. The hypothesis none_reversed is needed: C68_shared_edges_refuted is a cube with shared edge curves that loses three faces. In doubles the meshes of neighbouring faces agree up to rounding only. Parsing of the STEP text is outside the model."
 },
 "C69": {
  "status": "proved",
  "note": "C69_load, C69_load_panics, C69_load_bspline and C69_written hold over any arithmetic and any number parser; C69_border and C69_joint in exact arithmetic; C69_border64 and C69_joint64 in doubles, bit for bit. The same-direction hypothesis of C69_joint64 is needed: C69_reversed_refuted (three patches of assets/teapot.bpt, doubles). C69_counts_refuted: the second count of a patch is not checked. Drawing on screen is outside the model."
 },
 "C70": {
  "status": "proved",
  "note": "C70_holes in exact arithmetic, any number of holes; C70_volume for the volume. Needed hypotheses: C70_turns_refuted, C70_plate_refuted and C70_crossing_refuted (doubles, computed). C70_face64 in doubles for positions clear of the tolerance by a margin; C70_watertight64 for solids whose faces have holes, shown on a box with a rectangular hole through it. Not covered: holes in special position (three points on a line)."
 },
 "C71": {
  "status": "proved",
  "note": "C71_bspline and C71_cylinder: the border of one face, any arithmetic, any reading of the vertices as points. C71_solid64 for solids in doubles, for any sin, cos and atan2, under the hypothesis that the mesher of the curved faces returns (it need not, see C43 and C46); C71_edge_twice is the consequence for one edge. C71_mixed_box_refuted and C71_wedge_refuted: concrete solids, computed in doubles, whose meshes are not closed; C71_solid64_nonvacuous: six B-spline faces, closed."
 },
 "C72": {
  "status": "proved",
  "note": "C72_insertions64, C72_split64 and C72_piecewise64 compare the exact curves defined by the computed numbers with the original; C72_evaluated64 also evaluates in doubles. Knots that nearly coincide (closer than 2^-50 relative, where the code treats them as equal) are excluded by the hypothesis `separated`, as in C11 to C14."
 },
 "C73": {
  "status": "proved",
  "note": "C73_newton_converges and C73_newton_quadratic for any curve given with its derivatives (the Bezier and B-spline curves of the library have them by C04 and C10); C73_find_nearest and C73_bezier_project with the bounds on the whole range; C73_farthest_refuted in doubles."
 },
 "C74": {
  "status": "proved",
  "note": "sin, cos and atan2 of the platform are parameters with the stated accuracy (C74_trig_nonvacuous builds correctly rounded ones); the exact circle and cylinder have the stored centre and radius and exact unit directions near the stored ones. PI_digits bounds pi by the series of Machin from the standard library."
 },
 "C75": {
  "status": "proved",
  "note": "C75_mesh_distance in exact arithmetic for any range inside the unit square, C75_mesh_distance64 in doubles over the unit square (the ranges the examples use). The distance is taken coordinate by coordinate. C75_nonvacuous: a bent sheet with 10 x 10 divisions, within 0.021."
 },
 "C76": {
  "status": "proved",
  "note": "Extends C68 to faces with holes by C70; the conditions on the holes are those of C70 (where they fail, C70 shows wrong meshes). C76_nonvacuous: a file with a square plate with a triangular hole. In exact arithmetic; C70_watertight64 treats the meshes of such faces in doubles."
 },
 "C77": {
  "status": "proved",
  "note": "Exact arithmetic, every generator result in [0,1). The general claim (sampled within a multiple of the tolerance for every curve) is false: C77_bspline_refuted, C77_cubic_refuted, C77_two_turns_refuted. The constant 553/500 rounds up 8/(5+sqrt 5), the value for a full circle probed at 0.4. C77_nonvacuous: half a circle and an arch, three points each."
 },
 "C78": {
  "status": "proved",
  "note": "Exact arithmetic. C78_mesh_distance is the general statement; C78_cylinder, C78_sweep, C78_spin, C78_torus and C78_umbrella give the derivatives of the surfaces of the library; C78_cylinder_sharp is the bound from below. C78_nonvacuous: a cylinder with ten columns (1/800) and a sphere in steps of 1/10 (1/200)."
 },
 "C79": {
  "status": "proved",
  "note": "Exact arithmetic. Bezier curves through sign changes of exponential sums (C79_bezier_crossings, C79_rational_bezier_crossings), B-splines through inserting every sampled parameter as often as the degree (C79_bspline_crossings); the insertions are on knot functions and need no distance between knots and parameters. C79_monotone is the consequence for curves that proceed in a direction. C79_nonvacuous: a cubic that crosses a plane three times."
 },
 "C80": {
  "status": "proved",
  "note": "Exact arithmetic. C80_rational_bspline gives the quotient and the positive divisor; C80_rational_hull, C80_scale_invariant, C80_unit_weights and C80_rational_crossings (through C79) follow. C80_arc and C80_full_circle: the conics. C80_nonvacuous: a curve with weights 1, 2, 1, 3 and an arc of a quarter turn."
 },
 "C81": {
  "status": "proved",
  "note": "Exact arithmetic. C81_bezier_patch_hull and C81_bspline_patch_hull: convex weights in both directions. C81_revolution and C81_nurbs_revolution: the double sum factors. C81_torus_patch, C81_sphere_patch, C81_full_torus: with C80_arc and C80_full_circle. on_torus names the signed distance from the axis, so it covers self-intersecting tori. C81_nonvacuous: a patch of the sphere, a point of the torus with radii 3 and 1, a cone."
 },
 "C82": {
  "status": "proved",
  "note": "Exact arithmetic, from the crossing bounds of C79 and C80 alone: C82_convex (a line just above a chord would be crossed by the polygon in the order below, above, below) and C82_two_crossings (the diagonals of a convex quadrangle meet); C82_bezier, C82_rational_bezier, C82_bspline, C82_rational_bspline apply them to the model. C82_nonvacuous: a bowl and a pentagon."
 },
 "C83": {
  "status": "proved",
  "note": "Exact arithmetic. Summation by parts; the sums of the basis functions from any index on increase with the parameter because of the crossing bounds of C79 and C80 applied to control points 0, ..., 0, 1, ..., 1 (family_length). C83_bezier, C83_bspline, C83_rational_bezier, C83_rational_bspline; C83_segment for the sampled points. C83_nonvacuous: the curves of C10 and C80."
 },
 "C84": {
  "status": "proved",
  "note": "Exact arithmetic. C84_line, C84_bezier, C84_rational_bezier, C84_bspline, C84_rational_bspline: the curves are Lipschitz, also across knots of multiplicity at most the degree (cdb_joint), and C23 gives a depth. C84_jump: a curve that stays within r of one point before a parameter and within r of another from there on is sampled for ever at tolerances up to 2/5 of the distance of the points less 2 r. C84_bspline_jump: every knot of multiplicity degree + 1 between different control points is such a jump. C84_broken: a concrete B-spline over its whole range. C84_nonvacuous: the curves of C10 and C80 satisfy the hypotheses."
 },
 "C85": {
  "status": "proved",
  "note": "Exact arithmetic. A piece that is divided is at least 5/3 of the tolerance long (divided_long), the pieces of one level do not overlap, and by C83 their lengths, least upper bounds of inscribed lines, add up to at most the length of the polygon (lens_add, count_bound). C85_points for every curve with the bound of C83; C85_bezier_speed and C85_bezier with an explicit depth; C85_bspline, C85_rational_bezier, C85_rational_bspline with a depth from C84. C85_nonvacuous: an arch sampled at 1/5 gives at most 212 points."
 },
 "C86": {
  "status": "proved",
  "note": "C86_jump for any instance of the number class, with the two sides given by any boolean function of the parameter. C86_jump_f64 in doubles: the probe lies between 0.39 and 0.61 (probe_middle) and the computed distance to the chord is not below the tolerance (far_test). C86_steps: a B-spline of degree 0 evaluated in doubles at every parameter, NaN included. C86_nonvacuous: ranges from 0 to 2 and between neighbouring doubles, tolerance 1/4."
 }
}