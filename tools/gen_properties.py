#!/usr/bin/env python3
# Writes /verif/properties.jsonl. Append new properties at the end: ids are positional.
import json, os
P = []
def p(title, statement, quantifier, why, anchors):
    P.append(dict(id="C%02d" % (len(P)+1), title=title, statement=statement,
                  quantifier=quantifier, why_tests_cant=why, anchors=anchors))

p("Bezier evaluation is the Bernstein polynomial",
  "Evaluating a Bezier curve with n control points at u returns sum_i C(n-1,i) u^i (1-u)^(n-1-i) P_i (exact arithmetic); it panics exactly when there are no control points.",
  "every number of control points n, every control polygon, every real parameter u (also outside [0,1])",
  "a test fixes n and u; the in-place triangular update must be right for every n",
  ["src/basis.rs: bernstein", "src/curve/bezier.rs: BezierCurve<Point3>::get_point"])
p("Bezier curves interpolate their end points",
  "get_point(0) is the first and get_point(1) the last control point; the basis values at 0.0 and 1.0 are exactly 0.0/1.0 also in IEEE double arithmetic.",
  "every number of control points and every control polygon; both real and IEEE-754 binary64 arithmetic",
  "the f64 claim is about absence of rounding for every degree",
  ["src/basis.rs: bernstein", "src/curve/bezier.rs: get_point"])
p("Bezier convex hull and affine invariance",
  "For u in [0,1] a Bezier point is a convex combination of the control points (weights >= 0, summing to 1), so it lies in every half space / bounding box containing them; evaluation commutes with translation.",
  "every control polygon and every u in [0,1]",
  "quantifies over all half spaces and parameters",
  ["src/basis.rs: bernstein", "src/curve/bezier.rs: get_point"])
p("Bezier derivative is the derivative",
  "The curve returned by derivative() evaluates, at every u, to the derivative of the original curve's get_point, componentwise.",
  "every control polygon with at least two points, every real u",
  "a derivative is a limit: no finite number of evaluations decides it",
  ["src/curve/bezier.rs: BezierCurve::derivative"])
p("Rational Bezier evaluation",
  "With positive weights and u in [0,1] the rational curve's denominator is positive, the result is the weighted average sum w_i B_i P_i / sum w_i B_i, lies in the convex hull of the projected points, and is unchanged when all weights are scaled by a common positive factor.",
  "every weighted control polygon with positive weights, every u in [0,1]",
  "absence of division by zero and projective invariance are universal claims",
  ["src/curve/bezier.rs: BezierCurve<Point4>::get_point", "src/model/step_reader.rs: vec4"])
p("B-spline basis equals the Cox-de Boor functions",
  "bspline_basis(degree,u) returns exactly len-1-degree values, the i-th being the Cox-de Boor basis function N_{i,degree}(u), for any sorted knot vector (clamped or not, any interior multiplicities) and any u in the knot range, the right end being evaluated in the last non-empty span.",
  "every sorted knot vector with distinguishable knots, every degree < len-1, every u in [first,last]",
  "the in-place update with early/late truncation must be right for every multiplicity pattern, degree and span",
  ["src/knot.rs: bspline_basis, span_index", "src/utils.rs: inv_or_zero"])
p("B-spline basis: non-negativity, partition of unity, local support",
  "On the knot range all values are >= 0; on [t_p, t_{n}] they sum to 1; at most degree+1 consecutive values, those of the span of u, are non-zero.",
  "every valid knot vector, degree and parameter",
  "universal over knot vectors and parameters",
  ["src/knot.rs: bspline_basis"])
p("span_index finds the span and never fails on usable knots",
  "For sorted knots span_index(u) is the i with t_i <= u < t_{i+1}, or the last non-empty span when u >= last knot; the result is < len-1. It does not panic as long as some knot is distinguishable from the last one - for any number type, including f64 with NaN.",
  "every knot vector, every u",
  "index arithmetic with subtraction: must not underflow for any multiplicity pattern",
  ["src/knot.rs: span_index, multiplicity"])
p("Evaluation outside the knot range",
  "Users expect parameters below the first knot to be treated like those above the last one (extrapolating the boundary polynomial, weights still summing to 1).",
  "every clamped knot vector, u outside the range",
  "needs a universally quantified claim; refuted by the model",
  ["src/knot.rs: span_index (None branch), bspline_basis"])
p("B-spline derivative is the derivative",
  "derivative() of a degree p>=1 B-spline evaluates, at every u strictly inside a knot span, to the derivative of get_point; the result has one control point fewer, knots without first and last, degree p-1.",
  "every valid B-spline curve, every u interior to a span",
  "a derivative is a limit",
  ["src/curve/bspline.rs: derivative", "src/knot.rs: shrink, spans"])
p("Knot insertion does not change the curve",
  "add_knot(x) returns a curve with one more knot and one more control point whose get_point agrees with the original at every parameter of the original range; it panics exactly when the new knot would land at position 1..=degree (a knot inside an unclamped start).",
  "every valid B-spline curve and every inserted knot value, hence every sequence of insertions",
  "pointwise equality of functions over a continuum, for every knot pattern",
  ["src/curve/bspline.rs: add_knot", "src/knot.rs: add_knot"])
p("Splitting a B-spline",
  "split(t) leaves in self a curve on [first,t] and returns one on [t,last], both clamped at t, that evaluate to the original curve on their ranges.",
  "every valid B-spline and every t strictly inside the range; separately t at the ends",
  "pointwise equality over a continuum; end cases need case analysis",
  ["src/curve/bspline.rs: split"])
p("Clamping a B-spline",
  "clamp() never fails and gives end knots multiplicity degree+1 without changing the curve.",
  "every valid B-spline curve",
  "universal; refuted for unclamped starts",
  ["src/curve/bspline.rs: clamp"])
p("Decomposition into Bezier pieces",
  "to_piecewise_bezier of a clamped curve returns one piece per non-empty span, in order, each with degree+1 control points, and the piece of span [a,b] at s equals the B-spline at a+s(b-a).",
  "every clamped B-spline curve, every s in [0,1]",
  "pointwise equality for all knot vectors and parameters",
  ["src/curve/bspline.rs: to_piecewise_bezier"])
p("Knot vector constructors",
  "bezier_knot(p), uniform_knot(p,d) and from_values_and_multiplicities produce exactly the documented sequence: sorted, right length, right multiplicities, range (0,1) for the first two; uniform_clamped surfaces satisfy len(knots)=rows+degree+1.",
  "every degree, division, value and multiplicity list",
  "universal over sizes",
  ["src/knot.rs: bezier_knot, uniform_knot, from_values_and_multiplicities", "src/surface/bspline.rs: uniform_clamped, new"])
p("KnotVector::add_knot keeps the vector sorted",
  "add_knot inserts the value after all knots <= it, returns its position, keeps every other knot, and preserves sortedness over any sequence of insertions.",
  "every knot vector, every sequence of inserted values",
  "invariant over histories",
  ["src/knot.rs: add_knot"])
p("Knot normalization, shrink, spans, range",
  "normalize maps the knots affinely onto [0,1] keeping order; shrink drops exactly first and last; spans(d) lists t_{i+d}-t_i; range is (first,last).",
  "every knot vector",
  "universal",
  ["src/knot.rs: normalize, shrink, spans, range"])
p("B-spline surface evaluation",
  "get_point(u,v) = sum_ij N_i(u) N_j(v) P_ij for both point types; construction with `new` / `uniform_clamped` never yields a surface whose evaluation indexes out of bounds; the stored degree equals the requested one.",
  "every control grid, valid knot pair, parameters in range",
  "universal; the u8 truncation of the degree is only visible at degree >= 256",
  ["src/surface/bspline.rs: new, uniform_clamped, get_point"])
p("B-spline surface partial derivatives and normals",
  "derivative_u / derivative_v evaluate to the partial derivatives of get_point inside knot spans (zero surface when the degree in that direction is 0); get_normals returns one vector per parameter, orthogonal to both partials.",
  "every surface, every interior parameter pair",
  "derivatives are limits",
  ["src/surface/bspline.rs: derivative_u, derivative_v, get_normals"])
p("Bezier surface evaluation",
  "get_point(u,v) is the tensor product Bernstein sum; the four corners are interpolated; for parameters in [0,1] the point is in the convex hull of the control net; boundary curves are Bezier curves of boundary rows.",
  "every control grid with at least 2x2 points, all parameters",
  "universal over sizes and parameters",
  ["src/surface/bezier.rs: new, get_point"])
p("uniform_divide",
  "uniform_divide((a,b),n) returns n+1 values, first exactly a, last exactly b (in any arithmetic, f64 included); in exact arithmetic the i-th is a+i(b-a)/n. n=0 is rejected by a panic (overflow-checked arithmetic).",
  "every range and every n",
  "universal over n",
  ["src/utils.rs: uniform_divide"])
p("Adaptive parameter division: shape of the result",
  "Whenever parameter_division returns, for every outcome of the random generator, the first value is range.0, the last range.1, values are strictly monotone in the direction of the range, and every consecutive pair passed the flatness test for some random probe in [0.4,0.6].",
  "every curve, range, tolerance and every sequence of random numbers",
  "quantifies over all random schedules",
  ["src/utils.rs: parameter_division, range_at", "src/curve.rs: CurveSegment::get_points"])
p("Adaptive parameter division terminates",
  "For a Lipschitz curve and a positive tolerance the recursion depth is bounded by a function of the Lipschitz constant, range and tolerance, whatever the random numbers; for tolerance <= 0 it never returns.",
  "every Lipschitz curve, every tolerance > 0, every random schedule",
  "termination under all schedules",
  ["src/utils.rs: parameter_division"])
p("Nearest point search",
  "find_nearest_point / find_nearest_point_in_grid / nearest_vertex return a valid index whose computed squared distance is minimal, the first such index, also in f64 arithmetic; an empty list gives 0.",
  "every point list/grid, every query point, real and IEEE arithmetic",
  "optimality over all elements",
  ["src/utils.rs: find_nearest_point, find_nearest_point_in_grid", "src/curve/polyline.rs: nearest_vertex"])
p("Distance to a line segment",
  "distance_to_line_segment (2D and 3D) returns the minimum over the segment of the Euclidean distance, and the minimum is attained; it is symmetric in the two end points.",
  "every segment (also degenerate) and every point",
  "a minimum over a continuum",
  ["src/utils.rs: distance_to_line_segment", "src/utils/point.rs: distance_to_line_segment"])
p("Newton projection stays in range",
  "find_nearest_parameter, and hence BezierCurve::project (degree >= 2) and BSplineCurve::project (degree >= 2), return a parameter inside the given range, for every curve, point and number of trials; exact hits are fixed points.",
  "every curve, point, range, division >= 1 and trials",
  "iteration invariant over arbitrary evaluations",
  ["src/utils.rs: find_nearest_parameter, clamp_in_range", "src/curve/bezier.rs: project", "src/curve/bspline.rs: project"])
p("Line projection",
  "Line::project returns the parameter of the nearest point on the line and inverts get_point.",
  "every line and point (holds for unit directions; refuted otherwise)",
  "minimum over a continuum",
  ["src/curve/line.rs: get_point, project"])
p("Circle evaluation and projection",
  "For orthonormal axis/ref_dir, get_point(a) is at distance radius from the center in the plane of the circle, is 2pi-periodic, project returns an angle in [0,2pi), project(get_point(a)) = a for a in [0,2pi), and get_point(project(p)) is the nearest point of the circle to p.",
  "every circle, angle and point off the axis",
  "trigonometric identities and a minimum over a continuum",
  ["src/curve/circle.rs: get_point, project"])
p("Circle parameter ranges respect the sense",
  "refine_parameter_range keeps both end points of the arc (changes parameters by 0 or 2pi) and orders them according to same_sense; a full circle (equal start and end) yields a full turn.",
  "every pair of angles in [0,2pi) and both senses (the full-circle part is refuted)",
  "universal with case analysis",
  ["src/curve/circle.rs: refine_parameter_range"])
p("Polyline evaluation",
  "get_point(t) for t in [0,1] is the point at arc length t*length; t<=0 gives the start, t>=1 the end; evaluation never panics. Exact arithmetic: true for positive length. IEEE double: the unreachable!() is reachable.",
  "every polyline and every t, in real and in IEEE arithmetic",
  "rounding failures are adversarially rare; arc length claim is over a continuum",
  ["src/curve/polyline.rs: new, get_point"])
p("Polyline projection",
  "project(p) is in [0,1] and get_point(project(p)) is the nearest point of the polyline to p.",
  "every polyline and point (nearest part holds when the foot point is interior to the nearest segment; refuted at corners)",
  "minimum over a continuum",
  ["src/curve/polyline.rs: project"])
p("Degree 1 B-spline projection",
  "project(get_point(u)) = u for a degree-1 B-spline (injective curve).",
  "every degree 1 B-spline (refuted unless knots are proportional to arc length)",
  "universal claim",
  ["src/curve/bspline.rs: project"])
p("Plane projection",
  "With orthonormal axes project(get_point(u,v)) = (u,v) and get_point(project(p)) is the nearest point of the plane.",
  "every plane, parameters, point",
  "minimum over a continuum",
  ["src/surface/plane.rs: project, get_point"])
p("Cylinder projections",
  "With orthonormal axis/ref_dir get_point lies at distance radius from the axis; project inverts get_point for angles in [0,2pi); generate_point_from_ring inverts project_to_ring for points on the cylinder below the apex d. Trim uses a d that guarantees this.",
  "every cylinder, every point on it (the trim part is refuted)",
  "universal over a continuum",
  ["src/surface/cylinder.rs: project, get_point, project_to_ring, generate_point_from_ring, trim"])
p("Spin surface is a rotation of the section",
  "get_point(s,a) is the section point rotated about the axis: same axial coordinate, same distance from the axis; a=0 gives the section itself; rotation angles add; 2pi-periodic.",
  "every section curve, unit axis, parameters",
  "universal over a continuum",
  ["src/surface/spin.rs: get_point"])
p("Sweep and umbrella surfaces",
  "Sweep: get_point(p,s) = path(p) + section(s). Umbrella: points satisfy the documented parametrization, radial distance |r(theta - sin theta)|, height between 0 and 2r.",
  "all parameters",
  "universal over a continuum",
  ["src/surface/sweep.rs", "src/surface/umbrella.rs"])
p("Polygon orientation test",
  "is_polygon_counter_clockwise is true exactly when the shoelace signed area is positive; invariant under rotation of the vertex list and translation, flipped by reversal (non-zero area).",
  "every polygon with at least one vertex",
  "universal over polygons",
  ["src/utils/polygon.rs: is_polygon_counter_clockwise"])
p("Vertex convexity classification",
  "compute_vertex_convexity returns, in increasing order, exactly the vertices whose turn is not within tolerance of straight, and among them exactly the right-turn ones as concave; find_concave_vertices likewise for an index polygon.",
  "every point list",
  "universal over polygons",
  ["src/utils/polygon.rs: compute_vertex_convexity, find_concave_vertices, compute_convexity"])
p("Ear clipping: termination, indices, counts",
  "trianglate_polygon terminates for all inputs with >= 2 vertices, returns a multiple of 3 of indices, all taken from the given vertices, at most 3(n-2) of them.",
  "every point list, vertex list and concave list",
  "termination and bounds for all inputs, in any arithmetic",
  ["src/utils/polygon.rs: trianglate_polygon"])
p("Ear clipping preserves area and yields proper triangles",
  "The signed areas of the returned triangles plus the signed area of what was left over sum to the polygon's signed area (up to the dropped near-colinear corners); every triangle has three distinct vertices and positive orientation.",
  "every polygon (distinctness refuted for near-degenerate simple polygons)",
  "loop invariant over arbitrary polygons",
  ["src/utils/polygon.rs: trianglate_polygon, is_ear"])
p("Hole merging",
  "merge_polygons returns an index polygon that contains every vertex of every input loop, with exactly two extra entries per hole, and whose signed area is the sum of the loops' signed areas.",
  "every family of loops",
  "invariant over the number of holes",
  ["src/utils/polygon.rs: merge_polygons, merge_two_polygons"])
p("Advancing front mesh is watertight",
  "Whenever generate_triangular_mesh returns: the input points are kept as a prefix of the vertices, all triangle indices are valid, and for each ordered pair (a,b) the number of triangle edges a->b minus b->a equals the same difference for the input loops: interior edges are matched in opposite directions and the boundary is exactly the input.",
  "every point list and loop partition, any arithmetic, any number of iterations",
  "loop invariant independent of geometry and iteration count",
  ["src/utils/meshgen.rs: generate_triangular_mesh"])
p("Segment intersection test",
  "The intersection predicate of the mesher is true exactly when the two closed segments share a point.",
  "every pair of segments, degenerate ones included",
  "exists-point over a continuum",
  ["src/utils/meshgen.rs: is_segments_intersect"])
p("Point in triangle tests",
  "For a counter-clockwise triangle the inside test of the ear clipper is true exactly for points of the closed triangle; the mesher's test accepts all of them.",
  "every non-degenerate ccw triangle and point",
  "exists barycentric coordinates over a continuum",
  ["src/utils/polygon.rs: is_inside_triangle", "src/utils/point.rs: is_inside_triangle"])
p("Planar trimming returns a usable mesh",
  "Plane::trim never returns a triangle index out of range of its vertices; the boundary polygon vertices come first; for a single all-convex loop the fan's signed area equals the loop's.",
  "every list of boundary loops",
  "universal over loops",
  ["src/surface/plane.rs: trim"])
p("Cylinder and B-spline trimming return usable meshes",
  "When trim returns, all triangle indices are in range, the boundary loop vertices are the first vertices (reversed for a clockwise loop), added vertices are surface points, and the mesh boundary is the loop.",
  "every list of boundary loops",
  "universal over loops and mesher behaviour",
  ["src/surface/cylinder.rs: trim", "src/surface/bspline.rs: trim"])
p("Grid meshes are consistent triangulations",
  "create_triangles on an r x c grid (r,c>=1) yields 2(r-1)(c-1) triangles with indices < r*c, consistently oriented: no directed edge occurs twice, each interior edge occurs in both directions, boundary edges once.",
  "every grid size with r*c < 2^32",
  "universal over sizes",
  ["src/mesh.rs: create_triangles"])
p("Patch meshes sample the surface",
  "get_triangle_mesh of a patch has (u_div+1)(v_div+1) vertices, vertex i*(v_div+1)+j being the surface point at the (i,j) uniform parameters, as many normals as the surface supplies, valid indices; NaN normals are replaced by a neighbour's when one is defined and no valid normal changes.",
  "every surface, range and division >= 1",
  "universal over sizes; loop with aliasing reads and writes",
  ["src/face.rs: SurfacePatch::get_triangle_mesh", "src/surface.rs: get_points, get_point_grid"])
p("Winding reversal",
  "reverse_winding_direction reverses each triangle, keeps vertices and normals, and is an involution; it panics exactly when the index count is not a multiple of 3.",
  "every mesh",
  "universal",
  ["src/mesh.rs: reverse_winding_direction"])
p("OBJ export resolves to the right vertices",
  "In a saved multi-face OBJ file every face line refers (1-based, file-global) to exactly the vertex and normal lines of its own mesh: reading the file back yields the concatenation of the faces' triangles.",
  "every model: any number of faces and sizes, total below 2^32",
  "index arithmetic over histories of faces",
  ["src/model.rs: save_as_obj", "src/mesh.rs: write_obj"])
p("STL export is well-formed",
  "save_as_stl writes an 80 byte header whatever the file name, a little-endian count equal to the number of triangles, then 50 bytes per triangle; a binary STL reader recovers all triangles with coordinates rounded to f32.",
  "every file name, every model with well-formed meshes and < 2^32 triangles",
  "byte-exact layout for all names and models",
  ["src/model.rs: save_as_stl"])
p("Point cloud save/load round trip",
  "load_point_cloud(save_point_cloud(ps)) = ps; comment lines, blank lines, other separators and a leading extra column are handled as documented by the code; files saved with normals or 2D points load as empty.",
  "every list of points whose numbers print/parse faithfully",
  "string processing for all inputs",
  ["src/points.rs: load_point_cloud, save_point_cloud, save_point_cloud_with_normal, save_points"])
p("Edge loop polygons",
  "to_polygon of a loop keeps only sampled points in order, no two consecutive vertices within tolerance, the first sampled point first; it panics exactly on a loop without sampled points.",
  "every loop of segments, every random schedule (closing distinctness refuted)",
  "universal over samples",
  ["src/surface.rs: EdgeLoop::to_polygon"])
p("Boxed curves and surfaces behave like the boxed value",
  "Wrapping a curve or surface in Box<dyn ..> does not change get_point, project, refine_parameter_range, trim or get_normals.",
  "every curve and surface (refuted for get_normals)",
  "universal over implementations",
  ["src/curve.rs: impl Curve for Box<dyn Curve>", "src/surface.rs: impl Surface for Box<dyn Surface>"])
p("Curve segment sampling",
  "CurveSegment::get_points starts at the curve point of the range start and ends at that of the range end, whatever the random numbers.",
  "every curve, range, tolerance and random schedule",
  "all schedules",
  ["src/curve.rs: CurveSegment::get_points"])
p("SVG path data",
  "The path data written for a polycurve starts with a move command, draws every line/polyline/bezier segment's points in order, and cubic B-splines are drawn by their Bezier pieces.",
  "every polycurve",
  "universal over segment lists",
  ["src/model.rs: save_as_svg"])
p("STEP reading keeps edge orientation",
  "An oriented edge with orientation .F. is traversed from its end to its start vertex; faces, bounds and curves of the file are all transferred in order.",
  "every entity graph (orientation part refuted)",
  "universal over files",
  ["src/model/step_reader.rs: read_model, extract_edge_curve"])
p("Helpers: inv_or_zero, clamp_in_range, range_at, get_min_max_by_key, near",
  "inv_or_zero is 0 within epsilon of 0 and the reciprocal otherwise; clamp_in_range returns the nearest value of the (unordered) range; get_min_max_by_key returns the least and greatest key; near is reflexive and symmetric.",
  "all inputs",
  "universal",
  ["src/utils.rs: inv_or_zero, clamp_in_range, range_at, get_min_max_by_key, Tolerance"])

out = os.path.join(os.path.dirname(os.path.abspath(__file__)), "..", "properties.jsonl")
with open(out, "w") as f:
    for x in P: f.write(json.dumps(x) + "\n")
print(len(P), "properties")
