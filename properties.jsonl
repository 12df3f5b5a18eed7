{"id": "C01", "title": "Bezier evaluation is the Bernstein polynomial", "statement": "Evaluating a Bezier curve with n control points at u returns sum_i C(n-1,i) u^i (1-u)^(n-1-i) P_i (exact arithmetic); it panics exactly when there are no control points.", "quantifier": "every number of control points n, every control polygon, every real parameter u (also outside [0,1])", "why_tests_cant": "a test fixes n and u; the in-place triangular update must be right for every n", "anchors": ["src/basis.rs: bernstein", "src/curve/bezier.rs: BezierCurve<Point3>::get_point"]}
{"id": "C02", "title": "Bezier curves interpolate their end points", "statement": "get_point(0) is the first and get_point(1) the last control point; the basis values at 0.0 and 1.0 are exactly 0.0/1.0 also in IEEE double arithmetic.", "quantifier": "every number of control points and every control polygon; both real and IEEE-754 binary64 arithmetic", "why_tests_cant": "the f64 claim is about absence of rounding for every degree", "anchors": ["src/basis.rs: bernstein", "src/curve/bezier.rs: get_point"]}
{"id": "C03", "title": "Bezier convex hull and affine invariance", "statement": "For u in [0,1] a Bezier point is a convex combination of the control points (weights >= 0, summing to 1), so it lies in every half space / bounding box containing them; evaluation commutes with translation.", "quantifier": "every control polygon and every u in [0,1]", "why_tests_cant": "quantifies over all half spaces and parameters", "anchors": ["src/basis.rs: bernstein", "src/curve/bezier.rs: get_point"]}
{"id": "C04", "title": "Bezier derivative is the derivative", "statement": "The curve returned by derivative() evaluates, at every u, to the derivative of the original curve's get_point, componentwise.", "quantifier": "every control polygon with at least two points, every real u", "why_tests_cant": "a derivative is a limit: no finite number of evaluations decides it", "anchors": ["src/curve/bezier.rs: BezierCurve::derivative"]}
{"id": "C05", "title": "Rational Bezier evaluation", "statement": "With positive weights and u in [0,1] the rational curve's denominator is positive, the result is the weighted average sum w_i B_i P_i / sum w_i B_i, lies in the convex hull of the projected points, and is unchanged when all weights are scaled by a common positive factor.", "quantifier": "every weighted control polygon with positive weights, every u in [0,1]", "why_tests_cant": "absence of division by zero and projective invariance are universal claims", "anchors": ["src/curve/bezier.rs: BezierCurve<Point4>::get_point", "src/model/step_reader.rs: vec4"]}
{"id": "C06", "title": "B-spline basis equals the Cox-de Boor functions", "statement": "bspline_basis(degree,u) returns exactly len-1-degree values, the i-th being the Cox-de Boor basis function N_{i,degree}(u), for any sorted knot vector (clamped or not, any interior multiplicities) and any u in the knot range, the right end being evaluated in the last non-empty span.", "quantifier": "every sorted knot vector with distinguishable knots, every degree < len-1, every u in [first,last]", "why_tests_cant": "the in-place update with early/late truncation must be right for every multiplicity pattern, degree and span", "anchors": ["src/knot.rs: bspline_basis, span_index", "src/utils.rs: inv_or_zero"]}
{"id": "C07", "title": "B-spline basis: non-negativity, partition of unity, local support", "statement": "On the knot range all values are >= 0; on [t_p, t_{n}] they sum to 1; at most degree+1 consecutive values, those of the span of u, are non-zero.", "quantifier": "every valid knot vector, degree and parameter", "why_tests_cant": "universal over knot vectors and parameters", "anchors": ["src/knot.rs: bspline_basis"]}
{"id": "C08", "title": "span_index finds the span and never fails on usable knots", "statement": "For sorted knots span_index(u) is the i with t_i <= u < t_{i+1}, or the last non-empty span when u >= last knot; the result is < len-1. It does not panic as long as some knot is distinguishable from the last one - for any number type, including f64 with NaN.", "quantifier": "every knot vector, every u", "why_tests_cant": "index arithmetic with subtraction: must not underflow for any multiplicity pattern", "anchors": ["src/knot.rs: span_index, multiplicity"]}
{"id": "C09", "title": "Evaluation outside the knot range", "statement": "Beyond the last knot the basis values are the Cox-de Boor polynomials of the last non-empty span (and sum to 1 when the end is clamped). Below the first knot the code is not symmetric: it uses span number m, m being the multiplicity of the first knot, i.e. the span after the first non-empty one. It panics exactly when there is no such span (m >= len-1); otherwise it returns len-1-degree values, which sum to 1 when degree <= m < len-1-degree and which, when span m is not empty, are the Cox-de Boor polynomials of span m - the second piece of the curve is extrapolated, not the first. For a Bezier knot vector of degree >= 1 all values are 0 there (the curve jumps to the origin), for degree 0 it panics. The natural expectation that the first piece is extrapolated with weights summing to 1 is refuted.", "quantifier": "every sorted knot vector with distinguishable knots, every degree, every u outside the range", "why_tests_cant": "the behaviour depends on the multiplicities of the first two distinct knots and on the degree; all combinations and all u are covered", "anchors": ["src/knot.rs: span_index (None branch), bspline_basis"]}
{"id": "C10", "title": "B-spline derivative is the derivative", "statement": "derivative() of a degree p>=1 B-spline evaluates, at every u strictly inside a non-empty knot span of its domain [t_p, t_n], to the derivative of get_point; the result has one control point fewer, knots without first and last, degree p-1.", "quantifier": "every valid B-spline curve, every u interior to a span of the domain", "why_tests_cant": "a derivative is a limit", "anchors": ["src/curve/bspline.rs: derivative", "src/knot.rs: shrink, spans"]}
{"id": "C11", "title": "Knot insertion does not change the curve", "statement": "add_knot(x) returns a curve with one more knot and one more control point whose get_point agrees with the original at every parameter of the original range (all but the old end parameter when x is appended beyond the end, where the end point is lost); it panics exactly when the new knot would land at position 1..=degree (a knot inside an unclamped start).", "quantifier": "every valid B-spline curve and every inserted knot value, hence every sequence of insertions", "why_tests_cant": "pointwise equality of functions over a continuum, for every knot pattern", "anchors": ["src/curve/bspline.rs: add_knot", "src/knot.rs: add_knot"]}
{"id": "C12", "title": "Splitting a B-spline", "statement": "For t strictly inside the range of a start-clamped curve, split(t) cuts at t (or at the knot just below when within 1e-7): self keeps the range [first,cut], the returned curve has [cut,last], both are valid, clamped at the cut, and evaluate to the original curve on their ranges (self at the cut itself when the original is continuous there). At the start parameter self becomes an empty curve and the returned one is the original. At the end parameter the pieces are wrong: the range left in self always ends before the end.", "quantifier": "every valid B-spline curve; every t inside the range, and both end parameters", "why_tests_cant": "pointwise equality over a continuum; end cases need case analysis", "anchors": ["src/curve/bspline.rs: split"]}
{"id": "C13", "title": "Clamping a B-spline", "statement": "clamp() panics exactly when the start of the curve is not already clamped; otherwise it repeats the end knot until both end knots have multiplicity at least degree+1, does not change the curve, and returns clamped curves as they are.", "quantifier": "every valid B-spline curve", "why_tests_cant": "an exact characterisation over all knot vectors", "anchors": ["src/curve/bspline.rs: clamp"]}
{"id": "C14", "title": "Decomposition into Bezier pieces", "statement": "to_piecewise_bezier of a clamped curve whose distinct knots are more than 1e-7 apart and have multiplicity at most degree+1 returns one piece per non-empty span, in order, each with degree+1 control points, and the piece of span [a,b] at s equals the B-spline at a+s(b-a) for s in [0,1) and at s=1 wherever the curve is continuous and at its end.", "quantifier": "every such clamped B-spline curve, every s in [0,1]", "why_tests_cant": "pointwise equality for all knot vectors and parameters", "anchors": ["src/curve/bspline.rs: to_piecewise_bezier"]}
{"id": "C15", "title": "Knot vector constructors", "statement": "bezier_knot(p), uniform_knot(p,d) and from_values_and_multiplicities produce exactly the documented sequence: sorted, right length, right multiplicities, range (0,1) for the first two; uniform_clamped surfaces satisfy len(knots)=rows+degree+1.", "quantifier": "every degree, division, value and multiplicity list", "why_tests_cant": "universal over sizes", "anchors": ["src/knot.rs: bezier_knot, uniform_knot, from_values_and_multiplicities", "src/surface/bspline.rs: uniform_clamped, new"]}
{"id": "C16", "title": "KnotVector::add_knot keeps the vector sorted", "statement": "add_knot inserts the value after all knots <= it, returns its position, keeps every other knot, and preserves sortedness over any sequence of insertions.", "quantifier": "every knot vector, every sequence of inserted values", "why_tests_cant": "invariant over histories", "anchors": ["src/knot.rs: add_knot"]}
{"id": "C17", "title": "Knot normalization, shrink, spans, range", "statement": "normalize maps the knots affinely onto [0,1] keeping order; shrink drops exactly first and last; spans(d) lists t_{i+d}-t_i; range is (first,last).", "quantifier": "every knot vector", "why_tests_cant": "universal", "anchors": ["src/knot.rs: normalize, shrink, spans, range"]}
{"id": "C18", "title": "B-spline surface evaluation", "statement": "get_point(u,v) = sum_ij N_i(u) N_j(v) P_ij for both point types (followed by the projection from homogeneous coordinates for the rational one); construction with `new` / `uniform_clamped` succeeds exactly when the knot counts / degrees fit the grid and never yields a surface whose evaluation indexes out of bounds; the stored degree equals the requested one whenever it is below 256 (it is truncated to 8 bits otherwise).", "quantifier": "every control grid, valid knot pair, parameters in range", "why_tests_cant": "universal; the u8 truncation of the degree is only visible at degree >= 256", "anchors": ["src/surface/bspline.rs: new, uniform_clamped, get_point"]}
{"id": "C19", "title": "B-spline surface partial derivatives and normals", "statement": "For degree >= 1, derivative_u / derivative_v evaluate to the partial derivatives of get_point at every parameter pair inside knot spans; for degree 0 in that direction they return the zero surface, which is the partial derivative there; get_normals returns one vector per parameter, of length 1, orthogonal to both partials and oriented along du x dv wherever the partials are independent.", "quantifier": "every surface, every interior parameter pair", "why_tests_cant": "derivatives are limits", "anchors": ["src/surface/bspline.rs: derivative_u, derivative_v, get_normals"]}
{"id": "C20", "title": "Bezier surface evaluation", "statement": "get_point(u,v) is the tensor product Bernstein sum; the four corners are interpolated; for parameters in [0,1] the point is in the convex hull of the control net; boundary curves are Bezier curves of boundary rows.", "quantifier": "every control grid with at least 2x2 points, all parameters", "why_tests_cant": "universal over sizes and parameters", "anchors": ["src/surface/bezier.rs: new, get_point"]}
{"id": "C21", "title": "uniform_divide", "statement": "uniform_divide((a,b),n) returns n+1 values, first exactly a, last exactly b (in any arithmetic, f64 included); in exact arithmetic the i-th is a+i(b-a)/n. n=0 is rejected by a panic (overflow-checked arithmetic).", "quantifier": "every range and every n", "why_tests_cant": "universal over n", "anchors": ["src/utils.rs: uniform_divide"]}
{"id": "C22", "title": "Adaptive parameter division: shape of the result", "statement": "Whenever parameter_division returns, for every outcome of the random generator, the first value is range.0, the last range.1, values are strictly monotone in the direction of the range, and every consecutive pair passed the flatness test for some random probe in [0.4,0.6].", "quantifier": "every curve, range, tolerance and every sequence of random numbers", "why_tests_cant": "quantifies over all random schedules", "anchors": ["src/utils.rs: parameter_division, range_at", "src/curve.rs: CurveSegment::get_points"]}
{"id": "C23", "title": "Adaptive parameter division terminates", "statement": "For a Lipschitz curve and a positive tolerance the recursion depth is bounded by a function of the Lipschitz constant, range and tolerance, whatever the random numbers; for tolerance <= 0 it never returns.", "quantifier": "every Lipschitz curve, every tolerance > 0, every random schedule", "why_tests_cant": "termination under all schedules", "anchors": ["src/utils.rs: parameter_division"]}
{"id": "C24", "title": "Nearest point search", "statement": "find_nearest_point / find_nearest_point_in_grid / nearest_vertex return a valid index whose computed squared distance is minimal, the first such index, also in f64 arithmetic; an empty list gives 0.", "quantifier": "every point list/grid, every query point, real and IEEE arithmetic", "why_tests_cant": "optimality over all elements", "anchors": ["src/utils.rs: find_nearest_point, find_nearest_point_in_grid", "src/curve/polyline.rs: nearest_vertex"]}
{"id": "C25", "title": "Distance to a line segment", "statement": "distance_to_line_segment (2D and 3D) returns the minimum over the segment of the Euclidean distance, and the minimum is attained; it is symmetric in the two end points.", "quantifier": "every segment (also degenerate) and every point", "why_tests_cant": "a minimum over a continuum", "anchors": ["src/utils.rs: distance_to_line_segment", "src/utils/point.rs: distance_to_line_segment"]}
{"id": "C26", "title": "Newton projection stays in range", "statement": "find_nearest_parameter, and hence BezierCurve::project (degree >= 2) and BSplineCurve::project (degree >= 2), return a parameter inside the given range, for every curve, point and number of trials; exact hits are fixed points.", "quantifier": "every curve, point, range, division >= 1 and trials", "why_tests_cant": "iteration invariant over arbitrary evaluations", "anchors": ["src/utils.rs: find_nearest_parameter, clamp_in_range", "src/curve/bezier.rs: project", "src/curve/bspline.rs: project"]}
{"id": "C27", "title": "Line projection", "statement": "For a line with unit direction, project returns the parameter of the (unique) nearest point of the line and inverts get_point. The unit length is needed: inversion holds exactly for unit directions, nearest points for all inputs exactly for unit or zero directions.", "quantifier": "every line and point", "why_tests_cant": "minimum over a continuum", "anchors": ["src/curve/line.rs: get_point, project"]}
{"id": "C28", "title": "Circle evaluation and projection", "statement": "For orthonormal axis/ref_dir, get_point(a) is at distance |radius| from the center in the plane of the circle, is 2pi-periodic and reaches every point of the circle; project returns an angle in [0,2pi); project(get_point(a)) = a for a in [0,2pi) and radius > 0; get_point(project(p)) is a nearest point of the circle to p.", "quantifier": "every circle, angle and point", "why_tests_cant": "trigonometric identities and a minimum over a continuum", "anchors": ["src/curve/circle.rs: get_point, project"]}
{"id": "C29", "title": "Circle parameter ranges respect the sense", "statement": "refine_parameter_range keeps both end points of the arc (changes parameters by 0 or 2pi), orders them according to same_sense and stays below a full turn. Consequently equal start and end angles (a closed circle) yield the empty arc, not a full turn.", "quantifier": "every pair of angles in [0,2pi) and both senses", "why_tests_cant": "universal with case analysis", "anchors": ["src/curve/circle.rs: refine_parameter_range"]}
{"id": "C30", "title": "Polyline evaluation", "statement": "new() needs at least two vertices and records segment lengths and total. In exact arithmetic get_point(t) is the start for t<=0, the end for t>=1, and for t in [0,1] the unique point at arc length t*length; it never panics. In IEEE double this fails: the unreachable!() is reached for some t in (0,1), and a zero-length polyline gives NaN.", "quantifier": "every polyline and every t (exact arithmetic); concrete double-precision witnesses for the two failures", "why_tests_cant": "rounding failures are adversarially rare; arc length claim is over a continuum", "anchors": ["src/curve/polyline.rs: new, get_point"]}
{"id": "C31", "title": "Polyline projection", "statement": "project(p) is always in [0,1]. If the foot of the perpendicular lies within the nearest segment (or beyond a free end), get_point(project(p)) is a nearest point of the whole polyline; points on the polyline are found again exactly. At an inner corner with the foot beyond the segment's end this fails.", "quantifier": "every polyline and point in exact arithmetic, nearest distance below f64::MAX; a concrete corner for the failure", "why_tests_cant": "minimum over a continuum", "anchors": ["src/curve/polyline.rs: project"]}
{"id": "C32", "title": "Degree 1 B-spline projection", "statement": "A degree-1 B-spline whose inner knots are proportional to arc length over [lo,hi] evaluates to the arc-length parametrised control polygon, and project finds every point of the curve again: get_point(project(get_point(u))) = get_point(u) with the parameter in [lo,hi]. For other knots project returns a parameter of a different point.", "quantifier": "every degree-1 B-spline with chord-length knots and every u in the range; a concrete counterexample with uniform knots", "why_tests_cant": "universal claim over curves and parameters", "anchors": ["src/curve/bspline.rs: project"]}
{"id": "C33", "title": "Plane projection", "statement": "With orthonormal axes project(get_point(u,v)) = (u,v), get_point is an isometry, and get_point(project(p)) is the nearest point of the plane, the difference being orthogonal to the plane.", "quantifier": "every plane, parameters, point", "why_tests_cant": "minimum over a continuum", "anchors": ["src/surface/plane.rs: project, get_point"]}
{"id": "C34", "title": "Cylinder projections", "statement": "With orthonormal axis/ref_dir get_point(l,a) lies at distance radius from the axis at height l; project returns an angle in [0,2pi), inverts get_point there, and gives the nearest point of the cylinder; generate_point_from_ring inverts project_to_ring at a point of the cylinder exactly when it is on the near side of the apex d. The apex used by trim makes this true for the whole boundary exactly when twice the lowest height is below the highest one (so it fails e.g. for a strip at heights 10..11).", "quantifier": "every cylinder, every point, every boundary with two different heights", "why_tests_cant": "universal over a continuum", "anchors": ["src/surface/cylinder.rs: project, get_point, project_to_ring, generate_point_from_ring, trim"]}
{"id": "C35", "title": "Spin surface is a rotation of the section", "statement": "get_point(s,a) is the section point rotated (Rodrigues) by a about the axis through the origin point: same axial coordinate, same distance from every axis point; a=0 gives the section itself; rotation angles add; 2pi-periodic; it fails only where the section fails.", "quantifier": "every section curve, unit axis, parameters", "why_tests_cant": "universal over a continuum", "anchors": ["src/surface/spin.rs: get_point"]}
{"id": "C36", "title": "Sweep and umbrella surfaces", "statement": "Sweep: get_point(p,s) = path(p) + section(s), so moving along the path translates the section. Umbrella: points satisfy the documented parametrization, radial distance |r(theta - sin theta)|, height between 0 and 2r; for theta from 0 to pi the radial distance grows strictly from 0 to the given radius while the height falls strictly from 2 radius/pi to 0.", "quantifier": "all parameters", "why_tests_cant": "universal over a continuum", "anchors": ["src/surface/sweep.rs", "src/surface/umbrella.rs"]}
{"id": "C37", "title": "Polygon orientation test", "statement": "is_polygon_counter_clockwise is true exactly when the shoelace signed area is positive; invariant under rotation of the vertex list and translation, flipped by reversal (non-zero area).", "quantifier": "every polygon with at least one vertex", "why_tests_cant": "universal over polygons", "anchors": ["src/utils/polygon.rs: is_polygon_counter_clockwise"]}
{"id": "C38", "title": "Vertex convexity classification", "statement": "compute_vertex_convexity returns, in increasing order, exactly the positions whose corner area is not within tolerance of zero, and among them exactly the right turns as concave; find_concave_vertices likewise for an index polygon (vertices in order, concave ones sorted). Consequently a corner listed twice in a row is lost.", "quantifier": "every point list", "why_tests_cant": "universal over polygons", "anchors": ["src/utils/polygon.rs: compute_vertex_convexity, find_concave_vertices, compute_convexity"]}
{"id": "C39", "title": "Ear clipping: termination, indices, counts", "statement": "trianglate_polygon always terminates; with fewer than two vertices it panics; when it returns, the result is the flattening of at most n-2 triangles whose corners are vertices of the polygon in its cyclic order (or have first = last corner). It cannot panic and all corners are distinct when no reflex vertex is straight between two others; otherwise it can panic, even on a simple polygon.", "quantifier": "every point list, vertex list and concave list, any arithmetic", "why_tests_cant": "termination and bounds for all inputs, in any arithmetic", "anchors": ["src/utils/polygon.rs: trianglate_polygon"]}
{"id": "C40", "title": "Ear clipping preserves area and yields proper triangles", "statement": "Polygon area = sum of returned triangle areas + areas of the dropped corners (each within tolerance) + area of the rest. In general position nothing is dropped, corners are distinct, either n-2 triangles are returned (areas add up exactly and, by winding numbers, the triangles cover each point exactly as often as the polygon winds around it) or the clipper is stuck on a rest without ears. The clipper never gets stuck on a simple polygon: if no two edges cross, every three vertices span more than the tolerance and the polygon runs counter-clockwise, the pipeline yields n-2 counter-clockwise triangles with corners in the cyclic order of the polygon, their areas add up, no two overlap, and a point off their lines lies in one of them exactly when the polygon winds around it. For strictly convex polygons the pipeline yields n-2 counter-clockwise triangles tiling it. Near-degenerate simple polygons can give a triangle with a repeated corner.", "quantifier": "every polygon", "why_tests_cant": "loop invariant over arbitrary polygons", "anchors": ["src/utils/polygon.rs: trianglate_polygon, is_ear"]}
{"id": "C41", "title": "Hole merging", "statement": "merge_polygons takes a loop reaching furthest right as the outer one and splices every other loop, from its rightmost vertex, behind the first end of a nearest edge of what is merged so far; every vertex is kept with exactly two extra entries per hole; signed area and winding numbers of the result are the sums over the loops. The bridge may cross other edges.", "quantifier": "every family of non-empty loops with finite coordinates", "why_tests_cant": "invariant over the number of holes", "anchors": ["src/utils/polygon.rs: merge_polygons, merge_two_polygons"]}
{"id": "C42", "title": "Advancing front mesh is watertight", "statement": "Whenever generate_triangular_mesh returns: the input points are kept as a prefix of the vertices, all triangle indices are valid, and for each ordered pair (i,j) the number of triangle edges i->j minus j->i equals the same difference for the input loops: interior edges are matched in opposite directions and the boundary is exactly the input. It need not return: on a square with one corner listed twice it runs for ever.", "quantifier": "every point list and loop partition, any arithmetic (NaN included), any number of iterations", "why_tests_cant": "loop invariant independent of geometry and iteration count; non-termination cannot be observed", "anchors": ["src/utils/meshgen.rs: generate_triangular_mesh"]}
{"id": "C43", "title": "Segment intersection test", "statement": "In exact arithmetic the intersection predicate of the mesher is true exactly when the two closed segments share a point (degenerate and collinear segments included). In f64 underflow of the products of two cross products makes it true for some disjoint segments.", "quantifier": "every pair of segments, degenerate ones included", "why_tests_cant": "exists-point over a continuum", "anchors": ["src/utils/meshgen.rs: is_segments_intersect"]}
{"id": "C44", "title": "Point in triangle tests", "statement": "For a counter-clockwise triangle the ear clipper's inside test is true exactly for points of the closed triangle; the mesher's test is true exactly for points with barycentric coordinates >= -tolerance/(2 area); for a clockwise triangle the ear clipper's test is always false.", "quantifier": "every non-degenerate ccw triangle and point", "why_tests_cant": "exists barycentric coordinates over a continuum", "anchors": ["src/utils/polygon.rs: is_inside_triangle", "src/utils/point.rs: is_inside_triangle"]}
{"id": "C45", "title": "Planar trimming: what the mesh is and when it tiles the face", "statement": "Plane::trim returns either the empty mesh or a mesh on the boundary vertices in order, with at most one more vertex (their mean), valid indices and no normals. A convex counter-clockwise loop becomes a fan around its mean point whose triangles are all counter-clockwise and tile the loop's polygon. Any simple counter-clockwise loop is tiled by counter-clockwise triangles that do not overlap, if three of its vertices are exactly on a line or clear of one by more than the tolerance and no inward vertex lies between two others; the border of that mesh is the loop itself when it has no inward vertex, and otherwise the loop without its straight vertices. A loop with turns to both sides, no three of whose vertices are nearly on a line, is cut into triangles on its vertices whose signed areas and cover, together with a leftover polygon when the clipper gets stuck, are those of the loop. Several loops become one closed vertex sequence with the total area and winding of the loops, from which the triangles are cut. Counter-clockwise in the plane means facing u_axis x v_axis. A loop none of whose corners turns left by more than the tolerance gives the empty mesh: clockwise convex faces and small faces vanish, and a clockwise L shape yields a triangle outside of it.", "quantifier": "every list of boundary loops", "why_tests_cant": "universal over loops", "anchors": ["src/surface/plane.rs: trim"]}
{"id": "C46", "title": "Cylinder and B-spline trimming: vertices, indices, boundary", "statement": "When Cylinder::trim or BSplineSurface::trim returns: no non-empty loop gives the empty mesh; for one loop the first vertices are those of the loop, in reverse order exactly if the parameter polygon is not counter-clockwise, every further vertex is the surface point of a mesher point (for a cylinder the point of the cylinder that the ring map sends to the mesher point), indices are valid, and the mesh boundary is the loop run backwards; for several loops the boundary is the loops themselves. So single-loop faces turn against their loop, unlike planes and faces with several loops; and a cylinder face with several loops puts the added vertices at wrong places of the cylinder.", "quantifier": "every list of boundary loops", "why_tests_cant": "universal over loops and mesher behaviour", "anchors": ["src/surface/cylinder.rs: trim", "src/surface/bspline.rs: trim"]}
{"id": "C47", "title": "Grid meshes are consistent triangulations", "statement": "create_triangles on an r x c grid (r,c>=1) yields 2(r-1)(c-1) triangles with indices < r*c, consistently oriented: no directed edge occurs twice, every directed edge is met by its reverse unless it is on the outline of the grid, outline edges occur exactly once, and in the (row, column) plane every triangle is counter-clockwise with half a cell's area. Indices are not wrapped for r*c <= 2^32. An empty grid panics.", "quantifier": "every grid size", "why_tests_cant": "universal over sizes", "anchors": ["src/mesh.rs: create_triangles"]}
{"id": "C48", "title": "Patch meshes sample the surface", "statement": "get_triangle_mesh of a patch has (u_div+1)(v_div+1) vertices, vertex i*(v_div+1)+j being the surface point at the (i,j) uniform parameters, the triangles of the grid, and as many normals as the surface supplies; get_point_grid delivers the same points. The repair of NaN normals changes no valid normal, gives a NaN normal the final normal of an adjacent vertex, and leaves one NaN only if all adjacent normals were NaN and the preceding adjacent ones stay NaN. A zero division panics; otherwise nothing does.", "quantifier": "every surface, range and division, any arithmetic", "why_tests_cant": "universal over sizes; loop with aliasing reads and writes", "anchors": ["src/face.rs: SurfacePatch::get_triangle_mesh", "src/surface.rs: get_points, get_point_grid"]}
{"id": "C49", "title": "Winding reversal", "statement": "reverse_winding_direction reverses each triangle, keeps vertices and normals, and is an involution; it panics exactly when the index count is not a multiple of 3.", "quantifier": "every mesh", "why_tests_cant": "universal", "anchors": ["src/mesh.rs: reverse_winding_direction"]}
{"id": "C50", "title": "OBJ export resolves to the right vertices", "statement": "In a saved multi-face OBJ file every face line refers (1-based, file-global) to exactly the vertex and normal lines of its own mesh: an OBJ reader gives back, mesh by mesh, the triangles with the positions and normals of their corners, whether or not each mesh has normals. Index lists whose length is not a multiple of 3 never produce a file. The boundary file of a non-empty point list draws the closed polygon through the points, each side once and in order; that of an empty list refers to vertices that are not in it.", "quantifier": "every model: any number of meshes and sizes with indices in range and totals below 2^32 - 1; every number format that reads back", "why_tests_cant": "index arithmetic over histories of faces", "anchors": ["src/model.rs: save_as_obj", "src/mesh.rs: write_obj", "src/surface/bspline.rs: save_bound_as_obj"]}
{"id": "C51", "title": "STL export is well-formed", "statement": "save_as_stl writes an 80 byte header whatever the file name, a little-endian count equal to the number of triangles, then 50 bytes per triangle; a binary STL reader recovers all triangles with coordinates rounded to the nearest single precision number; an index list that is not a multiple of 3 long gives a file that no reader of the format accepts.", "quantifier": "every file name, every model with indices in range and < 2^32 triangles, every binary64 coordinate", "why_tests_cant": "byte-exact layout for all names and models", "anchors": ["src/model.rs: save_as_stl"]}
{"id": "C52", "title": "Point cloud save/load round trip", "statement": "load_point_cloud(save_point_cloud(ps)) = ps. A file of lines (ended by \\n or \\r\\n, the last possibly unterminated) loads as the points of its lines in order: a line beginning with # is a comment, three words separated by blanks, commas and tabs are a point, of four words the first is ignored, any other number of words gives no point; an unparsable word makes loading panic. Files saved with normals or with plane points load as empty. Scaling multiplies every coordinate of every point: in exact arithmetic it multiplies all distances by |s| and two scalings are one by the product.", "quantifier": "every list of points whose numbers print and parse faithfully; every file of that grammar", "why_tests_cant": "string processing for all inputs", "anchors": ["src/points.rs: load_point_cloud, save_point_cloud, save_point_cloud_with_normal, save_points, scale_points"]}
{"id": "C53", "title": "Edge loop polygons", "statement": "to_polygon selects sampled points in order, starting with the first sample; consecutive vertices are more than tolerance apart; every sample is a vertex or within tolerance of a vertex or of the one removed closing vertex. It panics on a loop without edges and otherwise only if sampling does. A loop inside one tolerance ball gives the empty polygon. Only one closing vertex is removed, so last and first vertex can still be within tolerance. A loop of straight edges whose corners are more than tolerance apart gives exactly its corners, whatever the random numbers.", "quantifier": "every loop of segments over every curve implementation, every random schedule", "why_tests_cant": "universal over samples and random schedules", "anchors": ["src/surface.rs: EdgeLoop::to_polygon"]}
{"id": "C54", "title": "Boxed curves and surfaces", "statement": "Wrapping a curve in Box<dyn Curve> changes no method, so sampled points and loop polygons are unchanged. Wrapping a surface leaves get_point and trim unchanged; get_normals is not forwarded, so a patch of a boxed surface has the same vertices and triangles and always an empty normal list.", "quantifier": "every curve and surface implementation", "why_tests_cant": "universal over implementations", "anchors": ["src/curve.rs: impl Curve for Box<dyn Curve>", "src/surface.rs: impl Surface for Box<dyn Surface>", "src/face.rs"]}
{"id": "C55", "title": "Curve segment sampling", "statement": "CurveSegment::get_points starts at the curve point of the range start and ends at that of the range end, whatever the random numbers.", "quantifier": "every curve, range, tolerance and random schedule", "why_tests_cant": "all schedules", "anchors": ["src/curve.rs: CurveSegment::get_points"]}
{"id": "C56", "title": "SVG path data", "statement": "save_as_svg writes one path per curve, in order. An SVG viewer reading the text of a path (provided the numbers are rendered as plain decimals) draws: for every line segment its two end points, for every polyline the segments between its vertices, for every cubic B-spline the Bezier arcs of its pieces, for every other curve the polyline of its sampled points preceded by a straight segment from the end of what was drawn before. For clamped cubic B-splines that are continuous, arc k is the B-spline on its k-th knot span, the whole closed span. Polylines and cubic B-splines are drawn whole, whatever the parameter range of the segment.", "quantifier": "every polycurve, every number rendering, every random schedule", "why_tests_cant": "universal over segment lists and knot vectors; needs the grammar of SVG paths", "anchors": ["src/model.rs: save_as_svg"]}
{"id": "C57", "title": "What the STEP reader keeps of a file", "statement": "From an entity table the reader returns exactly the advanced faces on a known kind of surface and all composite curves, in file order, each with exactly its loops, edges and segments of a known kind, in order. Straight edges with unit direction, circular edges and polyline edges run from their start to their end vertex, circular ones in the direction given by the sense over less than one turn. A planar face lies on the placement's plane, its normal reversed if the sense disagrees. The orientation of oriented edges and of face bounds and the magnitude of vectors have no influence (so a reversed edge is run through from start to end), a line direction that is not of unit length misses the vertices, a full-circle edge becomes an empty arc and an empty polygon, and an omitted axis or reference direction (legal in STEP) or weights before control points make the reader panic. A B-spline surface keeps its net, its knots with their multiplicities and its degrees; a rational one, written as a complex entity, has the homogeneous control point (w p, w) for the point p and the weight w in the same row and column; lists of weights and points of different lengths are cut to the shorter, row by row. A B-spline curve keeps its points, knots and degree.", "quantifier": "all entity tables; edges in exact arithmetic", "why_tests_cant": "universal over files", "anchors": ["src/model/step_reader.rs: read_model, extract_edge_curve, extract_surface, extract_curve, axis2_placement_3d"]}
{"id": "C58", "title": "Helpers: inv_or_zero, clamp_in_range, range_at, get_min_max_by_key, near", "statement": "inv_or_zero is 0 within epsilon of 0 and the reciprocal otherwise; clamp_in_range returns the nearest value of the (unordered) range; get_min_max_by_key returns the least and greatest key; near is reflexive and symmetric.", "quantifier": "all inputs", "why_tests_cant": "universal", "anchors": ["src/utils.rs: inv_or_zero, clamp_in_range, range_at, get_min_max_by_key, Tolerance"]}
{"id": "C59", "title": "A conforming advancing front mesh tiles the region", "statement": "If the mesh returned by generate_triangular_mesh is conforming (no vertex within the tolerance on an edge it is not an end of), then every triangle has three different corners and positive area, the areas add up to the signed area of the loops, and every point off the triangles' lines is inside exactly as many triangles as the loops wind around it (1 inside the region, 0 outside and in holes): no overlap, no gap.", "quantifier": "every point list with loops of at least two points, exact arithmetic, any number of iterations", "why_tests_cant": "universal over polygons and over all points of the plane", "anchors": ["src/utils/meshgen.rs: generate_triangular_mesh, find_intersection_with_front, point_on_normal_bisector, shape_factor"]}
{"id": "C60", "title": "Polygon functions are exact on coordinate grids", "statement": "If all coordinates are integer multiples of a power of two 2^s (-11 <= s <= 485) with at most K units, 8 K^2 < 2^53, then the corner classification and ear clipping return in double arithmetic exactly what they return in exact arithmetic (panics included), and so does the orientation test while n 4 K^2 < 2^53. So a simple counter-clockwise polygon with such corners (for instance integers below 2^25), no three on a line, is cut by the program as it runs into n - 2 counter-clockwise triangles that tile it without overlap. The segment test is exact while 64 K^4 < 2^53.", "quantifier": "every list of finite doubles on such a grid", "why_tests_cant": "rounding behaviour over all representable inputs", "anchors": ["src/utils/polygon.rs: compute_vertex_convexity, find_concave_vertices, trianglate_polygon, is_polygon_counter_clockwise", "src/utils/meshgen.rs: is_segments_intersect"]}
{"id": "C61", "title": "Projecting points onto a B-spline surface", "statement": "On a clamped B-spline surface of degree at least 1 in both directions, project_points returns one parameter pair per point, inside the knot ranges. The pair is reached from the nearest of the (4n+1) x (4m+1) sampled nodes by at most 20 clamped Newton steps and the run stops exactly when the residual or both of its tangential components are within the tolerance; a point that equals a sampled node is hit exactly. Inside knot spans the linear system of a step is the true one: its right hand side is minus the gradient of half the squared distance, its matrix the derivative of that gradient. In double arithmetic every coordinate is the start value, NaN, or inside the knot range.", "quantifier": "all valid clamped surfaces, all degrees >= 1, all points", "why_tests_cant": "quantifies over all surfaces and points; the matrix is compared with limits of difference quotients", "anchors": ["src/surface/bspline.rs: BSplineSurface<Point3>::project_points", "src/utils.rs: find_nearest_point_in_grid, clamp_in_range"]}
{"id": "C62", "title": "Rounding error of curve and surface evaluation", "statement": "In double arithmetic, evaluating a Bezier or B-spline curve or surface never gives NaN or infinity and differs from the exact point of the same control points, knots and parameter by no more than a fixed multiple of the unit roundoff: in each coordinate at most N(2^-49 M + 2^-1073) for a Bezier curve with N control points of coordinates up to M, rc(2^-48 M + 2^-1073) for an r x c Bezier surface, (N+8p)(2^-51 M + 2^-1073) for a B-spline curve of degree p, (rc+8p+9q+1)(2^-51 M + 2^-1073) for a B-spline surface. With weights in [m, M] the rational versions are off by at most N 2^-46 (M/m)^2, (N+8p) 2^-48 (M/m)^2, rc 2^-46 (M/m)^2 and (rc+8p+9q) 2^-48 (M/m)^2. The errors of all basis values together are at most (n-1) 2^-50 for Bernstein, p 2^-48 for B-splines, on any sorted knot vector whose distinct knots are more than 2^-50 max(1,|a|,|b|) apart.", "quantifier": "all finite doubles: M up to 2^1000 (2^400 for rational), knots up to 2^500, at most 2^40 control points, all degrees, all parameters of the domain", "why_tests_cant": "a bound on the rounding error over all doubles; a test sees single inputs and has no exact reference value", "anchors": ["src/basis.rs: bernstein", "src/knot.rs: bspline_basis, span_index", "src/curve/bezier.rs: get_point", "src/curve/bspline.rs: get_point", "src/surface/bezier.rs: get_point", "src/surface/bspline.rs: get_point"]}
{"id": "C63", "title": "Polygon functions decide correctly on arbitrary doubles when areas exceed the rounding error", "statement": "For finite coordinates of absolute value up to M: if every three corners span twice an area of more than 1e-7 + 2^-47 M^2, the corner classification and the ear clipper return on the doubles, panics included, what they return in exact arithmetic on the same points, and so a simple counter-clockwise polygon is cut by the program as it runs into n - 2 counter-clockwise triangles that tile it without overlap. The orientation test never fails and is right whenever twice the enclosed area exceeds n^2 2^-48 M^2. The segment test answers whether the closed segments meet, and the point-in-triangle test of the mesher whether the point is in the closed triangle, whenever each point is that clear of the lines it is compared with or equal to one of the points that span them.", "quantifier": "all lists of finite doubles, no grid assumed: 1 <= M <= 2^500 (2^250 for the segment test), up to 2^20 corners for the orientation test", "why_tests_cant": "the rounding error is to be bounded over all doubles and the sums of any number of corners; a counterexample would be a rare near-cancellation", "anchors": ["src/utils/polygon.rs: compute_vertex_convexity, find_concave_vertices, trianglate_polygon, is_polygon_counter_clockwise", "src/utils/meshgen.rs: is_segments_intersect", "src/utils/point.rs: is_inside_triangle"]}
{"id": "C64", "title": "Ear clipping on simple polygons with vertices on common lines", "statement": "For a counter-clockwise polygon whose vertices differ and whose sides meet only in common vertices, where three vertices are exactly on a line or clear of one by more than the tolerance (always so for integer or grid coordinates): the clipper does not panic; the kept vertices are those where the polygon turns; the triangles are counter-clockwise, their corners are in the polygon's cyclic order, they do not overlap and cover only inside points; what they leave out is the inside of a polygon on the remaining vertices. Nothing is left out, and their number is the number of kept vertices minus 2, if no inward vertex lies on a segment between two other vertices. Without that condition part of the polygon can be lost: of a plus sign of five unit squares the middle square is missing, because a vertex dropped as straight during clipping stays in the list of inward points.", "quantifier": "all such polygons with any number of vertices, over exact arithmetic and, for grid coordinates (for instance integers below 2^25), over the doubles the program runs on", "why_tests_cant": "the shape of the polygon and the order in which ears become available are unbounded; the positive statement needs an argument that an ear survives every clip and every dropped vertex", "anchors": ["src/utils/polygon.rs: trianglate_polygon, compute_vertex_convexity, is_ear"]}
{"id": "C65", "title": "Meshes of a solid with plane faces fit together and enclose its volume", "statement": "Trim every face of a solid whose faces are plane with one border loop each, the loops simple and counter-clockwise (three corners exactly on a line or clear of one, no inward corner between two others). If no face has both straight and inward corners, every directed edge occurs in the meshes as often, minus its reverse, as in the loops: when the loops of the solid cancel, so do the edges of all triangles, that is the surface has no gap. The volume enclosed by the triangles, measured from any point, is that of the faces, also with straight corners. If a face has straight and inward corners the mesh can leak: a corner in the middle of an edge is dropped on one face and kept on the other (shown on the prism over an L, in exact arithmetic and in doubles).", "quantifier": "every list of such faces, any number of corners, any reference point", "why_tests_cant": "universal over solids; whether seams match depends on which triangles the clipper chooses on every face", "anchors": ["src/surface/plane.rs: trim", "src/utils/polygon.rs: trianglate_polygon, compute_vertex_convexity"]}
{"id": "C66", "title": "Plane::trim in doubles fills a face as exact arithmetic would", "statement": "Take a plane face with arbitrary finite double coordinates up to M, axes with coordinates up to 1, and one border loop with n corners whose exact projections form a simple counter-clockwise polygon in which every three corners span more than 1e-7 + n 2^-40 M^2. Projecting a corner in doubles is off by at most 32 M 2^-53 in each coordinate. Trimming the face in doubles succeeds, keeps the corners bit for bit, adds for a convex loop one point that is within (n+4) M 2^-53 of the mean in each coordinate, and nothing else. Measured without rounding, all triangles are counter-clockwise, their areas add up to that of the polygon, no point is covered twice, and each side of the loop is a side of exactly one triangle in the same direction while all inner sides cancel. So faces whose corners agree bit for bit have meshes without gaps in doubles too. Edges that are lines do not have such corners: the end of a line from p to q computed in doubles need not be q, and then two faces on the same edge do not share it (shown on two triangles with corners at 1 and 0.1).", "quantifier": "every plane, every face of up to 2^20 corners, every bound M up to 2^490, every list of faces", "why_tests_cant": "universal over double inputs; a single rounding that flips one orientation test gives overlapping or inverted triangles", "anchors": ["src/surface/plane.rs: trim, project", "src/utils/polygon.rs: trianglate_polygon, compute_vertex_convexity", "src/surface.rs: EdgeLoop::to_polygon", "src/curve/line.rs: get_point"]}
{"id": "C67", "title": "Straight edges in doubles are two points long, and faces given by their edges are filled", "statement": "Call an edge straight up to rounding for the bound M when the ends its curve gives are within 8 M 2^-53 of the corners and the points between them within 22 M 2^-53 of the exact points. Lines over any range with finite coefficients, lines p + t (q - p) built from two corners in doubles, and Bezier curves of degree 1 are straight in this sense. Whatever random numbers between 0 and 1 the sampler draws, an edge that is straight up to rounding and has a tolerance above 2^-46 M is sampled at its two ends only, at the first probe, with no recursion. A loop of such edges whose neighbouring corners are apart (squared distance above 1e-7 + 2^-44 M^2, M at most 2^32) becomes exactly one vertex per corner, in order, each within 8 M 2^-53 of its corner. So a plane face given by such a loop, whose corners project to a simple counter-clockwise polygon with every three corners spanning more than 1e-7 + n 2^-37 M^2, is trimmed successfully in doubles: the mesh has those vertices (plus one near their mean when the polygon is convex), all triangles are counter-clockwise, no point is covered twice, and the total area differs from that of the given polygon by at most n 2^-43 M^2 (twice the area).", "quantifier": "every edge, loop and plane face with finite double coefficients, every random oracle, every amount of fuel, up to 2^20 corners", "why_tests_cant": "the sampler is random and the inputs are all doubles; a test sees one sequence of random numbers and a few faces", "anchors": ["src/utils.rs: parameter_division, range_at", "src/curve.rs: CurveSegment::get_points", "src/curve/line.rs: get_point", "src/curve/bezier.rs: get_point", "src/surface.rs: EdgeLoop::to_polygon", "src/surface/plane.rs: trim"]}
{"id": "C68", "title": "A polyhedron in a STEP file comes out of convert_stp as a closed OBJ mesh, unless its faces share edge curves", "statement": "Take a STEP file whose faces are plane faces with one outer loop of straight edges each, read as ISO 10303-42 says (an oriented edge with flag .F. runs its edge curve backwards). StepReader::read_model gives, for every face in order, the plane of its placement and one boundary whose segments run from vertex to vertex of the edge curves. If no oriented edge runs its curve backwards, then in exact arithmetic convert_stp writes an OBJ text; read back by a reader of OBJ files, its triangles have the border edges of the faces and no others (each directed edge counted, opposite edges cancelling), so for a closed solid the mesh has no gaps, and the volume of the mesh is the volume of the solid - for every random number drawn while sampling. In doubles, with lines given up to rounding and corners in general position, the text is written and read back too, its vertices are within 8 eps M of the corners of the faces, and the triangles of a face are counter-clockwise, cover it once and have its loop as border; the meshes do not depend on the random numbers at all. When an edge curve is shared by the two faces next to it, as the standard prescribes, one of the two oriented edges is reversed in the standard's reading but not in the program's: both read segments are equal. A cube written that way, with closed faces in doubles, is converted without an error to a mesh in which three of its six faces have no triangles, and which is not closed.", "quantifier": "all entity tables of polyhedra with plane faces of one loop, all directions, placements and vertex numberings, all random oracles, all faithful number formats; the refutation is one table in doubles and all oracles", "why_tests_cant": "a test runs a few files; closedness and volume of the result for every polyhedron, and independence of the random sampling, are statements about all files and all random draws", "anchors": ["examples/convert_stp.rs:3-17", "src/model/step_reader.rs", "src/model.rs", "src/surface/plane.rs", "src/face.rs"]}
{"id": "C69", "title": "A file of Bezier patches is loaded and meshed without cracks where borders are shared in the same direction, not where they are shared reversed", "statement": "The loaders of the bezier and bspline examples read a text of patches (a line with two counts m n starts a patch, lines with three numbers are its points, other lines are ignored): the load succeeds exactly when there is at least one patch and every patch has a positive multiple of m+1 points, and gives one face per patch, in order, on the unit square, whose control point in row i and column j is point j(m+1)+i of the patch; the second count is never checked. Written to OBJ text and read back, every patch has (ud+1)(vd+1) vertices and 2 ud vd triangles. Each side of the unit square of a Bezier patch is the Bezier curve of the border control points of that side: in exact arithmetic, and in doubles bit for bit, for finite control points. So two patches of any sizes that share the control points of a border in the same order, meshed with the same division there, have identical mesh vertices along the joint in doubles: no crack. In exact arithmetic the same holds when the order is opposite. In doubles it fails when the order is opposite: in the Utah teapot of assets/teapot.bpt the body and the bottom share rims in opposite order, and at 16 divisions a mesh vertex of the body's rim is no vertex of the bottom's mesh.", "quantifier": "all texts and patches, all numbers of rows and columns (in doubles up to 2^20), all divisions, all finite double coordinates and all doubles in [0,1]; the refutation uses three patches of the teapot", "why_tests_cant": "bit-for-bit agreement of two different evaluation orders over all doubles, and all file texts", "anchors": ["examples/bezier.rs", "examples/bspline.rs", "src/surface/bezier_surface.rs", "src/surface.rs", "assets/teapot.bpt"]}
{"id": "C70", "title": "Plane::trim tiles a face with holes when the bridges cross nothing and are passed in left turns, and not otherwise", "statement": "Let the loops of a face, projected to its plane, be in general position (twice the area of the triangle of any three points exceeds 1e-7, the tolerance of compute_convexity), let one loop reach further right than the others and the others be clockwise. If in the closed sequence of vertices that merge_polygons makes of the loops no two edges cross, no vertex occurs more than twice, and the sequence turns left at every occurrence of a vertex that occurs twice, then Plane::trim succeeds and returns all loop points and exactly n + 2h - 2 counter-clockwise triangles (n points, h holes) that tile the face: their areas add up to the outer area minus the holes, every point off the triangle edges is in as many triangles (0 or 1) as the loops wind around it, and the border of the mesh is the loops, each edge in its direction; the volume over the mesh is that over the loops. The same holds in doubles when the positions are clear of the tolerance by a margin of n 2^-40 M^2 (M bounds the coordinates) and the outer loop reaches further right by 2^-47 M: the triangles that the program computes tile the exactly projected face, and the meshes of a solid with holes through it have no border when the edges of its loops cancel. Each of the two conditions on the merged sequence is needed, in doubles: with a left and a right turn at the two occurrences of a vertex one of the triangles of a square with a triangular hole is clockwise and overlaps others, and a square plate with a square hole becomes half of the plate or an empty mesh; with a bridge that crosses the hole, half of the face is lost.", "quantifier": "all planes, all loops of edges that become proper polygons, any number of holes, exact arithmetic and binary64 (coordinates up to 2^490); the counterexamples in binary64", "why_tests_cant": "whether the triangles cut from a sequence that passes bridges twice overlap or leave gaps depends on every position of the hole; a few tested holes work or fail by luck", "anchors": ["src/surface/plane.rs: trim", "src/utils/polygon.rs: merge_polygons, find_concave_vertices, trianglate_polygon"]}
{"id": "C71", "title": "Meshes of a solid with plane and curved faces fit together just in case the curved faces with one loop fit together by themselves", "statement": "Take the faces of a solid, each on a Plane, a Cylinder or a BSplineSurface, with loops of edges that become proper polygons; plane faces as in C66 and C70. Whenever TrimmedSurface::get_triangle_mesh returns for every face, the directed edges of all triangles, counted with sign, are those of the loops, except that the loop of a curved face with a single loop is run through backwards (curved faces with several loops follow their loops). So when the loops of all faces cancel, as those of a closed solid do, the triangles have no border just in case the loops of the curved faces with one loop cancel among themselves. If such a face meets a plane face in an edge, the triangles run through this edge twice in the same direction and the mesh of the solid is not closed: so for a box with one B-spline face and for a wedge of a cylinder, both computed in doubles. A box with six B-spline faces gives a closed mesh.", "quantifier": "all lists of plane, cylinder and B-spline faces with any number of loops, all random numbers, binary64 with any sin, cos, atan2; the theorems about single curved faces for any arithmetic", "why_tests_cant": "a test of one face sees a mesh that looks right; the direction matters only against the neighbouring faces, and the claim is about all solids", "anchors": ["src/surface/cylinder.rs: trim", "src/surface/bspline.rs: trim", "src/surface/plane.rs: trim", "src/model.rs: save_as_obj"]}
{"id": "C72", "title": "Knot insertion, splitting and decomposition into Bezier pieces in doubles", "statement": "In binary64, for a B-spline curve with finite control points of size at most M and distinguishable knots: a sequence of k calls of BSplineCurve::add_knot succeeds, the new knots are exactly the old ones and the inserted ones in order, all new control points are finite and at most 2M, and the curve they define differs from the original one by at most k * 2^-47 * M in each coordinate at every parameter between the first and the last knot. If the new curve is also evaluated in doubles, the evaluation error of C62 is added. BSplineCurve::split takes the same decisions as in exact arithmetic when the parameter is not within one part in a million of the limit 1e-7 of snapping to a knot; both parts have exactly the knots of the exact parts and follow the curve up to (p+1) * 2^-47 * M. to_piecewise_bezier, for a clamped curve whose distinct knots are more than 1.000001e-7 apart, gives one piece per span, with degree+1 finite control points, and every piece follows the curve up to (d+1)(p+1) * 2^-47 * M, d being the number of distinct knots. The results are not bit-exact: inserting 0.7 into a quadratic curve changes its value at 0.1.", "quantifier": "all binary64 curves, knots, parameters and insertion sequences of up to 2^40 insertions", "why_tests_cant": "a bound on the accumulated rounding over all curves, knot vectors and sequences of insertions; and that no comparison of knots is decided differently because of rounding", "anchors": ["src/curve/bspline.rs: add_knot, split, clamp, to_piecewise_bezier", "src/knot.rs: KnotVector::add_knot, multiplicity, span_index"]}
{"id": "C73", "title": "Newton projection onto a curve converges to the nearest parameter where the distance is convex, and may return the farthest point where it is not", "statement": "In exact arithmetic: the quantities f and fprime of find_nearest_parameter are the first and second derivative of half the squared distance to the point. If around a nearest parameter us the second derivative stays between m > 0 and L <= 2m, the iteration, including the clamping to the range, started there stays there, and after n trials is within ((L-m)/m)^n of the initial error, or has stopped within max(1e-7/m, sqrt(1e-7/m)) of us; us is the only nearest parameter there. If the second derivative is Lipschitz with constant K and K*rho <= m, the convergence is quadratic: the error after n trials is at most (m/K) * (K/m * initial error)^(2^n). If the bounds hold on the whole range, find_nearest_parameter and BezierCurve::project (10 trials) return this parameter up to ((L-m)/m)^10. Without convexity this fails: for the quadratic Bezier curve (0,1,0), (0,0,0), (1,0,0) and the point (0,4,0), project returns, in doubles, parameter 1, the farthest point of the curve (squared distance 17), although the start (squared distance 9) is the nearest point and one of the samples.", "quantifier": "all curves given by functions with derivatives, all points, ranges, numbers of trials and divisions; all Bezier curves of degree at least 2", "why_tests_cant": "convergence rate for all curves and points; a test with a well-placed point never leaves the convex region", "anchors": ["src/utils.rs: find_nearest_parameter", "src/curve/bezier.rs: project"]}
{"id": "C74", "title": "Lines, planes, circles and cylinders in doubles", "statement": "In binary64, for origins, centres, radii and parameters of size at most M and directions within 4 eps of unit vectors (eps = 2^-53): Line::get_point is within 8 eps M of the exact point and Line::project brings the parameter back up to 100 eps M; Plane::get_point is within 17 eps M and Plane::project brings both parameters back up to 160 eps M. If the platform's sin and cos are within 2 eps of the true values for angles up to 16, Circle::get_point and Cylinder::get_point are within 1024 eps M of the exact point for angles up to 15. If also atan2 is within 4 eps of an argument of (x, y), then for a point p at distance at most d (in each coordinate) from the circle, Circle::get_point(Circle::project(p)) is within 8192 eps M + 16 d of p, and for a point p at distance at most d from the cylinder, Cylinder::get_point(Cylinder::project(p)) is within 2048 eps M + 16 d of p; this holds at the seam of the angle as well. The round trip is not exact: on the line from (0.1,0,0) in direction (1,0,0), 0.2 comes back as 0.20000000000000004.", "quantifier": "all binary64 lines, planes, circles, cylinders, parameters and points with 2^-900 <= M <= 2^900, and all accurate trigonometric functions", "why_tests_cant": "a bound on the rounding error over all positions, directions, radii, angles and points, including those at the jump of the angle from 2 pi to 0", "anchors": ["src/curve/line.rs: get_point, project", "src/curve/circle.rs: get_point, project", "src/surface/plane.rs: get_point, project", "src/surface/cylinder.rs: get_point, project"]}
{"id": "C75", "title": "How far the triangle mesh of a Bezier patch is from the patch", "statement": "Let a Bezier patch with r x c control points be meshed over the range [u0,u1] x [v0,v1] inside the unit square with ud x vd divisions, and let A, B, C bound, in every coordinate, the second differences of the control net along the columns, the mixed ones, and along the rows. With h = (u1-u0)/ud, k = (v1-v0)/vd, d = r-1, e = c-1 and E = (d(d-1) A h^2 + 2 d e B h k + e(e-1) C k^2)/8: every point of every triangle of the mesh is, in each coordinate, within E of a point of the patch, and every point of the patch over the range is within E of a point of the mesh. So n times as many divisions in both directions bring the two n^2 times as close. In binary64 over the unit square, with up to 2^20 divisions each way and control points of size up to M, the mesh exists, all its vertices are finite, and the same two statements hold with h = 1/ud + ud 2^-50, k = 1/vd + vd 2^-50 and E + rc(2^-48 M + 2^-1073).", "quantifier": "every control net, range inside the unit square, number of divisions, point of the mesh and point of the patch", "why_tests_cant": "both directions range over all points of the continuous patch and of all triangles; tests look at vertices, which are on the patch anyway", "anchors": ["src/face.rs: SurfacePatch::get_triangle_mesh", "src/surface/bezier.rs: BezierSurface::get_point", "src/utils.rs: uniform_divide"]}
{"id": "C76", "title": "A solid whose faces have holes, from a STEP file to an OBJ file", "statement": "Let a STEP file describe plane faces with straight edges, each face with one or more edge loops (FACE_BOUND), no edge run through against its edge curve and no free curves. Reading it gives, in file order, one face per ADVANCED_FACE with its plane and all its loops, each loop with its sides in order. If every face has either one loop as in C68, or an outer loop and holes satisfying the conditions of C70 (seen along its normal the corners are in general position, the holes are run through the other way round and end further left, and the merged polygon neither crosses itself nor turns right where it touches itself), then in exact arithmetic the conversion to OBJ succeeds for all random numbers; the triangles of the file have exactly the border of all the loops, counting directions, so no border at all when the loops of the STEP file fit together; and if the corners of the faces are on their planes, the volume they enclose with any point is that of the faces with the holes taken off.", "quantifier": "every such STEP table, random numbers, number format faithful on the coordinates", "why_tests_cant": "all files and hole configurations; closure and volume of the output are statements about all triangles together", "anchors": ["src/model/step_reader.rs: extract_face", "src/surface/plane.rs: trim", "src/model.rs: save_as_obj", "examples/convert_stp.rs"]}
{"id": "C77", "title": "How closely the sampled points of a curve segment follow the curve", "statement": "CurveSegment::get_points tests a piece of the curve at one random parameter between 0.4 and 0.6 of its range and halves it when the curve is there at least `tolerance` away from the chord. Whatever the random numbers: if the coordinates of the curve are polynomials of degree at most 2 (in particular a Bezier curve with three control points), every point of the curve over the range is within 25/24 tolerance of the broken line through the returned points; for an arc of a circle of at most one full turn it is within 1.106 tolerance, and the call returns. If the second derivative of the curve is at most M long, the call returns two points, or n points with 2 tolerance (n-1)^2 <= M (b-a)^2, where (a, b) is the parameter range. For other curves there is no such bound: a degree 1 B-spline with a bump in the first and the last part of its range and a straight middle is sampled by its two end points whatever the tolerance and the random numbers; an S-shaped cubic Bezier curve of height h is sampled by its two end points whenever the first random number r satisfies 0.3 h |r - 1/2| < tolerance; two full turns of a circle can be sampled by twice the same point.", "quantifier": "all three-point Bezier curves, all circles and ranges of at most a turn, all curves with bounded second derivative, all tolerances, all results of the random generator", "why_tests_cant": "the result depends on random numbers, the claim is about all points of the curve, and the curves that escape the probe have to be constructed", "anchors": ["src/utils.rs:69-88", "src/curve.rs:40-60", "src/curve/circle.rs", "src/curve/bezier.rs", "src/curve/bspline.rs"]}
{"id": "C78", "title": "Distance between the mesh of a patch on a smooth surface and the surface", "statement": "SurfacePatch::get_triangle_mesh on a surface whose second partial derivatives are over the parameter range at most A (along u), B (mixed) and C (along v) long gives, with cells of h by k in the parameters, a mesh within (A h^2 + 2 B h k + C k^2)/8 of the surface, in both directions: every point of every triangle has a point of the patch that near, and every point of the patch has a point of the mesh that near. For a Cylinder (A, B, C) = (0, 0, |r|), so any tolerance is met as soon as |r| (v1-v0)^2 <= 8 tolerance division^2, and the middle of the first chord is r (1 - cos(k/2)) away from the whole cylinder, so the bound has the right size; for a SweepSurface A and C are the bends of path and section and B = 0; for a SpinSurface A is the bend of the section, B the largest speed at which it leaves the axis and C its largest distance from the axis (circle of radius r, centre at distance D: |r|, |r|, D + |r|, which covers spheres and tori); for the UmbrellaSurface over [0, pi] (R/pi, 2R/pi, R).", "quantifier": "all patches on surfaces with bounded second derivatives, all ranges and divisions with fewer than 2^32 vertices, all cylinders with orthonormal frame, all sections, paths and axes", "why_tests_cant": "the claim is about all points of the surface and of the triangles, for all surfaces and divisions", "anchors": ["src/face.rs:15-66", "src/surface/cylinder.rs:49-52", "src/surface/sweep.rs", "src/surface/spin.rs:16-22", "src/surface/umbrella.rs:15-24"]}
{"id": "C79", "title": "A plane crosses a Bezier or B-spline curve at most as often as the control polygon", "statement": "Whenever the points of a Bezier curve at increasing parameters in [0, 1] lie alternately on the two sides of a plane, there are as many control points, in the order of the control polygon, that lie alternately on the two sides of the plane, starting on the same side. The same holds for rational Bezier curves with positive weights (with the projected control points), and for B-spline curves of any degree over [t_p, t_last] when the end is clamped (the knot number n, n the number of control points, is the last one); the start need not be clamped and the parameters may be arbitrarily near to the knots. In particular, if the control points proceed weakly in some direction, so does the curve.", "quantifier": "all control polygons, degrees and knot vectors with separated knots, all planes, all finite sequences of parameters", "why_tests_cant": "the claim is about all planes and all sequences of parameters; a crossing too many can be arbitrarily short", "anchors": ["src/curve/bezier.rs", "src/curve/bspline.rs", "src/knot.rs", "src/basis.rs"]}
{"id": "C80", "title": "Rational B-spline curves are quotients of polynomial ones and draw exact circles", "statement": "For a rational B-spline curve (BSplineCurve<Point4>) with positive weights, fitting sorted knots and a clamped end, get_point at any u in [t_p, t_last] is the Cox-de Boor combination of the weighted points divided by that of the weights, and the divisor is positive. So the point lies in every half space that contains the projected control points; multiplying all weighted points by one positive factor changes nothing; with all weights 1 it is the polynomial curve; and a plane crosses the curve at most as often as it crosses the polygon of the projected control points. The rational quadratic with weights 1, cos th, 1 stays on the unit circle between the angles -th and th for every th below a quarter turn, and the nine-point quadratic with knots 0,0,0,1,1,2,2,3,3,4,4,4 and corner weights sqrt(2)/2 stays on the unit circle over all of [0, 4].", "quantifier": "all degrees, knots, positive weights, control points, parameters, planes, angles", "why_tests_cant": "A test checks finitely many parameters and curves with a rounding tolerance; it cannot tell a circle from a curve that is nearly a circle, nor bound the crossings of every plane.", "anchors": ["src/curve/bspline.rs:164-174", "src/curve/bezier.rs:49-60", "src/knot.rs"]}
{"id": "C81", "title": "Rational patches stay in the hull of their nets and draw exact surfaces of revolution, spheres and tori", "statement": "For rational Bezier patches over [0,1]^2 and rational B-spline surfaces with clamped ends over their parameter range, with positive weights, get_point succeeds and the point lies in every half space that contains the projected control points. If the net is the product of a profile curve (in the plane y = 0) and a guide curve, get_point(u, v) is the profile point at u turned to the direction of the guide point at v, for Bezier and B-spline curves of any degrees. So the biquadratic patch of two arcs of less than half a turn lies on the torus with the given radii (on the sphere when the distance from the axis is 0) for all parameters, and the 9 by 9 net with knots 0,0,0,1,1,2,2,3,3,4,4,4 in both directions lies on the torus over all of [0,4]^2.", "quantifier": "all degrees, knots, positive weights, nets, profiles, guides, angles, radii, parameters", "why_tests_cant": "Tests evaluate a few patches at a few parameters up to a tolerance; exactness on the torus or sphere at every parameter, for every radius and opening angle, is an algebraic identity between the two basis computations and the division.", "anchors": ["src/surface/bezier.rs:34-50", "src/surface/bspline.rs:281-300"]}
{"id": "C82", "title": "Curves with convex control polygons are convex", "statement": "In any picture (projection along two directions, right and up): if the control polygon goes strictly to the right and never turns to the right, then any three points of the curve at increasing parameters go to the right (weakly) and do not turn to the right, so the curve is convex too and has no wiggles. If all triples of control points, in order, turn to the left (a convex polygon passed at most once around), then no line of the picture separates four points of the curve at increasing parameters alternately: every line crosses the curve at most twice. Both hold for Bezier curves, rational Bezier curves with positive weights (with the projected points), B-spline curves and rational B-spline curves with clamped ends.", "quantifier": "all degrees, knots, weights, control polygons, projections, lines, and all triples or sequences of parameters", "why_tests_cant": "Convexity quantifies over all triples of parameters and all lines; sampling can only miss an inflection between the samples.", "anchors": ["src/curve/bezier.rs:26-60", "src/curve/bspline.rs:136-174", "src/knot.rs"]}
{"id": "C83", "title": "Curves are no longer than their control polygons", "statement": "The broken line through the points of a curve at any increasing parameters of its range is no longer than the control polygon: for Bezier curves over [0, 1], rational Bezier curves with positive weights (polygon of the projected points), B-spline curves and rational B-spline curves with a clamped end over [t_p, t_last]. In particular two points of the curve are no further apart than the polygon is long, and the points that CurveSegment::get_points returns for any range inside, any tolerance and any random numbers make a line no longer than the control polygon.", "quantifier": "all control points, degrees, knots, positive weights, all finite increasing sequences of parameters, all random numbers", "why_tests_cant": "Quantifies over all curves and all finite sequences of parameters of any length; a test measures a few sampled lines.", "anchors": ["src/curve/bezier.rs:26-60", "src/curve/bspline.rs:136-174", "src/curve.rs:32-60", "src/utils.rs"]}
{"id": "C84", "title": "Sampling returns for connected curves and never at a wide jump", "statement": "CurveSegment::get_points returns for every positive tolerance and all random numbers, at a depth of recursion that does not depend on the random numbers, for lines, Bezier curves, rational Bezier curves with positive weights over parameters in [0, 1], and B-spline and rational B-spline curves with a clamped end none of whose interior knots occurs more often than the degree. At an interior knot that occurs degree + 1 times between two different control points, which KnotVector and BSpline accept, it never returns for any tolerance up to 3/10 of the distance between the points when the range is short and contains the knot; the B-spline of degree 1 with knots 0, 0, 1, 1, 2, 2 and points 0, 0, 10, 10 on a line is sampled for ever over [0, 2] at the tolerance 4.", "quantifier": "all control points, degrees, knots, weights, ranges (in either order), tolerances, all random numbers", "why_tests_cant": "Termination for every curve, tolerance and stream of random numbers, and non-termination for every depth; a test can only run some curves for some time.", "anchors": ["src/utils.rs:69-84", "src/curve.rs:32-60", "src/curve/bezier.rs:26-60", "src/curve/bspline.rs:136-174"]}
{"id": "C85", "title": "How many points the sampling of a curve segment returns", "statement": "If CurveSegment::get_points returns after a recursion of depth d + 1, for whatever random numbers, it returns at most 2 + (3/5) d length / tolerance points, where length is the length of the control polygon (of the projected points for rational curves): for Bezier, rational Bezier, B-spline and rational B-spline curves and ranges in either order. For a Bezier curve of degree n whose control polygon has sides of at most D every d with 2 n D |b - a| < tolerance * 2^d will do, since the point moves no faster than n D; for the others some d will do. So the number of points grows no faster than length / tolerance times the logarithm of 1 / tolerance.", "quantifier": "all control points, degrees, knots of multiplicity at most the degree, positive weights, ranges, positive tolerances, all random numbers", "why_tests_cant": "A bound on the output for every curve, tolerance and stream of random numbers; tests count the points of a few runs.", "anchors": ["src/utils.rs:69-84", "src/curve.rs:32-60", "src/curve/bezier.rs:26-60", "src/curve/bspline.rs:136-174"]}
{"id": "C86", "title": "In doubles too, sampling never returns at a jump", "statement": "In any arithmetic parameter_division never returns between two parameters where a curve takes two different values, if it takes no third value and both are at least the tolerance away from the probed points of the chord. In doubles that is so for all random numbers when the squared tolerance is below 3/20 of the squared distance of the values by 2^-43 M^2, M bounding their coordinates; halving does not stop when no double is left between the ends. CurveSegment::get_points never returns for the B-spline of degree 0 with knots 0, 1, 2 and points (0,0,0), (1,0,0) over any range that starts in the first step and ends outside it, also from the double before 1 to 1, at any positive tolerance up to 3/8.", "quantifier": "all arithmetics, two-valued curves, ranges, tolerances below the bound, all random numbers, all depths", "why_tests_cant": "Non-termination at every depth and for every stream of random numbers; a test can only run for some time until the stack is full.", "anchors": ["src/utils.rs:69-84", "src/curve.rs:32-60", "src/knot.rs:52-87", "src/curve/bspline.rs:136-146"]}
