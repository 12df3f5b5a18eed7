# Formal model of J-F-Liu/geom3d in Rocq (Coq 8.16.1)

## Approach

* **One model, several arithmetics.** Every function that touches `Float` is written once, over an abstract
  number type with a record of operations (`Num F`, `theories/Num.v`). It is instantiated with
  * the real numbers `R` (`RNum`) — for the geometric/analytic properties, where the code's meaning is the exact-arithmetic one;
  * IEEE-754 binary64 (`F64Num`, the computable `spec_float` of Coq's standard library with precision 53, emax 1024,
    round to nearest even) — for bit-exact claims and for refutation witnesses that depend on rounding.
  Properties that do not depend on arithmetic (indices, lengths, watertightness, file layout, panics) are proved for
  **every** `Num`, hence for f64 with NaN, infinities and signed zeros included.
* **Panics are values.** Functions return `outcome A = Ok a | Panic | OutOfFuel`. Index out of bounds, `usize`/`u8`
  underflow (overflow checks on, as in debug/test profile), `assert!`, `unwrap`, `unreachable!` are `Panic`.
  Loops without a static bound (`parameter_division`, ear clipping's outer loop, advancing front) take fuel and return `OutOfFuel`.
* **In-place loops stay in-place loops**: `foldM` over the index range, with explicit list updates.
* `usize`/`u8`-sized naturals are `nat` without upper bound except where the code casts (`as u32`, `as u8`): there the
  wrap (`mod 2^32`, `mod 256`) is written out.
* **Random numbers** are an arbitrary oracle indexed by the recursion path, universally quantified in the theorems.
* Specifications stand at the head of each `Props_*.v` file (or in `L_cdb.v`, `L_insert.v`, `L_simple.v`) and are written independently
  of the model: Cox–de Boor recursion, binomial Bernstein formula, limits of difference quotients, Euclidean distance as a minimum,
  shoelace area and winding numbers, edge-count chains, readers for OBJ / STL / XYZ / SVG path data, and the graph of STEP entities.
* Property theorems live in `theories/Props_*.v` and are named `Cnn_...`; beside them an `Example` (`..._nonvacuous`, or a run by
  `vm_compute`) exhibits a concrete case meeting the hypotheses. `tools/gen_manifest.py` collects them into `MANIFEST.json`.
* Where the faithful model violates a property the full statement is refuted by a `..._refuted` theorem with a witness and the
  provable part is stated with suffix `_partial` (or with its precondition in the open).

## Plan per property

See `properties.jsonl` for the statements. (R) = exact real arithmetic, (F) = binary64, (*) = every arithmetic.

| id | modelled | method |
|----|----------|--------|
| C01–C05 | basis.rs, curve/bezier.rs | (R) induction on the triangular loop to the binomial formula; (F) exact 0/1 closure; `derivable_pt_lim` |
| C06–C10 | knot.rs, curve/bspline.rs | (R) loop invariant vs Cox–de Boor; (*) bounds; derivative by induction on the degree |
| C11–C14 | curve/bspline.rs add_knot/split/clamp/to_piecewise_bezier | (R) Boehm identity by induction on the degree; refutations by computation |
| C15–C17 | knot.rs constructors | lists, (*) and (R) |
| C18–C20 | surface/bspline.rs, surface/bezier.rs | tensor products of C01/C06 |
| C21–C26 | utils.rs | (*) structure; (R) optimality, termination for Lipschitz curves under any random oracle |
| C27–C36 | curve/{line,circle,polyline}.rs, surface/{plane,cylinder,spin,sweep,umbrella}.rs | (R) algebra and trigonometry, atan2 defined in R; witnesses for violated claims |
| C37–C41 | utils/polygon.rs | (*) termination/indices; (R) shoelace invariants; two ears theorem for simple polygons |
| C42–C44, C59 | utils/meshgen.rs, utils/point.rs | (*) edge-chain invariant; (R) geometry predicates; winding numbers for the tiling |
| C45–C49 | surface/*.rs trim, mesh.rs, face.rs | composition of the above |
| C50–C53, C56 | mesh.rs, model.rs, points.rs, face.rs | files as lists of characters/bytes, independent readers |
| C54, C55, C57, C58 | surface.rs, curve.rs, step_reader.rs, utils.rs | records of functions for trait objects; entity graphs as finite maps |
| C60 | utils/polygon.rs, utils/meshgen.rs | (F) = (R) on coordinate grids: no operation rounds |
| C61 | surface/bspline.rs project_points | (R) trace of the Newton run; gradient and Hessian of the squared distance as limits |
| C62 | basis.rs, knot.rs, curve and surface get_point | (F) against (R): forward error bounds |
| C63 | polygon functions, segment test, point in triangle | (F) against (R): decisions agree when areas exceed the error |
| C64 | utils/polygon.rs | (R) and, on grids, (F); vertices on common lines allowed |
| C65 | surface/plane.rs on all faces of a solid | (R) edge chains and pyramid volumes in space |
| C66 | surface/plane.rs in doubles | (f64) projection and mean error bounds; both polygons have the same turns, so the clipper does the same on both |
| C67 | utils.rs parameter_division, curve.rs get_points, surface.rs to_polygon, plane.rs trim in doubles | (f64) errors counted in units of eps M; flatness test and merging tests decided; C66 on the computed corners |
| C68 | examples/convert_stp.rs over step_reader.rs, model.rs, plane.rs, face.rs | C57-style reading of every face, then C65 (exact) and C67 (doubles) per face, then C50 (the OBJ text is read back) |
| C69 | examples/bezier.rs, bspline.rs over bezier_surface.rs, surface.rs | lines and words of the text as a relation, loader by induction on lines; a side of a patch in doubles: products with 0 and 1 are exact, sums drop zeros; then the divisions of [0,1] in doubles stay in [0,1]; refutation by computing three patches of the teapot |
| C70 | plane.rs: trim with holes, over polygon.rs | the merged sequence passes each bridge twice; its positions are told apart by labels, the copies of bridge ends are moved apart a little, which gives a simple polygon, and the ear clipping of C40 is followed on both; arcs between two copies keep a negative area, so no triangle degenerates; in doubles, loops clear of the tolerance give the same corner tests and so the same triangles (C66), whatever bridges the rounded distances choose; refutations by computation in doubles |
| C71 | surface/cylinder.rs, bspline.rs, plane.rs trims on all faces of a solid | edge counts (C46) turned into sums over the points of the loops; C70 for the plane faces; examples computed |
| C72 | curve/bspline.rs add_knot, split, clamp, to_piecewise_bezier in doubles | double run and exact run step by step with the same knots and decisions; error of the control points grows by 2^-47 M per insertion; non-negative basis functions with sum at most 1 carry it to the curve |
| C73 | utils.rs find_nearest_parameter, bezier.rs project | (R) mean value theorem for the slope of the squared distance; the clamped step moves no farther than the unclamped one; counterexample computed in doubles |
| C74 | line.rs, plane.rs, circle.rs, cylinder.rs get_point and project in doubles | errors in units of eps M carried through the formulas (relation `ap`); platform sin, cos, atan2 as parameters of stated accuracy; polar coordinates of a perturbed point, so no conditioning at the seam |
| C75 | SurfacePatch::get_triangle_mesh on a Bezier surface | second derivatives of a tensor product bounded by second differences of the control net; linear interpolation error on a triangle by Taylor's formula; a mesh over any increasing grid of parameters with vertices off by at most delta, used for exact and double arithmetic |
| C76 | step_reader.rs faces with several bounds, Plane::trim, convert_stp.rs | the reading part of C68 for lists of loops, the meshes of C70, the writing part of C68 |
| C77 | utils.rs parameter_division, curve.rs get_points | every parameter lies between two neighbouring ones that passed the probe; for degree 2 and for arcs the probe bounds the whole piece; Taylor bound for the number of points; explicit curves that escape the probe |
| C78 | face.rs get_triangle_mesh on cylinder.rs, sweep.rs, spin.rs, umbrella.rs | interpolation error of the error vector along itself on one triangle; derivatives of the four surfaces; distance from the axis for the bound from below |
| C79 | bezier.rs, bspline.rs get_point | variation diminishing: Rolle on exponential sums (Descartes) for Bezier curves; corner cutting and interpolation at multiple knots for B-splines |
| C80 | bspline.rs get_point for Point4 | quotient of two Cox-de Boor sums; crossings through the scalar curve of signed heights; conics by algebra on each span |
| C81 | surface/bezier.rs, surface/bspline.rs get_point for Point4 | convex weights in two directions; factorization of the double sum for product nets; circles of C80 |
| C82 | bezier.rs, bspline.rs get_point, both point types | convexity from the crossing bounds of C79 and C80 |
| C83 | bezier.rs, bspline.rs get_point, curve.rs get_points | summation by parts with the monotone tails of the basis (from C79, C80) |
| C84 | utils.rs parameter_division, curve.rs get_points, bezier.rs, bspline.rs get_point | Lipschitz bounds per span, equality of the spans at a knot, C23; for jumps the half that contains the knot never gets close |
| C85 | utils.rs parameter_division, curve.rs get_points, bezier.rs, bspline.rs get_point | lengths of divided pieces per level of the recursion, C83; mean value theorem for the speed |
| C86 | utils.rs parameter_division, curve.rs get_points, knot.rs, bspline.rs get_point | induction on the depth over any arithmetic; rounding errors of the distance to the chord |

### The longer developments

* **Ear clipping of simple polygons** (C39, C40, C45). `L_simple.v`, `L_sides.v`: for a closed polygon without self-intersections, the crossing (winding) number is locally constant off the polygon and the two sides of every edge are distinguished,
  so the winding number of a simple counter-clockwise polygon is 0 or 1. `L_twoears.v`, `L_earexist.v`: a chord splits such a polygon into two
  smaller ones of the same kind, hence every edge misses an ear. `L_clip.v`: clipping an ear keeps the polygon simple. `Props_simple.v`: so the
  program's loop, with its concave-vertex bookkeeping, never gets stuck, and its n − 2 counter-clockwise triangles tile the polygon.
  `L_convex.v`: locally convex + simple gives convex. The lemmas only ask that no vertex lies on another side, so straight vertices and vertices on
  common lines are allowed: `L_drop.v` drops straight vertices, `Props_straight.v` runs the loop with vertices becoming straight on the way (C64),
  `Props_lattice.v` transfers it to doubles on grids and has a checker for integer polygons for the examples. `Props_trim4.v` puts it into `Plane::trim`,
  `Props_solid.v` adds up the faces of a solid (C65): the directed edges of the triangles are those of the border, so faces that share edges fit together.
  `Props_plane64.v` does plane faces in doubles (C66): the polygon of rounded projections and the polygon of exact projections are on the same side in every orientation test, so the clipper returns the same triangles for both, and C64 applies to the exact one.
  `Props_edges64.v` starts from the edges (C67): lines and degree-1 Bezier curves are sampled at their ends only for every random oracle, loops give one vertex per corner, and the margins on the given corners carry over to the computed ones.
  `Props_convert.v` joins the stages of `examples/convert_stp.rs` for polyhedra (C68): entity table, faces, meshes, OBJ text and the triangles a reader gets back from it. `Props_convert2.v` has files with integer coordinates, whose hypotheses are decided by computation.
  `Props_teapot.v` to `Props_teapot4.v` treat files of Bezier patches (C69): sides of a patch in doubles, joints of meshes, the loader, and three patches of `assets/teapot.bpt` computed in doubles.
  `L_weak.v`, `L_wiggle.v`, `L_bridges.v`, `Props_holes.v` treat faces with holes (C70): ear clipping of a sequence in which points repeat, compared with nearby simple polygons; the nearby simple polygon, by moving each copy into its corner; the structure of merged sequences; `Plane::trim` with several loops. `Props_holes64.v` carries this to doubles and to solids whose faces have holes. `Props_mixed.v` adds cylinder and B-spline faces (C71).
  `Props_insert64.v` (C72) runs knot insertion, splitting and the decomposition into Bezier pieces in doubles in lockstep with exact arithmetic (relation `sim`).
  `Props_newton.v` (C73) proves convergence of the Newton iteration of the curve projections.
  `Props_analytic64.v` (C74) bounds the rounding errors of lines, planes, circles and cylinders.
  `Props_meshdist.v` (C75) bounds the distance between the mesh of a Bezier patch and the patch, in both directions.
  `Props_convert3.v` (C76) takes solids whose faces have holes from the STEP table to the OBJ text.
  `Props_sampling.v` (C77) relates the tolerance of the adaptive sampling to the distance from the curve.
  `Props_meshdist2.v` (C78) bounds the distance between meshes and smooth surfaces of every kind.
  `Props_variation.v` (C79) proves that curves cross planes at most as often as their control polygons.
  `Props_rational.v` (C80) treats rational B-spline curves and the exact circles they draw.
  `Props_rational2.v` (C81) treats rational surfaces: hulls, surfaces of revolution, spheres and tori.
  `Props_convex.v` (C82) derives the convexity of curves from that of their polygons.
  `Props_length.v` (C83) bounds the length of curves by that of their polygons.
  `Props_returns.v` (C84) decides when the sampling of a segment returns.
  `Props_effort.v` (C85) bounds the number of points it returns.
  `Props_jump64.v` (C86) is about jumps in doubles.
  `Props_tighten.v` pins down details of the model that no other theorem depended on; they were found by changing the model at random places (`seeded/LOG.jsonl`, ids a000 on).
* **Double arithmetic** (C51, C60). `L_float.v` follows SpecFloat's rounding (`binary_normalize`) to get a correct result for
  f64 → f32 conversion and decoding; `L_grid.v` shows that sums, differences and products on a grid 2^s·Z do not round, and transfers the polygon functions from R to f64.
* **Rounding errors** (C62). `L_err.v`: one rounded operation is off by at most 2^-53 |x| + 2^-1075; the errors of the triangular Bernstein
  recursion are summed over a row (not per entry), which gives a bound linear in the degree; accumulation of weighted points, tensor products.
  `L_bserr.v`: the Cox–de Boor recursion on a span; the program finds the same span and takes the same `inv_or_zero` branches on the doubles as
  on the reals they denote, because distinct knots are further apart than the tolerance of `ulps_eq`. `Props_accuracy.v` states the bounds.
* **Decisions under rounding** (C63, `Props_robust.v`). The computed area of a corner is off by at most 60·2^-53 M^2; when two of the three points
  coincide the computed area is exactly zero because rounding is symmetric in sign. So the branches taken agree with exact arithmetic as soon as
  the real areas are clear of tolerance plus error, and the exact theorems (C40, C43, C44) apply to the run on doubles.
* **STEP** (C57). The entity table that iso-10303 produces is a finite map from ids to the entity records the reader matches on; parsing the
  text file is the dependency's job and not modelled. Unknown or missing references are modelled as such.
* **Text formats.** Decimal formatting of `f64` (`{}` and `{:.2}`) is a parameter of the writers; the theorems assume of it exactly what they
  need (characters used; for round trips, that reading gives the number back), and the examples instantiate it.

## Which parts of the code are modelled

| source | status |
|--------|--------|
| basis.rs, knot.rs | all functions |
| curve/*.rs, curve.rs | all functions; trait objects as records of functions |
| utils.rs, utils/point.rs, utils/polygon.rs, utils/meshgen.rs | all functions |
| surface/*.rs, surface.rs, face.rs, mesh.rs | all functions; `bspline.rs` trim also writes a debug file bound.obj, which is not modelled |
| points.rs, model.rs (OBJ, STL, SVG, scaling, boundary) | all functions; files are values, so I/O failures do not exist |
| model/step_reader.rs | all functions, over the entity table |
| lib.rs | type aliases only (`Float = f64`) |
| examples/convert_stp.rs | `M_convert.v`; files become texts, I/O errors are left out |
| examples/bezier.rs, examples/bspline.rs | `M_teapot.v`: the loaders and the meshes; drawing on screen is left out |

Not modelled, so no statement here says anything about it:

* I/O errors, partial writes, file system; `dbg!`/`println!` output.
* Stack depth and memory limits; `usize` upper overflow; running time except for termination.
* Source of the dependencies (glam 0.14, approx 0.4, grid 0.4, rand 0.8, svg, iso-10303): not available here; the operations used are modelled
  from their documented behaviour (each such definition says so).
* `sin`, `cos`, `atan2` in double arithmetic: claims that need them are in exact arithmetic.

Differences between the Rust code and the model that a reader should know: in exact arithmetic (R) division by zero yields 0 and there are no NaN or infinities, so
every (R) theorem whose computation could divide by zero says so in its hypotheses or is silent about the value; the machine epsilon of `relative_eq`/`ulps`
comparisons is kept as the real number it is; hash-map iteration orders do not occur in the code.

## What the proofs found in the code

Each line is backed by a theorem (`..._refuted` or part of the property statement).

* C09: outside the knot range the basis is zero on the left and the last basis function on the right — the two ends are not treated alike.
* C15/C29/C34/C57: a closed circular edge gives an empty range; `trim`'s ring map of a cylinder is not invertible for strips away from height 0; reversed
  oriented edges are read unreversed; the length of a STEP line's direction is ignored.
* C27: line projection needs a unit direction which nothing enforces. C31/C32: polyline projection can run past a corner; B-spline projection of degree 1 assumes knots
  proportional to arc length.
* C39/C40: ear clipping can panic or emit a triangle with two equal corners on simple polygons with three corners almost on a line (C64: never if they are exactly on it);
  without that it tiles the polygon.
* C64: a vertex that becomes straight during clipping is deleted from the polygon but stays in `concave_points` and blocks further ears: part of the polygon
  is then missing from the mesh (a plus sign loses its middle square).
* C65: a nonconvex plane face drops its straight corners while a convex one keeps them, so two faces can disagree on a shared edge (a T-junction: the mesh of the solid is not closed).
* C66: `Line::get_point` at the end of an edge is `p + (q - p)`, which in doubles need not be `q`; `to_polygon` keeps the computed end and drops the exact start of the next edge, so two faces on one edge can have corners that differ in the last bits.
* C41: bridges to holes can cross edges. C42: the mesher can run forever on a repeated vertex.
* C45: clockwise plane loops are not reoriented and lose their mesh; faces with corner areas ≤ 1e-7 vanish. C46: B-spline/cylinder meshes of one loop turn against the loop,
  all others with it; several loops on a cylinder use ring coordinates as (height, angle).
* C53/C54: only one closing vertex is removed; boxed surfaces do not forward `get_normals`. C56: a path that consists of a single non-line segment loses its drawing command.
* C68: a solid whose faces share their edge curves, as STEP files normally have it, is converted without complaint but with holes: a cube loses three of its six faces (`C68_shared_edges_refuted`), because reversed oriented edges are read unreversed.
* C69: the mesh of the Utah teapot (`assets/teapot.bpt`, 32 patches, 16 divisions) is watertight in doubles along the 48 joints whose border points are stored in the same direction, but cracked along the 4 joints between body and bottom, which are stored in opposite directions: there 6 of 17 vertices per joint differ in the last bits (`C69_reversed_refuted` for one vertex). The second count of a patch is read but not checked against the number of points (`C69_counts_refuted`).
* C70: `find_concave_vertices` and the ear clipping know vertices by index, so the two visits of a bridge end share one entry in the list of concave vertices. When one visit turns left and the other right, the result is wrong: the mesh of a 10 x 10 plate with the square hole (1,1)-(2,2) is half of the plate without a hole, with the hole (1,1)-(5,5) it is empty, and triangular holes give clockwise triangles that overlap others. The bridge end is the first end of the nearest edge, which need not be visible: then parts are lost, too.
* C71: as a consequence of the different directions noted under C46, the mesh of a solid in which a cylinder or B-spline face with one loop meets a plane face is never closed as a directed surface: the common edges are run through twice in the same direction, i.e. the curved face is seen from inside when the plane faces are seen from outside.
* C72: knot insertion in doubles is stable: the factors lie between 0 and 1 up to rounding, so errors add up and do not grow; but it is not bit-exact, so a value of the curve before and after add_knot may differ in the last bits.
* C73: `find_nearest_parameter` does not look at the sign of the second derivative. Where it is negative the Newton step goes uphill: for the curve (0,1,0), (0,0,0), (1,0,0) and the point (0,4,0) the first step leaves the nearest point, which was found by sampling, and `project` returns the farthest point of the curve.
* C74: projecting onto a circle or a cylinder and evaluating again is accurate even where the angle jumps from 2 pi to 0, because either value gives the same point; only the angle itself is discontinuous there.
* C75: the divisions of a patch are the only thing which controls how good its mesh is; the bound in terms of the control net tells how many are needed, and accumulating the step in `uniform_divide` costs nothing noticeable up to 2^20 divisions.
* C76: dropping all bounds of a face but the first in the conversion model went unnoticed by the theorems of C68, which are about faces with one loop; C76 is the missing statement.
* C77: the adaptive sampling looks at one point in the middle fifth of each piece. That is enough for arcs and parabolas, but a degree 1 B-spline with bumps outside the middle loses all its corners for every tolerance and every random number, and an S-shaped cubic loses its shape with a probability of about 7 % (height 1, tolerance 0.01).
* C78: the mesh of a cylinder patch is within r k^2/8 (k the angle of one column) and no nearer than r (1 - cos(k/2)): the division that a tolerance needs can be computed in advance.
* C79/C80/C82/C83: the evaluation keeps the shape of the control polygon: no more crossings of a plane, convex where the polygon is, no longer than the polygon. For rational curves this needs positive weights.
* C84: `parameter_division` halves the parameter range until one probe is close to the chord, with no bound on the depth. A knot that occurs degree + 1 times between different control points keeps one half far from its chord for ever, so `get_points` overflows the stack; nothing rejects such a knot vector.
* C85/C86: when the sampling returns, the number of points is bounded by the length of the control polygon over the tolerance, times the depth. In doubles the halving at a jump does not stop
  either: the middle of two neighbouring doubles is one of them, so one half is the whole range again.

## Testing the theorems

`tools/mutate.py` edits one definition of the model in a scratch copy outside the repository, recompiles everything that depends on it with failing proofs replaced by `Admitted`,
and reports the claims that then rest on an admitted item. `seeded/LOG.jsonl` has one line per attempt (written by `tools/mklog.py`). Edits that no theorem noticed led to new theorems;
these are named in the log. A failed theorem is one whose proof no longer compiles or rests on one that does not; that alone does not show its statement false.
For m176 to m178 only the theorems whose own proofs failed are listed.

## Trusted base

* Coq 8.16.1 kernel, including its virtual machine (`vm_compute` is used for concrete double computations). No kernel check is switched off; no axioms, parameters, functors or plugins of our own.
* The hand translation from Rust to Gallina. Each definition cites file and lines.
* Axioms, as reported by `Print Assumptions` for each theorem (generated by `tools/assumptions.py`). All are from the standard library: the axioms of the classical reals
  (`ClassicalDedekindReals.sig_forall_dec`, `sig_not_dec`), functional extensionality, and excluded middle (`Classical_Prop.classic`, through the standard library's trigonometry and its classical `tauto`).
  No library outside the standard library is used (no mathcomp, Flocq, Coquelicot). A tool that counts constants sealed behind the module types of the standard
  library's reals (`Rdefinitions.RbaseSymbolsImpl.*`, `RinvImpl.*` and the like) sees those too; `Print Assumptions` does not report them because they have definitions.

<!-- assumptions -->
416 theorems, 4 distinct axioms and primitives.

**Group 0** (107 theorems): closed under the global context (no axioms).

C02_bernstein_endpoints_f64, C08_span_index_never_panics_f64, C14_one_knot_value, C15_from_values_and_multiplicities, C15_new, C16_add_knot_inserts, C17_shrink, C17_spans, C17_range, C18_degree_truncated, C18_surface_without_points, C20_new, C21_uniform_divide_any_arithmetic, C21_uniform_divide_zero_panics, C22_division_shape, C23_division_endless_f64, C24_nearest_f64, C24_empty_gives_0, C24_grid_search, C26_newton_f64, C30_unreachable_reached_f64, C30_degenerate_nan_f64, C31_corner_refuted, C32_general_knots_refuted, C35_spin_panics_with_section, C36_sweep, C37_empty, C38_repeated_corner_lost, C39_terminates, C39_too_small, C39_panic_refuted, C40_distinct_corners_refuted, C41_structure, C41_bridge_crosses_refuted, C42_endless_refuted, C42_order64, C43_underflow_refuted, C45_loops, C45_no_loops, C45_clockwise_refuted, C46_orientation_refuted, C47_no_wrap, C47_empty_grid_panics, C47_undefined64, C48_samples, C48_total, C48_normals, C48_point_grid, C48_zero_division_panics, C49_reverses, C49_involution, C49_panics_iff, C50_roundtrip, C50_faces_unique, C50_ragged_panics, C50_boundary, C50_boundary_empty, C50_single, C51_header, C51_roundtrip, C51_ragged, C52_scale, C52_grammar, C52_bad_number_panics, C52_roundtrip, C52_normals_lost, C52_plane_points_lost, C53_selection, C53_covers, C53_empty_panics, C53_total, C53_degenerate, C53_closing_distinct_refuted, C54_curve, C54_segment, C54_polygon, C54_trim, C54_patch, C54_normals_refuted, C55_segment_points, C55_samples_on_curve, C56_drawing, C56_range_ignored, C56_only_segment_drawn_refuted, C56_one_path_per_curve, C57_flags_ignored, C57_weights_by_row, C57_negative_multiplicity, C58_near_f64, C58_grid_index, C61_newton_f64, C68_read, C68_shared_edge, C68_text, C69_load, C69_load_panics, C69_load_bspline, C69_written, C69_reversed_refuted, C69_counts_refuted, C70_turns_refuted, C70_plate_refuted, C70_crossing_refuted, C72_same_bits_refuted, C73_farthest_refuted, C76_read, C86_jump.

**Group 1** (1 theorems): `Classical_Prop.classic`.

C57_transfer.

**Group 2** (18 theorems): `ClassicalDedekindReals.sig_forall_dec`, `FunctionalExtensionality.functional_extensionality_dep`.

C06_span_unique, C18_new, C39_indices_and_count, C39_general_position, C42_structure, C42_edges_match, C45_structure, C46_bspline, C47_grid_triangulation, C51_single_precision, C62_bernstein_f64, C66_lines_refuted, C67_bezier, C69_border64, C69_joint64, C71_bspline, C71_cylinder, C75_refinement.

**Group 3** (214 theorems): `ClassicalDedekindReals.sig_forall_dec`, `ClassicalDedekindReals.sig_not_dec`, `FunctionalExtensionality.functional_extensionality_dep`.

C01_bezier_eval, C01_bezier_panics_iff_empty, C02_bezier_endpoints, C03_bezier_convex_hull, C03_bezier_weights, C03_bezier_translation, C04_bezier_derivative, C05_rational_bezier, C05_rational_convex_hull, C05_rational_scale_invariant, C06_basis_is_cox_de_boor, C07_basis_nonneg, C07_basis_local_support, C07_partition_of_unity, C08_span_index, C08_span_index_never_panics, C09_above_range, C09_below_range_all_zero, C09_below_range_degree0_panics, C09_symmetric_extrapolation_refuted, C09_below_range, C09_above_range_extrapolates, C10_bspline_derivative, C11_add_knot_keeps_curve, C11_add_knot_panics_iff, C11_insertion_sequences, C12_split, C12_split_at_start, C12_split_at_end, C13_clamp_start_clamped, C13_clamp_panics_iff, C14_piecewise_bezier, C15_bezier_knot, C15_uniform_knot, C15_uniform_clamped_surface, C16_add_knots_sorted, C16_position, C17_normalize, C18_get_point, C18_get_point_rational, C19_derivative_u, C19_derivative_v, C19_degree0_u, C19_degree0_v, C19_normals, C19_normals_of_partials, C20_bezier_surface, C20_rational_bezier_surface, C20_isoparametric, C20_boundary, C20_corners, C20_convex_hull, C21_uniform_divide_exact, C22_division_strictly_monotone, C22_probe_range, C23_division_terminates, C23_division_terminates_exists, C23_division_endless_R, C24_nearest_R, C25_segment_distance_3d, C25_segment_distance_2d, C25_symmetric_3d, C25_symmetric_2d, C26_exact_hit_is_kept, C26_in_range, C26_total, C26_bezier_project, C26_bspline_project, C27_line_nearest, C27_line_inverse, C27_line_nearest_iff_unit, C27_nonunit_refuted, C29_full_circle_refuted, C30_new, C30_get_point, C30_get_point_iff, C31_project_value, C31_in_range, C31_nearest, C31_roundtrip, C32_chord_length_curve, C32_project_roundtrip, C33_inverse, C33_nearest, C33_isometry, C34_ring_inverse, C35_rotation_laws, C36_sweep_translates, C37_ccw_iff_positive_area, C37_invariance, C38_vertex_convexity, C38_find_concave, C40_area_balance, C40_general_position, C40_convex, C40_simple, C41_merge, C42_bisector, C43_segments_intersect, C44_ear_test, C44_mesher_test, C44_mesher_accepts_all, C44_clockwise_never_inside, C45_convex, C45_facing, C45_vanishes, C45_nonconvex, C45_holes, C45_small_refuted, C45_simple, C46_ring_section, C48_uniform_parameters, C52_scale_distances, C52_scale_compose, C53_spacing, C53_straight_loop, C56_cubic_bspline, C58_clamp_in_range, C58_inv_or_zero, C58_range_at, C58_min_max, C58_near, C58_near_not_transitive, C58_near2, C59_tiling, C60_same_triangles, C60_simple, C60_same_orientation, C60_segments, C60_integers, C61_project_points, C61_sample_is_hit, C61_newton_system, C62_bezier_f64, C62_bezier_surface_f64, C62_basis_f64, C62_bspline_f64, C62_bspline_surface_f64, C62_rational_bezier_f64, C62_rational_bspline_f64, C62_rational_bezier_surface_f64, C62_rational_bspline_surface_f64, C63_same_triangles, C63_simple, C63_orientation, C63_segments, C63_point_in_triangle, C64_sound, C64_complete, C64_grid, C64_integers, C64_plus_refuted, C66_projection, C67_straight_edge, C67_line, C67_straight_loop, C67_line_between, C67_lines, C68_edge64, C68_random_free, C68_shared_edges_refuted, C69_border, C69_joint, C70_holes, C70_volume, C70_face64, C72_insertions64, C72_evaluated64, C72_split64, C72_piecewise64, C74_line64, C74_plane64, C74_exact_refuted, C77_quadratic, C77_parabola, C77_bspline_refuted, C77_cubic_refuted, C78_sweep, C79_bspline_crossings, C79_monotone, C80_rational_bspline, C80_rational_hull, C80_unit_weights, C80_scale_invariant, C80_rational_crossings, C80_arc, C80_full_circle, C81_bezier_patch_hull, C81_bspline_patch_hull, C81_revolution, C81_nurbs_revolution, C81_torus_patch, C81_sphere_patch, C81_full_torus, C82_convex, C82_two_crossings, C82_bspline, C82_rational_bspline, C83_bspline, C83_rational_bspline, C83_segment, C84_line, C84_bezier, C84_rational_bezier, C84_bspline, C84_rational_bspline, C84_jump, C84_bspline_jump, C84_broken, C85_points, C85_bspline, C85_rational_bspline, C86_jump_f64, C86_steps.

**Group 4** (76 theorems): `ClassicalDedekindReals.sig_forall_dec`, `ClassicalDedekindReals.sig_not_dec`, `Classical_Prop.classic`, `FunctionalExtensionality.functional_extensionality_dep`.

C28_on_circle, C28_periodic, C28_project_range, C28_project_inverse, C28_all_points, C28_project_nearest, C29_refine, C34_on_cylinder, C34_project_range, C34_project_inverse, C34_get_point_project, C34_project_nearest, C34_trim_apex, C34_trim_refuted, C35_spin_is_rotation, C36_umbrella, C36_umbrella_profile, C45_proper, C46_cylinder, C46_several_on_cylinder, C46_several_misplaced_refuted, C57_line_edge, C57_circle_edge, C57_full_circle_vanishes, C57_polyline_edge, C57_plane, C57_placement_defaults_panic, C57_complex_order_panics, C57_reversed_edge_refuted, C57_line_scaled_refuted, C57_bspline_surface, C57_rational_surface, C57_bspline_curve, C65_watertight, C65_tjunction_refuted, C66_face, C66_watertight, C67_face, C68_polyhedron, C68_doubles, C70_watertight64, C71_solid64, C71_edge_twice, C71_mixed_box_refuted, C71_wedge_refuted, C73_newton_converges, C73_newton_quadratic, C73_find_nearest, C73_bezier_project, C74_circle64, C74_cylinder64, C74_cylinder_round_trip64, C74_circle_round_trip64, C75_mesh_distance, C75_mesh_distance64, C76_solid, C77_circle, C77_count, C77_circle_sampled, C77_two_turns_refuted, C78_mesh_distance, C78_spin, C78_cylinder, C78_torus, C78_umbrella, C78_cylinder_patch, C78_cylinder_sharp, C79_bezier_crossings, C79_rational_bezier_crossings, C82_bezier, C82_rational_bezier, C83_bezier, C83_rational_bezier, C85_bezier_speed, C85_bezier, C85_rational_bezier.

<!-- end assumptions -->
