-Q theories Verif
theories/Prelude.v
theories/Num.v
theories/M_vec.v
theories/M_utils.v
theories/M_curve.v
theories/M_polygon.v
theories/M_meshgen.v
theories/M_surface.v
theories/M_files.v
theories/M_step.v
theories/L_base.v
theories/L_bezier.v
theories/L_vec.v
theories/Props_bezier.v
theories/L_cdb.v
theories/L_insert.v
theories/L_knot.v
theories/Props_knot.v
theories/L_bspline.v
theories/L_split.v
theories/Props_bspline.v
theories/Props_split.v
theories/L_geom.v
theories/L_f64.v
theories/Props_utils.v
theories/L_surface.v
theories/Props_surface.v
theories/L_round.v
theories/Props_round.v
theories/Props_polyline.v
theories/L_cycle.v
theories/L_polygon.v
theories/Props_polygon.v
theories/Props_ears.v
theories/L_simple.v
theories/L_sides.v
theories/L_twoears.v
theories/L_earexist.v
theories/L_clip.v
theories/Props_simple.v
theories/L_drop.v
theories/Props_straight.v
theories/L_convex.v
theories/Props_merge.v
theories/Props_segments.v
theories/Props_mesh.v
theories/Props_gridmesh.v
theories/Props_sproject.v
theories/Props_obj.v
theories/Props_obj2.v
theories/L_float.v
theories/Props_stl.v
theories/L_grid.v
theories/Props_grid.v
theories/Props_points.v
theories/Props_loops.v
theories/Props_svg.v
theories/Props_step.v
theories/Props_step2.v
theories/Props_trim.v
theories/Props_trim3.v
theories/Props_trim2.v
theories/L_err.v
theories/L_bserr.v
theories/Props_accuracy.v
theories/Props_robust.v
theories/Props_lattice.v
theories/Props_trim4.v
theories/Props_solid.v
theories/Props_plane64.v
theories/Props_edges64.v
theories/M_convert.v
theories/Props_convert.v
theories/Props_convert2.v
theories/M_teapot.v
theories/Props_teapot.v
theories/Props_teapot2.v
theories/Props_teapot3.v
theories/Props_teapot4.v
theories/Props_tighten.v
theories/L_weak.v
theories/L_wiggle.v
theories/L_bridges.v
theories/Props_holes.v
theories/Props_holes64.v
theories/Props_mixed.v
theories/Props_insert64.v
theories/Props_newton.v
theories/Props_analytic64.v
theories/Props_meshdist.v
theories/Props_convert3.v
theories/Props_sampling.v
theories/Props_meshdist2.v
theories/Props_variation.v
theories/Props_rational.v
theories/Props_rational2.v
theories/Props_convex.v
theories/Props_length.v
theories/Props_returns.v
theories/Props_effort.v
theories/Props_jump64.v
