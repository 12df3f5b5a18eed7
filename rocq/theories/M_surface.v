(** Model of /repo/src/mesh.rs, /repo/src/face.rs, /repo/src/surface.rs and /repo/src/surface/*.rs. *)
From Verif Require Import Prelude Num M_vec M_utils M_curve M_polygon M_meshgen.

(** mesh.rs:4-9 *)
Record TriangleMesh (F : Type) := mkTM { m_vertices : list (vec3 F); m_normals : list (vec3 F); m_triangles : list N }.
Arguments mkTM {F} _ _ _. Arguments m_vertices {F} _. Arguments m_normals {F} _. Arguments m_triangles {F} _.

Section Mesh.
Context {F : Type} {NF : Num F}.
Local Open Scope num_scope.

(** mesh.rs:12-18 *)
Definition mesh_new : TriangleMesh F := mkTM [] [] [].
(** mesh.rs:20-22 *)
Definition triangle_count (m : TriangleMesh F) : nat := (length (m_triangles m) / 3)%nat.

(** mesh.rs:24-36; t[2] panics on a short chunk. *)
Definition reverse_winding_direction (m : TriangleMesh F) : outcome (TriangleMesh F) :=
  ts <- mapM (fun t => a <- idx t 2 ;; b <- idx t 1 ;; c <- idx t 0 ;; Ok [a; b; c]) (chunks3 (m_triangles m)) ;;
  Ok (mkTM (m_vertices m) (m_normals m) (concat ts)).

(** mesh.rs:90-106; only the size of the grid is used.  [rows - 1] panics on an empty grid. *)
Definition create_triangles (rows cols : nat) : outcome (list N) :=
  r1 <- usub rows 1 ;;
  c1 <- usub cols 1 ;;
  Ok (flat_map (fun row =>
        flat_map (fun col =>
          [ as_u32 (row * cols + col);
            as_u32 ((row + 1) * cols + col);
            as_u32 (row * cols + col + 1);
            as_u32 (row * cols + col + 1);
            as_u32 ((row + 1) * cols + col);
            as_u32 ((row + 1) * cols + col + 1) ])%nat
        (Prelude.range 0 c1))
      (Prelude.range 0 r1)).

(** surface.rs:69-90 EdgeLoop::to_polygon.  [rnd k] is the random oracle of the k-th edge. *)
Definition near_points (a b : vec3 F) : bool := near (distance_squared3 a b) f0.

Definition to_polygon (fuel : nat) (rnd : nat -> list bool -> F) (edges : list (CurveSegment F))
    : outcome (list (vec3 F)) :=
  pts <- mapM (fun '(k, e) => segment_get_points fuel (rnd k) e) (enumerate edges) ;;
  let vertices := dedup_by (fun a b => near_points a b) (concat pts) in
  first <- idx vertices 0 ;;
  n1 <- usub (length vertices) 1 ;;
  last <- idx vertices n1 ;;
  Ok (if near_points first last then removelast vertices else vertices).

(** surface.rs:6-18 trait Surface as the record of its methods.  trim receives, besides the
    boundary loops, the fuel and the random oracle of the model. *)
Record Surface := mkSurface {
  sf_get_point : F -> F -> outcome (vec3 F);
  sf_get_normals : list (vec2 F) -> outcome (list (vec3 F));
  sf_trim : nat -> (nat -> nat -> list bool -> F) -> list (list (CurveSegment F)) -> outcome (TriangleMesh F);
}.

(** surface.rs:10-17 default methods *)
Definition default_normals (_ : list (vec2 F)) : outcome (list (vec3 F)) := Ok [].
Definition default_trim (_ : nat) (_ : nat -> nat -> list bool -> F) (_ : list (list (CurveSegment F)))
  : outcome (TriangleMesh F) := Ok mesh_new.

(** surface.rs:22-30 impl Surface for Box<dyn Surface>: get_point and trim are forwarded,
    get_normals is not and so is the default. *)
Definition box_surface (s : Surface) : Surface :=
  {| sf_get_point := fun u v => sf_get_point s u v;
     sf_get_normals := default_normals;
     sf_trim := fun fuel rnd bounds => sf_trim s fuel rnd bounds |}.

(** surface.rs:34-40 *)
Record SurfacePatch := { sp_surface : Surface; sp_range : (F * F) * (F * F); sp_division : nat * nat }.

(** surface.rs:44-49 *)
Definition patch_get_points (p : SurfacePatch) (params : list (vec2 F)) : outcome (list (vec3 F)) :=
  mapM (fun q => sf_get_point (sp_surface p) (x2 q) (y2 q)) params.

(** surface.rs:51-66 *)
Definition patch_get_point_grid (p : SurfacePatch) : outcome (Grid (vec3 F)) :=
  let (u_range, v_range) := sp_range p in
  let (u_div, v_div) := sp_division p in
  us <- uniform_divide u_range u_div ;;
  vs <- uniform_divide v_range v_div ;;
  points <- mapM (fun '(u, v) => sf_get_point (sp_surface p) u v)
                 (flat_map (fun u => map (fun v => (u, v)) vs) us) ;;
  grid_from_vec points (v_div + 1).

(** face.rs:34-46 *)
Definition grid_neighbors (rows cols i : nat) : list (nat * nat) :=
  let row := (i / cols)%nat in
  let col := (i mod cols)%nat in
  (if (0 <? row)%nat then [((row - 1)%nat, col)] else []) ++
  (if (row <? rows - 1)%nat then [((row + 1)%nat, col)] else []) ++
  (if (0 <? col)%nat then [(row, (col - 1)%nat)] else []) ++
  (if (col <? cols - 1)%nat then [(row, (col + 1)%nat)] else []).

(** face.rs:47-54 find_map over the neighbours *)
Fixpoint first_defined (normals : list (vec3 F)) (cols : nat) (l : list (nat * nat)) : outcome (option (vec3 F)) :=
  match l with
  | [] => Ok None
  | (r, c) :: t =>
      n <- idx normals (r * cols + c) ;;
      if isnan3 n then first_defined normals cols t else Ok (Some n)
  end.

(** face.rs:30-59 *)
Definition repair_normals (rows cols : nat) (normals : list (vec3 F)) : outcome (list (vec3 F)) :=
  foldM (fun normals i =>
    n <- idx normals i ;;
    if isnan3 n then
      o <- first_defined normals cols (grid_neighbors rows cols i) ;;
      match o with Some n' => upd normals i n' | None => Ok normals end
    else Ok normals)
  normals (Prelude.range 0 (length normals)).

(** face.rs:15-66 *)
Definition patch_get_triangle_mesh (p : SurfacePatch) : outcome (TriangleMesh F) :=
  let (u_range, v_range) := sp_range p in
  let (u_div, v_div) := sp_division p in
  us <- uniform_divide u_range u_div ;;
  vs <- uniform_divide v_range v_div ;;
  let params := flat_map (fun u => map (fun v => V2 u v) vs) us in
  points <- patch_get_points p params ;;
  normals <- sf_get_normals (sp_surface p) params ;;
  grid <- grid_from_vec points (v_div + 1) ;;
  triangles <- create_triangles (g_rows grid) (g_cols grid) ;;
  normals <- repair_normals (g_rows grid) (g_cols grid) normals ;;
  Ok (mkTM (g_data grid) normals triangles).

(** surface.rs:92-97, face.rs:68-72 *)
Record TrimmedSurface := { ts_surface : Surface; ts_bounds : list (list (CurveSegment F)) }.
Definition trimmed_get_triangle_mesh (fuel : nat) (rnd : nat -> nat -> list bool -> F) (t : TrimmedSurface)
  : outcome (TriangleMesh F) := sf_trim (ts_surface t) fuel rnd (ts_bounds t).

(** plane.rs:26-40 = cylinder.rs:55-69 = surface/bspline.rs:210-224: the loop offsets and
    all boundary vertices; an empty polygon contributes no offset. *)
Definition collect_bounds (fuel : nat) (rnd : nat -> nat -> list bool -> F) (bounds : list (list (CurveSegment F)))
    : outcome (list nat * list (vec3 F)) :=
  polys <- mapM (fun '(k, b) => to_polygon fuel (rnd k) b) (enumerate bounds) ;;
  let polygons := fold_left (fun '(polygons, en) (poly : list (vec3 F)) =>
        if (0 <? length poly)%nat then (polygons ++ [(en + length poly)%nat], (en + length poly)%nat)
        else (polygons, en)) polys ([0%nat], 0%nat) in
  Ok (fst polygons, concat polys).

(** ** surface/plane.rs *)
Record Plane := { p_origin : vec3 F; p_normal : vec3 F; p_u_axis : vec3 F; p_v_axis : vec3 F }.
(** plane.rs:14-17 *)
Definition plane_project (s : Plane) (point : vec3 F) : vec2 F :=
  let vector := vsub point (p_origin s) in V2 (dot3 vector (p_u_axis s)) (dot3 vector (p_v_axis s)).
(** plane.rs:21-23 *)
Definition plane_get_point (s : Plane) (u v : F) : vec3 F :=
  vadd (vadd (p_origin s) (vmulr (p_u_axis s) u)) (vmulr (p_v_axis s) v).

(** plane.rs:54-66, the fan around the centroid; [n - 1] panics for n = 0. *)
Definition plane_fan (n : nat) : outcome (list N) :=
  n1 <- usub n 1 ;;
  Ok (flat_map (fun i => [as_u32 n; as_u32 i; (as_u32 i + 1)%N]) (Prelude.range 0 n1)
      ++ [as_u32 n; (as_u32 n - 1)%N; 0%N]).

(** plane.rs:41-90, after the boundary polygons have been collected. *)
Definition plane_trim_polygons (s : Plane) (polygons : list nat) (vertices : list (vec3 F))
    : outcome (TriangleMesh F) :=
  let points := map (plane_project s) vertices in
  if (length polygons =? 2)%nat then
    ' (vertex_indices, concave_points) <- compute_vertex_convexity points ;;
    if (length vertex_indices =? length concave_points)%nat then Ok mesh_new
    else if (length concave_points =? 0)%nat then
      let n := length vertices in
      let center := divs3 (sum3 vertices) (fofnat n) in
      triangles <- plane_fan n ;;
      Ok (mkTM (vertices ++ [center]) [] triangles)
    else
      triangles <- trianglate_polygon points vertex_indices concave_points ;;
      Ok (mkTM vertices [] triangles)
  else if (2 <? length polygons)%nat then
    vertex_indices <- merge_polygons points polygons ;;
    ' (vertex_indices, concave_points) <- find_concave_vertices points vertex_indices ;;
    triangles <- trianglate_polygon points vertex_indices concave_points ;;
    Ok (mkTM vertices [] triangles)
  else Ok mesh_new.

(** plane.rs:25-91 *)
Definition plane_trim (s : Plane) (fuel : nat) (rnd : nat -> nat -> list bool -> F)
    (bounds : list (list (CurveSegment F))) : outcome (TriangleMesh F) :=
  ' (polygons, vertices) <- collect_bounds fuel rnd bounds ;;
  plane_trim_polygons s polygons vertices.

Definition plane_surface (s : Plane) : Surface :=
  {| sf_get_point u v := Ok (plane_get_point s u v); sf_get_normals := default_normals; sf_trim := plane_trim s |}.

(** ** surface/sweep.rs:12-14 *)
Definition sweep_get_point (path section : Curve F) (p s : F) : outcome (vec3 F) :=
  a <- c_get_point path p ;; b <- c_get_point section s ;; Ok (vadd a b).
Definition sweep_surface (path section : Curve F) : Surface :=
  {| sf_get_point := sweep_get_point path section; sf_get_normals := default_normals; sf_trim := default_trim |}.

(** ** surface/bezier.rs *)
(** The double loop of tensor-product evaluation, surface/bezier.rs:23-28, 40-45 and
    surface/bspline.rs:178-183, 289-294. *)
Definition tensor_sum {P} {VP : VecOps F P} (grid : Grid P) (basis_u basis_v : list F) : outcome P :=
  foldM (fun point i =>
    foldM (fun point j =>
      p <- grid_idx grid i j ;;
      bu <- idx basis_u i ;;
      bv <- idx basis_v j ;;
      Ok (vadd point (vmull (bu * bv) p)))
    point (Prelude.range 0 (g_cols grid)))
  vzero (Prelude.range 0 (g_rows grid)).

(** surface/bezier.rs:11-14 *)
Definition bezier_surface_new {P} (g : Grid P) : outcome (Grid P) :=
  _ <- assert ((1 <? g_rows g) && (1 <? g_cols g))%nat ;; Ok g.
(** surface/bezier.rs:18-30 *)
Definition bezier_surface3_get_point (g : Grid (vec3 F)) (u v : F) : outcome (vec3 F) :=
  bu <- bernstein (g_rows g) u ;; bv <- bernstein (g_cols g) v ;; tensor_sum g bu bv.
(** surface/bezier.rs:35-47 *)
Definition bezier_surface4_get_point (g : Grid (vec4 F)) (u v : F) : outcome (vec3 F) :=
  bu <- bernstein (g_rows g) u ;; bv <- bernstein (g_cols g) v ;;
  p <- tensor_sum g bu bv ;; Ok (project_w p).
Definition bezier3_surface (g : Grid (vec3 F)) : Surface :=
  {| sf_get_point := bezier_surface3_get_point g; sf_get_normals := default_normals; sf_trim := default_trim |}.

(** ** surface/bspline.rs *)
Record BSplineSurface (P : Type) := mkBSS {
  bss_cps : Grid P; bss_knots : list F * list F; bss_degree : nat * nat (* u8 *) }.
Arguments mkBSS {P} _ _ _. Arguments bss_cps {P} _. Arguments bss_knots {P} _. Arguments bss_degree {P} _.

(** surface/bspline.rs:15-28 *)
Definition bss_new {P} (g : Grid P) (knots : list F * list F) (degree : nat * nat) : outcome (BSplineSurface P) :=
  let (u_deg, v_deg) := degree in
  _ <- assert (g_rows g + u_deg + 1 =? length (fst knots))%nat ;;
  _ <- assert (g_cols g + v_deg + 1 =? length (snd knots))%nat ;;
  Ok (mkBSS g knots (as_u8 u_deg, as_u8 v_deg)).

(** surface/bspline.rs:30-41 *)
Definition bss_uniform_clamped {P} (g : Grid P) (degree : nat * nat) : outcome (BSplineSurface P) :=
  let (u_deg, v_deg) := degree in
  _ <- assert ((u_deg <? g_rows g) && (v_deg <? g_cols g))%nat ;;
  Ok (mkBSS g (uniform_knot u_deg (g_rows g - u_deg), uniform_knot v_deg (g_cols g - v_deg))
            (as_u8 u_deg, as_u8 v_deg)).

(** surface/bspline.rs:48-76 *)
Definition bss_derivative_u {P} {VP : VecOps F P} (s : BSplineSurface P) : outcome (BSplineSurface P) :=
  let (p, q) := bss_degree s in
  if (p =? 0)%nat then g <- grid_from_vec (repeat vzero 4) 2 ;; bss_uniform_clamped g (1, 1)%nat
  else
    let (u_knots, v_knots) := bss_knots s in
    u_knots <- shrink u_knots ;;
    u_spans <- spans u_knots p ;;
    let fp := fofnat p in
    let n := g_rows (bss_cps s) in
    let m := g_cols (bss_cps s) in
    n1 <- usub n 1 ;;
    points <- mapM (fun '(i, j) =>
                a <- grid_idx (bss_cps s) (i + 1) j ;;
                b <- grid_idx (bss_cps s) i j ;;
                span <- idx u_spans i ;;
                Ok (vmulr (vmulr (vsub a b) fp) (inv_or_zero span)))
              (flat_map (fun i => map (fun j => (i, j)) (Prelude.range 0 m)) (Prelude.range 0 n1)) ;;
    g <- grid_from_vec points m ;;
    Ok (mkBSS g (u_knots, v_knots) (p - 1, q)%nat).

(** surface/bspline.rs:78-106 *)
Definition bss_derivative_v {P} {VP : VecOps F P} (s : BSplineSurface P) : outcome (BSplineSurface P) :=
  let (p, q) := bss_degree s in
  if (q =? 0)%nat then g <- grid_from_vec (repeat vzero 4) 2 ;; bss_uniform_clamped g (1, 1)%nat
  else
    let (u_knots, v_knots) := bss_knots s in
    v_knots <- shrink v_knots ;;
    v_spans <- spans v_knots q ;;
    let fq := fofnat q in
    let n := g_rows (bss_cps s) in
    let m := g_cols (bss_cps s) in
    m1 <- usub m 1 ;;
    points <- mapM (fun '(i, j) =>
                a <- grid_idx (bss_cps s) i (j + 1) ;;
                b <- grid_idx (bss_cps s) i j ;;
                span <- idx v_spans j ;;
                Ok (vmulr (vmulr (vsub a b) fq) (inv_or_zero span)))
              (flat_map (fun i => map (fun j => (i, j)) (Prelude.range 0 m1)) (Prelude.range 0 n)) ;;
    g <- grid_from_vec points m1 ;;
    Ok (mkBSS g (u_knots, v_knots) (p, q - 1)%nat).

(** surface/bspline.rs:171-185 *)
Definition bss3_get_point (s : BSplineSurface (vec3 F)) (u v : F) : outcome (vec3 F) :=
  bu <- bspline_basis (fst (bss_knots s)) (fst (bss_degree s)) u ;;
  bv <- bspline_basis (snd (bss_knots s)) (snd (bss_degree s)) v ;;
  tensor_sum (bss_cps s) bu bv.
(** surface/bspline.rs:282-296 *)
Definition bss4_get_point (s : BSplineSurface (vec4 F)) (u v : F) : outcome (vec3 F) :=
  bu <- bspline_basis (fst (bss_knots s)) (fst (bss_degree s)) u ;;
  bv <- bspline_basis (snd (bss_knots s)) (snd (bss_degree s)) v ;;
  p <- tensor_sum (bss_cps s) bu bv ;; Ok (project_w p).

(** surface/bspline.rs:187-200 *)
Definition bss3_get_normals (s : BSplineSurface (vec3 F)) (params : list (vec2 F)) : outcome (list (vec3 F)) :=
  der_u <- bss_derivative_u s ;;
  der_v <- bss_derivative_v s ;;
  mapM (fun p => a <- bss3_get_point der_u (x2 p) (y2 p) ;;
                 b <- bss3_get_point der_v (x2 p) (y2 p) ;;
                 Ok (normalize3 (cross3 a b))) params.

(** surface/bspline.rs:137-163, the Newton loop for one point. *)
Fixpoint bss_newton (trials : nat) (s du dv duu duv dvu dvv : F -> F -> outcome (vec3 F))
    (u_range v_range : F * F) (point : vec3 F) (u v : F) : outcome (vec2 F) :=
  match trials with
  | O => Ok (V2 u v)
  | S trials' =>
      c <- s u v ;;
      let r := vsub c point in
      if near (length_squared3 r) f0 then Ok (V2 u v) else
      su <- du u v ;;
      sv <- dv u v ;;
      if near (dot3 su r) f0 && near (dot3 sv r) f0 then Ok (V2 u v) else
      suu <- duu u v ;;
      suv <- duv u v ;;
      svu <- dvu u v ;;
      svv <- dvv u v ;;
      let fu := length_squared3 su + dot3 r suu in
      let gu := dot3 su sv + dot3 r svu in
      let fv := dot3 su sv + dot3 r suv in
      let gv := length_squared3 sv + dot3 r svv in
      let k := V2 (- dot3 r su) (- dot3 r sv) in
      let delta := mat2_inverse_mul fu gu fv gv k in
      u' <- clamp_in_range (u + x2 delta) u_range ;;
      v' <- clamp_in_range (v + y2 delta) v_range ;;
      bss_newton trials' s du dv duu duv dvu dvv u_range v_range point u' v'
  end.

(** surface/bspline.rs:110-166 *)
Definition bss_project_points (s : BSplineSurface (vec3 F)) (points : list (vec3 F)) : outcome (list (vec2 F)) :=
  der_u <- bss_derivative_u s ;;
  der_v <- bss_derivative_v s ;;
  der_uu <- bss_derivative_u der_u ;;
  der_uv <- bss_derivative_v der_u ;;
  der_vu <- bss_derivative_u der_v ;;
  der_vv <- bss_derivative_v der_v ;;
  let n := g_rows (bss_cps s) in
  let m := g_cols (bss_cps s) in
  u_range <- knot_range (fst (bss_knots s)) ;;
  v_range <- knot_range (snd (bss_knots s)) ;;
  us <- uniform_divide u_range (n * 4) ;;
  vs <- uniform_divide v_range (m * 4) ;;
  grid_pts <- mapM (fun '(u, v) => bss3_get_point s u v) (flat_map (fun u => map (fun v => (u, v)) vs) us) ;;
  vertices <- grid_from_vec grid_pts (m * 4 + 1) ;;
  mapM (fun point =>
    ' (i, j) <- find_nearest_point_in_grid vertices point ;;
    u <- idx us i ;;
    v <- idx vs j ;;
    bss_newton 20 (bss3_get_point s) (bss3_get_point der_u) (bss3_get_point der_v)
      (bss3_get_point der_uu) (bss3_get_point der_uv) (bss3_get_point der_vu) (bss3_get_point der_vv)
      u_range v_range point u v) points.

(** cylinder.rs:80-126 = surface/bspline.rs:229-276, the common tail of trimming with the mesher:
    [gen1] makes a vertex from a mesher point for a single loop, [genn] for several loops. *)
Definition trim_with_mesher (fuel : nat) (gen1 genn : vec2 F -> outcome (vec3 F))
    (polygons : list nat) (vertices : list (vec3 F)) (points : list (vec2 F)) : outcome (TriangleMesh F) :=
  let count := length points in
  if (length polygons =? 2)%nat then
    ccw <- is_polygon_counter_clockwise points ;;
    if ccw : bool then
      ' (points, triangles) <- generate_triangular_mesh fuel points polygons ;;
      extra <- mapM gen1 (skipn count points) ;;
      reverse_winding_direction (mkTM (vertices ++ extra) [] triangles)
    else
      ' (points, triangles) <- generate_triangular_mesh fuel (rev points) polygons ;;
      extra <- mapM gen1 (skipn count points) ;;
      Ok (mkTM (rev vertices ++ extra) [] triangles)
  else if (2 <? length polygons)%nat then
    ' (points, triangles) <- generate_triangular_mesh fuel points polygons ;;
    extra <- mapM genn (skipn count points) ;;
    Ok (mkTM (vertices ++ extra) [] triangles)
  else Ok mesh_new.

(** surface/bspline.rs:202-277.  save_bound_as_obj(.., "bound.obj").unwrap() writes a file and is
    assumed to succeed. *)
Definition bss_trim (s : BSplineSurface (vec3 F)) (fuel : nat) (rnd : nat -> nat -> list bool -> F)
    (bounds : list (list (CurveSegment F))) : outcome (TriangleMesh F) :=
  ' (polygons, vertices) <- collect_bounds fuel rnd bounds ;;
  points <- bss_project_points s vertices ;;
  let gen p := bss3_get_point s (x2 p) (y2 p) in
  trim_with_mesher fuel gen gen polygons vertices points.

Definition bss3_surface (s : BSplineSurface (vec3 F)) : Surface :=
  {| sf_get_point := bss3_get_point s; sf_get_normals := bss3_get_normals s; sf_trim := bss_trim s |}.
Definition bss4_surface (s : BSplineSurface (vec4 F)) : Surface :=
  {| sf_get_point := bss4_get_point s; sf_get_normals := default_normals; sf_trim := default_trim |}.

End Mesh.
Arguments Surface : clear implicits.
Arguments SurfacePatch : clear implicits.
Arguments TrimmedSurface : clear implicits.
Arguments Plane : clear implicits.
Arguments BSplineSurface : clear implicits.
Arguments mkBSS {F P} _ _ _. Arguments bss_cps {F P} _. Arguments bss_knots {F P} _. Arguments bss_degree {F P} _.

Section Round.
Context {F : Type} {NF : Num F} {TF : Trig F}.
Local Open Scope num_scope.

(** ** surface/cylinder.rs *)
Record Cylinder := { cy_origin : vec3 F; cy_axis : vec3 F; cy_ref_dir : vec3 F; cy_radius : F }.

(** cylinder.rs:15-27 *)
Definition cylinder_project (c : Cylinder) (point : vec3 F) : vec2 F :=
  let vector := vsub point (cy_origin c) in
  let length := dot3 vector (cy_axis c) in
  let x := dot3 vector (cy_ref_dir c) in
  let y := dot3 vector (cross3 (cy_axis c) (cy_ref_dir c)) in
  let angle := fatan2 y x in
  let angle := if angle >=? f0 then angle else angle + ftau in
  V2 length angle.

(** cylinder.rs:30-37 *)
Definition project_to_ring (c : Cylinder) (point : vec3 F) (d : F) : vec2 F :=
  let vector := vsub point (cy_origin c) in
  let z := dot3 vector (cy_axis c) in
  let ratio := d / (d - z) in
  let x := dot3 vector (cy_ref_dir c) * ratio in
  let y := dot3 vector (cross3 (cy_axis c) (cy_ref_dir c)) * ratio in
  V2 x y.

(** cylinder.rs:39-45 *)
Definition generate_point_from_ring (c : Cylinder) (point : vec2 F) (d : F) : vec3 F :=
  let ratio := cy_radius c / length2 point in
  let x := vmulr (cy_ref_dir c) (x2 point * ratio) in
  let y := vmulr (cross3 (cy_axis c) (cy_ref_dir c)) (y2 point * ratio) in
  let z := vmulr (cy_axis c) (d * (f1 - ratio)) in
  vadd (vadd (vadd (cy_origin c) x) y) z.

(** cylinder.rs:49-52 *)
Definition cylinder_get_point (c : Cylinder) (length angle : F) : vec3 F :=
  let rotation := quat_from_axis_angle (cy_axis c) angle in
  vadd (vadd (cy_origin c) (vmulr (cy_axis c) length))
       (vmulr (quat_mul_vec3 rotation (cy_ref_dir c)) (cy_radius c)).

(** cylinder.rs:70-126, after the boundary polygons have been collected. *)
Definition cylinder_trim_polygons (c : Cylinder) (fuel : nat) (polygons : list nat) (vertices : list (vec3 F))
    : outcome (TriangleMesh F) :=
  let points := map (cylinder_project c) vertices in
  let '(min_z, max_z) := get_min_max_by_key points (fun p => x2 p) in
  let d := (max_z - min_z) * f2 in
  let points := map (fun v => project_to_ring c v d) vertices in
  trim_with_mesher fuel (fun p => Ok (generate_point_from_ring c p d))
                        (fun p => Ok (cylinder_get_point c (x2 p) (y2 p)))
                        polygons vertices points.

(** cylinder.rs:54-127 *)
Definition cylinder_trim (c : Cylinder) (fuel : nat) (rnd : nat -> nat -> list bool -> F)
    (bounds : list (list (CurveSegment F))) : outcome (TriangleMesh F) :=
  ' (polygons, vertices) <- collect_bounds fuel rnd bounds ;;
  cylinder_trim_polygons c fuel polygons vertices.

Definition cylinder_surface (c : Cylinder) : Surface F :=
  {| sf_get_point l a := Ok (cylinder_get_point c l a); sf_get_normals := default_normals; sf_trim := cylinder_trim c |}.

(** ** surface/spin.rs:16-22 *)
Definition spin_get_point (origin axis : vec3 F) (section : Curve F) (param angle : F) : outcome (vec3 F) :=
  s <- c_get_point section param ;;
  let vector := vsub s origin in
  let parallel_component := vmulr axis (dot3 vector axis) in
  let perpendicular_component := vsub vector parallel_component in
  let rotation := quat_from_axis_angle axis angle in
  Ok (vadd (vadd origin parallel_component) (quat_mul_vec3 rotation perpendicular_component)).
Definition spin_surface (origin axis : vec3 F) (section : Curve F) : Surface F :=
  {| sf_get_point := spin_get_point origin axis section; sf_get_normals := default_normals; sf_trim := default_trim |}.

(** ** surface/umbrella.rs:15-24 *)
Definition umbrella_get_point (radius theta phi : F) : vec3 F :=
  let r := radius / fpi in
  let sin_t := fsin theta in let cos_t := fcos theta in
  let sn := fsin phi in let cs := fcos phi in
  V3 (r * (theta - sin_t) * cs) (r * (theta - sin_t) * sn) (r * (f1 + cos_t)).
Definition umbrella_surface (radius : F) : Surface F :=
  {| sf_get_point t p := Ok (umbrella_get_point radius t p); sf_get_normals := default_normals; sf_trim := default_trim |}.
End Round.
Arguments Cylinder : clear implicits.
