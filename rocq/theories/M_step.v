(** Model of /repo/src/model/step_reader.rs over an abstract entity table.

    Parsing of the STEP file itself is done by the dependency iso-10303; the model starts from
    its result: a table from entity ids to typed entities with the attributes the code reads.
    [get_entity::<T>] returns the entity when it has exactly the type T. *)
From Verif Require Import Prelude Num M_vec M_utils M_curve M_surface M_files.

Section Step.
Context {F : Type} {NF : Num F} {TF : Trig F}.
Local Open Scope num_scope.

Inductive entity :=
| ECartesianPoint (coordinates : list F)
| EDirection (ratios : list F)
| EVector (orientation : nat) (magnitude : F)
| EVertexPoint (geometry : nat)
| EAxis1Placement (location : nat) (axis : option nat)
| EAxis2Placement3d (location : nat) (axis ref_direction : option nat)
| ELine (pnt dir : nat)
| ECircle (position : nat) (radius : F)
| EPolyline (points : list nat)
| EBSplineCurveWithKnots (degree : Z) (cps : list nat) (mults : list Z) (knots : list F)
| EEdgeCurve (edge_start edge_end geometry : nat) (same_sense : bool)
| EOrientedEdge (element : nat) (orientation : bool)
| EEdgeLoop (edges : list nat)
| EFaceBound (bound : nat) (orientation : bool)
| EAdvancedFace (bounds : list nat) (geometry : nat) (same_sense : bool)
| EPlane (position : nat)
| ECylindricalSurface (position : nat) (radius : F)
| EBezierSurface (cps : list (list nat))
| EBSplineSurface (u_degree v_degree : Z) (cps : list (list nat))
| ERationalBSplineSurface (u_degree v_degree : Z) (cps : list (list nat)) (weights : list (list F))
| EBSplineSurfaceWithKnots (u_degree v_degree : Z) (cps : list (list nat))
    (u_mults v_mults : list Z) (u_knots v_knots : list F)
| EComplex (parts : list entity)            (* Vec<Box<dyn Any>> *)
| ESurfaceOfRevolution (swept axis_position : nat)
| ECompositeCurve (segments : list nat)
| ECompositeCurveSegment (parent : nat)
| ETrimmedCurve (basis : nat) (trim1 trim2 : list (option F)) (sense : bool)
    (* a trimming element is Some v for ParameterValue(v), None for a point *)
| EOther.

(** The reader: entities in file order. *)
Definition table := list (nat * entity).
Definition get (t : table) (r : nat) : entity :=
  match find (fun p => (fst p =? r)%nat) t with Some (_, e) => e | None => EOther end.

(** integer casts: i64 as usize, i64 as u8 *)
Definition z_usize (z : Z) : nat := Z.to_nat (z mod 2 ^ 64)%Z.
Definition z_u8 (z : Z) : nat := Z.to_nat (z mod 256)%Z.

(** step_reader.rs:10-16 *)
Definition vec3_of (c : list F) : outcome (vec3 F) :=
  x <- idx c 0 ;; y <- idx c 1 ;; z <- idx c 2 ;; Ok (V3 x y z).
(** step_reader.rs:18-26 *)
Definition vec4_of (c : list F) (w : F) : outcome (vec4 F) :=
  x <- idx c 0 ;; y <- idx c 1 ;; z <- idx c 2 ;; Ok (V4 (x * w) (y * w) (z * w) w).

(** get_entity::<CartesianPoint>(r).map(|p| vec3(p.coordinates())).unwrap() *)
Definition cartesian (t : table) (r : nat) : outcome (vec3 F) :=
  match get t r with ECartesianPoint c => vec3_of c | _ => Panic end.
(** get_entity::<Direction>(r).map(|d| vec3(d.direction_ratios())) *)
Definition direction (t : table) (r : nat) : outcome (option (vec3 F)) :=
  match get t r with EDirection c => v <- vec3_of c ;; Ok (Some v) | _ => Ok None end.

(** step_reader.rs:28-34 *)
Definition vertex_point (t : table) (r : nat) : outcome (vec3 F) :=
  match get t r with EVertexPoint g => cartesian t g | _ => Panic end.

(** step_reader.rs:36-46 *)
Definition axis1_placement (t : table) (r : nat) : outcome (vec3 F * option (vec3 F)) :=
  match get t r with
  | EAxis1Placement loc axis =>
      l <- cartesian t loc ;; a <- unwrap axis ;; d <- direction t a ;; Ok (l, d)
  | _ => Panic
  end.
(** step_reader.rs:48-66 *)
Definition axis2_placement_3d (t : table) (r : nat) : outcome (vec3 F * option (vec3 F) * option (vec3 F)) :=
  match get t r with
  | EAxis2Placement3d loc axis ref =>
      l <- cartesian t loc ;;
      a <- unwrap axis ;; z <- direction t a ;;
      b <- unwrap ref ;; x <- direction t b ;;
      Ok (l, z, x)
  | _ => Panic
  end.

(** step_reader.rs:68-78 *)
Definition extract_points (t : table) (l : list nat) : outcome (list (vec3 F)) := mapM (cartesian t) l.
(** step_reader.rs:80-96 *)
Definition extract_control_points (t : table) (l : list (list nat)) : outcome (list (vec3 F)) :=
  mapM (cartesian t) (concat l).
(** step_reader.rs:98-116; both zips stop at the shorter list. *)
Definition extract_weighted_control_points (t : table) (l : list (list nat)) (w : list (list F))
    : outcome (list (vec4 F)) :=
  mapM (fun '(p, weight) => match get t p with ECartesianPoint c => vec4_of c weight | _ => Panic end)
       (flat_map (fun '(points, weights) => combine points weights) (combine l w)).
(** step_reader.rs:118-124 *)
Definition extract_knot_vector (knots : list F) (mults : list Z) : list F :=
  from_values_and_multiplicities knots (map z_usize mults).

(** step_reader.rs:126-165.  A circle is a [DOther] for the purposes of downcasting. *)
Definition extract_curve (t : table) (r : nat) : outcome (option (DynCurve F)) :=
  match get t r with
  | ELine pnt dir =>
      o <- cartesian t pnt ;;
      match get t dir with
      | EVector orientation _ =>
          d <- direction t orientation ;;
          d <- unwrap d ;;
          Ok (Some (DLine {| l_origin := o; l_direction := d |}))
      | _ => Panic
      end
  | ECircle position radius =>
      ' (center, axis, ref_dir) <- axis2_placement_3d t position ;;
      axis <- unwrap axis ;;
      ref_dir <- unwrap ref_dir ;;
      Ok (Some (DOther (circle_curve {| ci_center := center; ci_radius := radius; ci_axis := axis;
                                        ci_ref_dir := normalize3 ref_dir |})))
  | EPolyline points =>
      ps <- extract_points t points ;;
      pl <- polyline_new ps ;;
      Ok (Some (DPolyline pl))
  | EBSplineCurveWithKnots degree cps mults knots =>
      cps <- extract_points t cps ;;
      Ok (Some (DBSpline3 (mkBSpline cps (extract_knot_vector knots mults) (z_u8 degree))))
  | _ => Ok None
  end.

(** step_reader.rs:167-189 *)
Definition extract_edge_curve (t : table) (r : nat) : outcome (option (DynSegment F)) :=
  match get t r with
  | EEdgeCurve edge_start edge_end geometry same_sense =>
      c <- extract_curve t geometry ;;
      match c with
      | None => Ok None
      | Some c =>
          start <- vertex_point t edge_start ;;
          en <- vertex_point t edge_end ;;
          u0 <- c_project (dyn_curve c) start ;;
          u1 <- c_project (dyn_curve c) en ;;
          Ok (Some {| d_curve := c; d_range := c_refine (dyn_curve c) (u0, u1) same_sense;
                      d_tolerance := flit 1 100; d_division := 16 |})
      end
  | _ => Ok None
  end.

(** The state of step_reader.rs:317-321. *)
Record complex_state := {
  cx_cps : option (list (list nat));
  cx_degree : option (nat * nat);
  cx_knots : option (list F * list F);
  cx_weighted : option (list (vec4 F)) }.
(** step_reader.rs:322-347 *)
Definition complex_step (t : table) (st : complex_state) (e : entity) : outcome complex_state :=
  match e with
  | EBSplineSurface ud vd cps =>
      Ok {| cx_cps := Some cps; cx_degree := Some (z_usize ud, z_usize vd);
            cx_knots := cx_knots st; cx_weighted := cx_weighted st |}
  | EBSplineSurfaceWithKnots _ _ _ um vm uk vk =>
      Ok {| cx_cps := cx_cps st; cx_degree := cx_degree st;
            cx_knots := Some (extract_knot_vector uk um, extract_knot_vector vk vm);
            cx_weighted := cx_weighted st |}
  | ERationalBSplineSurface _ _ _ weights =>
      cps <- unwrap (cx_cps st) ;;
      w <- extract_weighted_control_points t cps weights ;;
      Ok {| cx_cps := cx_cps st; cx_degree := cx_degree st; cx_knots := cx_knots st; cx_weighted := Some w |}
  | _ => Ok st
  end.

Definition first_len (l : list (list nat)) : outcome nat := r <- idx l 0 ;; Ok (length r).

(** step_reader.rs:191-382.  The returned SurfacePatch is only used through its surface
    (step_reader.rs:456), so the model returns the surface. *)
Definition extract_surface (t : table) (geometry : nat) (same_sense : bool) : outcome (option (Surface F)) :=
  match get t geometry with
  | EPlane position =>
      ' (origin, z, x) <- axis2_placement_3d t position ;;
      z <- unwrap z ;;
      let normal := if same_sense : bool then z else neg3 z in
      u_axis <- unwrap x ;;
      Ok (Some (plane_surface {| p_origin := origin; p_normal := normal; p_u_axis := u_axis;
                                 p_v_axis := cross3 normal u_axis |}))
  | ECylindricalSurface position radius =>
      ' (origin, axis, ref_dir) <- axis2_placement_3d t position ;;
      axis <- unwrap axis ;;
      ref_dir <- unwrap ref_dir ;;
      Ok (Some (cylinder_surface {| cy_origin := origin; cy_axis := axis;
                                    cy_ref_dir := normalize3 ref_dir; cy_radius := radius |}))
  | EBezierSurface l =>
      cps <- extract_control_points t l ;;
      cols <- first_len l ;;
      g <- grid_from_vec cps cols ;;
      g <- bezier_surface_new g ;;
      Ok (Some (bezier3_surface g))
  | EBSplineSurface ud vd l =>
      cps <- extract_control_points t l ;;
      cols <- first_len l ;;
      g <- grid_from_vec cps cols ;;
      s <- bss_uniform_clamped g (z_usize ud, z_usize vd) ;;
      Ok (Some (bss3_surface s))
  | ERationalBSplineSurface ud vd l w =>
      cps <- extract_weighted_control_points t l w ;;
      cols <- first_len l ;;
      g <- grid_from_vec cps cols ;;
      s <- bss_uniform_clamped g (z_usize ud, z_usize vd) ;;
      Ok (Some (bss4_surface s))
  | EBSplineSurfaceWithKnots ud vd l um vm uk vk =>
      cps <- extract_control_points t l ;;
      cols <- first_len l ;;
      g <- grid_from_vec cps cols ;;
      s <- bss_new g (extract_knot_vector uk um, extract_knot_vector vk vm) (z_usize ud, z_usize vd) ;;
      Ok (Some (bss3_surface s))
  | EComplex parts =>
      st <- foldM (complex_step t) {| cx_cps := None; cx_degree := None; cx_knots := None; cx_weighted := None |} parts ;;
      match cx_weighted st, cx_knots st with
      | Some w, Some knots =>
          l <- unwrap (cx_cps st) ;;
          cols <- first_len l ;;
          g <- grid_from_vec w cols ;;
          d <- unwrap (cx_degree st) ;;
          s <- bss_new g knots d ;;
          Ok (Some (bss4_surface s))
      | _, _ => Ok None
      end
  | ESurfaceOfRevolution swept axis_position =>
      c <- extract_curve t swept ;;
      match c with
      | None => Ok None
      | Some section =>
          ' (origin, axis) <- axis1_placement t axis_position ;;
          axis <- unwrap axis ;;
          Ok (Some (spin_surface origin axis (dyn_curve section)))
      end
  | _ => Ok None
  end.

(** step_reader.rs:392-417 *)
Definition trim_value (l : list (option F)) : outcome F :=
  x <- idx l 0 ;; unwrap x.
Definition extract_curve_segment (t : table) (r : nat) : outcome (option (DynSegment F)) :=
  match get t r with
  | ECompositeCurveSegment parent =>
      match get t parent with
      | ETrimmedCurve basis trim1 trim2 sense =>
          c <- extract_curve t basis ;;
          match c with
          | None => Ok None
          | Some c =>
              p1 <- trim_value trim1 ;;
              p2 <- trim_value trim2 ;;
              Ok (Some {| d_curve := c; d_range := c_refine (dyn_curve c) (p1, p2) sense;
                          d_tolerance := flit 1 100; d_division := 16 |})
          end
      | _ => Ok None
      end
  | _ => Ok None
  end.

Definition filter_mapM {A B} (f : A -> outcome (option B)) (l : list A) : outcome (list B) :=
  r <- mapM f l ;; Ok (flat_map (fun o => match o with Some x => [x] | None => [] end) r).

(** step_reader.rs:445-449 *)
Definition extract_oriented_edge (t : table) (r : nat) : outcome (option (DynSegment F)) :=
  match get t r with EOrientedEdge element _ => extract_edge_curve t element | _ => Ok None end.

(** step_reader.rs:439-454 *)
Definition extract_bound (t : table) (r : nat) : outcome (option (list (DynSegment F))) :=
  match get t r with
  | EFaceBound bound _ =>
      match get t bound with
      | EEdgeLoop edges => l <- filter_mapM (extract_oriented_edge t) edges ;; Ok (Some l)
      | _ => Ok None
      end
  | _ => Ok None
  end.

Record StepFace := { stf_surface : Surface F; stf_bounds : list (list (DynSegment F)) }.

(** step_reader.rs:436-464 *)
Definition extract_face (t : table) (e : entity) : outcome (option StepFace) :=
  match e with
  | EAdvancedFace bounds geometry same_sense =>
      s <- extract_surface t geometry same_sense ;;
      match s with
      | None => Ok None
      | Some s => bs <- filter_mapM (extract_bound t) bounds ;; Ok (Some {| stf_surface := s; stf_bounds := bs |})
      end
  | _ => Ok None
  end.

(** step_reader.rs:428-435 *)
Definition extract_polycurve (t : table) (e : entity) : outcome (option (list (DynSegment F))) :=
  match e with
  | ECompositeCurve segments => l <- filter_mapM (extract_curve_segment t) segments ;; Ok (Some l)
  | _ => Ok None
  end.

(** step_reader.rs:423-466: (faces, curves). *)
Definition read_model (t : table) : outcome (list StepFace * list (list (DynSegment F))) :=
  curves <- filter_mapM (fun p => extract_polycurve t (snd p)) t ;;
  faces <- filter_mapM (fun p => extract_face t (snd p)) t ;;
  Ok (faces, curves).
End Step.
Arguments entity : clear implicits.
Arguments table : clear implicits.
