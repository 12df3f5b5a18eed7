(** Model of the file writers and readers: /repo/src/mesh.rs (write_obj), /repo/src/model.rs,
    /repo/src/points.rs and save_bound_as_obj of /repo/src/surface/bspline.rs.

    Operating system errors are not modelled: every write succeeds and writes its whole
    buffer.  A text file is the list of its characters (code points), a binary file the list
    of its bytes; both are lists of [N]. *)
From Coq Require Import Floats.SpecFloat.
From Verif Require Import Prelude Num M_vec M_utils M_curve M_surface.

(** Addition on u32 with overflow checks. *)
Definition u32_add (a b : N) : outcome N := if (a + b <? 2 ^ 32)%N then Ok (a + b)%N else Panic.
(** u32::to_le_bytes *)
Definition u32_le (n : N) : list N :=
  [n mod 256; n / 256 mod 256; n / 65536 mod 256; n / 16777216 mod 256]%N.

(** Characters: ' ' ',' '\t' '\n' '\r' '#' '-' '.' *)
Definition ch_sp : N := 32. Definition ch_comma : N := 44. Definition ch_tab : N := 9.
Definition ch_nl : N := 10. Definition ch_cr : N := 13. Definition ch_hash : N := 35.

Section Obj.
Context {F : Type}.
(** One line of an OBJ file as written by the crate: "v x y z", "vn x y z",
    "f a b c" / "f a//n ..." (corners with an optional normal index), "l a b". *)
Inductive obj_line :=
| ObjV (x y z : F)
| ObjVN (x y z : F)
| ObjF (corners : list (N * option N))
| ObjL (a b : N).

(** mesh.rs:38-81 *)
Definition write_obj (m : TriangleMesh F) (vertex_start normal_start : N) : outcome (list obj_line) :=
  let vs := map (fun p => ObjV (x3 p) (y3 p) (z3 p)) (m_vertices m) in
  let ns := map (fun p => ObjVN (x3 p) (y3 p) (z3 p)) (m_normals m) in
  fs <- (match m_normals m with
         | [] =>
             mapM (fun t =>
               t0 <- idx t 0 ;; a <- u32_add t0 vertex_start ;;
               t1 <- idx t 1 ;; b <- u32_add t1 vertex_start ;;
               t2 <- idx t 2 ;; c <- u32_add t2 vertex_start ;;
               Ok (ObjF [(a, None); (b, None); (c, None)])) (chunks3 (m_triangles m))
         | _ =>
             mapM (fun t =>
               t0 <- idx t 0 ;; a <- u32_add t0 vertex_start ;; na <- u32_add t0 normal_start ;;
               t1 <- idx t 1 ;; b <- u32_add t1 vertex_start ;; nb <- u32_add t1 normal_start ;;
               t2 <- idx t 2 ;; c <- u32_add t2 vertex_start ;; nc <- u32_add t2 normal_start ;;
               Ok (ObjF [(a, Some na); (b, Some nb); (c, Some nc)])) (chunks3 (m_triangles m))
         end) ;;
  Ok (vs ++ ns ++ fs).

(** mesh.rs:83-87 *)
Definition mesh_save_as_obj (m : TriangleMesh F) : outcome (list obj_line) := write_obj m 1 1.

(** model.rs:66-79; a face is the result of its get_triangle_mesh. *)
Definition model_save_as_obj (faces : list (outcome (TriangleMesh F))) : outcome (list obj_line) :=
  r <- foldM (fun '(out, vertex_start, normal_start) face =>
         mesh <- face ;;
         ls <- write_obj mesh vertex_start normal_start ;;
         vertex_start <- u32_add vertex_start (as_u32 (length (m_vertices mesh))) ;;
         normal_start <- u32_add normal_start (as_u32 (length (m_normals mesh))) ;;
         Ok (out ++ ls, vertex_start, normal_start))
       ([], 1%N, 1%N) faces ;;
  Ok (fst (fst r)).

(** surface/bspline.rs:299-315 *)
Definition save_bound_as_obj (vertices : list (vec3 F)) : list obj_line :=
  map (fun p => ObjV (x3 p) (y3 p) (z3 p)) vertices
  ++ map (fun i => ObjL (N.of_nat i) (N.of_nat (i + 1))) (Prelude.range 1 (length vertices))
  ++ [ObjL (N.of_nat (length vertices)) 1].
End Obj.
Arguments obj_line : clear implicits.

(** ** The text of an OBJ file *)
(** [{}] of a u32: its decimal digits, most significant first. *)
Fixpoint uint_chars (u : Decimal.uint) : list N :=
  match u with
  | Decimal.Nil => []
  | Decimal.D0 u => 48%N :: uint_chars u | Decimal.D1 u => 49%N :: uint_chars u
  | Decimal.D2 u => 50%N :: uint_chars u | Decimal.D3 u => 51%N :: uint_chars u
  | Decimal.D4 u => 52%N :: uint_chars u | Decimal.D5 u => 53%N :: uint_chars u
  | Decimal.D6 u => 54%N :: uint_chars u | Decimal.D7 u => 55%N :: uint_chars u
  | Decimal.D8 u => 56%N :: uint_chars u | Decimal.D9 u => 57%N :: uint_chars u
  end.
Definition u32_chars (n : N) : list N := uint_chars (N.to_uint n).
Definition ch_v : N := 118. Definition ch_n : N := 110. Definition ch_f : N := 102. Definition ch_l : N := 108. Definition ch_slash : N := 47.

Section ObjText.
Context {F : Type}.
(** [fmt x] is the text of [{}] for a f64. *)
Variable fmt : F -> list N.
(** mesh.rs:57-62, 67-75: "{}" or "{}//{}" *)
Definition corner_chars (c : N * option N) : list N :=
  match snd c with
  | None => u32_chars (fst c)
  | Some n => u32_chars (fst c) ++ [ch_slash; ch_slash] ++ u32_chars n
  end.
(** mesh.rs:45, 49, 57-62, 67-75 and surface/bspline.rs:305-312, the writeln! calls *)
Definition obj_line_chars (l : obj_line F) : list N :=
  match l with
  | ObjV x y z => [ch_v; ch_sp] ++ fmt x ++ [ch_sp] ++ fmt y ++ [ch_sp] ++ fmt z ++ [ch_nl]
  | ObjVN x y z => [ch_v; ch_n; ch_sp] ++ fmt x ++ [ch_sp] ++ fmt y ++ [ch_sp] ++ fmt z ++ [ch_nl]
  | ObjF cs => [ch_f] ++ flat_map (fun c => ch_sp :: corner_chars c) cs ++ [ch_nl]
  | ObjL a b => [ch_l; ch_sp] ++ u32_chars a ++ [ch_sp] ++ u32_chars b ++ [ch_nl]
  end.
Definition obj_chars (ls : list (obj_line F)) : list N := flat_map obj_line_chars ls.
(** model.rs:66-79, the file *)
Definition model_obj_file (faces : list (outcome (TriangleMesh F))) : outcome (list N) :=
  ls <- model_save_as_obj faces ;; Ok (obj_chars ls).
End ObjText.

(** ** Single precision *)
(** [x as f32]: rounding to nearest, ties to even *)
Definition f64_as_f32 (x : f64) : spec_float := match x with S754_finite s m e => binary_round 24 128 s m e | _ => x end.
(** f32::to_bits; NaNs are all represented by the default quiet NaN *)
Definition f32_bits (x : spec_float) : N :=
  let sign (s : bool) := if s then (2 ^ 31)%N else 0%N in
  match x with
  | S754_zero s => sign s
  | S754_infinity s => sign s + 255 * 2 ^ 23
  | S754_nan => 255 * 2 ^ 23 + 2 ^ 22
  | S754_finite s m e => sign s + Z.to_N (e + 149) * 2 ^ 23 + Npos m
  end%N.
(** [(x as f32).to_le_bytes()] *)
Definition f64_f32_le (x : f64) : list N := u32_le (f32_bits (f64_as_f32 x)).

(** ** STL *)
Section Stl.
Context {F : Type}.
(** [f32_le x] stands for [(x as f32).to_le_bytes()]. *)
Variable f32_le : F -> list N.

(** model.rs:34: "Binary STL file\nName: {:57}" followed by a newline; {:57} pads the name with
    spaces to 57 characters.  A character is its list of UTF-8 bytes. *)
Definition stl_prefix : list N :=
  [66;105;110;97;114;121;32;83;84;76;32;102;105;108;101;10;78;97;109;101;58;32]%N.
Definition stl_name_field (name : list (list N)) : list N :=
  concat name ++ repeat ch_sp (57 - length name).
(** model.rs:32-35 *)
Definition stl_header (name : list (list N)) : list N :=
  firstn 80 (stl_prefix ++ stl_name_field name ++ [ch_nl]).

(** model.rs:44-58, one chunk of indices. *)
Definition stl_vertex (vertices : list (vec3 F)) (index : N) : outcome (list N) :=
  p <- idx vertices (N.to_nat index) ;;
  Ok (f32_le (x3 p) ++ f32_le (y3 p) ++ f32_le (z3 p)).
Definition stl_triangle (vertices : list (vec3 F)) (triangle : list N) : outcome (list N) :=
  vs <- mapM (stl_vertex vertices) triangle ;;
  Ok (repeat 0%N 12 ++ concat vs ++ [0; 0]%N).
(** model.rs:41-59 *)
Definition stl_face (mesh : TriangleMesh F) : outcome (list N) :=
  ts <- mapM (stl_triangle (m_vertices mesh)) (chunks3 (m_triangles mesh)) ;;
  Ok (concat ts).

(** Overwriting [bytes] at position [pos] (seek + write). *)
Definition overwrite (file : list N) (pos : nat) (bytes : list N) : list N :=
  firstn pos file ++ bytes ++ skipn (pos + length bytes) file.

(** model.rs:25-64 *)
Definition model_save_as_stl (name : list (list N)) (faces : list (outcome (TriangleMesh F)))
    : outcome (list N) :=
  r <- foldM (fun '(out, triangle_count) face =>
         mesh <- face ;;
         bytes <- stl_face mesh ;;
         Ok (out ++ bytes, (triangle_count + M_surface.triangle_count mesh)%nat))
       (stl_header name ++ u32_le 0, 0%nat) faces ;;
  let '(out, triangle_count) := r in
  Ok (overwrite out 80 (u32_le (as_u32 triangle_count))).
End Stl.

(** ** points.rs *)
Section Points.
Context {F : Type} {NF : Num F}.
(** [fmt x] is the text of [{}] for a f64, [parse s] is [f64::from_str] (None for Err). *)
Variable fmt : F -> list N.
Variable parse : list N -> option F.

(** points.rs:7-9 *)
Definition scale_points (points : list (vec3 F)) (scale : F) : list (vec3 F) :=
  map (fun p => vmulr p scale) points.

(** points.rs:43-49 *)
Definition save_point_cloud (points : list (vec3 F)) : list N :=
  flat_map (fun p => fmt (x3 p) ++ [ch_sp] ++ fmt (y3 p) ++ [ch_sp] ++ fmt (z3 p) ++ [ch_nl]) points.

(** points.rs:51-66 *)
Definition save_point_cloud_with_normal (points : list (vec3 F * vec3 F)) : list N :=
  flat_map (fun '(p, n) =>
    fmt (x3 p) ++ [ch_sp] ++ fmt (y3 p) ++ [ch_sp] ++ fmt (z3 p) ++ [ch_sp] ++
    fmt (x3 n) ++ [ch_sp] ++ fmt (y3 n) ++ [ch_sp] ++ fmt (z3 n) ++ [ch_nl]) points.

(** points.rs:68-74 *)
Definition save_points (points : list (vec2 F)) : list N :=
  flat_map (fun p => fmt (x2 p) ++ [ch_comma] ++ fmt (y2 p) ++ [ch_nl]) points.

(** str::split on the characters satisfying [sep]: maximal pieces between separators. *)
Fixpoint split_on (sep : N -> bool) (s : list N) : list (list N) :=
  match s with
  | [] => [[]]
  | c :: t =>
      if sep c then [] :: split_on sep t
      else match split_on sep t with
           | [] => [[c]]
           | w :: ws => (c :: w) :: ws
           end
  end.

(** BufRead::lines: split at '\n', no empty line after a final '\n'; a '\r' before the '\n' is
    removed. *)
Definition strip_cr (l : list N) : list N :=
  match rev l with
  | c :: t => if (c =? ch_cr)%N then rev t else l
  | [] => l
  end.
Definition lines (s : list N) : list (list N) :=
  let ps := split_on (N.eqb ch_nl) s in
  (* the pieces but the last were terminated by '\n'; the last one is a line only if non-empty *)
  map strip_cr (removelast ps) ++ (match last ps [] with [] => [] | l => [l] end).

Definition is_point_sep (c : N) : bool := ((c =? ch_sp) || (c =? ch_comma) || (c =? ch_tab))%N.

(** points.rs:17-38, what one line contributes. *)
Definition load_line (cords : list N) : outcome (list (vec3 F)) :=
  if match cords with c :: _ => (c =? ch_hash)%N | [] => false end then Ok []
  else
    match filter (fun w => negb (match w with [] => true | _ => false end)) (split_on is_point_sep cords) with
    | [x; y; z] | [_; x; y; z] =>
        x <- unwrap (parse x) ;; y <- unwrap (parse y) ;; z <- unwrap (parse z) ;;
        Ok [V3 x y z]
    | _ => Ok []
    end.

(** points.rs:11-41 (the file is assumed to be readable UTF-8) *)
Definition load_point_cloud (text : list N) : outcome (list (vec3 F)) :=
  ps <- mapM load_line (lines text) ;; Ok (concat ps).
End Points.

(** ** SVG *)
Section Svg.
Context {F : Type} {NF : Num F}.

(** Box<dyn Curve> with enough of its dynamic type for downcast_ref. *)
Inductive DynCurve :=
| DLine (l : Line F)
| DPolyline (p : Polyline F)
| DBSpline3 (b : BSpline F (vec3 F))
| DOther (c : Curve F).
Definition dyn_curve (c : DynCurve) : Curve F :=
  match c with
  | DLine l => line_curve l
  | DPolyline p => polyline_curve p
  | DBSpline3 b => bspline3_curve b
  | DOther c => c
  end.
Record DynSegment := { d_curve : DynCurve; d_range : F * F; d_tolerance : F; d_division : nat }.
Definition dyn_segment (s : DynSegment) : CurveSegment F :=
  {| s_curve := dyn_curve (d_curve s); s_range := d_range s; s_tolerance := d_tolerance s; s_division := d_division s |}.

(** The path data string as its list of commands: "M x,y", " L x,y", " C a b c" and the
    implicit continuation " a b c".  The string is empty exactly when the list is. *)
Inductive path_cmd :=
| MoveTo (p : vec2 F)
| LineTo (p : vec2 F)
| CurveTo (p1 p2 p : vec2 F)
| CurveToCont (p1 p2 p : vec2 F).
Definition xy (p : vec3 F) : vec2 F := V2 (x3 p) (y3 p).

(** model.rs:105-112 *)
Definition svg_line (l : Line F) (r : F * F) : list path_cmd :=
  [MoveTo (xy (line_get_point l (fst r))); LineTo (xy (line_get_point l (snd r)))].
(** model.rs:113-122 *)
Definition svg_polyline (pl : Polyline F) : list path_cmd :=
  map (fun '(index, p) => if (index =? 0)%nat then MoveTo (xy p) else LineTo (xy p)) (enumerate (pl_vertices pl)).
(** model.rs:125-144 *)
Definition svg_bspline (b : BSpline F (vec3 F)) : outcome (list path_cmd) :=
  pieces <- to_piecewise_bezier b ;;
  cs <- mapM (fun '(index, cps) =>
          start <- idx cps 0 ;; cp1 <- idx cps 1 ;; cp2 <- idx cps 2 ;; en <- idx cps 3 ;;
          Ok (if (index =? 0)%nat then [MoveTo (xy start); CurveTo (xy cp1) (xy cp2) (xy en)]
              else [CurveToCont (xy cp1) (xy cp2) (xy en)]))
        (enumerate pieces) ;;
  Ok (concat cs).
(** model.rs:149-156 *)
Definition svg_points (data : list path_cmd) (points : list (vec3 F)) : list path_cmd :=
  fold_left (fun data p => match data with
                           | [] => [MoveTo (xy p)]
                           | _ => data ++ [LineTo (xy p)]
                           end) points data.
(** model.rs:104-157, one segment appended to [data]. *)
Definition svg_segment (fuel : nat) (rnd : list bool -> F) (data : list path_cmd) (s : DynSegment)
    : outcome (list path_cmd) :=
  match d_curve s with
  | DLine l => Ok (data ++ svg_line l (d_range s))
  | DPolyline pl => Ok (data ++ svg_polyline pl)
  | DBSpline3 b =>
      if (bs_degree b =? 3)%nat then cs <- svg_bspline b ;; Ok (data ++ cs)
      else pts <- segment_get_points fuel rnd (dyn_segment s) ;; Ok (svg_points data pts)
  | DOther _ => pts <- segment_get_points fuel rnd (dyn_segment s) ;; Ok (svg_points data pts)
  end.
(** model.rs:102-160, the path of one Polycurve. *)
Definition svg_path (fuel : nat) (rnd : nat -> list bool -> F) (segments : list DynSegment)
    : outcome (list path_cmd) :=
  foldM (fun data '(k, s) => svg_segment fuel (rnd k) data s) [] (enumerate segments).
(** model.rs:81-164: one path per curve, in order. *)
Definition model_save_as_svg (fuel : nat) (rnd : nat -> nat -> list bool -> F) (curves : list (list DynSegment))
    : outcome (list (list path_cmd)) :=
  mapM (fun '(k, c) => svg_path fuel (rnd k) c) (enumerate curves).

(** The text of the d attribute.  [fmt2 x] stands for the text of [{:.2}] for a f64. *)
Variable fmt2 : F -> list N.
Definition ch_M : N := 77. Definition ch_L : N := 76. Definition ch_C : N := 67.
Definition point_chars (p : vec2 F) : list N := fmt2 (x2 p) ++ [ch_comma] ++ fmt2 (y2 p).
(** model.rs:109-110, 116-118, 133-142, 152-154, the push_str calls *)
Definition path_cmd_chars (c : path_cmd) : list N :=
  match c with
  | MoveTo p => [ch_M; ch_sp] ++ point_chars p
  | LineTo p => [ch_sp; ch_L; ch_sp] ++ point_chars p
  | CurveTo a b c => [ch_sp; ch_C; ch_sp] ++ point_chars a ++ [ch_sp] ++ point_chars b ++ [ch_sp] ++ point_chars c
  | CurveToCont a b c => [ch_sp] ++ point_chars a ++ [ch_sp] ++ point_chars b ++ [ch_sp] ++ point_chars c
  end.
Definition path_chars (cs : list path_cmd) : list N := flat_map path_cmd_chars cs.
(** model.rs:81-164: the d attributes of the paths, in order *)
Definition model_svg_paths (fuel : nat) (rnd : nat -> nat -> list bool -> F) (curves : list (list DynSegment))
    : outcome (list (list N)) :=
  paths <- model_save_as_svg fuel rnd curves ;; Ok (map path_chars paths).
End Svg.
Arguments DynCurve : clear implicits.
Arguments DynSegment : clear implicits.
Arguments path_cmd : clear implicits.
