(** Model of /repo/src/basis.rs, /repo/src/knot.rs and /repo/src/curve/*.rs. *)
From Verif Require Import Prelude Num M_vec M_utils.

Section Knot.
Context {F : Type} {NF : Num F}.
Local Open Scope num_scope.

(** basis.rs:4-20.  values[0] panics for n = 0. *)
Definition bernstein (n : nat) (u : F) : outcome (list F) :=
  values <- upd (repeat f0 n) 0 f1 ;;
  let u1 := f1 - u in
  foldM (fun values j =>
    ' (values, saved) <-
      foldM (fun '(values, saved) k =>
               temp <- idx values k ;;
               values <- upd values k (saved + u1 * temp) ;;
               Ok (values, u * temp))
            (values, f0) (Prelude.range 0 j) ;;
    upd values j saved)
  values (Prelude.range 1 n).

(** ** knot.rs; KnotVector(Vec<Float>) is its list of knots. *)

(** knot.rs:10-13 *)
Definition knot_new (knots : list F) : outcome (list F) :=
  _ <- assert (1 <? length knots)%nat ;; Ok knots.

(** knot.rs:15-24 *)
Definition from_values_and_multiplicities (values : list F) (mults : list nat) : list F :=
  flat_map (fun '(v, m) => repeat v m) (combine values mults).

(** knot.rs:26-33 *)
Definition knot_normalize (ks : list F) : outcome (list F) :=
  start <- idx ks 0 ;;
  n1 <- usub (length ks) 1 ;;
  last <- idx ks n1 ;;
  let len := last - start in
  Ok (map (fun v => (v - start) / len) ks).

(** knot.rs:36-38.  self[i] is evaluated only while some element is being tested;
    for an empty vector no index is taken. *)
Definition multiplicity (ks : list F) (i : nat) : outcome nat :=
  match ks with
  | [] => Ok O
  | _ => ki <- idx ks i ;; Ok (length (filter (fun u => ulps_eq ki u) ks))
  end.

(** knot.rs:41-43 *)
Definition shrink (ks : list F) : outcome (list F) :=
  hi <- usub (length ks) 1 ;;
  slice ks 1 hi.

(** knot.rs:45-49 *)
Definition spans (ks : list F) (degree : nat) : outcome (list F) :=
  mapM (fun w => a <- idx w degree ;; b <- idx w 0 ;; Ok (a - b)) (windows (degree + 1) ks).

(** knot.rs:52-62 *)
Definition span_index (ks : list F) (u : F) : outcome nat :=
  match rposition (fun t => t <=? u) ks with
  | Some index =>
      n <- usub (length ks) 1 ;;
      if (index =? n)%nat then m <- multiplicity ks index ;; usub index m
      else Ok index
  | None => multiplicity ks 0
  end.

(** knot.rs:65-87 *)
Definition bspline_basis (ks : list F) (degree : nat) (u : F) : outcome (list F) :=
  n <- usub (length ks) 1 ;;
  index <- span_index ks u ;;
  values <- upd (repeat f0 n) index f1 ;;
  values <-
    foldM (fun values k =>
      let base := if (index <? k)%nat then 0%nat else (index - k)%nat in
      tk <- idx ks (base + k) ;;
      tb <- idx ks base ;;
      let delta := tk - tb in
      max <- (if (index + k <? n)%nat then Ok index else (a <- usub n k ;; usub a 1)) ;;
      let a := inv_or_zero delta * (u - tb) in
      r <- foldM (fun '(values, a) i =>
             ti <- idx ks (i + k + 1) ;;
             t1 <- idx ks (i + 1) ;;
             let delta := ti - t1 in
             let b := inv_or_zero delta * (ti - u) in
             vi <- idx values i ;;
             vi1 <- idx values (i + 1) ;;
             values <- upd values i (a * vi + b * vi1) ;;
             Ok (values, f1 - b))
           (values, a) (range_incl base max) ;;
      Ok (fst r))
    values (range_incl 1 degree) ;;
  len <- usub n degree ;;
  Ok (firstn len values).

(** knot.rs:98-103 *)
Definition bezier_knot (degree : nat) : list F := repeat f0 (degree + 1) ++ repeat f1 (degree + 1).

(** knot.rs:114-121 *)
Definition uniform_knot (degree division : nat) : list F :=
  let step := f1 / fofnat division in
  repeat f0 (degree + 1) ++ map (fun i => fofnat i * step) (Prelude.range 1 division)
  ++ repeat f1 (degree + 1).

(** knot.rs:123-134; returns the new vector and the position. *)
Definition knot_add (ks : list F) (knot : F) : outcome (list F * nat) :=
  match rposition (fun t => t <=? knot) ks with
  | Some index => ks' <- insert_at ks (index + 1) knot ;; Ok (ks', index + 1)%nat
  | None => ks' <- insert_at ks 0 knot ;; Ok (ks', 0%nat)
  end.

(** knot.rs:145-147 *)
Definition knot_range (ks : list F) : outcome (F * F) :=
  a <- idx ks 0 ;; n1 <- usub (length ks) 1 ;; b <- idx ks n1 ;; Ok (a, b).

(** The accumulation loop shared by get_point of all Bezier/B-spline curves
    (curve/bezier.rs:33-37, 55-59; curve/bspline.rs:140-143, 170-173):
    [point = ZERO; for (b, p) in basis.zip(control_points) { point += b * p }]. *)
Definition weighted_sum {P} {VP : VecOps F P} (basis : list F) (cps : list P) : P :=
  fold_left (fun point '(b, p) => vadd point (vmull b p)) (combine basis cps) vzero.

(** [(1.0 / point.w) * point.truncate()]  curve/bezier.rs:58, curve/bspline.rs:173 *)
Definition project_w (point : vec4 F) : vec3 F := vmull (f1 / w4 point) (truncate4 point).

(** ** curve/line.rs *)
Record Line := { l_origin : vec3 F; l_direction : vec3 F }.
(** line.rs:11-13 *)
Definition line_get_point (l : Line) (u : F) : vec3 F := vadd (l_origin l) (vmulr (l_direction l) u).
(** line.rs:15-17 *)
Definition line_project (l : Line) (p : vec3 F) : F := dot3 (vsub p (l_origin l)) (l_direction l).

(** ** curve/polyline.rs *)
Record Polyline := { pl_vertices : list (vec3 F); pl_segment_lengths : list F; pl_length : F }.
(** polyline.rs:12-24 *)
Definition polyline_new (vertices : list (vec3 F)) : outcome Polyline :=
  _ <- assert (2 <=? length vertices)%nat ;;
  let segs := map (fun '(a, b) => distance3 b a) (pairs vertices) in
  Ok {| pl_vertices := vertices; pl_segment_lengths := segs; pl_length := fsum segs |}.
(** polyline.rs:26-28 *)
Definition polyline_start (pl : Polyline) : outcome (vec3 F) := idx (pl_vertices pl) 0.
(** polyline.rs:30-32 *)
Definition polyline_end (pl : Polyline) : outcome (vec3 F) :=
  n <- usub (length (pl_vertices pl)) 1 ;; idx (pl_vertices pl) n.
(** polyline.rs:35-37 *)
Definition nearest_vertex (pl : Polyline) (p : vec3 F) : nat := find_nearest_point (pl_vertices pl) p.

(** polyline.rs:48-56, the loop over the segments; [unreachable!()] when it runs off the end. *)
Fixpoint polyline_walk (pl : Polyline) (segs : list (nat * F)) (length : F) : outcome (vec3 F) :=
  match segs with
  | [] => Panic
  | (index, segment_length) :: segs' =>
      if length >? segment_length then polyline_walk pl segs' (length - segment_length)
      else a <- idx (pl_vertices pl) index ;;
           b <- idx (pl_vertices pl) (index + 1) ;;
           Ok (lerp3 a b (length / segment_length))
  end.
(** polyline.rs:41-58 *)
Definition polyline_get_point (pl : Polyline) (t : F) : outcome (vec3 F) :=
  if t <=? f0 then polyline_start pl
  else if t >=? f1 then polyline_end pl
  else polyline_walk pl (enumerate (pl_segment_lengths pl)) (t * pl_length pl).

(** polyline.rs:61-70 *)
Definition polyline_nearest_segment (pl : Polyline) (p : vec3 F) : nat :=
  snd (fold_left (fun '(min, min_index) '(index, (a, b)) =>
         let distance := distance_to_line_segment3 a b p in
         if distance <? min then (distance, index) else (min, min_index))
       (enumerate (pairs (pl_vertices pl))) (fmaxval, 0%nat)).
(** polyline.rs:60-76 *)
Definition polyline_project (pl : Polyline) (p : vec3 F) : outcome F :=
  let min_index := polyline_nearest_segment pl p in
  v0 <- idx (pl_vertices pl) min_index ;;
  v1 <- idx (pl_vertices pl) (min_index + 1) ;;
  let length := fsum (firstn min_index (pl_segment_lengths pl))
                + dot3 (vsub p v0) (normalize3 (vsub v1 v0)) in
  fclamp (length / pl_length pl) f0 f1.

(** ** curve/bezier.rs; BezierCurve<P> is its list of control points. *)

(** bezier.rs:11-13 *)
Definition bezier_degree {P} (cps : list P) : outcome nat := usub (length cps) 1.

(** bezier.rs:18-26.  The pair closure is applied to each window. *)
Definition bezier_derivative {P} {VP : VecOps F P} (cps : list P) : outcome (list P) :=
  d <- bezier_degree cps ;;
  let n := fofnat d in
  Ok (map (fun '(a, b) => vmulr (vsub b a) n) (pairs cps)).

(** bezier.rs:31-38 *)
Definition bezier3_get_point (cps : list (vec3 F)) (u : F) : outcome (vec3 F) :=
  basis <- bernstein (length cps) u ;; Ok (weighted_sum basis cps).

(** bezier.rs:40-47 *)
Definition bezier3_project (cps : list (vec3 F)) (p : vec3 F) : outcome F :=
  d <- bezier_degree cps ;;
  if (d =? 1)%nat then pl <- polyline_new cps ;; polyline_project pl p
  else
    der1 <- bezier_derivative cps ;;
    der2 <- bezier_derivative der1 ;;
    find_nearest_parameter (bezier3_get_point cps) (bezier3_get_point der1) (bezier3_get_point der2)
      p (f0, f1) (d * 4) 10.

(** bezier.rs:52-59 *)
Definition bezier4_get_point (cps : list (vec4 F)) (u : F) : outcome (vec3 F) :=
  basis <- bernstein (length cps) u ;; Ok (project_w (weighted_sum basis cps)).

(** ** curve/bspline.rs *)
Record BSpline (P : Type) := mkBSpline { bs_cps : list P; bs_knots : list F; bs_degree : nat }.
Arguments mkBSpline {P} _ _ _. Arguments bs_cps {P} _. Arguments bs_knots {P} _. Arguments bs_degree {P} _.

(** bspline.rs:20-34 *)
Definition bspline_derivative {P} {VP : VecOps F P} (c : BSpline P) : outcome (BSpline P) :=
  let p := fofnat (bs_degree c) in
  knots <- shrink (bs_knots c) ;;
  sp <- spans knots (bs_degree c) ;;
  let cps := map (fun '((a, b), span) => vmulr (vmulr (vsub b a) p) (inv_or_zero span))
                 (combine (pairs (bs_cps c)) sp) in
  d <- usub (bs_degree c) 1 ;;
  Ok (mkBSpline cps knots d).

(** bspline.rs:38-62 *)
Definition bspline_add_knot (c : BSpline (vec3 F)) (knot : F) : outcome (BSpline (vec3 F)) :=
  let p := bs_degree c in
  let n := length (bs_cps c) in
  ' (knots, index) <- knot_add (bs_knots c) knot ;;
  if (index =? 0)%nat then
    cps <- insert_at (bs_cps c) 0 vzero ;; Ok (mkBSpline cps knots p)
  else
    let start := if (p <? index)%nat then (index - p)%nat else 0%nat in
    ' (cps, en) <-
      (if (n <? index)%nat then Ok (bs_cps c ++ [vzero], n + 1)%nat
       else x <- idx (bs_cps c) (index - 1) ;;
            cps <- insert_at (bs_cps c) (index - 1) x ;; Ok (cps, index)) ;;
    cps <- foldM (fun cps i =>
             thi <- idx knots (i + p + 1) ;;
             tlo <- idx knots i ;;
             let delta := thi - tlo in
             let a := (knot - tlo) * inv_or_zero delta in
             i1 <- usub i 1 ;;
             q0 <- idx cps i1 ;;
             q1 <- idx cps i ;;
             upd cps i (vadd (vmulr q0 (f1 - a)) (vmulr q1 a)))
           cps (rev (Prelude.range start en)) ;;
    Ok (mkBSpline cps knots p).

(** [for _ in lo..=hi { self.add_knot(t) }] *)
Fixpoint bspline_add_knots (times : nat) (c : BSpline (vec3 F)) (t : F) : outcome (BSpline (vec3 F)) :=
  match times with
  | O => Ok c
  | S m => c' <- bspline_add_knot c t ;; bspline_add_knots m c' t
  end.

(** bspline.rs:64-95; returns (new self, returned curve). *)
Definition bspline_split (c : BSpline (vec3 F)) (t : F)
    : outcome (BSpline (vec3 F) * BSpline (vec3 F)) :=
  let p := bs_degree c in
  index <- span_index (bs_knots c) t ;;
  ti <- idx (bs_knots c) index ;;
  ' (t, s) <- (if near t ti then m <- multiplicity (bs_knots c) index ;; Ok (ti, m)
               else Ok (t, 0%nat)) ;;
  c <- bspline_add_knots (length (range_incl s p)) c t ;;
  k <- span_index (bs_knots c) t ;;
  let m := length (bs_knots c) in
  let n := length (bs_cps c) in
  knots0 <- slice (bs_knots c) 0 (k + 1) ;;
  kp <- usub k p ;;
  knots1 <- slice (bs_knots c) kp m ;;
  cps0 <- slice (bs_cps c) 0 kp ;;
  cps1 <- slice (bs_cps c) kp n ;;
  Ok (mkBSpline cps0 knots0 p, mkBSpline cps1 knots1 p).

(** [for _ in s..=degree { self.add_knot(self.knots[i]) }]  bspline.rs:101-103, 107-109 *)
Fixpoint bspline_add_own_knot (times : nat) (c : BSpline (vec3 F)) (i : nat) : outcome (BSpline (vec3 F)) :=
  match times with
  | O => Ok c
  | S m => t <- idx (bs_knots c) i ;; c' <- bspline_add_knot c t ;; bspline_add_own_knot m c' i
  end.

(** bspline.rs:97-110 *)
Definition bspline_clamp (c : BSpline (vec3 F)) : outcome (BSpline (vec3 F)) :=
  let degree := bs_degree c in
  s <- multiplicity (bs_knots c) 0 ;;
  c <- bspline_add_own_knot (length (range_incl s degree)) c 0 ;;
  let n := length (bs_knots c) in
  n1 <- usub n 1 ;;
  s <- multiplicity (bs_knots c) n1 ;;
  bspline_add_own_knot (length (range_incl s degree)) c n1.

(** Vec::dedup_by(same_bucket): [same_bucket(a, b)] is called with the element and the
    last retained one; elements for which it holds are removed. *)
Fixpoint dedup_by_from {A} (same : A -> A -> bool) (kept : A) (l : list A) : list A :=
  match l with
  | [] => []
  | a :: l' => if same a kept then dedup_by_from same kept l' else a :: dedup_by_from same a l'
  end.
Definition dedup_by {A} (same : A -> A -> bool) (l : list A) : list A :=
  match l with [] => [] | a :: l' => a :: dedup_by_from same a l' end.

(** bspline.rs:112-132 *)
Definition to_piecewise_bezier (c : BSpline (vec3 F)) : outcome (list (list (vec3 F))) :=
  bspline <- bspline_clamp c ;;
  let knots := dedup_by (fun a b => near a b) (bs_knots c) in
  let n := length knots in
  _ <- usub n 1 ;;
  r <- foldM (fun '(result, bspline) i =>
         ni <- usub n i ;;
         t <- idx knots ni ;;
         ' (bspline, piece) <- bspline_split bspline t ;;
         Ok (result ++ [bs_cps piece], bspline))
       ([], bspline) (Prelude.range 2 n) ;;
  let '(result, bspline) := r in
  Ok (rev (result ++ [bs_cps bspline])).

(** bspline.rs:137-144 *)
Definition bspline3_get_point (c : BSpline (vec3 F)) (u : F) : outcome (vec3 F) :=
  basis <- bspline_basis (bs_knots c) (bs_degree c) u ;; Ok (weighted_sum basis (bs_cps c)).

(** bspline.rs:146-162 *)
Definition bspline3_project (c : BSpline (vec3 F)) (p : vec3 F) : outcome F :=
  if (bs_degree c =? 1)%nat then
    pl <- polyline_new (bs_cps c) ;;
    ratio <- polyline_project pl p ;;
    r <- knot_range (bs_knots c) ;;
    Ok (range_at r ratio)
  else
    der1 <- bspline_derivative c ;;
    der2 <- bspline_derivative der1 ;;
    r <- knot_range (bs_knots c) ;;
    find_nearest_parameter (bspline3_get_point c) (bspline3_get_point der1) (bspline3_get_point der2)
      p r (length (bs_cps c) * 4) 10.

(** bspline.rs:167-174 *)
Definition bspline4_get_point (c : BSpline (vec4 F)) (u : F) : outcome (vec3 F) :=
  basis <- bspline_basis (bs_knots c) (bs_degree c) u ;; Ok (project_w (weighted_sum basis (bs_cps c))).

End Knot.
Arguments Line : clear implicits.
Arguments Polyline : clear implicits.
Arguments BSpline : clear implicits.
Arguments mkBSpline {F P} _ _ _. Arguments bs_cps {F P} _. Arguments bs_knots {F P} _. Arguments bs_degree {F P} _.

(** ** curve/circle.rs *)
Section Circle.
Context {F : Type} {NF : Num F} {TF : Trig F}.
Local Open Scope num_scope.

Record Circle := { ci_center : vec3 F; ci_radius : F; ci_axis : vec3 F; ci_ref_dir : vec3 F }.

(** circle.rs:13-16 *)
Definition circle_get_point (c : Circle) (angle : F) : vec3 F :=
  let rotation := quat_from_axis_angle (ci_axis c) angle in
  vadd (ci_center c) (vmulr (quat_mul_vec3 rotation (ci_ref_dir c)) (ci_radius c)).

(** circle.rs:18-29 *)
Definition circle_project (c : Circle) (point : vec3 F) : F :=
  let y_axis := normalize3 (cross3 (ci_axis c) (ci_ref_dir c)) in
  let direction := vsub point (ci_center c) in
  let x := dot3 direction (ci_ref_dir c) in
  let y := dot3 direction y_axis in
  let angle := fatan2 y x in
  if angle >=? f0 then angle else angle + ftau.

End Circle.
Arguments Circle : clear implicits.

(** circle.rs:32-41 *)
Definition circle_refine {F} {NF : Num F} (range : F * F) (same_sense : bool) : F * F :=
  let (a0, a1) := range in
  if same_sense && fltb a1 a0 then (a0, fadd a1 ftau)
  else if negb same_sense && fltb a0 a1 then (fadd a0 ftau, a1)
  else (a0, a1).

(** ** The curves as trait objects (impl Curve for ...).  [unimplemented!()] is a panic. *)
Section Objects.
Context {F : Type} {NF : Num F}.
Definition line_curve (l : Line F) : Curve F :=
  {| c_get_point u := Ok (line_get_point l u); c_project p := Ok (line_project l p); c_refine := default_refine |}.
Definition polyline_curve (pl : Polyline F) : Curve F :=
  {| c_get_point := polyline_get_point pl; c_project := polyline_project pl; c_refine := default_refine |}.
Definition bezier3_curve (c : list (vec3 F)) : Curve F :=
  {| c_get_point := bezier3_get_point c; c_project := bezier3_project c; c_refine := default_refine |}.
Definition bezier4_curve (c : list (vec4 F)) : Curve F :=
  {| c_get_point := bezier4_get_point c; c_project _ := Panic; c_refine := default_refine |}.
Definition bspline3_curve (c : BSpline F (vec3 F)) : Curve F :=
  {| c_get_point := bspline3_get_point c; c_project := bspline3_project c; c_refine := default_refine |}.
Definition bspline4_curve (c : BSpline F (vec4 F)) : Curve F :=
  {| c_get_point := bspline4_get_point c; c_project _ := Panic; c_refine := default_refine |}.
Definition circle_curve {TF : Trig F} (c : Circle F) : Curve F :=
  {| c_get_point a := Ok (circle_get_point c a); c_project p := Ok (circle_project c p); c_refine := circle_refine |}.
End Objects.
