(** Model of /repo/src/utils.rs and the Curve trait of /repo/src/curve.rs. *)
From Verif Require Import Prelude Num M_vec.

(** /repo/src/curve.rs:5-16 trait Curve: a trait object is the record of its methods.
    Methods may panic, hence [outcome]. *)
Record Curve (F : Type) := {
  c_get_point : F -> outcome (vec3 F);
  c_project : vec3 F -> outcome F;
  c_refine : F * F -> bool -> F * F;
}.
Arguments c_get_point {F} _ _. Arguments c_project {F} _ _. Arguments c_refine {F} _ _ _.

(** /repo/src/curve.rs:12-15 default method refine_parameter_range. *)
Definition default_refine {F} (r : F * F) (_same_sense : bool) : F * F := r.

(** /repo/src/curve.rs:20-30 impl Curve for Box<dyn Curve>: every method is forwarded. *)
Definition box_curve {F} (c : Curve F) : Curve F :=
  {| c_get_point := fun u => c_get_point c u;
     c_project := fun p => c_project c p;
     c_refine := fun r s => c_refine c r s |}.

Section Utils.
Context {F : Type} {NF : Num F}.
Local Open Scope num_scope.

(** utils.rs:11-23 trait Tolerance for Float. *)
Definition near (a b : F) : bool := abs_diff_eq a b ftol.
Definition near2 (a b : F) : bool := abs_diff_eq a b (ftol * ftol).

(** utils.rs:25-31 *)
Definition inv_or_zero (delta : F) : F :=
  if ulps_eq delta f0 then f0 else f1 / delta.

(** utils.rs:33-39 *)
Definition clamp_in_range (value : F) (range : F * F) : outcome F :=
  if fst range <? snd range then fclamp value (fst range) (snd range)
  else fclamp value (snd range) (fst range).

(** utils.rs:54-66 *)
Definition uniform_divide (range : F * F) (division : nat) : outcome (list F) :=
  let (beg, en) := range in
  let step := (en - beg) / fofnat division in
  m <- usub division 1 ;;
  let '(ps, _) :=
    fold_left (fun '(ps, u) _ => let u := u + step in (ps ++ [u], u))
              (Prelude.range 0 m) ([beg], beg) in
  Ok (ps ++ [en]).

(** utils.rs:86-88 *)
Definition range_at (r : F * F) (ratio : F) : F :=
  let (start, en) := r in start + (en - start) * ratio.

(** utils.rs:69-84.  [rnd path] is the value returned by rand::random::<f64>() in the
    recursive call reached by [path] (false = left half, true = right half, innermost first);
    an arbitrary function covers every behaviour of the generator.  [fuel] bounds the
    recursion depth; the code itself has no bound. *)
Definition probe (r : F) : F := flit 1 2 + (flit 1 5 * r - flit 1 10).

Fixpoint parameter_division (fuel : nat) (rnd : list bool -> F) (path : list bool)
    (get_point : F -> outcome (vec3 F)) (range : F * F) (tol : F) : outcome (list F) :=
  match fuel with
  | O => OutOfFuel
  | S fuel' =>
      let p := probe (rnd path) in
      let t := range_at range p in
      pt0 <- get_point (fst range) ;;
      pt1 <- get_point (snd range) ;;
      let mid := vadd pt0 (vmulr (vsub pt1 pt0) p) in
      q <- get_point t ;;
      if distance3 q mid <? tol then Ok [fst range; snd range]
      else
        let mid := (fst range + snd range) / f2 in
        res <- parameter_division fuel' rnd (false :: path) get_point (fst range, mid) tol ;;
        res2 <- parameter_division fuel' rnd (true :: path) get_point (mid, snd range) tol ;;
        Ok (removelast res ++ res2)
  end.

(** utils.rs:90-103 *)
Definition find_nearest_point (points : list (vec3 F)) (point : vec3 F) : nat :=
  snd (fold_left (fun '(min, min_index) '(index, vertex) =>
         let distance := length_squared3 (vsub point vertex) in
         if distance <? min then (distance, index) else (min, min_index))
       (enumerate points) (fmaxval, 0%nat)).

(** A Grid (dependency grid 0.4): row-major data with a number of columns. *)
Record Grid (A : Type) := mkGrid { g_cols : nat; g_data : list A }.
Arguments mkGrid {A} _ _. Arguments g_cols {A} _. Arguments g_data {A} _.
Definition g_rows {A} (g : Grid A) : nat :=
  match g_cols g with O => O | c => (length (g_data g) / c)%nat end.
(** Grid::from_vec panics unless the length is a multiple of a non-zero column count
    (an empty vector gives an empty grid). *)
Definition grid_from_vec {A} (v : list A) (cols : nat) : outcome (Grid A) :=
  match v with
  | [] => Ok (mkGrid 0 [])
  | _ => match cols with
         | O => Panic
         | _ => if (length v mod cols =? 0)%nat then Ok (mkGrid cols v) else Panic
         end
  end.
(** grid[i][j]: the row slice is bounds-checked, then its element. *)
Definition grid_idx {A} (g : Grid A) (i j : nat) : outcome A :=
  if (i <? g_rows g)%nat && (j <? g_cols g)%nat then idx (g_data g) (i * g_cols g + j)%nat else Panic.

(** utils.rs:105-119 *)
Definition find_nearest_point_in_grid (grid : Grid (vec3 F)) (point : vec3 F) : outcome (nat * nat) :=
  r <- foldM (fun st i =>
         foldM (fun '(min, min_index) j =>
                  v <- grid_idx grid i j ;;
                  let distance := length_squared3 (vsub point v) in
                  Ok (if distance <? min then (distance, (i, j)) else (min, min_index)))
               st (Prelude.range 0 (g_cols grid)))
       (fmaxval, (0%nat, 0%nat)) (Prelude.range 0 (g_rows grid)) ;;
  Ok (snd r).

(** utils.rs:121-133 *)
Definition distance_to_line_segment3 (a b p : vec3 F) : F :=
  let ap := vsub p a in
  let ab := vsub b a in
  let product := dot3 ap ab in
  if product <=? f0 then length3 ap
  else if product >=? length_squared3 ab then length3 (vsub p b)
  else length3 (cross3 ap ab) / length3 ab.

(** utils.rs:155-169, the Newton loop; [trials] iterations. *)
Fixpoint newton (trials : nat) (curve der1 der2 : F -> outcome (vec3 F)) (point : vec3 F)
    (range : F * F) (u : F) : outcome F :=
  match trials with
  | O => Ok u
  | S trials' =>
      c <- curve u ;;
      let delta := vsub c point in
      if near (length_squared3 delta) f0 then Ok u else
      tangent <- der1 u ;;
      let f := dot3 tangent delta in
      if near f f0 then Ok u else
      d2 <- der2 u ;;
      let fprime := dot3 d2 delta + length_squared3 tangent in
      u' <- clamp_in_range (u - f / fprime) range ;;
      newton trials' curve der1 der2 point range u'
  end.

(** utils.rs:137-170 *)
Definition find_nearest_parameter (curve der1 der2 : F -> outcome (vec3 F)) (point : vec3 F)
    (range : F * F) (division trials : nat) : outcome F :=
  parameters <- uniform_divide range division ;;
  pts <- mapM curve parameters ;;
  u <- idx parameters (find_nearest_point pts point) ;;
  newton trials curve der1 der2 point range u.

(** utils.rs:172-185 *)
Definition get_min_max_by_key {T} (items : list T) (key : T -> F) : F * F :=
  fold_left (fun '(min_value, max_value) item =>
     let value := key item in
     let max_value := if value >? max_value then value else max_value in
     let min_value := if value <? min_value then value else min_value in
     (min_value, max_value)) items (fmaxval, fminval).

(** utils/point.rs:10-22 *)
Definition distance_to_line_segment2 (self a b : vec2 F) : F :=
  let ap := vsub self a in
  let ab := vsub b a in
  let product := dot2 ap ab in
  if product <=? f0 then length2 ap
  else if product >=? length_squared2 ab then length2 (vsub self b)
  else fabs (perp_dot ap ab) / length2 ab.

(** utils/point.rs:24-34 *)
Definition point_is_inside_triangle (self a b c : vec2 F) : bool :=
  let pa := vsub a self in
  let pb := vsub b self in
  let pc := vsub c self in
  let pab := perp_dot pa pb in
  let pbc := perp_dot pb pc in
  let pca := perp_dot pc pa in
  ((pab >=? f0) || near pab f0) && ((pbc >=? f0) || near pbc f0) && ((pca >=? f0) || near pca f0).

End Utils.
Arguments mkGrid {A} _ _. Arguments g_cols {A} _. Arguments g_data {A} _.

(** /repo/src/curve.rs:32-60 CurveSegment and get_points. *)
Record CurveSegment (F : Type) := {
  s_curve : Curve F;
  s_range : F * F;
  s_tolerance : F;
  s_division : nat;
}.
Arguments s_curve {F} _. Arguments s_range {F} _. Arguments s_tolerance {F} _. Arguments s_division {F} _.

Definition segment_get_points {F} {NF : Num F} (fuel : nat) (rnd : list bool -> F)
    (s : CurveSegment F) : outcome (list (vec3 F)) :=
  parameters <- parameter_division fuel rnd [] (c_get_point (s_curve s)) (s_range s) (s_tolerance s) ;;
  mapM (c_get_point (s_curve s)) parameters.
