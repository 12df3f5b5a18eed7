(** Vectors and rotations.  /repo/src/lib.rs:2-9 aliases glam 0.14's DVec2/DVec3/DVec4/DQuat/DMat2.
    glam is a dependency whose source is not part of /repo; its operations are modelled from
    their documentation (plain component formulas, no fused operations). *)
From Coq Require Import Reals.
From Verif Require Import Prelude Num.

Record vec2 (F : Type) := V2 { x2 : F; y2 : F }.
Record vec3 (F : Type) := V3 { x3 : F; y3 : F; z3 : F }.
Record vec4 (F : Type) := V4 { x4 : F; y4 : F; z4 : F; w4 : F }.
Arguments V2 {F} _ _. Arguments x2 {F} _. Arguments y2 {F} _.
Arguments V3 {F} _ _ _. Arguments x3 {F} _. Arguments y3 {F} _. Arguments z3 {F} _.
Arguments V4 {F} _ _ _ _. Arguments x4 {F} _. Arguments y4 {F} _. Arguments z4 {F} _. Arguments w4 {F} _.

(** The vector operations the generic code of the crate uses on its point type [P]
    (bounds [Sub + Mul<Float>], [ZERO], [+=]). *)
Class VecOps (F P : Type) : Type := {
  vzero : P;                 (* P::ZERO / P::default() *)
  vadd : P -> P -> P;        (* p + q *)
  vsub : P -> P -> P;        (* p - q *)
  vmulr : P -> F -> P;       (* p * s *)
  vmull : F -> P -> P;       (* s * p *)
}.

Section Vec.
Context {F : Type} {NF : Num F}.
Local Open Scope num_scope.

#[global] Instance VecOps2 : VecOps F (vec2 F) := {
  vzero := V2 f0 f0;
  vadd a b := V2 (x2 a + x2 b) (y2 a + y2 b);
  vsub a b := V2 (x2 a - x2 b) (y2 a - y2 b);
  vmulr a s := V2 (x2 a * s) (y2 a * s);
  vmull s a := V2 (s * x2 a) (s * y2 a);
}.
#[global] Instance VecOps3 : VecOps F (vec3 F) := {
  vzero := V3 f0 f0 f0;
  vadd a b := V3 (x3 a + x3 b) (y3 a + y3 b) (z3 a + z3 b);
  vsub a b := V3 (x3 a - x3 b) (y3 a - y3 b) (z3 a - z3 b);
  vmulr a s := V3 (x3 a * s) (y3 a * s) (z3 a * s);
  vmull s a := V3 (s * x3 a) (s * y3 a) (s * z3 a);
}.
#[global] Instance VecOps4 : VecOps F (vec4 F) := {
  vzero := V4 f0 f0 f0 f0;
  vadd a b := V4 (x4 a + x4 b) (y4 a + y4 b) (z4 a + z4 b) (w4 a + w4 b);
  vsub a b := V4 (x4 a - x4 b) (y4 a - y4 b) (z4 a - z4 b) (w4 a - w4 b);
  vmulr a s := V4 (x4 a * s) (y4 a * s) (z4 a * s) (w4 a * s);
  vmull s a := V4 (s * x4 a) (s * y4 a) (s * z4 a) (s * w4 a);
}.

(** DVec2 *)
Definition dot2 (a b : vec2 F) : F := x2 a * x2 b + y2 a * y2 b.
Definition perp_dot (a b : vec2 F) : F := x2 a * y2 b - y2 a * x2 b.
Definition perp (a : vec2 F) : vec2 F := V2 (- y2 a) (x2 a).
Definition length_squared2 (a : vec2 F) : F := dot2 a a.
Definition length2 (a : vec2 F) : F := fsqrt (dot2 a a).
Definition normalize2 (a : vec2 F) : vec2 F := vmulr a (f1 / length2 a).
Definition divs2 (a : vec2 F) (s : F) : vec2 F := V2 (x2 a / s) (y2 a / s).

(** DVec3 *)
Definition dot3 (a b : vec3 F) : F := x3 a * x3 b + y3 a * y3 b + z3 a * z3 b.
Definition cross3 (a b : vec3 F) : vec3 F :=
  V3 (y3 a * z3 b - y3 b * z3 a) (z3 a * x3 b - z3 b * x3 a) (x3 a * y3 b - x3 b * y3 a).
Definition length_squared3 (a : vec3 F) : F := dot3 a a.
Definition length3 (a : vec3 F) : F := fsqrt (dot3 a a).
Definition distance3 (a b : vec3 F) : F := length3 (vsub a b).
Definition distance_squared3 (a b : vec3 F) : F := length_squared3 (vsub a b).
Definition normalize3 (a : vec3 F) : vec3 F := vmulr a (f1 / length3 a).
Definition lerp3 (a b : vec3 F) (s : F) : vec3 F := vadd a (vmulr (vsub b a) s).
Definition divs3 (a : vec3 F) (s : F) : vec3 F := V3 (x3 a / s) (y3 a / s) (z3 a / s).
Definition neg3 (a : vec3 F) : vec3 F := V3 (- x3 a) (- y3 a) (- z3 a).
Definition isnan3 (a : vec3 F) : bool := fisnan (x3 a) || fisnan (y3 a) || fisnan (z3 a).
Definition sum3 (l : list (vec3 F)) : vec3 F := fold_left vadd l vzero.

(** DVec4 *)
Definition truncate4 (a : vec4 F) : vec3 F := V3 (x4 a) (y4 a) (z4 a).

(** DMat2, column major: from_cols_array(&[m00, m01, m10, m11]); inverse() * k. *)
Definition mat2_inverse_mul (m00 m01 m10 m11 : F) (k : vec2 F) : vec2 F :=
  let inv_det := f1 / (m00 * m11 - m01 * m10) in
  let c0 := V2 (m11 * inv_det) (m01 * - inv_det) in
  let c1 := V2 (m10 * - inv_det) (m00 * inv_det) in
  vadd (vmulr c0 (x2 k)) (vmulr c1 (y2 k)).

End Vec.

(** Trigonometry of f64 (sin_cos, atan2): only the real instance is modelled. *)
Class Trig (F : Type) : Type := {
  fsin : F -> F;
  fcos : F -> F;
  fatan2 : F -> F -> F;      (* y.atan2(x) *)
}.

Definition Ratan2 (y x : R) : R :=
  (if Rltb 0 x then atan (y / x)
   else if Rltb x 0 then (if Rleb 0 y then atan (y / x) + PI else atan (y / x) - PI)
   else if Rltb 0 y then PI / 2
   else if Rltb y 0 then - (PI / 2)
   else 0)%R.

#[global] Instance RTrig : Trig R := { fsin := sin; fcos := cos; fatan2 := Ratan2 }.

Section Quat.
Context {F : Type} {NF : Num F} {TF : Trig F}.
Local Open Scope num_scope.

(** DQuat as (x,y,z,w). *)
Definition quat_from_axis_angle (axis : vec3 F) (angle : F) : vec4 F :=
  let s := fsin (angle * fhalf) in
  let c := fcos (angle * fhalf) in
  let v := vmulr axis s in
  V4 (x3 v) (y3 v) (z3 v) c.

(** DQuat * DVec3 *)
Definition quat_mul_vec3 (q : vec4 F) (v : vec3 F) : vec3 F :=
  let w := w4 q in
  let b := V3 (x4 q) (y4 q) (z4 q) in
  let b2 := dot3 b b in
  vadd (vadd (vmulr v (w * w - b2)) (vmulr b (dot3 v b * f2))) (vmulr (cross3 b v) (w * f2)).
End Quat.
