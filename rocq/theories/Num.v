(** The number type [Float] of the code, abstractly, with its instances.

    /repo/src/lib.rs:1 defines [pub type Float = f64].  The model is written over any
    type [F] with the operations below; [RNum] interprets them in the real numbers
    (exact arithmetic), [F64Num] in IEEE-754 binary64 with round-to-nearest-even
    (Coq's [SpecFloat], a computable definition without axioms). *)
From Coq Require Import Reals Lra.
From Coq Require Import Floats.SpecFloat.
From Verif Require Import Prelude.

Class Num (F : Type) : Type := {
  f0 : F;                       (* 0.0 *)
  f1 : F;                       (* 1.0 *)
  fadd : F -> F -> F;
  fsub : F -> F -> F;
  fmul : F -> F -> F;
  fdiv : F -> F -> F;
  fneg : F -> F;
  fabs : F -> F;
  fsqrt : F -> F;
  feqb : F -> F -> bool;        (* == *)
  fltb : F -> F -> bool;        (* <  *)
  fleb : F -> F -> bool;        (* <= *)
  fofnat : nat -> F;            (* usize as f64 *)
  flit : Z -> positive -> F;    (* the literal n/d (both exactly representable) *)
  fmaxval : F;                  (* f64::MAX *)
  fpi : F;                      (* std::f64::consts::PI *)
  fulps4 : F -> F -> bool;      (* same sign and at most 4 units in the last place apart *)
}.

Declare Scope num_scope.
Delimit Scope num_scope with num.
Infix "+" := fadd : num_scope.
Infix "-" := fsub : num_scope.
Infix "*" := fmul : num_scope.
Infix "/" := fdiv : num_scope.
Notation "- x" := (fneg x) : num_scope.
Infix "<?" := fltb : num_scope.
Infix "<=?" := fleb : num_scope.
Notation "x >? y" := (fltb y x) (only parsing) : num_scope.
Notation "x >=? y" := (fleb y x) (only parsing) : num_scope.

Section Derived.
Context {F : Type} {NF : Num F}.
Local Open Scope num_scope.

(** f64::is_nan *)
Definition fisnan (x : F) : bool := negb (feqb x x).
(** f64::EPSILON = 2^-52 *)
Definition feps : F := flit 1 4503599627370496.
(** /repo/src/utils.rs:5  TOLERANCE = 1.0e-7 *)
Definition ftol : F := flit 1 10000000.
Definition f2 : F := flit 2 1.
Definition fhalf : F := flit 1 2.
(** std::f64::consts::TAU (exactly 2*PI, also in binary64) *)
Definition ftau : F := f2 * fpi.
(** f64::MIN = -f64::MAX *)
Definition fminval : F := - fmaxval.

(** approx 0.4 (dependency, from its documentation): abs_diff_eq is |a-b| <= epsilon,
    ulps_eq! uses epsilon = f64::EPSILON and max_ulps = 4. *)
Definition abs_diff_eq (a b eps : F) : bool := fabs (a - b) <=? eps.
Definition ulps_eq (a b : F) : bool := abs_diff_eq a b feps || fulps4 a b.

(** f64::min / f64::max: a NaN argument is ignored. *)
Definition fmin (a b : F) : F :=
  if fisnan a then b else if fisnan b then a else if a <=? b then a else b.
Definition fmax (a b : F) : F :=
  if fisnan a then b else if fisnan b then a else if b <=? a then a else b.

(** f64::clamp: panics unless min <= max (so also on NaN bounds). *)
Definition fclamp (x lo hi : F) : outcome F :=
  if lo <=? hi then
    let x := if x <? lo then lo else x in
    Ok (if x >? hi then hi else x)
  else Panic.

(** iter().sum::<f64>() : left fold from zero. *)
Definition fsum (l : list F) : F := fold_left fadd l f0.
End Derived.

(** ** Real numbers *)
Definition Rleb (x y : R) : bool := if Rle_dec x y then true else false.
Definition Rltb (x y : R) : bool := if Rlt_dec x y then true else false.
Definition Reqb (x y : R) : bool := if Req_EM_T x y then true else false.

(** In [R] "within 4 units in the last place" is interpreted as: same strict sign and
    relative distance at most 4 * 2^-52.  Two doubles of the normal range at most 4 ulps
    apart satisfy it, so reals distinguished by this test are also distinguished by the code. *)
Definition Rulps4 (a b : R) : bool :=
  Rltb 0 (a * b) && Rleb (Rabs (a - b)) (4 * / 4503599627370496 * Rmax (Rabs a) (Rabs b)).

Definition RMAX : R := IZR ((2 ^ 53 - 1) * 2 ^ 971).

#[global] Instance RNum : Num R := {
  f0 := 0%R; f1 := 1%R;
  fadd := Rplus; fsub := Rminus; fmul := Rmult; fdiv := Rdiv; fneg := Ropp;
  fabs := Rabs; fsqrt := sqrt;
  feqb := Reqb; fltb := Rltb; fleb := Rleb;
  fofnat := INR;
  flit := fun n d => (IZR n / IZR (Zpos d))%R;
  fmaxval := RMAX;
  fpi := PI;
  fulps4 := Rulps4;
}.

(** ** IEEE-754 binary64 *)
Definition f64 : Type := spec_float.
Definition p64 : Z := 53.
Definition e64 : Z := 1024.
Definition f64_of_Z (z : Z) : f64 := binary_normalize p64 e64 z 0 false.

(** The bit pattern without the sign, as an integer (f64::to_bits with the sign bit cleared). *)
Definition f64_mag_bits (x : f64) : Z :=
  match x with
  | S754_zero _ => 0
  | S754_infinity _ => 2047 * 2 ^ 52
  | S754_nan => 2047 * 2 ^ 52 + 2 ^ 51
  | S754_finite _ m e =>
      if (2 ^ 52 <=? Zpos m)%Z then ((e + 1075) * 2 ^ 52 + (Zpos m - 2 ^ 52))%Z else Zpos m
  end.
Definition f64_sign (x : f64) : bool :=
  match x with
  | S754_zero s => s | S754_infinity s => s | S754_nan => false | S754_finite s _ _ => s
  end.
Definition f64_isnan (x : f64) : bool := match x with S754_nan => true | _ => false end.

(** approx 0.4 UlpsEq for f64: different signum (NaN has signum NaN, different from itself)
    is false; otherwise the bit patterns differ by at most 4. *)
Definition f64_ulps4 (a b : f64) : bool :=
  negb (f64_isnan a) && negb (f64_isnan b) && Bool.eqb (f64_sign a) (f64_sign b)
  && (Z.abs (f64_mag_bits a - f64_mag_bits b) <=? 4)%Z.

#[global] Instance F64Num : Num f64 := {
  f0 := S754_zero false;
  f1 := f64_of_Z 1;
  fadd := SFadd p64 e64; fsub := SFsub p64 e64; fmul := SFmul p64 e64; fdiv := SFdiv p64 e64;
  fneg := SFopp; fabs := SFabs; fsqrt := SFsqrt p64 e64;
  feqb := SFeqb; fltb := SFltb; fleb := SFleb;
  fofnat := fun n => f64_of_Z (Z.of_nat n);
  flit := fun n d => SFdiv p64 e64 (f64_of_Z n) (f64_of_Z (Zpos d));
  fmaxval := f64_of_Z ((2 ^ 53 - 1) * 2 ^ 971);
  fpi := S754_finite false 7074237752028440 (-51);
  fulps4 := f64_ulps4;
}.

(** ** Reading boolean comparisons of the real instance *)
Lemma Rleb_true x y : Rleb x y = true <-> (x <= y)%R.
Proof. unfold Rleb; destruct (Rle_dec x y); intuition congruence. Qed.
Lemma Rleb_false x y : Rleb x y = false <-> (y < x)%R.
Proof. unfold Rleb; destruct (Rle_dec x y); split; intros; try congruence; lra. Qed.
Lemma Rltb_true x y : Rltb x y = true <-> (x < y)%R.
Proof. unfold Rltb; destruct (Rlt_dec x y); intuition congruence. Qed.
Lemma Rltb_false x y : Rltb x y = false <-> (y <= x)%R.
Proof. unfold Rltb; destruct (Rlt_dec x y); split; intros; try congruence; lra. Qed.
Lemma Reqb_true x y : Reqb x y = true <-> x = y.
Proof. unfold Reqb; destruct (Req_EM_T x y); intuition congruence. Qed.
Lemma Reqb_refl x : Reqb x x = true.
Proof. now apply Reqb_true. Qed.

Lemma Rleb_spec x y : BoolSpec (x <= y)%R (y < x)%R (Rleb x y).
Proof. destruct (Rleb x y) eqn:E; constructor; [now apply Rleb_true | now apply Rleb_false]. Qed.
Lemma Rltb_spec x y : BoolSpec (x < y)%R (y <= x)%R (Rltb x y).
Proof. destruct (Rltb x y) eqn:E; constructor; [now apply Rltb_true | now apply Rltb_false]. Qed.

(** Unfold the operations of [RNum] into those of [R]. *)
Ltac rnum :=
  cbn [f0 f1 fadd fsub fmul fdiv fneg fabs fsqrt feqb fltb fleb fofnat flit fmaxval fpi fulps4 RNum] in *.

Lemma fisnan_R (x : R) : fisnan x = false.
Proof. unfold fisnan; rnum. now rewrite Reqb_refl. Qed.
