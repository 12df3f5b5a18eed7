(** Euclidean geometry of the model's vectors over R. *)
From Coq Require Import Reals Lra Psatz Lia.
From Verif Require Import Prelude Num M_vec L_base L_vec.
Open Scope R_scope.

Lemma sq_le_le a b : 0 <= a -> 0 <= b -> a * a <= b * b -> a <= b.
Proof. intros Ha Hb H. destruct (Rle_lt_dec a b); [assumption|]. nra. Qed.
Lemma sq_eq_eq a b : 0 <= a -> 0 <= b -> a * a = b * b -> a = b.
Proof. intros Ha Hb H. apply Rle_antisym; apply sq_le_le; lra. Qed.
Lemma length2_nonneg (a : vec2 R) : 0 <= length2 a.
Proof. apply sqrt_pos. Qed.

Lemma lagrange3 (a b : vec3 R) : dot3 (cross3 a b) (cross3 a b) = dot3 a a * dot3 b b - dot3 a b * dot3 a b.
Proof. unfold dot3, cross3; rnum; cbn [x3 y3 z3]. ring. Qed.
Lemma lagrange2 (a b : vec2 R) : perp_dot a b * perp_dot a b = dot2 a a * dot2 b b - dot2 a b * dot2 a b.
Proof. unfold dot2, perp_dot; rnum. ring. Qed.
Lemma cauchy3 (a b : vec3 R) : dot3 a b * dot3 a b <= dot3 a a * dot3 b b.
Proof. pose proof (dot3_nonneg (cross3 a b)) as H. rewrite lagrange3 in H. lra. Qed.
Lemma dot_le_length3 (a b : vec3 R) : Rabs (dot3 a b) <= length3 a * length3 b.
Proof.
  apply sq_le_le; [apply Rabs_pos|apply Rmult_le_pos; apply length3_nonneg|].
  replace (Rabs (dot3 a b) * Rabs (dot3 a b)) with (dot3 a b * dot3 a b).
  - replace (length3 a * length3 b * (length3 a * length3 b)) with ((length3 a * length3 a) * (length3 b * length3 b)) by ring.
    rewrite !length3_sq. apply cauchy3.
  - unfold Rabs. destruct (Rcase_abs _); ring.
Qed.
Lemma dot3_add_sq (a b : vec3 R) : dot3 (vadd a b) (vadd a b) = dot3 a a + 2 * dot3 a b + dot3 b b.
Proof. unfold dot3; vsimp; rnum. ring. Qed.
Lemma triangle3 (a b : vec3 R) : length3 (vadd a b) <= length3 a + length3 b.
Proof.
  pose proof (length3_nonneg a). pose proof (length3_nonneg b).
  apply sq_le_le; [apply length3_nonneg|lra|]. rewrite length3_sq, dot3_add_sq.
  pose proof (dot_le_length3 a b) as H1. pose proof (Rle_abs (dot3 a b)).
  rewrite <- (length3_sq a), <- (length3_sq b). nra.
Qed.
Lemma length3_scale (a : vec3 R) k : length3 (vmulr a k) = Rabs k * length3 a.
Proof.
  apply sq_eq_eq; [apply length3_nonneg|apply Rmult_le_pos; [apply Rabs_pos|apply length3_nonneg]|].
  rewrite length3_sq. replace (Rabs k * length3 a * (Rabs k * length3 a)) with ((Rabs k * Rabs k) * (length3 a * length3 a)) by ring.
  rewrite length3_sq. replace (Rabs k * Rabs k) with (k * k) by (unfold Rabs; destruct (Rcase_abs k); ring).
  unfold dot3; vsimp; rnum. ring.
Qed.
Lemma length3_scale_pos (a : vec3 R) k : 0 <= k -> length3 (vmulr a k) = k * length3 a.
Proof. intros H. rewrite length3_scale. now rewrite Rabs_right by lra. Qed.
Lemma length3_zero (a : vec3 R) : length3 a = 0 -> a = vzero.
Proof. intros H. apply dot3_zero. rewrite <- length3_sq, H. ring. Qed.
Lemma length3_of_vzero : length3 (vzero : vec3 R) = 0.
Proof. unfold length3, dot3; vsimp; rnum. replace (0 * 0 + 0 * 0 + 0 * 0) with 0 by ring. apply sqrt_0. Qed.
Lemma length3_le_sq (a : vec3 R) d : 0 <= d -> dot3 a a <= d * d -> length3 a <= d.
Proof. intros Hd H. apply sq_le_le; [apply length3_nonneg|assumption|]. now rewrite length3_sq. Qed.
Lemma length3_ge_sq (a : vec3 R) d : d * d <= dot3 a a -> d <= length3 a.
Proof.
  intros H. destruct (Rle_lt_dec d 0) as [H0|H0]; [pose proof (length3_nonneg a); lra|].
  apply sq_le_le; [lra|apply length3_nonneg|]. now rewrite length3_sq.
Qed.

(** decide comparisons of concrete reals *)
Ltac rdec1 := match goal with
  | |- context [Rltb ?a ?b] => first [rewrite (proj2 (Rltb_true a b)) by lra | rewrite (proj2 (Rltb_false a b)) by lra]
  | |- context [Rleb ?a ?b] => first [rewrite (proj2 (Rleb_true a b)) by lra | rewrite (proj2 (Rleb_false a b)) by lra]
  end.
Ltac rdec := repeat (cbv beta iota; cbn [x2 y2 x3 y3 z3 x4 y4 z4 w4 fst snd andb orb negb]; rdec1); cbv beta iota; cbn [x2 y2 x3 y3 z3 x4 y4 z4 w4 fst snd andb orb negb].
