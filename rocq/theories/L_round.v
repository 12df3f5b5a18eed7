(** Polar coordinates, atan2 and rotations over R. *)
From Coq Require Import Reals Lra Psatz Lia.
From Verif Require Import Prelude Num M_vec L_base L_vec L_geom.
Open Scope R_scope.

Lemma sqr_pos_nonzero x : x <> 0 -> 0 < x * x.
Proof. intros H. exact (Rsqr_pos_lt x H). Qed.

Lemma hyp_pos x y : ~ (x = 0 /\ y = 0) -> 0 < sqrt (x * x + y * y).
Proof.
  intros H. apply sqrt_lt_R0. destruct (Req_dec x 0) as [Hx|Hx].
  - assert (Hy : y <> 0) by tauto. apply sqr_pos_nonzero in Hy. pose proof (Rle_0_sqr x). unfold Rsqr in *. lra.
  - apply sqr_pos_nonzero in Hx. pose proof (Rle_0_sqr y). unfold Rsqr in *. lra.
Qed.
Lemma hyp_sq x y : sqrt (x * x + y * y) * sqrt (x * x + y * y) = x * x + y * y.
Proof. apply sqrt_sqrt. pose proof (Rle_0_sqr x). pose proof (Rle_0_sqr y). unfold Rsqr in *. lra. Qed.

Lemma sqrt_ratio x y : x <> 0 -> sqrt (1 + (y / x)²) = sqrt (x * x + y * y) / Rabs x.
Proof.
  intros Hx. pose proof (Rabs_pos_lt x Hx) as Hp. pose proof (sqr_pos_nonzero x Hx) as Hxx.
  apply sq_eq_eq.
  - apply sqrt_pos.
  - apply Rmult_le_pos; [apply sqrt_pos|]. left. now apply Rinv_0_lt_compat.
  - rewrite sqrt_sqrt by (pose proof (Rle_0_sqr (y / x)); lra).
    replace (sqrt (x * x + y * y) / Rabs x * (sqrt (x * x + y * y) / Rabs x))
      with ((sqrt (x * x + y * y) * sqrt (x * x + y * y)) / (Rabs x * Rabs x)) by (field; lra).
    rewrite hyp_sq. replace (Rabs x * Rabs x) with (x * x) by (unfold Rabs; destruct (Rcase_abs x); ring).
    unfold Rsqr. field. assumption.
Qed.

(** atan2 is the polar angle in (-pi, pi]. *)
Lemma cos_atan_ratio x y : x <> 0 -> cos (atan (y / x)) = Rabs x / sqrt (x * x + y * y).
Proof.
  intros Hx. rewrite cos_atan, sqrt_ratio by assumption. pose proof (Rabs_pos_lt x Hx).
  assert (0 < sqrt (x * x + y * y)) by (apply hyp_pos; tauto). field. lra.
Qed.
Lemma sin_atan_ratio x y : x <> 0 -> sin (atan (y / x)) = (y / x) * Rabs x / sqrt (x * x + y * y).
Proof.
  intros Hx. rewrite sin_atan, sqrt_ratio by assumption. pose proof (Rabs_pos_lt x Hx).
  assert (0 < sqrt (x * x + y * y)) by (apply hyp_pos; tauto). field. lra.
Qed.
Theorem Ratan2_polar x y : ~ (x = 0 /\ y = 0) ->
  sqrt (x * x + y * y) * cos (Ratan2 y x) = x /\ sqrt (x * x + y * y) * sin (Ratan2 y x) = y /\
  - PI < Ratan2 y x <= PI.
Proof.
  intros H. pose proof (hyp_pos x y H) as Hr. set (r := sqrt (x * x + y * y)) in *.
  pose proof PI_RGT_0 as Hpi. unfold Ratan2.
  destruct (Rltb_spec 0 x) as [Hx|Hx].
  - rewrite cos_atan_ratio, sin_atan_ratio by (intro; lra). rewrite Rabs_right by lra. fold r.
    pose proof (atan_bound (y / x)). repeat split; try lra; field; lra.
  - destruct (Rltb_spec x 0) as [Hx'|Hx'].
    + assert (E1 : cos (atan (y / x) + PI) = x / r).
      { rewrite neg_cos, cos_atan_ratio by (intro; lra). rewrite Rabs_left by lra. fold r. field. lra. }
      assert (E2 : sin (atan (y / x) + PI) = y / r).
      { rewrite neg_sin, sin_atan_ratio by (intro; lra). rewrite Rabs_left by lra. fold r. field. lra. }
      pose proof (atan_bound (y / x)) as Hb.
      destruct (Rleb_spec 0 y) as [Hy|Hy].
      * rewrite E1, E2. repeat split; try (field; lra); try lra.
        assert (Hn : y / x <= 0). { unfold Rdiv. apply Rinv_lt_0_compat in Hx'. nra. }
        assert (atan (y / x) <= 0); [|lra]. destruct Hn as [Hn|Hn].
        { rewrite <- atan_0. left. now apply atan_increasing. } { rewrite Hn, atan_0. lra. }
      * replace (cos (atan (y / x) - PI)) with (cos (atan (y / x) + PI)).
        2:{ rewrite <- (cos_period (atan (y / x) - PI) 1). f_equal. cbn. ring. }
        replace (sin (atan (y / x) - PI)) with (sin (atan (y / x) + PI)).
        2:{ rewrite <- (sin_period (atan (y / x) - PI) 1). f_equal. cbn. ring. }
        rewrite E1, E2. repeat split; try (field; lra); try lra.
        assert (Hn : 0 < y / x). { unfold Rdiv. apply Rinv_lt_0_compat in Hx'. nra. }
        assert (0 < atan (y / x)); [|lra]. rewrite <- atan_0. now apply atan_increasing.
    + assert (x = 0) by lra. subst x.
      assert (Hry : r = Rabs y). { unfold r. rewrite Rmult_0_l, Rplus_0_l. apply (sqrt_Rsqr_abs y). }
      destruct (Rltb_spec 0 y) as [Hy|Hy].
      * rewrite cos_PI2, sin_PI2. rewrite Rabs_right in Hry by lra. repeat split; lra.
      * destruct (Rltb_spec y 0) as [Hy'|Hy'].
        { rewrite cos_neg, sin_neg, cos_PI2, sin_PI2. rewrite Rabs_left in Hry by lra. repeat split; lra. }
        { exfalso. apply H. split; lra. }
Qed.

Lemma angle_unique a b : cos a = cos b -> sin a = sin b -> -2 * PI < a - b < 2 * PI -> a = b.
Proof.
  intros Hc Hs Hab.
  assert (E : cos (a - b) = 1). { rewrite cos_minus, Hc, Hs. pose proof (sin2_cos2 b) as H. unfold Rsqr in H. lra. }
  set (t := (a - b) / 2). assert (Ht : a - b = 2 * t) by (unfold t; field). rewrite Ht in E.
  rewrite cos_2a_sin in E. assert (S0 : sin t * sin t = 0) by lra. assert (S1 : sin t = 0) by nra.
  destruct (Rtotal_order t 0) as [L|[L|L]]; [|lra|].
  - pose proof (sin_gt_0 (- t)). rewrite sin_neg in *. lra.
  - pose proof (sin_gt_0 t). lra.
Qed.

(** The normalisation to [0, 2pi) used by the projections. *)
Definition norm_angle (a : R) : R := if Rleb 0 a then a else a + 2 * PI.
Lemma norm_angle_spec x y : ~ (x = 0 /\ y = 0) ->
  let a := norm_angle (Ratan2 y x) in
  0 <= a < 2 * PI /\ sqrt (x * x + y * y) * cos a = x /\ sqrt (x * x + y * y) * sin a = y.
Proof.
  intros H. destruct (Ratan2_polar x y H) as (Hc & Hs & Hb). pose proof PI_RGT_0 as Hpi. unfold norm_angle. cbv zeta.
  destruct (Rleb_spec 0 (Ratan2 y x)) as [P|P]; repeat split; auto; try lra.
  - replace (2 * PI) with (2 * INR 1 * PI) by (cbn; ring). now rewrite cos_period.
  - replace (2 * PI) with (2 * INR 1 * PI) by (cbn; ring). now rewrite sin_period.
Qed.
Lemma norm_angle_inverse r a : 0 < r -> 0 <= a < 2 * PI -> norm_angle (Ratan2 (r * sin a) (r * cos a)) = a.
Proof.
  intros Hr Ha. pose proof (sin2_cos2 a) as H1. unfold Rsqr in H1.
  assert (Hne : ~ (r * cos a = 0 /\ r * sin a = 0)).
  { intros [Hc Hs]. assert (cos a = 0) by nra. assert (sin a = 0) by nra. nra. }
  destruct (norm_angle_spec _ _ Hne) as (Hb & Hc & Hs).
  set (b := norm_angle (Ratan2 (r * sin a) (r * cos a))) in *.
  assert (Er : sqrt (r * cos a * (r * cos a) + r * sin a * (r * sin a)) = r).
  { replace (r * cos a * (r * cos a) + r * sin a * (r * sin a)) with (r * r) by nra. apply sqrt_square. lra. }
  rewrite Er in Hc, Hs. apply angle_unique; [nra|nra|lra].
Qed.
Lemma Ratan2_00 : Ratan2 0 0 = 0.
Proof. unfold Ratan2. destruct (Rltb_spec 0 0) as [P|P]; [lra|]. reflexivity. Qed.

(** ** Rotations *)
Definition unit3 (k : vec3 R) : Prop := dot3 k k = 1.
(** Rodrigues' formula, the specification of a rotation by [a] about the unit vector [k]. *)
Definition rodrigues (k : vec3 R) (a : R) (v : vec3 R) : vec3 R :=
  let kv := x3 k * x3 v + y3 k * y3 v + z3 k * z3 v in
  V3 (x3 v * cos a + (y3 k * z3 v - z3 k * y3 v) * sin a + x3 k * (kv * (1 - cos a)))
     (y3 v * cos a + (z3 k * x3 v - x3 k * z3 v) * sin a + y3 k * (kv * (1 - cos a)))
     (z3 v * cos a + (x3 k * y3 v - y3 k * x3 v) * sin a + z3 k * (kv * (1 - cos a))).
Theorem quat_is_rotation (k v : vec3 R) (a : R) : unit3 k -> quat_mul_vec3 (quat_from_axis_angle k a) v = rodrigues k a v.
Proof.
  intros Hk. unfold unit3 in Hk.
  set (h := a * (1 / 2)). assert (Ha : a = 2 * h) by (unfold h; field).
  pose proof (sin2_cos2 h) as H1. unfold Rsqr in H1.
  assert (Ec : cos a = cos h * cos h - sin h * sin h) by (rewrite Ha; apply cos_2a).
  assert (Es : sin a = 2 * sin h * cos h) by (rewrite Ha; apply sin_2a).
  assert (E1 : 1 - cos a = 2 * (sin h * sin h)) by lra.
  unfold rodrigues. rewrite E1. rewrite Ec, Es. clear Ec Es E1 Ha.
  unfold quat_mul_vec3, quat_from_axis_angle, fhalf, f2. cbn [fsin fcos RTrig]. rnum. fold h.
  unfold dot3 in *. vsimp. rnum. cbn [x3 y3 z3 x4 y4 z4 w4] in *.
  replace (2 / 1) with 2 by field.
  set (s := sin h) in *. set (c := cos h) in *. clearbody s c h.
  assert (Eb : x3 k * s * (x3 k * s) + y3 k * s * (y3 k * s) + z3 k * s * (z3 k * s) = s * s).
  { transitivity ((x3 k * x3 k + y3 k * y3 k + z3 k * z3 k) * (s * s)); [ring|rewrite Hk; ring]. }
  rewrite Eb. unfold cross3. rnum. cbn [x3 y3 z3]. f_equal; ring.
Qed.
