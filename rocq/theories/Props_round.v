(** Properties C27-C29, C33-C36: lines, circles, planes, cylinders, spin, sweep and umbrella surfaces. *)
From Coq Require Import Reals Lra Psatz Lia.
From Verif Require Import Prelude Num M_vec M_utils M_curve M_polygon M_meshgen M_surface L_base L_vec L_geom L_round Props_utils.
Open Scope R_scope.

(** [q] is a point of the set [S] at least distance from [p]. *)
Definition nearest_in (S : vec3 R -> Prop) (p q : vec3 R) : Prop := S q /\ forall q', S q' -> dist3 p q <= dist3 p q'.
Definition sqdist (p q : vec3 R) : R := dot3 (vsub p q) (vsub p q).
Lemma dist3_le p q p' q' : sqdist p q <= sqdist p' q' -> dist3 p q <= dist3 p' q'.
Proof. unfold sqdist, dist3, dot3. vsimp. intros H. apply sqrt_le_1_alt. lra. Qed.
Lemma dist3_lt p q p' q' : sqdist p q < sqdist p' q' -> dist3 p q < dist3 p' q'.
Proof.
  unfold sqdist, dist3, dot3. vsimp. intros H. apply sqrt_lt_1_alt. split; [|lra].
  pose proof (Rle_0_sqr (x3 p - x3 q)). pose proof (Rle_0_sqr (y3 p - y3 q)). pose proof (Rle_0_sqr (z3 p - z3 q)). unfold Rsqr in *. lra.
Qed.

(** ** C27: Line *)
Lemma line_sqdist l p t : sqdist p (line_get_point l t)
  = dot3 (vsub p (l_origin l)) (vsub p (l_origin l)) - 2 * t * line_project l p + t * t * dot3 (l_direction l) (l_direction l).
Proof. unfold sqdist, line_get_point, line_project, dot3. vsimp. ring. Qed.
Theorem C27_line_nearest (l : Line R) (p : vec3 R) : unit3 (l_direction l) ->
  (forall t, dist3 p (line_get_point l (line_project l p)) <= dist3 p (line_get_point l t)) /\
  (forall t, t <> line_project l p -> dist3 p (line_get_point l (line_project l p)) < dist3 p (line_get_point l t)).
Proof.
  intros Hd. unfold unit3 in Hd. set (b := line_project l p).
  assert (E : forall t, sqdist p (line_get_point l t) - sqdist p (line_get_point l b) = (t - b) * (t - b)).
  { intros t. rewrite !line_sqdist, Hd. fold b. ring. }
  split; intros t; [apply dist3_le|intros Ht; apply dist3_lt]; specialize (E t).
  - pose proof (Rle_0_sqr (t - b)) as P. unfold Rsqr in P. lra.
  - assert (Hn : t - b <> 0) by (intro; lra). apply sqr_pos_nonzero in Hn. lra.
Qed.
(** project inverts get_point exactly for the unit directions ... *)
Theorem C27_line_inverse (l : Line R) :
  (forall t, line_project l (line_get_point l t) = t) <-> unit3 (l_direction l).
Proof.
  assert (E : forall t, line_project l (line_get_point l t) = t * dot3 (l_direction l) (l_direction l)).
  { intros t. unfold line_project, line_get_point, dot3. vsimp. ring. }
  unfold unit3. split; intros H.
  - specialize (H 1). rewrite E in H. lra.
  - intros t. rewrite E, H. ring.
Qed.
(** ... and gives nearest points for every point exactly for unit (or zero) directions. *)
Theorem C27_line_nearest_iff_unit (l : Line R) :
  (forall p t, dist3 p (line_get_point l (line_project l p)) <= dist3 p (line_get_point l t)) <->
  (unit3 (l_direction l) \/ dot3 (l_direction l) (l_direction l) = 0).
Proof.
  split.
  - intros H. set (n := dot3 (l_direction l) (l_direction l)).
    assert (Hn : 0 <= n) by apply dot3_nonneg.
    set (p := line_get_point l 1). specialize (H p 1).
    assert (E : line_project l p = n). { unfold p, line_project, line_get_point, n, dot3. vsimp. ring. }
    rewrite E in H.
    assert (D1 : sqdist p (line_get_point l 1) = 0) by (unfold p, sqdist, dot3; vsimp; ring).
    destruct (Rle_lt_dec (sqdist p (line_get_point l n)) (sqdist p (line_get_point l 1))) as [K|K].
    + assert (D2 : sqdist p (line_get_point l n) = (1 - n) * (1 - n) * n).
      { unfold p, sqdist, line_get_point, n, dot3. vsimp. ring. }
      rewrite D1, D2 in K. destruct (Req_dec n 0) as [Z|Z]; [now right|left]. unfold unit3. fold n.
      assert (0 <= (1 - n) * (1 - n)) by (apply Rle_0_sqr). assert ((1 - n) * (1 - n) = 0) by nra.
      assert (1 - n = 0) by nra. lra.
    + apply dist3_lt in K. lra.
  - intros [H|H] p t.
    + now apply C27_line_nearest.
    + assert (Z : l_direction l = vzero) by now apply dot3_zero.
      apply dist3_le. unfold sqdist, line_get_point, dot3. rewrite Z. vsimp. lra.
Qed.
Theorem C27_nonunit_refuted : exists l p t,
  dist3 p (line_get_point l t) < dist3 p (line_get_point l (line_project l p)) /\ line_project l (line_get_point l t) <> t.
Proof.
  exists (Build_Line (V3 0 0 0) (V3 2 0 0)), (V3 2 0 0), 1. split.
  - apply dist3_lt. unfold sqdist, line_get_point, line_project, dot3. vsimp. cbn [l_origin l_direction x3 y3 z3]. lra.
  - unfold line_get_point, line_project, dot3. vsimp. cbn [l_origin l_direction x3 y3 z3]. intro; lra.
Qed.
Example C27_nonvacuous : unit3 (l_direction (Build_Line (V3 1 2 3) (V3 (3/5) (4/5) 0))).
Proof. unfold unit3, dot3. vsimp. cbn [l_direction x3 y3 z3]. lra. Qed.

(** ** C28: Circle *)
Definition orthonormal (a b : vec3 R) : Prop := unit3 a /\ unit3 b /\ dot3 a b = 0.
(** The circle of the given center, radius and axis as a point set. *)
Definition on_circle (c : Circle R) (q : vec3 R) : Prop :=
  dot3 (vsub q (ci_center c)) (ci_axis c) = 0 /\ sqdist q (ci_center c) = ci_radius c * ci_radius c.

Lemma rodrigues_perp k v a : dot3 k v = 0 -> rodrigues k a v = vadd (vmulr v (cos a)) (vmulr (cross3 k v) (sin a)).
Proof.
  intros H. unfold rodrigues. replace (x3 k * x3 v + y3 k * y3 v + z3 k * z3 v) with 0 by (unfold dot3 in H; vsimp; lra).
  unfold cross3. vsimp. f_equal; ring.
Qed.
Lemma cross_orthonormal k v : orthonormal k v ->
  dot3 (cross3 k v) (cross3 k v) = 1 /\ dot3 (cross3 k v) k = 0 /\ dot3 (cross3 k v) v = 0 /\ normalize3 (cross3 k v) = cross3 k v.
Proof.
  intros (Hk & Hv & Hkv). unfold unit3 in *.
  assert (E : dot3 (cross3 k v) (cross3 k v) = 1) by (rewrite lagrange3, Hk, Hv, Hkv; ring).
  repeat split; auto.
  - unfold dot3, cross3; vsimp. ring.
  - unfold dot3, cross3; vsimp. ring.
  - unfold normalize3, length3. rnum. rewrite E, sqrt_1. unfold cross3. vsimp. f_equal; field.
Qed.
(** every vector in the frame (ref, axis x ref, axis) *)
Lemma frame_decomp k v w : orthonormal k v ->
  dot3 w w = dot3 w v * dot3 w v + dot3 w (cross3 k v) * dot3 w (cross3 k v) + dot3 w k * dot3 w k.
Proof.
  intros (Hk & Hv & Hkv). unfold unit3 in *.
  (* the Gram determinant of (k,v,w) is the square of the triple product *)
  assert (G : dot3 w (cross3 k v) * dot3 w (cross3 k v) =
     dot3 w w * (dot3 k k * dot3 v v - dot3 k v * dot3 k v)
     - dot3 w k * (dot3 w k * dot3 v v - dot3 k v * dot3 w v)
     + dot3 w v * (dot3 w k * dot3 k v - dot3 k k * dot3 w v)).
  { unfold dot3, cross3; vsimp. ring. }
  rewrite Hk, Hv, Hkv in G. lra.
Qed.
Lemma frame_vector k v w : orthonormal k v ->
  w = vadd (vadd (vmulr v (dot3 w v)) (vmulr (cross3 k v) (dot3 w (cross3 k v)))) (vmulr k (dot3 w k)).
Proof.
  intros H. destruct (cross_orthonormal k v H) as (A1 & A2 & A3 & _). destruct H as (Hk & Hv & Hkv). unfold unit3 in *.
  set (u := cross3 k v) in *.
  assert (E : vsub w (vadd (vadd (vmulr v (dot3 w v)) (vmulr u (dot3 w u))) (vmulr k (dot3 w k))) = vzero).
  { apply dot3_zero. set (e := vsub w _).
    pose proof (frame_decomp k v e (conj Hk (conj Hv Hkv))) as D. fold u in D.
    assert (E1 : dot3 e v = 0).
    { transitivity (dot3 w v - dot3 w v * dot3 v v - dot3 w u * dot3 u v - dot3 w k * dot3 k v).
      - unfold e, dot3. vsimp. ring. - rewrite Hv, A3, Hkv. ring. }
    assert (E2 : dot3 e u = 0).
    { transitivity (dot3 w u - dot3 w v * dot3 u v - dot3 w u * dot3 u u - dot3 w k * dot3 u k).
      - unfold e, dot3. vsimp. ring. - rewrite A1, A3, A2. ring. }
    assert (E3 : dot3 e k = 0).
    { transitivity (dot3 w k - dot3 w v * dot3 k v - dot3 w u * dot3 u k - dot3 w k * dot3 k k).
      - unfold e, dot3. vsimp. ring. - rewrite Hkv, A2, Hk. ring. }
    rewrite D, E1, E2, E3. ring. }
  clearbody u. apply vec3_ext; [apply (f_equal x3) in E|apply (f_equal y3) in E|apply (f_equal z3) in E]; vsimp; lra.
Qed.

Section CircleProps.
Context (c : Circle R) (H : orthonormal (ci_axis c) (ci_ref_dir c)).
Let k := ci_axis c.
Let v := ci_ref_dir c.
Let u := cross3 k v.
Lemma circle_point a : circle_get_point c a = vadd (ci_center c) (vmulr (vadd (vmulr v (cos a)) (vmulr u (sin a))) (ci_radius c)).
Proof.
  unfold circle_get_point. destruct H as (Hk & Hv & Hkv). rewrite quat_is_rotation by exact Hk. now rewrite rodrigues_perp by exact Hkv.
Qed.
Lemma circle_point_coords a : let w := vsub (circle_get_point c a) (ci_center c) in
  dot3 w v = ci_radius c * cos a /\ dot3 w u = ci_radius c * sin a /\ dot3 w k = 0.
Proof.
  destruct (cross_orthonormal k v H) as (A1 & A2 & A3 & _). destruct H as (Hk & Hv & Hkv). unfold unit3 in *. fold k v in Hk, Hv, Hkv. fold u in A1, A2, A3.
  rewrite circle_point. cbv zeta. set (r := ci_radius c). clearbody r. clearbody u v k. repeat split.
  - transitivity (r * (cos a * dot3 v v + sin a * dot3 u v)); [unfold dot3; vsimp; ring|rewrite Hv, A3; ring].
  - transitivity (r * (cos a * dot3 u v + sin a * dot3 u u)); [unfold dot3; vsimp; ring|rewrite A1, A3; ring].
  - transitivity (r * (cos a * dot3 k v + sin a * dot3 u k)); [unfold dot3; vsimp; ring|rewrite Hkv, A2; ring].
Qed.
Lemma circle_project_eq p : circle_project c p = norm_angle (Ratan2 (dot3 (vsub p (ci_center c)) u) (dot3 (vsub p (ci_center c)) v)).
Proof.
  unfold circle_project, norm_angle. destruct (cross_orthonormal k v H) as (_ & _ & _ & E). unfold k, v in E. rewrite E.
  cbn [fatan2 RTrig]. unfold ftau, f2. rnum. fold k v u. replace (2 / 1 * PI) with (2 * PI) by field. reflexivity.
Qed.

(** points on the circle, all of them, periodically *)
Theorem C28_on_circle a : on_circle c (circle_get_point c a) /\ dist3 (circle_get_point c a) (ci_center c) = Rabs (ci_radius c).
Proof.
  destruct (circle_point_coords a) as (A & B & C). cbv zeta in *.
  assert (E : sqdist (circle_get_point c a) (ci_center c) = ci_radius c * ci_radius c).
  { unfold sqdist. rewrite (frame_decomp k v _ H). fold u. rewrite A, B, C. pose proof (sin2_cos2 a) as P. unfold Rsqr in P. nra. }
  split; [split; [exact C|exact E]|].
  unfold dist3. rewrite <- sqrt_Rsqr_abs. f_equal. unfold Rsqr. rewrite <- E. unfold sqdist, dot3. vsimp. ring.
Qed.
Theorem C28_periodic a : circle_get_point c (a + 2 * PI) = circle_get_point c a.
Proof.
  rewrite !circle_point. replace (2 * PI) with (2 * INR 1 * PI) by (cbn; ring). now rewrite cos_period, sin_period.
Qed.
Theorem C28_project_range p : 0 <= circle_project c p < 2 * PI.
Proof.
  rewrite circle_project_eq. set (x := dot3 _ v). set (y := dot3 _ u).
  destruct (Req_dec x 0) as [Hx|Hx], (Req_dec y 0) as [Hy|Hy]; try (apply norm_angle_spec; tauto).
  rewrite Hx, Hy, Ratan2_00. unfold norm_angle. destruct (Rleb_spec 0 0); pose proof PI_RGT_0; lra.
Qed.
Theorem C28_project_inverse a : 0 < ci_radius c -> 0 <= a < 2 * PI -> circle_project c (circle_get_point c a) = a.
Proof.
  intros Hr Ha. rewrite circle_project_eq. destruct (circle_point_coords a) as (A & B & _). cbv zeta in *.
  rewrite A, B. now apply norm_angle_inverse.
Qed.
Theorem C28_all_points q : on_circle c q -> circle_get_point c (circle_project c q) = q \/ ci_radius c < 0.
Proof.
  intros [Hq Hd]. destruct (Rlt_le_dec (ci_radius c) 0) as [Hr|Hr]; [now right|left].
  set (w := vsub q (ci_center c)) in *.
  assert (Ew : q = vadd (ci_center c) w). { unfold w. destruct q. vsimp. f_equal; ring. }
  pose proof (frame_decomp k v w H) as D. pose proof (frame_vector k v w H) as V. fold u in D, V. unfold k in D, V. rewrite Hq in D, V.
  unfold sqdist in Hd. fold w in Hd. fold k in D, V. fold u in D.
  rewrite circle_point, circle_project_eq. fold w. set (x := dot3 w v) in *. set (y := dot3 w u) in *.
  assert (Hxy : x * x + y * y = ci_radius c * ci_radius c) by lra.
  assert (Hs : sqrt (x * x + y * y) = ci_radius c) by (rewrite Hxy; now apply sqrt_square).
  rewrite Ew. f_equal. rewrite V. clear Ew.
  destruct (Req_dec (ci_radius c) 0) as [Z|Z].
  - assert (x = 0 /\ y = 0) as [-> ->] by (split; nra). rewrite Z. vsimp. f_equal; ring.
  - destruct (norm_angle_spec x y) as (_ & Hc & Hs').
    { intros [-> ->]. apply Z. nra. }
    rewrite Hs in Hc, Hs'. set (a := norm_angle (Ratan2 y x)) in *. clearbody a x y u v k w. rewrite <- Hc, <- Hs'. vsimp. f_equal; ring.
Qed.
(** get_point(project(p)) is a nearest point of the circle, for every p (on the axis all are equally near). *)
Theorem C28_project_nearest p : 0 <= ci_radius c -> nearest_in (on_circle c) p (circle_get_point c (circle_project c p)).
Proof.
  intros Hr. split; [apply C28_on_circle|]. intros q' Hq'.
  destruct (C28_all_points q' Hq') as [E|E]; [|lra]. rewrite <- E. set (b := circle_project c q'). clearbody b. clear E Hq' q'.
  apply dist3_le. set (w := vsub p (ci_center c)).
  assert (S : forall a, sqdist p (circle_get_point c a) = dot3 w w + ci_radius c * ci_radius c - 2 * ci_radius c * (dot3 w v * cos a + dot3 w u * sin a)).
  { intros a. destruct (C28_on_circle a) as [[_ D] _]. rewrite <- D.
    transitivity (dot3 w w + sqdist (circle_get_point c a) (ci_center c) - 2 * dot3 w (vsub (circle_get_point c a) (ci_center c))).
    - unfold sqdist, w, dot3. vsimp. ring.
    - f_equal. rewrite circle_point. set (r := ci_radius c). clearbody r u v k w. unfold dot3. vsimp. ring. }
  rewrite !S. rewrite circle_project_eq. fold w. set (x := dot3 w v). set (y := dot3 w u).
  destruct (Req_dec x 0) as [Hx|Hx], (Req_dec y 0) as [Hy|Hy]; [rewrite Hx, Hy; lra| | |];
  (destruct (norm_angle_spec x y) as (_ & Hc & Hs); [tauto|];
   set (a := norm_angle (Ratan2 y x)) in *; set (rho := sqrt (x * x + y * y)) in *;
   assert (Hrho : 0 <= rho) by apply sqrt_pos;
   assert (E1 : x * cos a + y * sin a = rho) by (pose proof (sin2_cos2 a) as P; unfold Rsqr in P; rewrite <- Hc, <- Hs; nra);
   assert (E2 : x * cos b + y * sin b = rho * cos (a - b)) by (rewrite cos_minus; rewrite <- Hc, <- Hs; ring);
   rewrite E1, E2; pose proof (COS_bound (a - b)) as CB;
   assert (rho * cos (a - b) <= rho) by nra; nra).
Qed.
End CircleProps.
Definition circle_ex : Circle R := Build_Circle (V3 1 2 3) 5 (V3 0 0 1) (V3 (3/5) (4/5) 0).
Example C28_nonvacuous : orthonormal (ci_axis circle_ex) (ci_ref_dir circle_ex) /\ 0 < ci_radius circle_ex /\
  on_circle circle_ex (V3 1 7 3).
Proof. unfold orthonormal, unit3, on_circle, sqdist, dot3, circle_ex. vsimp. cbn. repeat split; lra. Qed.

(** ** C29: refine_parameter_range of a circle *)
Theorem C29_refine (a0 a1 b0 b1 : R) (same_sense : bool) :
  0 <= a0 < 2 * PI -> 0 <= a1 < 2 * PI -> circle_refine (a0, a1) same_sense = (b0, b1) ->
  (* end points are kept *)
  (b0 = a0 \/ b0 = a0 + 2 * PI) /\ (b1 = a1 \/ b1 = a1 + 2 * PI) /\
  (forall c, orthonormal (ci_axis c) (ci_ref_dir c) ->
     circle_get_point c b0 = circle_get_point c a0 /\ circle_get_point c b1 = circle_get_point c a1) /\
  (* the sense decides the direction, and less than a full turn is made *)
  (same_sense = true -> b0 <= b1 < b0 + 2 * PI) /\
  (same_sense = false -> b1 <= b0 < b1 + 2 * PI) /\
  (* a closed circle (equal angles) yields the empty arc *)
  (b0 = b1 <-> a0 = a1).
Proof.
  intros H0 H1 E. unfold circle_refine, ftau, f2 in E. rnum. replace (2 / 1 * PI) with (2 * PI) in E by field.
  assert (C : (b0 = a0 \/ b0 = a0 + 2 * PI) /\ (b1 = a1 \/ b1 = a1 + 2 * PI) /\
     (same_sense = true -> b0 <= b1 < b0 + 2 * PI) /\ (same_sense = false -> b1 <= b0 < b1 + 2 * PI) /\ (b0 = b1 <-> a0 = a1)).
  { destruct same_sense; cbn [andb negb] in E.
    - destruct (Rltb_spec a1 a0); injection E as <- <-; repeat split; intros; try discriminate; try lra; auto.
    - destruct (Rltb_spec a0 a1); injection E as <- <-; repeat split; intros; try discriminate; try lra; auto. }
  destruct C as (C1 & C2 & C3 & C4 & C5). do 2 (split; [assumption|]). split; [|auto].
  intros c Hc. destruct C1 as [->| ->], C2 as [->| ->]; rewrite ?C28_periodic by assumption; auto.
Qed.
(** Hence a closed circular edge does not yield a full turn. *)
Theorem C29_full_circle_refuted : forall a s, 0 <= a < 2 * PI -> circle_refine (a, a) s = (a, a).
Proof.
  intros a s H. unfold circle_refine. rnum. destruct (Rltb_spec a a); [lra|]. now destruct s.
Qed.
Example C29_nonvacuous : circle_refine (3, 1) true = (3, 1 + 2 / 1 * PI) /\ circle_refine (1, 3) false = (1 + 2 / 1 * PI, 3) /\
  circle_refine (1, 3) true = (1, 3).
Proof. unfold circle_refine, ftau, f2. rnum. rdec. auto. Qed.

(** ** C33: Plane *)
Definition on_plane (s : Plane R) (q : vec3 R) : Prop := exists u v, q = plane_get_point s u v.
Lemma plane_coords s a b : orthonormal (p_u_axis s) (p_v_axis s) -> let w := vsub (plane_get_point s a b) (p_origin s) in
  dot3 w (p_u_axis s) = a /\ dot3 w (p_v_axis s) = b.
Proof.
  intros (Hu & Hv & Huv). unfold unit3 in *. cbv zeta. unfold plane_get_point. split.
  - transitivity (a * dot3 (p_u_axis s) (p_u_axis s) + b * dot3 (p_u_axis s) (p_v_axis s)); [unfold dot3; vsimp; ring|rewrite Hu, Huv; ring].
  - transitivity (a * dot3 (p_u_axis s) (p_v_axis s) + b * dot3 (p_v_axis s) (p_v_axis s)); [unfold dot3; vsimp; ring|rewrite Hv, Huv; ring].
Qed.
Theorem C33_inverse (s : Plane R) (a b : R) : orthonormal (p_u_axis s) (p_v_axis s) -> plane_project s (plane_get_point s a b) = V2 a b.
Proof. intros H. unfold plane_project. destruct (plane_coords s a b H) as [-> ->]. reflexivity. Qed.
Theorem C33_nearest (s : Plane R) (p : vec3 R) : orthonormal (p_u_axis s) (p_v_axis s) ->
  let '(V2 a b) := plane_project s p in
  nearest_in (on_plane s) p (plane_get_point s a b) /\
  dot3 (vsub p (plane_get_point s a b)) (p_u_axis s) = 0 /\ dot3 (vsub p (plane_get_point s a b)) (p_v_axis s) = 0.
Proof.
  intros H. unfold plane_project. cbv zeta. set (w := vsub p (p_origin s)). set (a := dot3 w (p_u_axis s)). set (b := dot3 w (p_v_axis s)).
  pose proof H as (Hu & Hv & Huv). unfold unit3 in *.
  assert (D : forall a' b', sqdist p (plane_get_point s a' b') = dot3 w w - 2 * a' * a - 2 * b' * b + a' * a' + b' * b').
  { intros a' b'.
    transitivity (dot3 w w - 2 * a' * a - 2 * b' * b + a' * a' * dot3 (p_u_axis s) (p_u_axis s) + b' * b' * dot3 (p_v_axis s) (p_v_axis s)
                  + 2 * a' * b' * dot3 (p_u_axis s) (p_v_axis s)).
    - unfold a, b, w, sqdist, plane_get_point, dot3. vsimp. ring. - rewrite Hu, Hv, Huv. ring. }
  split.
  - split; [now exists a, b|]. intros q' (a' & b' & ->). apply dist3_le. rewrite !D.
    pose proof (Rle_0_sqr (a' - a)). pose proof (Rle_0_sqr (b' - b)). unfold Rsqr in *. lra.
  - split.
    + transitivity (dot3 w (p_u_axis s) - a * dot3 (p_u_axis s) (p_u_axis s) - b * dot3 (p_u_axis s) (p_v_axis s)).
      * unfold w, plane_get_point, dot3. vsimp. ring. * rewrite Hu, Huv. unfold a. ring.
    + transitivity (dot3 w (p_v_axis s) - a * dot3 (p_u_axis s) (p_v_axis s) - b * dot3 (p_v_axis s) (p_v_axis s)).
      * unfold w, plane_get_point, dot3. vsimp. ring. * rewrite Hv, Huv. unfold b. ring.
Qed.
(** The parameter-space distance is the space distance: trimming in the parameter plane is faithful. *)
Theorem C33_isometry (s : Plane R) (a b a' b' : R) : orthonormal (p_u_axis s) (p_v_axis s) ->
  dist3 (plane_get_point s a b) (plane_get_point s a' b') = dist2 (V2 a b) (V2 a' b').
Proof.
  intros (Hu & Hv & Huv). unfold unit3 in *. unfold dist3, dist2. f_equal. cbn [x2 y2].
  transitivity (sqdist (plane_get_point s a b) (plane_get_point s a' b')); [unfold sqdist, dot3; vsimp; ring|].
  transitivity ((a - a') * (a - a') * dot3 (p_u_axis s) (p_u_axis s) + (b - b') * (b - b') * dot3 (p_v_axis s) (p_v_axis s)
     + 2 * (a - a') * (b - b') * dot3 (p_u_axis s) (p_v_axis s)).
  - unfold sqdist, plane_get_point, dot3. vsimp. ring. - rewrite Hu, Hv, Huv. ring.
Qed.
Definition plane_ex : Plane R := Build_Plane (V3 1 2 3) (V3 0 0 1) (V3 (3/5) (4/5) 0) (V3 (-4/5) (3/5) 0).
Example C33_nonvacuous : orthonormal (p_u_axis plane_ex) (p_v_axis plane_ex).
Proof. unfold orthonormal, unit3, dot3, plane_ex. vsimp. cbn. repeat split; lra. Qed.

(** ** C34: Cylinder *)
Definition axial (c : Cylinder R) (q : vec3 R) : R := dot3 (vsub q (cy_origin c)) (cy_axis c).
(** squared distance from the axis line *)
Definition axis_sqdist (c : Cylinder R) (q : vec3 R) : R :=
  sqdist q (vadd (cy_origin c) (vmulr (cy_axis c) (axial c q))).
Definition on_cylinder (c : Cylinder R) (q : vec3 R) : Prop := axis_sqdist c q = cy_radius c * cy_radius c.

Lemma sqdist_axis q o k t : sqdist q (vadd o (vmulr k t)) =
  dot3 (vsub q o) (vsub q o) - 2 * t * dot3 (vsub q o) k + t * t * dot3 k k.
Proof. unfold sqdist, dot3. vsimp. ring. Qed.
Section CylinderProps.
Context (c : Cylinder R) (H : orthonormal (cy_axis c) (cy_ref_dir c)).
Let k := cy_axis c.
Let v := cy_ref_dir c.
Let u := cross3 k v.
Lemma cylinder_point l a : cylinder_get_point c l a =
  vadd (vadd (cy_origin c) (vmulr k l)) (vmulr (vadd (vmulr v (cos a)) (vmulr u (sin a))) (cy_radius c)).
Proof.
  unfold cylinder_get_point. destruct H as (Hk & Hv & Hkv). rewrite quat_is_rotation by exact Hk. now rewrite rodrigues_perp by exact Hkv.
Qed.
Lemma cylinder_point_coords l a : let w := vsub (cylinder_get_point c l a) (cy_origin c) in
  dot3 w v = cy_radius c * cos a /\ dot3 w u = cy_radius c * sin a /\ dot3 w k = l.
Proof.
  destruct (cross_orthonormal k v H) as (A1 & A2 & A3 & _). destruct H as (Hk & Hv & Hkv). unfold unit3 in *. fold k v in Hk, Hv, Hkv. fold u in A1, A2, A3.
  rewrite cylinder_point. cbv zeta. set (r := cy_radius c). clearbody r. clearbody u v k. repeat split.
  - transitivity (l * dot3 k v + r * (cos a * dot3 v v + sin a * dot3 u v)); [unfold dot3; vsimp; ring|rewrite Hkv, Hv, A3; ring].
  - transitivity (l * dot3 u k + r * (cos a * dot3 u v + sin a * dot3 u u)); [unfold dot3; vsimp; ring|rewrite A1, A2, A3; ring].
  - transitivity (l * dot3 k k + r * (cos a * dot3 k v + sin a * dot3 u k)); [unfold dot3; vsimp; ring|rewrite Hk, Hkv, A2; ring].
Qed.
Lemma axis_sqdist_frame q : let w := vsub q (cy_origin c) in axis_sqdist c q = dot3 w v * dot3 w v + dot3 w u * dot3 w u.
Proof.
  cbv zeta. set (w := vsub q (cy_origin c)). pose proof (frame_decomp k v w H) as D. fold u in D.
  destruct H as (Hk & _ & _). unfold unit3 in Hk. fold k in Hk.
  transitivity (dot3 w w - dot3 w k * dot3 w k); [|lra].
  unfold axis_sqdist, axial. rewrite sqdist_axis. fold w k. rewrite Hk. ring.
Qed.
Theorem C34_on_cylinder l a : on_cylinder c (cylinder_get_point c l a) /\ axial c (cylinder_get_point c l a) = l.
Proof.
  destruct (cylinder_point_coords l a) as (A & B & C). cbv zeta in *. split; [|exact C].
  unfold on_cylinder. rewrite axis_sqdist_frame. cbv zeta. rewrite A, B. pose proof (sin2_cos2 a) as P. unfold Rsqr in P. nra.
Qed.
Lemma cylinder_project_eq p : let w := vsub p (cy_origin c) in
  cylinder_project c p = V2 (dot3 w k) (norm_angle (Ratan2 (dot3 w u) (dot3 w v))).
Proof.
  unfold cylinder_project, norm_angle. cbn [fatan2 RTrig]. unfold ftau, f2. rnum. fold k v u. cbv zeta.
  replace (2 / 1 * PI) with (2 * PI) by field. reflexivity.
Qed.
Theorem C34_project_range p : 0 <= y2 (cylinder_project c p) < 2 * PI.
Proof.
  rewrite cylinder_project_eq. cbv zeta. cbn [y2]. set (x := dot3 _ v). set (y := dot3 _ u).
  destruct (Req_dec x 0) as [Hx|Hx], (Req_dec y 0) as [Hy|Hy]; try (apply norm_angle_spec; tauto).
  rewrite Hx, Hy, Ratan2_00. unfold norm_angle. destruct (Rleb_spec 0 0); pose proof PI_RGT_0; lra.
Qed.
Theorem C34_project_inverse l a : 0 < cy_radius c -> 0 <= a < 2 * PI -> cylinder_project c (cylinder_get_point c l a) = V2 l a.
Proof.
  intros Hr Ha. rewrite cylinder_project_eq. destruct (cylinder_point_coords l a) as (A & B & C). cbv zeta in *.
  rewrite A, B, C. now rewrite norm_angle_inverse.
Qed.
Lemma cylinder_vector q : let w := vsub q (cy_origin c) in
  q = vadd (vadd (cy_origin c) (vmulr k (dot3 w k))) (vadd (vmulr v (dot3 w v)) (vmulr u (dot3 w u))).
Proof.
  cbv zeta. set (w := vsub q (cy_origin c)). pose proof (frame_vector k v w H) as V. fold u in V.
  assert (Ew : q = vadd (cy_origin c) w). { unfold w. destruct q. vsimp. f_equal; ring. }
  rewrite Ew. rewrite V at 1. clear V Ew. set (a := dot3 w k). set (b := dot3 w v). set (d := dot3 w u). clearbody a b d. clearbody u v k. vsimp. f_equal; ring.
Qed.
Theorem C34_get_point_project q : 0 <= cy_radius c -> on_cylinder c q ->
  cylinder_get_point c (x2 (cylinder_project c q)) (y2 (cylinder_project c q)) = q.
Proof.
  intros Hr Hq. unfold on_cylinder in Hq. rewrite axis_sqdist_frame in Hq. cbv zeta in Hq.
  rewrite cylinder_point, cylinder_project_eq. cbv zeta. cbn [x2 y2]. pose proof (cylinder_vector q) as V. cbv zeta in V.
  set (w := vsub q (cy_origin c)) in *. set (x := dot3 w v) in *. set (y := dot3 w u) in *.
  assert (Hs : sqrt (x * x + y * y) = cy_radius c) by (rewrite Hq; now apply sqrt_square).
  transitivity (vadd (vadd (cy_origin c) (vmulr k (dot3 w k))) (vadd (vmulr v x) (vmulr u y))); [|now symmetry].
  f_equal. clear V.
  destruct (Req_dec (cy_radius c) 0) as [Z|Z].
  - assert (x = 0 /\ y = 0) as [-> ->] by (split; nra). rewrite Z. vsimp. f_equal; ring.
  - destruct (norm_angle_spec x y) as (_ & Hc & Hs').
    { intros [-> ->]. apply Z. nra. }
    rewrite Hs in Hc, Hs'. set (a := norm_angle (Ratan2 y x)) in *. clearbody a x y w. clearbody u v k. rewrite <- Hc, <- Hs'. vsimp. f_equal; ring.
Qed.
(** project gives the nearest point of the (infinite) cylinder. *)
Theorem C34_project_nearest p : 0 <= cy_radius c ->
  nearest_in (on_cylinder c) p (cylinder_get_point c (x2 (cylinder_project c p)) (y2 (cylinder_project c p))).
Proof.
  intros Hr. split; [apply C34_on_cylinder|]. intros q' Hq'.
  rewrite <- (C34_get_point_project q' Hr Hq'). generalize (x2 (cylinder_project c q')) as l. generalize (y2 (cylinder_project c q')) as b. intros b l. clear Hq' q'.
  apply dist3_le. set (w := vsub p (cy_origin c)).
  assert (S : forall l a, sqdist p (cylinder_get_point c l a) = dot3 w v * dot3 w v + dot3 w u * dot3 w u + (dot3 w k - l) * (dot3 w k - l)
     + cy_radius c * cy_radius c - 2 * cy_radius c * (dot3 w v * cos a + dot3 w u * sin a)).
  { intros l' a. destruct (cylinder_point_coords l' a) as (A & B & C). cbv zeta in *.
    unfold sqdist. rewrite (frame_decomp k v _ H). fold u.
    assert (L : forall z, dot3 (vsub p (cylinder_get_point c l' a)) z = dot3 w z - dot3 (vsub (cylinder_get_point c l' a) (cy_origin c)) z)
      by (intros; unfold w, dot3; vsimp; ring).
    rewrite !L, A, B, C. pose proof (sin2_cos2 a) as P. unfold Rsqr in P. nra. }
  rewrite !S. rewrite cylinder_project_eq. fold w. cbv zeta. cbn [x2 y2]. set (x := dot3 w v). set (y := dot3 w u).
  pose proof (Rle_0_sqr (dot3 w k - l)) as Pl. unfold Rsqr in Pl.
  destruct (Req_dec x 0) as [Hx|Hx], (Req_dec y 0) as [Hy|Hy]; [rewrite Hx, Hy; lra| | |];
  (destruct (norm_angle_spec x y) as (_ & Hc & Hs); [tauto|];
   set (a := norm_angle (Ratan2 y x)) in *; set (rho := sqrt (x * x + y * y)) in *;
   assert (Hrho : 0 <= rho) by apply sqrt_pos;
   assert (E1 : x * cos a + y * sin a = rho) by (pose proof (sin2_cos2 a) as P; unfold Rsqr in P; rewrite <- Hc, <- Hs; nra);
   assert (E2 : x * cos b + y * sin b = rho * cos (a - b)) by (rewrite cos_minus; rewrite <- Hc, <- Hs; ring);
   rewrite E1, E2; pose proof (COS_bound (a - b)) as CB;
   assert (rho * cos (a - b) <= rho) by nra; nra).
Qed.

(** The ring map: central projection from the apex at axial height d.  It can be inverted on the
    cylinder exactly at heights on the ring's side of the apex. *)
Lemma ring_coords q d : let w := vsub q (cy_origin c) in
  project_to_ring c q d = V2 (dot3 w v * (d / (d - dot3 w k))) (dot3 w u * (d / (d - dot3 w k))).
Proof. reflexivity. Qed.
Theorem C34_ring_inverse q d : 0 < cy_radius c -> on_cylinder c q -> d <> 0 -> axial c q <> d ->
  (generate_point_from_ring c (project_to_ring c q d) d = q <-> 0 < d / (d - axial c q)).
Proof.
  intros Hr Hq Hd Hz. unfold on_cylinder in Hq. rewrite axis_sqdist_frame in Hq. cbv zeta in Hq.
  pose proof (cylinder_vector q) as V. cbv zeta in V. unfold axial in *. rewrite ring_coords. cbv zeta.
  set (w := vsub q (cy_origin c)) in *. fold k in Hz |- *. set (x := dot3 w v) in *. set (y := dot3 w u) in *. set (z := dot3 w k) in *.
  set (t := d / (d - z)).
  assert (Hdz : d - z <> 0) by (intro; lra).
  assert (Ht : t <> 0) by (unfold t, Rdiv; apply Rmult_integral_contrapositive; split; [assumption|now apply Rinv_neq_0_compat]).
  assert (EL : length2 (V2 (x * t) (y * t)) = cy_radius c * Rabs t).
  { unfold length2, dot2. rnum. cbn [x2 y2]. replace (x * t * (x * t) + y * t * (y * t)) with ((cy_radius c * Rabs t) * (cy_radius c * Rabs t)).
    - apply sqrt_square. apply Rmult_le_pos; [lra|apply Rabs_pos].
    - replace (cy_radius c * Rabs t * (cy_radius c * Rabs t)) with ((cy_radius c * cy_radius c) * (t * t)).
      + rewrite <- Hq. ring.
      + unfold Rabs. destruct (Rcase_abs t); ring. }
  assert (EG : generate_point_from_ring c (V2 (x * t) (y * t)) d =
     vadd (vadd (vadd (cy_origin c) (vmulr v (x * t * / Rabs t))) (vmulr u (y * t * / Rabs t))) (vmulr k (d * (1 - / Rabs t)))).
  { unfold generate_point_from_ring. fold v k. fold u. cbv zeta. rnum. rewrite EL. cbn [x2 y2].
    assert (Rabs t <> 0) by now apply Rabs_no_R0.
    replace (cy_radius c / (cy_radius c * Rabs t)) with (/ Rabs t) by (field; lra). reflexivity. }
  rewrite EG. split.
  - intros E. destruct (Rlt_le_dec 0 t) as [P|P]; [exact P|exfalso]. assert (Hneg : t < 0) by lra. rewrite Rabs_left in E by assumption.
    (* axial coordinate of the generated point *)
    assert (F : forall al be ga, dot3 (vsub (vadd (vadd (vadd (cy_origin c) (vmulr v al)) (vmulr u be)) (vmulr k ga)) (cy_origin c)) v = al
       /\ dot3 (vsub (vadd (vadd (vadd (cy_origin c) (vmulr v al)) (vmulr u be)) (vmulr k ga)) (cy_origin c)) u = be).
    { destruct (cross_orthonormal k v H) as (A1 & A2 & A3 & _). destruct H as (Hk & Hv & Hkv). unfold unit3 in *. fold k v in Hk, Hv, Hkv. fold u in A1, A2, A3.
      clearbody u v k. intros. split.
      - transitivity (al * dot3 v v + be * dot3 u v + ga * dot3 k v); [unfold dot3; vsimp; ring|rewrite Hv, A3, Hkv; ring].
      - transitivity (al * dot3 u v + be * dot3 u u + ga * dot3 u k); [unfold dot3; vsimp; ring|rewrite A1, A2, A3; ring]. }
    destruct (F (x * t * / - t) (y * t * / - t) (d * (1 - / - t))) as [F1 F2]. rewrite E in F1, F2. fold w x y in F1, F2.
    assert (x = 0) by (replace (x * t * / - t) with (- x) in F1 by (field; lra); lra).
    assert (y = 0) by (replace (y * t * / - t) with (- y) in F2 by (field; lra); lra). nra.
  - intros P. rewrite Rabs_right by lra.
    replace (x * t * / t) with x by (field; lra). replace (y * t * / t) with y by (field; lra).
    replace (d * (1 - / t)) with z by (unfold t; field; lra).
    transitivity (vadd (vadd (cy_origin c) (vmulr k z)) (vadd (vmulr v x) (vmulr u y))); [|now symmetry].
    clear EL EG V. clearbody x y z. clearbody u v k. vsimp. f_equal; ring.
Qed.
End CylinderProps.

(** The apex height chosen by trim (cylinder.rs:71-73) is 2 (max - min) of the axial heights of the boundary,
    measured from the cylinder's origin; see [cylinder_trim_polygons].  The ring map is invertible on the boundary exactly
    when twice the lowest height is below the highest one. *)
Definition trim_apex (c : Cylinder R) (vertices : list (vec3 R)) : R :=
  let '(min_z, max_z) := get_min_max_by_key (map (cylinder_project c) vertices) (fun p => x2 p) in (max_z - min_z) * 2.
Lemma trim_uses_apex c fuel polygons vertices :
  cylinder_trim_polygons c fuel polygons vertices =
  trim_with_mesher fuel (fun p => Ok (generate_point_from_ring c p (trim_apex c vertices)))
                        (fun p => Ok (cylinder_get_point c (x2 p) (y2 p)))
                        polygons vertices (map (fun v => project_to_ring c v (trim_apex c vertices)) vertices).
Proof.
  unfold cylinder_trim_polygons, trim_apex. destruct (get_min_max_by_key _ _) as [a b].
  unfold f2. rnum. now replace (2 / 1) with 2 by field.
Qed.
Theorem C34_trim_apex (c : Cylinder R) (vertices : list (vec3 R)) (lo hi : R) :
  orthonormal (cy_axis c) (cy_ref_dir c) -> 0 < cy_radius c -> (forall q, In q vertices -> on_cylinder c q) ->
  (forall q, In q vertices -> - RMAX < axial c q < RMAX) ->
  (exists q, In q vertices /\ axial c q = lo) -> (exists q, In q vertices /\ axial c q = hi) ->
  (forall q, In q vertices -> lo <= axial c q <= hi) -> lo < hi ->
  let d := trim_apex c vertices in
  ((forall q, In q vertices -> generate_point_from_ring c (project_to_ring c q d) d = q) <-> 2 * lo < hi).
Proof.
  intros H Hr Hon HB [qlo [Ilo Elo]] [qhi [Ihi Ehi]] Hb Hlt d.
  assert (Ed : d = 2 * (hi - lo)).
  { unfold d, trim_apex.
    pose proof (C58_min_max (map (cylinder_project c) vertices) (fun p => x2 p)) as M.
    destruct (get_min_max_by_key _ _) as [mn mx]. destruct M as ([i1 [I1 E1]] & [i2 [I2 E2]] & MM).
    - destruct vertices; [destruct Ilo|discriminate].
    - intros i Hi. apply in_map_iff in Hi. destruct Hi as [q [<- Hq]]. now apply HB.
    - apply in_map_iff in I1. destruct I1 as [q1 [<- Hq1]]. apply in_map_iff in I2. destruct I2 as [q2 [<- Hq2]].
      assert (F : forall q, x2 (cylinder_project c q) = axial c q) by reflexivity. rewrite F in E1, E2.
      pose proof (Hb _ Hq1). pose proof (Hb _ Hq2).
      pose proof (MM _ (in_map (cylinder_project c) _ _ Ilo)). pose proof (MM _ (in_map (cylinder_project c) _ _ Ihi)). rewrite !F in *. lra. }
  assert (Hd : 0 < d) by lra. split.
  - intros Hinv. destruct (Rlt_le_dec (2 * lo) hi) as [P|P]; [exact P|exfalso].
    specialize (Hinv qhi Ihi). destruct (Req_dec (axial c qhi) d) as [E|E].
    + (* at the apex itself *)
      specialize (Hon qhi Ihi). unfold on_cylinder in Hon. pose proof (axis_sqdist_frame c H qhi) as D. cbv zeta in D.
      rewrite Hon in D. unfold project_to_ring in Hinv. cbv zeta in Hinv. rnum. fold (axial c qhi) in Hinv.
      rewrite E in Hinv. rewrite Rminus_diag_eq in Hinv by reflexivity. unfold Rdiv in Hinv. rewrite Rinv_0, !Rmult_0_r in Hinv.
      unfold generate_point_from_ring in Hinv. cbv zeta in Hinv. rnum. cbn [x2 y2] in Hinv. rewrite !Rmult_0_l in Hinv.
      assert (Z : forall z, dot3 (vsub (vadd (vadd (vadd (cy_origin c) (vmulr (cy_ref_dir c) 0)) (vmulr (cross3 (cy_axis c) (cy_ref_dir c)) 0)) (vmulr (cy_axis c) (d * (1 - cy_radius c / length2 (V2 0 0))))) (cy_origin c)) z
         = d * (1 - cy_radius c / length2 (V2 0 0)) * dot3 (cy_axis c) z).
      { intros z. generalize (d * (1 - cy_radius c / length2 (V2 0 0))). intros t. unfold dot3. vsimp. ring. }
      destruct (cross_orthonormal _ _ H) as (_ & A2 & _ & _). destruct H as (_ & _ & Hkv).
      assert (Z1 := Z (cy_ref_dir c)). assert (Z2 := Z (cross3 (cy_axis c) (cy_ref_dir c))). rewrite Hinv in Z1, Z2.
      rewrite Hkv in Z1. replace (dot3 (cy_axis c) (cross3 (cy_axis c) (cy_ref_dir c))) with 0 in Z2 by (unfold dot3, cross3; vsimp; ring).
      rewrite Z1, Z2 in D. nra.
    + apply (C34_ring_inverse c H) in Hinv; auto; [|intro; lra].
      assert (axial c qhi > d) by lra. assert (N : d - axial c qhi < 0) by lra. apply Rinv_lt_0_compat in N. unfold Rdiv in Hinv. nra.
  - intros P q Hq. pose proof (Hb q Hq). apply (C34_ring_inverse c H); auto; try (intro; lra). apply Rdiv_lt_0_compat; lra.
Qed.
(** So there are cylinder faces (here a strip at heights 10..11) for which trim's ring map is not invertible. *)
Definition cyl_ex : Cylinder R := Build_Cylinder (V3 0 0 0) (V3 0 0 1) (V3 1 0 0) 1.
Lemma cyl_ex_orthonormal : orthonormal (cy_axis cyl_ex) (cy_ref_dir cyl_ex).
Proof. unfold orthonormal, unit3, dot3, cyl_ex. vsimp. cbn. repeat split; lra. Qed.
Lemma RMAX_big : 1000 < RMAX.
Proof. unfold RMAX. apply IZR_lt. vm_compute. reflexivity. Qed.
Definition strip (lo hi : R) : list (vec3 R) := [V3 1 0 lo; V3 0 1 lo; V3 0 1 hi; V3 1 0 hi].
Lemma strip_on lo hi q : In q (strip lo hi) -> on_cylinder cyl_ex q /\ (axial cyl_ex q = lo \/ axial cyl_ex q = hi).
Proof.
  intros Hq. cbn in Hq. repeat (destruct Hq as [<-|Hq]; [unfold on_cylinder, axis_sqdist, axial, sqdist, dot3, cyl_ex; vsimp; cbn; split; [ring|lra]|]). destruct Hq.
Qed.
Theorem C34_trim_refuted : exists q, In q (strip 10 11) /\ on_cylinder cyl_ex q /\
  let d := trim_apex cyl_ex (strip 10 11) in generate_point_from_ring cyl_ex (project_to_ring cyl_ex q d) d <> q.
Proof.
  pose proof (C34_trim_apex cyl_ex (strip 10 11) 10 11 cyl_ex_orthonormal) as T. cbv zeta in T.
  destruct T as [T _]; try (cbn; lra).
  - intros q Hq. now apply strip_on in Hq.
  - intros q Hq. apply strip_on in Hq. pose proof RMAX_big. lra.
  - exists (V3 1 0 10). split; [now left|]. unfold axial, dot3; vsimp; cbn; lra.
  - exists (V3 1 0 11). split; [cbn; auto|]. unfold axial, dot3; vsimp; cbn; lra.
  - intros q Hq. apply strip_on in Hq. lra.
  - set (d := trim_apex cyl_ex (strip 10 11)) in *. cbv zeta.
    assert (E : forall q, In q (strip 10 11) -> {generate_point_from_ring cyl_ex (project_to_ring cyl_ex q d) d = q} + {generate_point_from_ring cyl_ex (project_to_ring cyl_ex q d) d <> q}).
    { intros q _. generalize (generate_point_from_ring cyl_ex (project_to_ring cyl_ex q d) d). intros [a b e]. destruct q as [a' b' e'].
      destruct (Req_EM_T a a') as [->|N]; [destruct (Req_EM_T b b') as [->|N]; [destruct (Req_EM_T e e') as [->|N]|]|]; try (right; congruence); now left. }
    unfold strip in E, T |- *.
    destruct (E (V3 1 0 10)) as [E1|E1]; [now left| |exists (V3 1 0 10); repeat split; auto; [now left|now apply (strip_on 10 11); left]].
    destruct (E (V3 0 1 10)) as [E2|E2]; [cbn; auto| |exists (V3 0 1 10); repeat split; auto; [cbn; auto|apply (strip_on 10 11); cbn; auto]].
    destruct (E (V3 0 1 11)) as [E3|E3]; [cbn; auto| |exists (V3 0 1 11); repeat split; auto; [cbn; auto|apply (strip_on 10 11); cbn; auto]].
    destruct (E (V3 1 0 11)) as [E4|E4]; [cbn; auto| |exists (V3 1 0 11); repeat split; auto; [cbn; auto 6|apply (strip_on 10 11); cbn; auto 6]].
    exfalso. assert (2 * 10 < 11); [|lra]. apply T. intros q [<-|[<-|[<-|[<-|[]]]]]; assumption.
Qed.
Example C34_nonvacuous : forall q, In q (strip 0 1) -> let d := trim_apex cyl_ex (strip 0 1) in
  generate_point_from_ring cyl_ex (project_to_ring cyl_ex q d) d = q.
Proof.
  pose proof (C34_trim_apex cyl_ex (strip 0 1) 0 1 cyl_ex_orthonormal) as T. cbv zeta in T.
  destruct T as [_ T]; try (cbn; lra).
  - intros q Hq. now apply strip_on in Hq.
  - intros q Hq. apply strip_on in Hq. pose proof RMAX_big. lra.
  - exists (V3 1 0 0). split; [now left|]. unfold axial, dot3; vsimp; cbn; lra.
  - exists (V3 1 0 1). split; [cbn; auto|]. unfold axial, dot3; vsimp; cbn; lra.
  - intros q Hq. apply strip_on in Hq. lra.
  - apply T. lra.
Qed.

(** ** C35: SpinSurface *)
(** The point [s] rotated by [a] about the axis through [o] with unit direction [k]. *)
Definition rotate_about (o k : vec3 R) (a : R) (s : vec3 R) : vec3 R := vadd o (rodrigues k a (vsub s o)).
Theorem C35_spin_is_rotation (o k : vec3 R) (section : Curve R) (s a : R) (q : vec3 R) : unit3 k ->
  c_get_point section s = Ok q -> spin_get_point o k section s a = Ok (rotate_about o k a q).
Proof.
  intros Hk E. unfold spin_get_point. rewrite E. cbn [obind]. f_equal. set (w := vsub q o). cbv zeta.
  rewrite quat_is_rotation by exact Hk. unfold rotate_about. fold w.
  assert (P : dot3 k (vsub w (vmulr k (dot3 w k))) = 0).
  { transitivity (dot3 w k - dot3 w k * dot3 k k); [unfold dot3; vsimp; ring|]. unfold unit3 in Hk. rewrite Hk. ring. }
  rewrite rodrigues_perp by exact P. unfold rodrigues. unfold dot3, cross3. vsimp. cbn [x3 y3 z3]. f_equal; ring.
Qed.
(** a rotation keeps the axial coordinate, the distance from the axis and from every point of the axis,
    does nothing for angle 0, composes by adding angles and has period 2 pi *)
Lemma rodrigues_axial k a v : unit3 k -> dot3 k (rodrigues k a v) = dot3 k v.
Proof.
  intros Hk. unfold unit3 in Hk.
  transitivity (dot3 k v * cos a + dot3 k v * (1 - cos a) * dot3 k k); [unfold rodrigues, dot3; vsimp; cbn [x3 y3 z3]; ring|]. rewrite Hk. ring.
Qed.
Lemma rodrigues_norm k a v : unit3 k -> dot3 (rodrigues k a v) (rodrigues k a v) = dot3 v v.
Proof.
  intros Hk. unfold unit3 in Hk. pose proof (sin2_cos2 a) as P. unfold Rsqr in P.
  pose proof (lagrange3 k v) as L. rewrite Hk in L.
  transitivity (dot3 v v * (cos a * cos a) + dot3 (cross3 k v) (cross3 k v) * (sin a * sin a) + dot3 k v * dot3 k v * (1 - cos a) * (1 - cos a) * dot3 k k + 2 * (dot3 k v * dot3 k v) * (1 - cos a) * cos a).
  - unfold rodrigues, dot3, cross3. vsimp. cbn [x3 y3 z3]. ring.
  - rewrite L, Hk. replace (sin a * sin a) with (1 - cos a * cos a) by lra. ring.
Qed.
Lemma rodrigues_0 k v : rodrigues k 0 v = v.
Proof. unfold rodrigues. rewrite cos_0, sin_0. destruct v as [a b c]. cbn [x3 y3 z3]. f_equal; ring. Qed.
Lemma rodrigues_add k a b v : unit3 k -> rodrigues k a (rodrigues k b v) = rodrigues k (a + b) v.
Proof.
  intros Hk. pose proof (rodrigues_axial k b v Hk) as A. unfold unit3 in Hk.
  assert (X : forall (i : vec3 R), rodrigues k a i = vadd (vadd (vmulr i (cos a)) (vmulr (cross3 k i) (sin a))) (vmulr k (dot3 k i * (1 - cos a)))).
  { intros i. unfold rodrigues, dot3, cross3. vsimp. cbn [x3 y3 z3]. f_equal; ring. }
  rewrite X, A. clear X A.
  assert (C : cross3 k (rodrigues k b v) = vadd (vmulr (cross3 k v) (cos b)) (vmulr (vsub (vmulr k (dot3 k v)) v) (sin b))).
  { assert (D : cross3 k (rodrigues k b v) = vadd (vmulr (cross3 k v) (cos b)) (vmulr (vsub (vmulr k (dot3 k v)) (vmulr v (dot3 k k))) (sin b))).
    { unfold rodrigues, dot3, cross3. vsimp. cbn [x3 y3 z3]. f_equal; ring. }
    rewrite D, Hk. vsimp. f_equal; ring. }
  rewrite C. clear C. unfold rodrigues, dot3, cross3. vsimp. cbn [x3 y3 z3]. rewrite cos_plus, sin_plus. f_equal; ring.
Qed.
Theorem C35_rotation_laws (o k : vec3 R) : unit3 k ->
  (forall s, rotate_about o k 0 s = s) /\
  (forall a b s, rotate_about o k a (rotate_about o k b s) = rotate_about o k (a + b) s) /\
  (forall a s, rotate_about o k (a + 2 * PI) s = rotate_about o k a s) /\
  (forall a s, dot3 (vsub (rotate_about o k a s) o) k = dot3 (vsub s o) k) /\
  (forall a s t, sqdist (rotate_about o k a s) (vadd o (vmulr k t)) = sqdist s (vadd o (vmulr k t))).
Proof.
  intros Hk. assert (V : forall x, vsub (vadd o x) o = x) by (intros [a b c]; vsimp; f_equal; ring). repeat split.
  - intros s. unfold rotate_about. rewrite rodrigues_0. destruct s as [a b c]. vsimp. f_equal; ring.
  - intros a b s. unfold rotate_about. rewrite V. now rewrite rodrigues_add.
  - intros a s. unfold rotate_about, rodrigues. replace (2 * PI) with (2 * INR 1 * PI) by (cbn; ring). now rewrite cos_period, sin_period.
  - intros a s. unfold rotate_about. rewrite V.
    transitivity (dot3 k (rodrigues k a (vsub s o))); [unfold dot3; vsimp; ring|]. rewrite rodrigues_axial by exact Hk. unfold dot3; vsimp; ring.
  - intros a s t. rewrite !sqdist_axis. unfold rotate_about at 1 2. rewrite !V. rewrite rodrigues_norm by exact Hk.
    f_equal. f_equal. f_equal. unfold rotate_about. rewrite V.
    transitivity (dot3 k (rodrigues k a (vsub s o))); [unfold dot3; vsimp; ring|]. rewrite rodrigues_axial by exact Hk. unfold dot3; vsimp; ring.
Qed.
Theorem C35_spin_panics_with_section {F} {NF : Num F} {TF : Trig F} (o k : vec3 F) (section : Curve F) s a :
  (exists q, spin_get_point o k section s a = Ok q) <-> (exists q, c_get_point section s = Ok q).
Proof. unfold spin_get_point. destruct (c_get_point section s); cbn [obind]; split; intros [q E]; try discriminate; eauto. Qed.
Example C35_nonvacuous : spin_get_point (V3 0 0 0) (V3 0 0 1) (line_curve (Build_Line (V3 1 0 0) (V3 0 0 1))) 2 (PI / 2) = Ok (V3 0 1 2).
Proof.
  rewrite (C35_spin_is_rotation _ _ _ _ _ (V3 1 0 2)).
  - unfold rotate_about, rodrigues. rewrite cos_PI2, sin_PI2. vsimp. cbn [x3 y3 z3]. f_equal. f_equal; ring.
  - unfold unit3, dot3; vsimp. lra.
  - cbn. unfold line_get_point. vsimp. cbn. f_equal. f_equal; ring.
Qed.

(** ** C36: sweep and umbrella *)
Theorem C36_sweep {F} {NF : Num F} (path section : Curve F) (p s : F) (a b : vec3 F) :
  c_get_point path p = Ok a -> c_get_point section s = Ok b ->
  sweep_get_point path section p s = Ok (V3 (fadd (x3 a) (x3 b)) (fadd (y3 a) (y3 b)) (fadd (z3 a) (z3 b))).
Proof. intros Ea Eb. unfold sweep_get_point. now rewrite Ea, Eb. Qed.
(** every isoparametric curve of a sweep is a translate of the section *)
Theorem C36_sweep_translates (path section : Curve R) (p p' s : R) (q q' : vec3 R) :
  sweep_get_point path section p s = Ok q -> sweep_get_point path section p' s = Ok q' ->
  exists a a', c_get_point path p = Ok a /\ c_get_point path p' = Ok a' /\ vsub q q' = vsub a a'.
Proof.
  unfold sweep_get_point. destruct (c_get_point path p) as [a| |], (c_get_point path p') as [a'| |], (c_get_point section s) as [b| |]; cbn [obind]; try discriminate.
  intros E E'. apply Ok_inj in E, E'. subst. exists a, a'. repeat split. vsimp. f_equal; ring.
Qed.
Theorem C36_umbrella (radius theta phi : R) : let q := umbrella_get_point radius theta phi in let r := radius / PI in
  q = V3 (r * (theta - sin theta) * cos phi) (r * (theta - sin theta) * sin phi) (r * (1 + cos theta)) /\
  sqrt (x3 q * x3 q + y3 q * y3 q) = Rabs (r * (theta - sin theta)) /\
  (0 <= radius -> 0 <= z3 q <= 2 * r).
Proof.
  cbv zeta. split; [reflexivity|]. unfold umbrella_get_point. cbn [x3 y3 z3 fsin fcos RTrig]. rnum. set (t := radius / PI * (theta - sin theta)). split.
  - rewrite <- sqrt_Rsqr_abs. f_equal. unfold Rsqr. pose proof (sin2_cos2 phi) as P. unfold Rsqr in P. nra.
  - intros Hr. pose proof (COS_bound theta). pose proof PI_RGT_0 as Hp.
    assert (0 <= radius / PI) by (apply Rmult_le_pos; [assumption|left; now apply Rinv_0_lt_compat]). nra.
Qed.
(** over the parameter range of the crate's own use, theta in [0, pi], the radial distance grows from 0 to the given radius
    while the height falls from 2 radius/pi to 0: the profile is a graph over the radius *)
Lemma theta_sin_increasing s t : s < t -> s - sin s < t - sin t.
Proof.
  intros H. assert (D : sin t - sin s < t - s); [|lra].
  assert (E : sin t - sin s = 2 * sin ((t - s) / 2) * cos ((t + s) / 2)).
  { rewrite form4. replace ((t - s) / 2) with ((t - s) / 2) by reflexivity. ring. }
  rewrite E. set (h := (t - s) / 2). assert (Hh : 0 < h) by (unfold h; lra). replace (t - s) with (2 * h) by (unfold h; field).
  pose proof (COS_bound ((t + s) / 2)) as CB. pose proof (SIN_bound h) as SB.
  destruct (Rle_lt_dec h 1) as [K|K].
  - pose proof (sin_lt_x h Hh). assert (0 < sin h) by (apply sin_gt_0; [assumption|pose proof PI2_1; lra]). nra.
  - nra.
Qed.
Theorem C36_umbrella_profile (radius phi : R) : 0 < radius ->
  let rho t := sqrt (x3 (umbrella_get_point radius t phi) ^ 2 + y3 (umbrella_get_point radius t phi) ^ 2) in
  rho 0 = 0 /\ rho PI = radius /\ z3 (umbrella_get_point radius 0 phi) = 2 * radius / PI /\ z3 (umbrella_get_point radius PI phi) = 0 /\
  forall s t, 0 <= s -> s < t -> t <= PI -> rho s < rho t /\ z3 (umbrella_get_point radius t phi) < z3 (umbrella_get_point radius s phi).
Proof.
  intros Hr. cbv beta zeta. pose proof PI_RGT_0 as Hp.
  assert (Hrp : 0 < radius / PI) by now apply Rdiv_lt_0_compat.
  assert (S0 : forall t, 0 <= t -> 0 <= t - sin t).
  { intros t [Ht| <-]; [|rewrite sin_0; lra]. pose proof (theta_sin_increasing 0 t Ht) as K. rewrite sin_0 in K. lra. }
  assert (RH : forall t, 0 <= t -> sqrt (x3 (umbrella_get_point radius t phi) ^ 2 + y3 (umbrella_get_point radius t phi) ^ 2) = radius / PI * (t - sin t)).
  { intros t Ht. destruct (C36_umbrella radius t phi) as (_ & E & _). cbv zeta in E. rewrite <- !Rsqr_pow2. unfold Rsqr. rewrite E. apply Rabs_right.
    apply Rle_ge, Rmult_le_pos; [lra|now apply S0]. }
  assert (ZH : forall t, z3 (umbrella_get_point radius t phi) = radius / PI * (1 + cos t)) by reflexivity.
  rewrite !RH by lra. rewrite sin_0, sin_PI, !ZH, cos_0, cos_PI.
  repeat split; try (field; lra).
  - rewrite !RH by lra. apply Rmult_lt_compat_l; [assumption|]. now apply theta_sin_increasing.
  - rewrite !ZH. apply Rmult_lt_compat_l; [assumption|]. apply Rplus_lt_compat_l. apply cos_decreasing_1; lra.
Qed.
