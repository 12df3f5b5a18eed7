(** Property C77: how close the sampled points of a curve segment are to the curve. *)
From Coq Require Import ZArith NArith Reals Lra Lia List Bool Arith Floats.SpecFloat Psatz.
From Verif Require Import Prelude Num M_vec M_utils M_curve L_base L_vec L_bezier L_bspline L_geom L_knot L_cdb L_round L_polygon Props_knot Props_bezier Props_utils Props_polyline Props_round Props_meshdist.
Import ListNotations.
Open Scope R_scope.

(** ** Specification *)
(** the point at ratio [s] of the straight line from [a] to [b] *)
Definition chord (a b : vec3 R) (s : R) : vec3 R :=
  V3 (x3 a + s * (x3 b - x3 a)) (y3 a + s * (y3 b - y3 a)) (z3 a + s * (z3 b - z3 a)).
(** [q] is within [d] of the broken line through [pts] *)
Definition near_path (d : R) (pts : list (vec3 R)) (q : vec3 R) : Prop :=
  exists i a b s, nth_error pts i = Some a /\ nth_error pts (i + 1) = Some b /\ 0 <= s <= 1 /\ dist3 q (chord a b s) <= d.
(** every point of the segment is within [d] of the broken line through [pts] *)
Definition followed (d : R) (s : CurveSegment R) (pts : list (vec3 R)) : Prop :=
  forall w, Rmin (fst (s_range s)) (snd (s_range s)) <= w <= Rmax (fst (s_range s)) (snd (s_range s)) ->
  exists q, c_get_point (s_curve s) w = Ok q /\ near_path d pts q.
(** a curve whose coordinates are polynomials of degree at most two *)
Definition quadratic (gp : R -> outcome (vec3 R)) (A B D : vec3 R) : Prop := forall u,
  gp u = Ok (V3 (x3 A + u * x3 B + u * u * x3 D) (y3 A + u * y3 B + u * u * y3 D) (z3 A + u * z3 B + u * u * z3 D)).

(** ** Every parameter lies between two consecutive ones that passed the test *)
Lemma nth_joined {A} (x r : list A) m j u : nth_error (x ++ [m]) j = Some u -> nth_error (x ++ m :: r) j = Some u.
Proof.
  revert j. induction x as [|y x IH]; intros j E; cbn in *.
  - destruct j; [exact E|]. destruct j; discriminate.
  - destruct j; [exact E|]. apply IH, E.
Qed.
Lemma division_cover rnd gp tol fuel : forall path a b l,
  parameter_division fuel rnd path gp (a, b) tol = Ok l ->
  forall w, Rmin a b <= w <= Rmax a b ->
  exists i u v, nth_error l i = Some u /\ nth_error l (i + 1) = Some v /\ flat rnd gp tol u v /\
    Rmin u v <= w <= Rmax u v /\ Rabs (v - u) <= Rabs (b - a).
Proof.
  induction fuel as [|fuel IH]; intros path a b l E w Hw; cbn [parameter_division fst snd] in E; [discriminate|].
  obind_inv E. obind_inv E. obind_inv E.
  match type of E with context [fltb ?x tol] => destruct (fltb x tol) eqn:El end.
  - apply Ok_inj in E. subst l. exists 0%nat, a, b. split; [reflexivity|]. split; [reflexivity|]. split.
    + exists path. do 3 eexists. repeat (split; [eassumption|]). exact El.
    + split; [exact Hw|lra].
  - obind_inv E. obind_inv E. apply Ok_inj in E. subst l.
    match goal with H1 : parameter_division _ _ (false :: _) _ _ _ = Ok _, H2 : parameter_division _ _ (true :: _) _ _ _ = Ok _ |- _ =>
      pose proof (IH _ _ _ _ H1 w) as I1; pose proof (IH _ _ _ _ H2 w) as I2;
      pose proof (C22_division_shape _ _ _ _ _ _ _ _ H1) as [[m1 S1] _]; pose proof (C22_division_shape _ _ _ _ _ _ _ _ H2) as [[m2 S2] _] end.
    subst. unfold f2 in *. rnum. set (m := (a + b) / (2 / 1)) in *. assert (Em : m = (a + b) / 2) by (unfold m; field).
    rewrite app_comm_cons, removelast_last.
    assert (C : (Rmin a m <= w <= Rmax a m) \/ (Rmin m b <= w <= Rmax m b)).
    { unfold Rmin, Rmax in *. destruct (Rle_dec a b), (Rle_dec a m), (Rle_dec m b); try lra; destruct (Rle_lt_dec w m); lra. }
    destruct C as [C|C].
    + destruct (I1 C) as (i & u & v & N1 & N2 & Fl & B & Bd). exists i, u, v.
      split; [rewrite app_comm_cons in N1; exact (nth_joined _ _ _ _ _ N1)|]. split; [rewrite app_comm_cons in N2; exact (nth_joined _ _ _ _ _ N2)|].
      split; [exact Fl|]. split; [exact B|]. eapply Rle_trans; [exact Bd|]. replace (m - a) with ((b - a) * / 2) by (rewrite Em; field).
      rewrite Rabs_mult, (Rabs_right (/ 2)) by lra. pose proof (Rabs_pos (b - a)). lra.
    + destruct (I2 C) as (i & u & v & N1 & N2 & Fl & B & Bd). exists (length (a :: m1) + i)%nat, u, v.
      split; [rewrite nth_error_app2 by lia; rewrite Nat.add_comm, Nat.add_sub; exact N1|].
      split; [rewrite nth_error_app2 by lia; replace (length (a :: m1) + i + 1 - length (a :: m1))%nat with (i + 1)%nat by lia; exact N2|].
      split; [exact Fl|]. split; [exact B|]. eapply Rle_trans; [exact Bd|]. replace (b - m) with ((b - a) * / 2) by (rewrite Em; field).
      rewrite Rabs_mult, (Rabs_right (/ 2)) by lra. pose proof (Rabs_pos (b - a)). lra.
Qed.
Lemma chord_model a b p : vadd a (vmulr (vsub b a) p) = chord a b p.
Proof. unfold chord. apply vec3_ext; vsimp; rnum; ring. Qed.

(** what has to be shown of one pair of parameters *)
Lemma follow_pairs fuel rnd (s : CurveSegment R) pts d :
  (forall path, 0 <= rnd path < 1) -> segment_get_points fuel rnd s = Ok pts ->
  (forall u v pu pv p q w, c_get_point (s_curve s) u = Ok pu -> c_get_point (s_curve s) v = Ok pv ->
     Rabs (v - u) <= Rabs (snd (s_range s) - fst (s_range s)) -> 2/5 <= p <= 3/5 ->
     c_get_point (s_curve s) (u + (v - u) * p) = Ok q -> dist3 q (chord pu pv p) < s_tolerance s -> Rmin u v <= w <= Rmax u v ->
     exists q' r, c_get_point (s_curve s) w = Ok q' /\ 0 <= r <= 1 /\ dist3 q' (chord pu pv r) <= d) ->
  followed d s pts.
Proof.
  intros Hr E HP w Hw. destruct (C55_samples_on_curve _ _ _ _ E) as (us & Eu & F2).
  destruct s as [c [a b] tol dv]. cbn [s_curve s_range s_tolerance fst snd] in *.
  destruct (division_cover _ _ _ _ _ _ _ _ Eu w Hw) as (i & u & v & N1 & N2 & (path & pu & pv & q & Gu & Gv & Gq & Fl) & B & Bd).
  pose proof (C22_probe_range _ (Hr path)) as Hp. set (p := probe (rnd path)) in *.
  rewrite chord_model, dist3_distance in Fl. rnum. apply Rltb_true in Fl.
  destruct (HP u v pu pv p q w Gu Gv Bd ltac:(lra) Gq Fl B) as (q' & r & E' & Hr' & D).
  exists q'. split; [exact E'|].
  assert (K : forall i x, nth_error us i = Some x -> exists y, nth_error pts i = Some y /\ c_get_point c x = Ok y).
  { clear - F2. induction F2 as [|x y l l' H F IH]; intros i z Hz; destruct i; cbn in *; try discriminate.
    - injection Hz as <-. eauto.
    - now apply IH. }
  destruct (K _ _ N1) as (y1 & P1 & Y1). destruct (K _ _ N2) as (y2' & P2 & Y2). rewrite Gu in Y1. rewrite Gv in Y2. apply Ok_inj in Y1, Y2. subst.
  exists i, y1, y2', r. auto.
Qed.

(** ** Curves of degree two *)
Lemma dist3_scaled p q k (D : vec3 R) : 0 <= k -> x3 p - x3 q = k * x3 D -> y3 p - y3 q = k * y3 D -> z3 p - z3 q = k * z3 D ->
  dist3 p q = k * sqrt (x3 D ^ 2 + y3 D ^ 2 + z3 D ^ 2).
Proof.
  intros Hk Ex Ey Ez. unfold dist3. rewrite Ex, Ey, Ez. replace ((k * x3 D) ^ 2 + (k * y3 D) ^ 2 + (k * z3 D) ^ 2) with (k * k * (x3 D ^ 2 + y3 D ^ 2 + z3 D ^ 2)) by ring.
  rewrite sqrt_mult_alt by nra. now rewrite sqrt_square.
Qed.
Lemma quadratic_dev gp A B D u v s pu pv q : quadratic gp A B D -> 0 <= s <= 1 -> gp u = Ok pu -> gp v = Ok pv -> gp (u + (v - u) * s) = Ok q ->
  dist3 q (chord pu pv s) = s * (1 - s) * (v - u) ^ 2 * sqrt (x3 D ^ 2 + y3 D ^ 2 + z3 D ^ 2).
Proof.
  intros Q Hs. rewrite !Q. intros E1 E2 E3. apply Ok_inj in E1, E2, E3. subst.
  set (k := s * (1 - s) * (v - u) ^ 2). assert (0 <= k). { unfold k. apply Rmult_le_pos; [nra|apply pow2_ge_0]. }
  rewrite (dist3_scaled _ _ k (V3 (- x3 D) (- y3 D) (- z3 D))); [|assumption|unfold k, chord; cbn [x3 y3 z3]; ring ..].
  cbn [x3 y3 z3]. f_equal. f_equal. ring.
Qed.
(** Sampling with tolerance [tol] leaves no point of the curve farther than 25/24 [tol] from the sampled line. *)
Theorem C77_quadratic fuel rnd (s : CurveSegment R) pts A B D :
  (forall path, 0 <= rnd path < 1) -> quadratic (c_get_point (s_curve s)) A B D ->
  segment_get_points fuel rnd s = Ok pts -> followed (25/24 * s_tolerance s) s pts.
Proof.
  intros Hr Q E. apply (follow_pairs fuel rnd s pts _ Hr E).
  intros u v pu pv p q w Gu Gv _ Hp Gq Hd Hw.
  rewrite (quadratic_dev _ A B D u v p pu pv q Q ltac:(lra) Gu Gv Gq) in Hd.
  set (N := sqrt (x3 D ^ 2 + y3 D ^ 2 + z3 D ^ 2)) in *. assert (HN : 0 <= (v - u) ^ 2 * N) by (apply Rmult_le_pos; [apply pow2_ge_0|apply sqrt_pos]).
  assert (HK : (v - u) ^ 2 * N * (6/25) <= s_tolerance s).
  { replace (p * (1 - p) * (v - u) ^ 2 * N) with ((v - u) ^ 2 * N * (p * (1 - p))) in Hd by ring.
    assert (6/25 <= p * (1 - p)) by nra. assert ((v - u) ^ 2 * N * (6/25) <= (v - u) ^ 2 * N * (p * (1 - p))) by (apply Rmult_le_compat_l; lra). lra. }
  destruct (Req_dec v u) as [->|Hne].
  - exists pu, 0. assert (w = u) as -> by (unfold Rmin, Rmax in Hw; destruct (Rle_dec u u); lra).
    split; [exact Gu|]. split; [lra|]. replace (chord pu pv 0) with pu; [|unfold chord; apply vec3_ext; cbn [x3 y3 z3]; ring].
    replace (dist3 pu pu) with 0; [|unfold dist3; rewrite !Rminus_eq_0; replace (0 ^ 2 + 0 ^ 2 + 0 ^ 2) with 0 by ring; now rewrite sqrt_0]. lra.
  - set (r := (w - u) / (v - u)). assert (Hr1 : 0 <= r <= 1).
    { unfold r. assert (Q1 : forall x y, 0 < y -> 0 <= x <= y -> 0 <= x / y <= 1).
      { intros x y Hy Hx. split; [apply Rmult_le_pos; [lra|left; now apply Rinv_0_lt_compat]|]. apply Rmult_le_reg_r with y; [lra|]. unfold Rdiv. rewrite Rmult_assoc, Rinv_l by lra. lra. }
      destruct (Rtotal_order u v) as [L|[L|L]]; [|lra|].
      - rewrite Rmin_left, Rmax_right in Hw by lra. apply Q1; lra.
      - rewrite Rmin_right, Rmax_left in Hw by lra. replace ((w - u) / (v - u)) with ((u - w) / (u - v)) by (field; lra). apply Q1; lra. }
    assert (Ew : w = u + (v - u) * r) by (unfold r; field; lra).
    rewrite Ew. eexists. exists r. split; [apply Q|]. split; [exact Hr1|].
    rewrite (quadratic_dev _ A B D u v r pu pv _ Q Hr1 Gu Gv (Q _)). fold N.
    replace (r * (1 - r) * (v - u) ^ 2 * N) with ((v - u) ^ 2 * N * (r * (1 - r))) by ring.
    assert (r * (1 - r) <= 1/4) by (pose proof (pow2_ge_0 (r - 1/2)); lra).
    assert ((v - u) ^ 2 * N * (r * (1 - r)) <= (v - u) ^ 2 * N * (1/4)) by (apply Rmult_le_compat_l; lra). lra.
Qed.
Lemma bezier_quadratic p0 p1 p2 : quadratic (bezier3_get_point [p0; p1; p2]) p0
  (V3 (2 * (x3 p1 - x3 p0)) (2 * (y3 p1 - y3 p0)) (2 * (z3 p1 - z3 p0)))
  (V3 (x3 p0 - 2 * x3 p1 + x3 p2) (y3 p0 - 2 * y3 p1 + y3 p2) (z3 p0 - 2 * z3 p1 + z3 p2)).
Proof.
  intros u. rewrite C01_bezier_eval by (cbn; lia). f_equal. unfold comb3, sumf. cbn [length seq map fold_right nth x3 y3 z3 Nat.sub pow]. unfold C. cbn [fact Nat.mul Nat.add Nat.sub INR]. f_equal; field.
Qed.
Corollary C77_parabola fuel rnd p0 p1 p2 range tol dv pts : let s := {| s_curve := bezier3_curve [p0; p1; p2]; s_range := range; s_tolerance := tol; s_division := dv |} in
  (forall path, 0 <= rnd path < 1) -> segment_get_points fuel rnd s = Ok pts -> followed (25/24 * tol) s pts.
Proof. intros s Hr E. exact (C77_quadratic fuel rnd s pts _ _ _ Hr (bezier_quadratic p0 p1 p2) E). Qed.

(** ** Arcs of circles *)
(** sin 18 degrees is the positive root of 4 s^2 + 2 s - 1 *)
Lemma sin_five y : sin (5 * y) = sin y * (16 * sin y ^ 4 - 20 * sin y ^ 2 + 5).
Proof.
  replace (5 * y) with (2 * y + (2 * y + y)) by ring. rewrite !sin_plus, !cos_plus, !sin_2a, !cos_2a.
  pose proof (sin2_cos2 y) as P. unfold Rsqr in P. set (s := sin y) in *. set (c := cos y) in *. clearbody s c.
  assert (Ec : c * c = 1 - s * s) by lra.
  transitivity (s * (5 * ((c * c) * (c * c)) - 10 * (c * c) * (s * s) + s * s * (s * s))); [ring|]. rewrite Ec. ring.
Qed.
Lemma sin_tenth : 0 < sin (PI / 10) /\ sin (PI / 10) ^ 2 <= 955/10000.
Proof.
  pose proof PI_RGT_0 as HPI. assert (P : 0 < sin (PI / 10)) by (apply sin_gt_0; lra).
  assert (L : sin (PI / 10) < 1). { rewrite <- sin_PI2. apply sin_increasing_1; lra. }
  pose proof (sin_five (PI / 10)) as E. replace (5 * (PI / 10)) with (PI / 2) in E by field. rewrite sin_PI2 in E.
  set (s := sin (PI / 10)) in *. clearbody s. split; [exact P|].
  assert (Z : (s - 1) * (4 * (s * s) + 2 * s - 1) ^ 2 = 0).
  { replace ((s - 1) * (4 * (s * s) + 2 * s - 1) ^ 2) with (s * (16 * s ^ 4 - 20 * s ^ 2 + 5) - 1) by ring. lra. }
  apply Rmult_integral in Z. destruct Z as [Z|Z]; [lra|]. assert (R0 : 4 * (s * s) + 2 * s - 1 = 0) by (destruct (Req_dec (4 * (s * s) + 2 * s - 1) 0); [assumption|exfalso; apply (pow_nonzero _ 2) in H; contradiction]).
  assert (s <= 30902/100000). { destruct (Rle_lt_dec s (30902/100000)); [assumption|]. exfalso. assert (30902/100000 * (30902/100000) < s * s) by (apply Rmult_le_0_lt_compat; lra). lra. }
  replace (s ^ 2) with (s * s) by ring. nra.
Qed.
(** the probe sees nearly the whole height of the arc *)
Lemma probe_height al w : 0 <= al <= PI -> -1/5 <= w <= 1/5 -> 1 - cos al <= 553/500 * (cos (w * al) - cos al).
Proof.
  intros Ha Hw. pose proof PI_RGT_0 as HPI. destruct sin_tenth as [S1 S2].
  assert (HC : forall x, cos x = 1 - 2 * sin (x / 2) ^ 2).
  { intros x. replace x with (2 * (x / 2)) at 1 by field. rewrite cos_2a_sin. ring. }
  rewrite !HC.
  assert (G0 : 0 <= sin (al / 10)) by (apply sin_ge_0; lra).
  assert (G1 : sin (al / 10) <= sin (PI / 10)) by (apply sin_incr_1; lra).
  assert (G2 : sin (w * al / 2) ^ 2 <= sin (al / 10) ^ 2).
  { assert (- (al / 10) <= w * al / 2 <= al / 10) by nra.
    assert (sin (w * al / 2) <= sin (al / 10)) by (apply sin_incr_1; lra).
    assert (sin (- (al / 10)) <= sin (w * al / 2)) by (apply sin_incr_1; lra). rewrite sin_neg in *. nra. }
  pose proof (sin_five (al / 10)) as F. replace (5 * (al / 10)) with (al / 2) in F by field. rewrite F.
  set (s := sin (al / 10)) in *. set (z := s ^ 2) in *.
  assert (Hz : 0 <= z <= 955/10000). { split; [unfold z; nra|]. eapply Rle_trans; [|exact S2]. unfold z. apply pow_incr. lra. }
  replace (s ^ 4) with (z * z) by (unfold z; ring). replace ((s * (16 * (z * z) - 20 * z + 5)) ^ 2) with (z * (16 * (z * z) - 20 * z + 5) ^ 2) by (unfold z; ring).
  set (t := sin (w * al / 2) ^ 2) in *. clearbody t z. clear - Hz G2.
  assert (B : 3235/1000 <= 16 * (z * z) - 20 * z + 5) by nra.
  assert (B2 : 3235/1000 * (3235/1000) <= (16 * (z * z) - 20 * z + 5) ^ 2). { replace ((16 * (z * z) - 20 * z + 5) ^ 2) with ((16 * (z * z) - 20 * z + 5) * (16 * (z * z) - 20 * z + 5)) by ring. apply Rmult_le_compat; lra. }
  assert (z * (3235/1000 * (3235/1000)) <= z * (16 * (z * z) - 20 * z + 5) ^ 2) by (apply Rmult_le_compat_l; lra).
  lra.
Qed.
(** every point of the arc is within its height of the chord *)
Lemma arc_height al x : 0 <= al <= PI -> - al <= x <= al ->
  exists s, 0 <= s <= 1 /\ (cos x - cos al) ^ 2 + (sin x - (2 * s - 1) * sin al) ^ 2 <= (1 - cos al) ^ 2.
Proof.
  intros Ha Hx. pose proof PI_RGT_0 as HPI.
  assert (Hc : cos al <= cos x).
  { destruct (Rle_lt_dec 0 x); [apply cos_decr_1; lra|]. rewrite <- (cos_neg x). apply cos_decr_1; lra. }
  pose proof (COS_bound x) as [_ Hc1]. pose proof (COS_bound al) as [Hal0 Hal1].
  assert (Hs : 0 <= sin al) by (apply sin_ge_0; lra).
  pose proof (sin2_cos2 x) as Px. pose proof (sin2_cos2 al) as Pa. unfold Rsqr in Px, Pa.
  set (X := cos x) in *. set (Y := sin x) in *. set (c := cos al) in *. set (S := sin al) in *.
  assert (far : S < Rabs Y -> (X - c) ^ 2 + (Rabs Y - S) ^ 2 <= (1 - c) ^ 2).
  { intros L. assert (EY : Rabs Y * Rabs Y = Y * Y) by (unfold Rabs; destruct (Rcase_abs Y); ring).
    pose proof (Rabs_pos Y). set (y := Rabs Y) in *. clearbody y. clearbody X Y c S. clear - Hc Hc1 Hal0 Hal1 Hs Px Pa L EY H.
    assert (S * S < y * y) by (apply Rmult_le_0_lt_compat; lra).
    assert (X * X < c * c) by lra.
    assert (c < 0). { destruct (Rlt_le_dec c 0); [assumption|]. exfalso. assert (c * c <= X * X) by (apply Rmult_le_compat; lra). lra. }
    assert (X < - c). { destruct (Rlt_le_dec X (- c)); [assumption|]. exfalso. assert (- c * - c <= X * X) by (apply Rmult_le_compat; lra). lra. }
    assert (- (c * c) <= X * c) by nra. assert (S * S <= y * S) by (apply Rmult_le_compat_r; lra).
    assert (0 <= (1 + c) * (1 - 3 * c)) by (apply Rmult_le_pos; lra). nra. }
  destruct (Rle_lt_dec (Rabs Y) S) as [L|L].
  - destruct (Req_dec S 0) as [Z|Z].
    + exists (1/2). split; [lra|]. assert (Y = 0). { rewrite Z in L. pose proof (Rabs_pos Y). destruct (Req_dec Y 0); [assumption|]. apply Rabs_pos_lt in H0. lra. }
      rewrite H. replace ((0 - (2 * (1 / 2) - 1) * S) ^ 2) with 0 by field. rewrite Rplus_0_r. apply pow_incr. lra.
    + assert (HY : - S <= Y <= S) by (revert L; unfold Rabs; destruct (Rcase_abs Y); lra).
      exists ((1 + Y / S) / 2). assert (B : -1 <= Y / S <= 1).
      { assert (0 < S) by lra. split; apply Rmult_le_reg_r with S; try lra; unfold Rdiv; rewrite Rmult_assoc, Rinv_l by lra; lra. }
      split; [lra|]. replace (Y - (2 * ((1 + Y / S) / 2) - 1) * S) with 0 by (field; lra). rewrite (pow_i 2), Rplus_0_r by lia. apply pow_incr. lra.
  - specialize (far L). destruct (Rle_lt_dec 0 Y) as [P|P].
    + exists 1. split; [lra|]. rewrite Rabs_right in far by lra. replace ((2 * 1 - 1) * S) with S by ring. exact far.
    + exists 0. split; [lra|]. rewrite Rabs_left in far by lra. replace (Y - (2 * 0 - 1) * S) with (- (- Y - S)) by ring. replace ((- (- Y - S)) ^ 2) with ((- Y - S) ^ 2) by ring. exact far.
Qed.
Section Arcs.
Context (c : Circle R) (H : orthonormal (ci_axis c) (ci_ref_dir c)).
Lemma arc_distance m al x s : dist3 (circle_get_point c (m + x)) (chord (circle_get_point c (m - al)) (circle_get_point c (m + al)) s) =
  Rabs (ci_radius c) * sqrt ((cos x - cos al) ^ 2 + (sin x - (2 * s - 1) * sin al) ^ 2).
Proof.
  rewrite !(circle_point c H). destruct (cross_orthonormal _ _ H) as (A1 & A2 & A3 & _). destruct H as (Hk & Hv & Hkv). unfold unit3 in *.
  set (v := ci_ref_dir c) in *. set (u := cross3 (ci_axis c) v) in *. set (r := ci_radius c). set (o := ci_center c).
  rewrite <- (sqrt_Rsqr_abs r), <- sqrt_mult_alt by (apply Rle_0_sqr). unfold dist3. f_equal. unfold Rsqr.
  set (X := cos (m + x) - (cos (m - al) + s * (cos (m + al) - cos (m - al)))). set (Y := sin (m + x) - (sin (m - al) + s * (sin (m + al) - sin (m - al)))).
  transitivity (r * r * (X * X * dot3 v v + 2 * (X * Y) * dot3 u v + Y * Y * dot3 u u)).
  { unfold X, Y, chord, dot3. clearbody u v. vsimp. rnum. ring. }
  rewrite A1, A3, Hv. f_equal. unfold X, Y. rewrite cos_minus, sin_minus, !cos_plus, !sin_plus.
  pose proof (sin2_cos2 m) as P. unfold Rsqr in P. set (cm := cos m) in *. set (sm := sin m) in *.
  set (p := cos x - cos al). set (q := sin x - (2 * s - 1) * sin al).
  transitivity ((cm * p - sm * q) ^ 2 + (sm * p + cm * q) ^ 2); [unfold p, q; ring|].
  transitivity ((sm * sm + cm * cm) * (p ^ 2 + q ^ 2)); [ring|rewrite P; ring].
Qed.
(** one piece of the circle, of at most a full turn *)
Lemma arc_piece m al p x tol : 0 <= al <= PI -> 2/5 <= p <= 3/5 -> - al <= x <= al ->
  dist3 (circle_get_point c (m - al + 2 * al * p)) (chord (circle_get_point c (m - al)) (circle_get_point c (m + al)) p) < tol ->
  exists s, 0 <= s <= 1 /\ dist3 (circle_get_point c (m + x)) (chord (circle_get_point c (m - al)) (circle_get_point c (m + al)) s) <= 553/500 * tol.
Proof.
  intros Ha Hp Hx Hd. replace (m - al + 2 * al * p) with (m + (2 * p - 1) * al) in Hd by ring. rewrite arc_distance in Hd.
  pose proof (probe_height al (2 * p - 1) Ha ltac:(lra)) as PH. destruct (arc_height al x Ha Hx) as (s & Hs & AH).
  exists s. split; [exact Hs|]. rewrite arc_distance. pose proof (Rabs_pos (ci_radius c)) as Rp. set (r := Rabs (ci_radius c)) in *.
  pose proof (COS_bound al) as [_ C1].
  assert (L1 : sqrt ((cos x - cos al) ^ 2 + (sin x - (2 * s - 1) * sin al) ^ 2) <= 1 - cos al).
  { rewrite <- (sqrt_pow2 (1 - cos al)) by lra. now apply sqrt_le_1_alt. }
  set (h := cos ((2 * p - 1) * al) - cos al) in *. assert (Hh : 0 <= h) by lra.
  assert (L2 : h <= sqrt (h ^ 2 + (sin ((2 * p - 1) * al) - (2 * p - 1) * sin al) ^ 2)).
  { rewrite <- (sqrt_pow2 h) at 1 by lra. apply sqrt_le_1_alt. pose proof (pow2_ge_0 (sin ((2 * p - 1) * al) - (2 * p - 1) * sin al)). lra. }
  match type of L1 with ?a <= _ => set (q1 := a) in * end. match type of L2 with _ <= ?b => set (q2 := b) in * end.
  assert (r * q1 <= r * (553/500 * h)) by (apply Rmult_le_compat_l; lra). assert (r * h <= r * q2) by (apply Rmult_le_compat_l; lra). lra.
Qed.
Lemma chord_flip a b s : chord b a (1 - s) = chord a b s.
Proof. unfold chord. f_equal; ring. Qed.
End Arcs.
(** An arc of at most a full turn, sampled with tolerance [tol]: no point of the arc is farther than 1.106 [tol] from the sampled line. *)
Theorem C77_circle fuel rnd (c : Circle R) a b tol dv pts : let s := {| s_curve := circle_curve c; s_range := (a, b); s_tolerance := tol; s_division := dv |} in
  orthonormal (ci_axis c) (ci_ref_dir c) -> Rabs (b - a) <= 2 * PI ->
  (forall path, 0 <= rnd path < 1) -> segment_get_points fuel rnd s = Ok pts -> followed (553/500 * tol) s pts.
Proof.
  intros s Hc Hab Hr E. apply (follow_pairs fuel rnd s pts _ Hr E). unfold s. cbn [s_curve circle_curve c_get_point s_range s_tolerance fst snd].
  intros u v pu pv p q w Gu Gv Hd Hp Gq Ht Hw. apply Ok_inj in Gu, Gv, Gq. subst pu pv q.
  destruct (Rle_lt_dec u v) as [L|L].
  - rewrite Rabs_right in Hd by lra. rewrite Rmin_left, Rmax_right in Hw by lra.
    set (m := (u + v) / 2). set (al := (v - u) / 2).
    assert (Eu : u = m - al) by (unfold m, al; field). assert (Ev : v = m + al) by (unfold m, al; field). assert (Ew : w = m + (w - m)) by ring.
    destruct (arc_piece c Hc m al p (w - m) tol) as (r & R1 & R2); [unfold al; lra|exact Hp|unfold m, al; lra| |].
    + rewrite <- Eu, <- Ev. replace (u + 2 * al * p) with (u + (v - u) * p) by (unfold al; field). exact Ht.
    + eexists. exists r. split; [reflexivity|]. split; [exact R1|]. rewrite Eu, Ev, Ew. exact R2.
  - rewrite Rabs_left in Hd by lra. rewrite Rmin_right, Rmax_left in Hw by lra.
    set (m := (v + u) / 2). set (al := (u - v) / 2).
    assert (Ev : v = m - al) by (unfold m, al; field). assert (Eu : u = m + al) by (unfold m, al; field). assert (Ew : w = m + (w - m)) by ring.
    destruct (arc_piece c Hc m al (1 - p) (w - m) tol) as (r & R1 & R2); [unfold al; lra|lra|unfold m, al; lra| |].
    + rewrite <- Ev, <- Eu. replace (v + 2 * al * (1 - p)) with (u + (v - u) * p) by (unfold al; field). rewrite chord_flip. exact Ht.
    + eexists. exists (1 - r). split; [reflexivity|]. split; [lra|]. rewrite chord_flip, Eu, Ev, Ew. exact R2.
Qed.

(** ** No more points than needed *)
(** [gp] is twice differentiable between [lo] and [hi], with second derivative at most [M] long *)
Definition bent (gp : R -> outcome (vec3 R)) (M lo hi : R) : Prop := exists g g1 g2 : R -> vec3 R, forall t, lo <= t <= hi ->
  gp t = Ok (g t) /\
  (derivable_pt_lim (fun t => x3 (g t)) t (x3 (g1 t)) /\ derivable_pt_lim (fun t => y3 (g t)) t (y3 (g1 t)) /\ derivable_pt_lim (fun t => z3 (g t)) t (z3 (g1 t))) /\
  (derivable_pt_lim (fun t => x3 (g1 t)) t (x3 (g2 t)) /\ derivable_pt_lim (fun t => y3 (g1 t)) t (y3 (g2 t)) /\ derivable_pt_lim (fun t => z3 (g1 t)) t (z3 (g2 t))) /\
  x3 (g2 t) ^ 2 + y3 (g2 t) ^ 2 + z3 (g2 t) ^ 2 <= M ^ 2.
Lemma comb_lim (f g h : R -> R) t a b d e1 e2 e3 : derivable_pt_lim f t a -> derivable_pt_lim g t b -> derivable_pt_lim h t d ->
  derivable_pt_lim (fun t => e1 * f t + e2 * g t + e3 * h t) t (e1 * a + e2 * b + e3 * d).
Proof.
  intros F G K. apply (derivable_pt_lim_plus (fun t => e1 * f t + e2 * g t) (fun t => e3 * h t)); [|now apply (derivable_pt_lim_scal h)].
  apply (derivable_pt_lim_plus (fun t => e1 * f t) (fun t => e2 * g t)); [now apply (derivable_pt_lim_scal f)|now apply (derivable_pt_lim_scal g)].
Qed.
Lemma cauchy_abs e1 e2 e3 x y z E M : 0 <= E -> 0 <= M -> e1 ^ 2 + e2 ^ 2 + e3 ^ 2 = E ^ 2 -> x ^ 2 + y ^ 2 + z ^ 2 <= M ^ 2 -> Rabs (e1 * x + e2 * y + e3 * z) <= E * M.
Proof.
  intros HE HM H1 H2. assert (P : 0 <= E * M) by now apply Rmult_le_pos. rewrite <- (Rabs_right (E * M)) by lra. apply Rsqr_le_abs_0. unfold Rsqr.
  assert (L : (e1 * x + e2 * y + e3 * z) * (e1 * x + e2 * y + e3 * z) <= (e1 ^ 2 + e2 ^ 2 + e3 ^ 2) * (x ^ 2 + y ^ 2 + z ^ 2)).
  { pose proof (pow2_ge_0 (e1 * y - e2 * x)). pose proof (pow2_ge_0 (e1 * z - e3 * x)). pose proof (pow2_ge_0 (e2 * z - e3 * y)). nra. }
  eapply Rle_trans; [exact L|]. rewrite H1. replace (E * M * (E * M)) with (E ^ 2 * M ^ 2) by ring. apply Rmult_le_compat_l; [apply pow2_ge_0|exact H2].
Qed.
Lemma bent_dev gp M lo hi u v s pu pv q : 0 <= M -> bent gp M lo hi -> lo <= u <= hi -> lo <= v <= hi -> 0 <= s <= 1 ->
  gp u = Ok pu -> gp v = Ok pv -> gp (u + (v - u) * s) = Ok q -> dist3 q (chord pu pv s) <= M * (s * (1 - s)) * (v - u) ^ 2 / 2.
Proof.
  intros HM (g & g1 & g2 & B) Hu Hv Hs Gu Gv Gq. set (t := u + (v - u) * s) in *.
  assert (Ht : lo <= t <= hi) by (unfold t; nra).
  assert (pu = g u) by (destruct (B u Hu) as [E _]; congruence). assert (pv = g v) by (destruct (B v Hv) as [E _]; congruence). assert (q = g t) by (destruct (B t Ht) as [E _]; congruence). subst pu pv q.
  set (C := chord (g u) (g v) s). set (e1 := x3 (g t) - x3 C). set (e2 := y3 (g t) - y3 C). set (e3 := z3 (g t) - z3 C).
  set (E := dist3 (g t) C). assert (HE : 0 <= E) by apply sqrt_pos.
  assert (EE : e1 ^ 2 + e2 ^ 2 + e3 ^ 2 = E ^ 2). { unfold E, dist3. rewrite pow2_sqrt; [reflexivity|]. pose proof (pow2_ge_0 e1). pose proof (pow2_ge_0 e2). pose proof (pow2_ge_0 e3). unfold e1, e2, e3 in *. lra. }
  set (f := fun t => e1 * x3 (g t) + e2 * y3 (g t) + e3 * z3 (g t)). set (f1 := fun t => e1 * x3 (g1 t) + e2 * y3 (g1 t) + e3 * z3 (g1 t)). set (f2 := fun t => e1 * x3 (g2 t) + e2 * y3 (g2 t) + e3 * z3 (g2 t)).
  assert (T : forall y, lo <= y <= hi -> Rabs (f y - f t - (y - t) * f1 t) <= E * M * ((y - t) * (y - t)) / 2).
  { intros y Hy. apply (taylor f f1 f2 (E * M) t y). intros w Hw. assert (Hw' : lo <= w <= hi) by (unfold Rmin, Rmax in Hw; destruct (Rle_dec t y); lra).
    destruct (B w Hw') as (_ & (D1 & D2 & D3) & (D4 & D5 & D6) & N). split; [now apply comb_lim|]. split; [now apply comb_lim|]. now apply cauchy_abs. }
  pose proof (T u Hu) as Tu. pose proof (T v Hv) as Tv.
  assert (Eq : E ^ 2 = - ((1 - s) * (f u - f t - (u - t) * f1 t) + s * (f v - f t - (v - t) * f1 t))).
  { rewrite <- EE. transitivity (e1 * e1 + e2 * e2 + e3 * e3); [ring|].
    transitivity (f t - ((1 - s) * f u + s * f v) + ((1 - s) * (u - t) + s * (v - t)) * f1 t); [|ring].
    replace ((1 - s) * (u - t) + s * (v - t)) with 0 by (unfold t; ring). rewrite Rmult_0_l, Rplus_0_r.
    transitivity (e1 * (x3 (g t) - x3 C) + e2 * (y3 (g t) - y3 C) + e3 * (z3 (g t) - z3 C)); [reflexivity|]. unfold f, C, chord. cbn [x3 y3 z3]. ring. }
  replace (u - t) with (- ((v - u) * s)) in Tu, Eq by (unfold t; ring). replace (v - t) with ((v - u) * (1 - s)) in Tv, Eq by (unfold t; ring).
  set (a := f u - f t - _) in *. set (b := f v - f t - _) in *.
  assert (Tu' : - a <= E * M * ((v - u) ^ 2 * s ^ 2) / 2). { replace (- ((v - u) * s) * - ((v - u) * s)) with ((v - u) ^ 2 * s ^ 2) in Tu by ring. pose proof (Rle_abs (- a)). rewrite Rabs_Ropp in *. lra. }
  assert (Tv' : - b <= E * M * ((v - u) ^ 2 * (1 - s) ^ 2) / 2). { replace ((v - u) * (1 - s) * ((v - u) * (1 - s))) with ((v - u) ^ 2 * (1 - s) ^ 2) in Tv by ring. pose proof (Rle_abs (- b)). rewrite Rabs_Ropp in *. lra. }
  assert (U1 : (1 - s) * - a <= (1 - s) * (E * M * ((v - u) ^ 2 * s ^ 2) / 2)) by (apply Rmult_le_compat_l; lra).
  assert (V1 : s * - b <= s * (E * M * ((v - u) ^ 2 * (1 - s) ^ 2) / 2)) by (apply Rmult_le_compat_l; lra).
  assert (L : E * E <= E * (M * (s * (1 - s)) * (v - u) ^ 2 / 2)).
  { replace (E * E) with ((1 - s) * - a + s * - b) by (replace (E * E) with (E ^ 2) by ring; rewrite Eq; ring).
    replace (E * (M * (s * (1 - s)) * (v - u) ^ 2 / 2)) with ((1 - s) * (E * M * ((v - u) ^ 2 * s ^ 2) / 2) + s * (E * M * ((v - u) ^ 2 * (1 - s) ^ 2) / 2)) by field. lra. }
  destruct (Rle_lt_or_eq_dec 0 E HE) as [P|P]; [now apply Rmult_le_reg_l in L|].
  rewrite <- P. assert (0 <= M * (s * (1 - s))) by (apply Rmult_le_pos; [assumption|nra]). pose proof (pow2_ge_0 (v - u)). assert (0 <= M * (s * (1 - s)) * (v - u) ^ 2) by now apply Rmult_le_pos. lra.
Qed.
Section Count.
Variables (rnd : list bool -> R) (gp : R -> outcome (vec3 R)) (tol M lo hi : R).
Hypothesis Hr : forall path, 0 <= rnd path < 1.
Hypothesis HM : 0 <= M.
Hypothesis Ht : 0 <= tol.
Hypothesis HB : bent gp M lo hi.
(** a range that was halved was wide *)
Lemma division_cases fuel path a b l : lo <= a <= hi -> lo <= b <= hi -> parameter_division (S fuel) rnd path gp (a, b) tol = Ok l ->
  l = [a; b] \/ (8 * tol <= M * (b - a) ^ 2 /\ exists l1 l2, parameter_division fuel rnd (false :: path) gp (a, (a + b) / 2) tol = Ok l1 /\
    parameter_division fuel rnd (true :: path) gp ((a + b) / 2, b) tol = Ok l2 /\ l = removelast l1 ++ l2).
Proof.
  intros Ha Hb E. cbn [parameter_division fst snd] in E. obind_inv E. obind_inv E. obind_inv E.
  match type of E with context [fltb ?x tol] => destruct (fltb x tol) eqn:El end.
  - apply Ok_inj in E. left. now subst.
  - right. split.
    + rewrite chord_model, dist3_distance in El. rnum. apply Rltb_false in El.
      pose proof (C22_probe_range _ (Hr path)) as Hp. set (p := probe (rnd path)) in *.
      match goal with H1 : gp a = Ok ?pa, H2 : gp b = Ok ?pb, H3 : gp (range_at _ _) = Ok ?q |- _ => pose proof (bent_dev gp M lo hi a b p pa pb q HM HB Ha Hb ltac:(lra) H1 H2 H3) as D end.
      assert (p * (1 - p) <= 1/4) by (pose proof (pow2_ge_0 (p - 1/2)); lra).
      assert (0 <= M * (b - a) ^ 2) by (apply Rmult_le_pos; [exact HM|apply pow2_ge_0]).
      assert (M * (b - a) ^ 2 * (p * (1 - p)) <= M * (b - a) ^ 2 * (1/4)) by (apply Rmult_le_compat_l; lra). lra.
    + obind_inv E. obind_inv E. apply Ok_inj in E. unfold f2 in *. rnum. replace ((a + b) / (2 / 1)) with ((a + b) / 2) in * by field. eauto 6.
Qed.
Lemma division_count fuel : forall path a b l, lo <= a <= hi -> lo <= b <= hi -> parameter_division fuel rnd path gp (a, b) tol = Ok l ->
  l = [a; b] \/ 2 * tol * INR (length l - 1) ^ 2 <= M * (b - a) ^ 2.
Proof.
  induction fuel as [|fuel IH]; intros path a b l Ha Hb E; [discriminate|].
  destruct (division_cases _ _ _ _ _ Ha Hb E) as [->|(W & l1 & l2 & E1 & E2 & ->)]; [now left|right].
  assert (Hm : lo <= (a + b) / 2 <= hi) by lra.
  assert (K : forall path' x y l', lo <= x <= hi -> lo <= y <= hi -> (y - x) ^ 2 = (b - a) ^ 2 / 4 -> parameter_division fuel rnd path' gp (x, y) tol = Ok l' ->
     8 * tol * INR (length l' - 1) ^ 2 <= M * (b - a) ^ 2 /\ (1 <= length l')%nat).
  { intros path' x y l' Hx Hy Hxy E'. split.
    - destruct (IH _ _ _ _ Hx Hy E') as [->|L]; [cbn [length Nat.sub INR]; rewrite pow1; lra|rewrite Hxy in L; lra].
    - destruct (C22_division_shape _ _ _ _ _ _ _ _ E') as [[mid ->] _]. cbn. lia. }
  destruct (K _ _ _ _ Ha Hm ltac:(field) E1) as [K1 L1]. destruct (K _ _ _ _ Hm Hb ltac:(field) E2) as [K2 L2].
  assert (Len : length (removelast l1 ++ l2) = (length l1 - 1 + length l2)%nat).
  { rewrite app_length. f_equal. destruct l1 as [|z l1] using rev_ind; [cbn in L1; lia|]. rewrite removelast_last, app_length. cbn. lia. }
  rewrite Len. replace (length l1 - 1 + length l2 - 1)%nat with ((length l1 - 1) + (length l2 - 1))%nat by lia. rewrite plus_INR.
  set (n1 := INR (length l1 - 1)) in *. set (n2 := INR (length l2 - 1)) in *.
  assert ((n1 + n2) ^ 2 <= 2 * n1 ^ 2 + 2 * n2 ^ 2) by (pose proof (pow2_ge_0 (n1 - n2)); nra).
  assert (2 * tol * (n1 + n2) ^ 2 <= 2 * tol * (2 * n1 ^ 2 + 2 * n2 ^ 2)) by (apply Rmult_le_compat_l; lra). lra.
Qed.
(** neighbouring parameters are not closer than the tolerance requires *)
Lemma division_spacing fuel : forall path a b l, lo <= a <= hi -> lo <= b <= hi -> parameter_division fuel rnd path gp (a, b) tol = Ok l ->
  l = [a; b] \/ consecutive (fun u v => 2 * tol <= M * (v - u) ^ 2) l.
Proof.
  induction fuel as [|fuel IH]; intros path a b l Ha Hb E; [discriminate|].
  destruct (division_cases _ _ _ _ _ Ha Hb E) as [->|(W & l1 & l2 & E1 & E2 & ->)]; [now left|right].
  assert (Hm : lo <= (a + b) / 2 <= hi) by lra.
  assert (K : forall path' x y l', lo <= x <= hi -> lo <= y <= hi -> (y - x) ^ 2 = (b - a) ^ 2 / 4 -> parameter_division fuel rnd path' gp (x, y) tol = Ok l' ->
     consecutive (fun u v => 2 * tol <= M * (v - u) ^ 2) l').
  { intros path' x y l' Hx Hy Hxy E'. destruct (IH _ _ _ _ Hx Hy E') as [->|L]; [|exact L]. apply consecutive_2. rewrite Hxy. lra. }
  pose proof (K _ _ _ _ Ha Hm ltac:(field) E1) as K1. pose proof (K _ _ _ _ Hm Hb ltac:(field) E2) as K2.
  destruct (C22_division_shape _ _ _ _ _ _ _ _ E1) as [[m1 ->] _]. destruct (C22_division_shape _ _ _ _ _ _ _ _ E2) as [[m2 ->] _].
  rewrite app_comm_cons in *. rewrite removelast_last. now apply consecutive_join.
Qed.
End Count.
(** A curve whose second derivative is at most [M] long gets two points, or at most 1 + |b - a| sqrt (M / (2 tol)) of them. *)
Theorem C77_count fuel rnd (s : CurveSegment R) pts M : let a := fst (s_range s) in let b := snd (s_range s) in
  (forall path, 0 <= rnd path < 1) -> 0 <= M -> 0 <= s_tolerance s -> bent (c_get_point (s_curve s)) M (Rmin a b) (Rmax a b) ->
  segment_get_points fuel rnd s = Ok pts ->
  length pts = 2%nat \/ 2 * s_tolerance s * INR (length pts - 1) ^ 2 <= M * (b - a) ^ 2.
Proof.
  intros a b Hr HM Ht HB E. destruct (C55_samples_on_curve _ _ _ _ E) as (us & Eu & F2).
  assert (L : length pts = length us) by (clear - F2; induction F2; cbn; auto). rewrite L.
  assert (Ha : Rmin a b <= a <= Rmax a b) by (split; [apply Rmin_l|apply Rmax_l]). assert (Hb : Rmin a b <= b <= Rmax a b) by (split; [apply Rmin_r|apply Rmax_r]).
  replace (s_range s) with (a, b) in Eu by (unfold a, b; now destruct (s_range s)).
  destruct (division_count rnd _ _ M _ _ Hr HM Ht HB _ _ _ _ _ Ha Hb Eu) as [->|R0]; [now left|now right].
Qed.
(** circles: the second derivative is as long as the radius *)
Lemma circle_bent (c : Circle R) lo hi : orthonormal (ci_axis c) (ci_ref_dir c) -> bent (c_get_point (circle_curve c)) (Rabs (ci_radius c)) lo hi.
Proof.
  intros H. set (v := ci_ref_dir c). set (u := cross3 (ci_axis c) v). set (r := ci_radius c). set (o := ci_center c).
  set (P := fun (cc : vec3 R -> R) k x y => k * cc o + r * (x * cc v + y * cc u)).
  exists (fun t => V3 (P x3 1 (cos t) (sin t)) (P y3 1 (cos t) (sin t)) (P z3 1 (cos t) (sin t))).
  exists (fun t => V3 (P x3 0 (- sin t) (cos t)) (P y3 0 (- sin t) (cos t)) (P z3 0 (- sin t) (cos t))).
  exists (fun t => V3 (P x3 0 (- cos t) (- sin t)) (P y3 0 (- cos t) (- sin t)) (P z3 0 (- cos t) (- sin t))).
  assert (D : forall cc k t, derivable_pt_lim (fun t => P cc k (cos t) (sin t)) t (P cc 0 (- sin t) (cos t))).
  { intros cc k t. unfold P. apply (derivable_pt_lim_ext (fun t => r * cc v * cos t + r * cc u * sin t + k * cc o * 1)); [intros; ring|].
    apply (lim_val _ _ (r * cc v * - sin t + r * cc u * cos t + k * cc o * 0)); [ring|]. apply (comb_lim cos sin (fun _ => 1)); [apply derivable_pt_lim_cos|apply derivable_pt_lim_sin|apply derivable_pt_lim_const]. }
  assert (D' : forall cc t, derivable_pt_lim (fun t => P cc 0 (- sin t) (cos t)) t (P cc 0 (- cos t) (- sin t))).
  { intros cc t. unfold P. apply (derivable_pt_lim_ext (fun t => r * cc u * cos t + - (r * cc v) * sin t + 0 * 1)); [intros; ring|].
    apply (lim_val _ _ (r * cc u * - sin t + - (r * cc v) * cos t + 0 * 0)); [ring|]. apply (comb_lim cos sin (fun _ => 1)); [apply derivable_pt_lim_cos|apply derivable_pt_lim_sin|apply derivable_pt_lim_const]. }
  intros t _. cbn [x3 y3 z3]. split; [|split; [|split]].
  - cbn [circle_curve c_get_point]. f_equal. rewrite (circle_point c H). fold v u r o. unfold P. clearbody u v r o. apply vec3_ext; vsimp; rnum; ring.
  - repeat split; apply D.
  - repeat split; apply D'.
  - destruct (cross_orthonormal _ _ H) as (A1 & A2 & A3 & _). destruct H as (Hk & Hv & Hkv). unfold unit3 in *. fold v u in A1, A3. fold v in Hv.
    rewrite pow2_abs. right. unfold P.
    transitivity (r ^ 2 * (cos t * cos t * dot3 v v + 2 * (cos t * sin t) * dot3 u v + sin t * sin t * dot3 u u)); [unfold dot3; clearbody u v r o; vsimp; rnum; ring|].
    rewrite A1, A3, Hv. pose proof (sin2_cos2 t) as Q. unfold Rsqr in Q. transitivity (r ^ 2 * (sin t * sin t + cos t * cos t)); [ring|rewrite Q; ring].
Qed.
Lemma circle_lipschitz (c : Circle R) a b : orthonormal (ci_axis c) (ci_ref_dir c) -> Props_utils.lipschitz (c_get_point (circle_curve c)) (Rabs (ci_radius c)) a b.
Proof.
  intros H u v _ _. exists (circle_get_point c u), (circle_get_point c v). split; [reflexivity|]. split; [reflexivity|].
  change (distance3 (circle_get_point c u) (circle_get_point c v) <= Rabs (ci_radius c) * Rabs (u - v)). rewrite dist3_distance.
  set (m := (u + v) / 2). set (al := (u - v) / 2). pose proof (arc_distance c H m al al 0) as E.
  replace (chord (circle_get_point c (m - al)) (circle_get_point c (m + al)) 0) with (circle_get_point c (m - al)) in E by (unfold chord; apply vec3_ext; cbn [x3 y3 z3]; ring).
  replace (m + al) with u in E by (unfold m, al; field). replace (m - al) with v in E by (unfold m, al; field). rewrite E.
  apply Rmult_le_compat_l; [apply Rabs_pos|]. replace ((cos al - cos al) ^ 2 + (sin al - (2 * 0 - 1) * sin al) ^ 2) with (Rsqr (2 * sin al)) by (unfold Rsqr; ring).
  rewrite sqrt_Rsqr_abs, Rabs_mult, (Rabs_right 2) by lra. replace (u - v) with (2 * al) by (unfold al; field). rewrite Rabs_mult, (Rabs_right 2) by lra. apply Rmult_le_compat_l; [lra|].
  assert (P : forall x, 0 < x -> Rabs (sin x) <= x).
  { intros x Hx. pose proof (sin_lt_x x Hx). pose proof (SIN_bound x). destruct (Rle_lt_dec x PI) as [L|L].
    - assert (0 <= sin x) by (apply sin_ge_0; lra). rewrite Rabs_right; lra.
    - pose proof PI2_1. unfold Rabs. destruct (Rcase_abs (sin x)); lra. }
  destruct (Rtotal_order al 0) as [L|[->|L]].
  - rewrite <- (Rabs_Ropp al), <- Rabs_Ropp, <- sin_neg. rewrite (Rabs_right (- al)) by lra. apply P. lra.
  - rewrite sin_0. lra.
  - rewrite (Rabs_right al) by lra. now apply P.
Qed.
(** Sampling an arc always ends, whatever the generator returns; the points follow the arc and there are not many of them. *)
Theorem C77_circle_sampled (c : Circle R) a b tol dv : let s := {| s_curve := circle_curve c; s_range := (a, b); s_tolerance := tol; s_division := dv |} in
  orthonormal (ci_axis c) (ci_ref_dir c) -> Rabs (b - a) <= 2 * PI -> 0 < tol ->
  exists fuel, forall rnd, (forall path, 0 <= rnd path < 1) -> exists pts, segment_get_points fuel rnd s = Ok pts /\
    followed (553/500 * tol) s pts /\ (length pts = 2%nat \/ 2 * tol * INR (length pts - 1) ^ 2 <= Rabs (ci_radius c) * (b - a) ^ 2).
Proof.
  intros s H Hab Ht. set (L := Rabs (ci_radius c)). assert (HL : 0 <= L) by apply Rabs_pos.
  assert (HF : exists fuel, 2 * L * Rabs (b - a) < tol * 2 ^ fuel).
  { destruct (Pow_x_infinity 2 ltac:(rewrite Rabs_right; lra) (2 * L * Rabs (b - a) / tol + 1)) as [N HN]. exists N. specialize (HN N (le_n N)). rewrite Rabs_right in HN by (apply Rle_ge, pow_le; lra).
    assert (2 * L * Rabs (b - a) / tol < 2 ^ N) by lra. apply Rmult_lt_compat_l with (r := tol) in H0; [|exact Ht]. replace (tol * (2 * L * Rabs (b - a) / tol)) with (2 * L * Rabs (b - a)) in H0 by (field; lra). exact H0. }
  destruct HF as [fuel HF]. exists (S fuel). intros rnd Hr.
  destruct (C23_division_terminates rnd (c_get_point (circle_curve c)) tol L a b fuel [] Hr HL (circle_lipschitz c a b H) HF) as [l El].
  destruct (mapM_total (c_get_point (circle_curve c)) l) as [pts Ep]; [intros x _; eexists; reflexivity|].
  assert (E : segment_get_points (S fuel) rnd s = Ok pts) by (unfold segment_get_points, s; cbn [s_curve s_range s_tolerance]; rewrite El; exact Ep).
  exists pts. split; [exact E|]. split; [exact (C77_circle _ _ _ _ _ _ _ _ H Hab Hr E)|].
  exact (C77_count _ _ s pts L Hr HL (Rlt_le _ _ Ht) (circle_bent c _ _ H) E).
Qed.

(** ** Where the single probe sees nothing *)
Lemma not_near d p q r : (forall s, 0 <= s <= 1 -> d < dist3 r (chord p q s)) -> ~ near_path d [p; q] r.
Proof.
  intros H (i & a & b & s & Ha & Hb & Hs & D). destruct i as [|i]; cbn in Ha, Hb; [|exfalso; destruct i as [|[|i]]; cbn in Hb; discriminate].
  injection Ha as <-. injection Hb as <-. specialize (H s Hs). lra.
Qed.
Lemma dist3_y p q : Rabs (y3 p - y3 q) <= dist3 p q.
Proof.
  unfold dist3. rewrite <- sqrt_Rsqr_abs. apply sqrt_le_1_alt. unfold Rsqr. pose proof (pow2_ge_0 (x3 p - x3 q)). pose proof (pow2_ge_0 (z3 p - z3 q)).
  replace ((y3 p - y3 q) * (y3 p - y3 q)) with ((y3 p - y3 q) ^ 2) by ring. lra.
Qed.
(** a B-spline of degree 1: up, down, straight on, up, down *)
Definition bumps (h : R) : BSpline R (vec3 R) := mkBSpline [V3 0 0 0; V3 1 h 0; V3 2 0 0; V3 3 0 0; V3 4 h 0; V3 5 0 0] [0; 0; 1; 2; 3; 4; 5; 5] 1.
Lemma bumps_valid h : valid_bspline (bumps h).
Proof.
  split; cbn [bs_knots bs_cps bs_degree bumps].
  - apply sorted_by_pairs. intros i Hi. cbn [length] in Hi. do 7 (destruct i as [|i]; [cbn; lra|]). lia.
  - apply separated_ints. intros a Ha. cbn in Ha.
    repeat (destruct Ha as [<-|Ha]; [eexists; split; [reflexivity|lia]|]). destruct Ha.
  - reflexivity.
  - cbn; lia.
Qed.
Lemma bumps_at h u s : is_span (bs_knots (bumps h)) u s -> (1 <= s < 6)%nat -> bspline3_get_point (bumps h) u =
  Ok (on_segment3 (vert (bs_cps (bumps h)) (s - 1)) (vert (bs_cps (bumps h)) s) ((u - nth s (bs_knots (bumps h)) 0) / (nth (s + 1) (bs_knots (bumps h)) 0 - nth s (bs_knots (bumps h)) 0))).
Proof. intros H Hs. exact (degree1_eval (bumps h) u s (bumps_valid h) eq_refl H Hs). Qed.
(** Whatever the tolerance and whatever the generator returns, only the two ends are sampled; the curve is [h] away from their chord. *)
Theorem C77_bspline_refuted (h tol : R) (rnd : list bool -> R) fuel dv :
  let s := {| s_curve := bspline3_curve (bumps h); s_range := (0, 5); s_tolerance := tol; s_division := dv |} in
  0 < h -> 0 < tol -> (forall path, 0 <= rnd path < 1) ->
  segment_get_points (S fuel) rnd s = Ok [V3 0 0 0; V3 5 0 0] /\
  bspline3_get_point (bumps h) 1 = Ok (V3 1 h 0) /\ forall d, d < h -> ~ followed d s [V3 0 0 0; V3 5 0 0].
Proof.
  intros s Hh Ht Hr.
  assert (E0 : bspline3_get_point (bumps h) 0 = Ok (V3 0 0 0)).
  { rewrite (bumps_at h 0 1); [|unfold is_span; cbn; repeat split; try lia; try lra; left; lra|lia]. f_equal. unfold on_segment3, vert. cbn. apply vec3_ext; vsimp; rnum; field. }
  assert (E5 : bspline3_get_point (bumps h) 5 = Ok (V3 5 0 0)).
  { rewrite (bumps_at h 5 5); [|unfold is_span; cbn; repeat split; try lia; try lra; right; split; lra|lia]. f_equal. unfold on_segment3, vert. cbn. apply vec3_ext; vsimp; rnum; field. }
  assert (E1 : bspline3_get_point (bumps h) 1 = Ok (V3 1 h 0)).
  { rewrite (bumps_at h 1 2); [|unfold is_span; cbn; repeat split; try lia; try lra; left; lra|lia]. f_equal. unfold on_segment3, vert. cbn. apply vec3_ext; vsimp; rnum; field. }
  assert (EM : forall u, 2 <= u < 3 -> bspline3_get_point (bumps h) u = Ok (V3 u 0 0)).
  { intros u Hu. rewrite (bumps_at h u 3); [|unfold is_span; cbn; repeat split; try lia; try lra; left; lra|lia]. f_equal. unfold on_segment3, vert. cbn. apply vec3_ext; vsimp; rnum; field. }
  split; [|split; [exact E1|]].
  - unfold segment_get_points, s. cbn [s_curve s_range s_tolerance bspline3_curve c_get_point parameter_division fst snd]. rewrite E0, E5. cbn [obind].
    pose proof (C22_probe_range _ (Hr [])) as Hp. set (p := probe (rnd [])) in *. change (range_at (0, 5) p) with (0 + (5 - 0) * p). rewrite EM by lra. cbn [obind].
    rewrite chord_model, dist3_distance.
    replace (dist3 (V3 (0 + (5 - 0) * p) 0 0) (chord (V3 0 0 0) (V3 5 0 0) p)) with 0.
    2:{ unfold dist3, chord. cbn [x3 y3 z3]. match goal with |- 0 = sqrt ?e => replace e with 0 by ring end. now rewrite sqrt_0. }
    rnum. rewrite (proj2 (Rltb_true 0 tol) Ht). cbn [obind mapM]. rewrite E0. cbn [obind]. rewrite E5. reflexivity.
  - intros d Hd F. destruct (F 1) as (q & Eq & N); [unfold s; cbn [s_range fst snd]; rewrite Rmin_left, Rmax_right; lra|].
    unfold s in Eq. cbn [s_curve bspline3_curve c_get_point] in Eq. rewrite E1 in Eq. apply Ok_inj in Eq. subst q. revert N. apply not_near.
    intros t Ht'. eapply Rlt_le_trans; [exact Hd|]. eapply Rle_trans; [|apply dist3_y]. unfold chord. cbn [y3]. replace (h - (0 + t * (0 - 0))) with h by ring. rewrite Rabs_right; lra.
Qed.
(** an S-shaped cubic: two points whenever the first random number is near 1/2 (for [h = 1] and tolerance 0.01 within 1/30 of it) *)
Definition ess (h : R) : list (vec3 R) := [V3 0 0 0; V3 1 h 0; V3 2 (- h) 0; V3 3 0 0].
Lemma ess_at h u : bezier3_get_point (ess h) u = Ok (V3 (3 * u) (3 * h * u * (1 - u) * (1 - 2 * u)) 0).
Proof.
  rewrite C01_bezier_eval by (cbn; lia). f_equal. unfold comb3, sumf. cbn [ess length seq map fold_right nth x3 y3 z3 Nat.sub pow]. unfold C. cbn [fact Nat.mul Nat.add Nat.sub INR]. f_equal; field.
Qed.
Theorem C77_cubic_refuted (h tol : R) (rnd : list bool -> R) fuel dv :
  let s := {| s_curve := bezier3_curve (ess h); s_range := (0, 1); s_tolerance := tol; s_division := dv |} in
  0 < h -> 0 <= rnd [] < 1 -> 3/10 * h * Rabs (rnd [] - 1/2) < tol ->
  segment_get_points (S fuel) rnd s = Ok [V3 0 0 0; V3 3 0 0] /\ forall d, d < 9/32 * h -> ~ followed d s [V3 0 0 0; V3 3 0 0].
Proof.
  intros s Hh Hr Ht.
  assert (E0 : bezier3_get_point (ess h) 0 = Ok (V3 0 0 0)) by (rewrite ess_at; f_equal; f_equal; ring).
  assert (E1 : bezier3_get_point (ess h) 1 = Ok (V3 3 0 0)) by (rewrite ess_at; f_equal; f_equal; ring).
  split.
  - unfold segment_get_points, s. cbn [s_curve s_range s_tolerance bezier3_curve c_get_point parameter_division fst snd]. change (@f0 R _) with 0. change (@f1 R _) with 1. rewrite E0, E1. cbn [obind].
    pose proof (C22_probe_range _ Hr) as Hp. assert (Ep : probe (rnd []) = 1/2 + 1/5 * (rnd [] - 1/2)) by (unfold probe; rnum; field). set (p := probe (rnd [])) in *. change (range_at (0, 1) p) with (0 + (1 - 0) * p). rewrite ess_at. cbn [obind].
    rewrite chord_model, dist3_distance. replace (0 + (1 - 0) * p) with p by ring.
    assert (D : dist3 (V3 (3 * p) (3 * h * p * (1 - p) * (1 - 2 * p)) 0) (chord (V3 0 0 0) (V3 3 0 0) p) < tol).
    { unfold dist3, chord. cbn [x3 y3 z3]. match goal with |- sqrt ?e < _ => replace e with (Rsqr (3 * h * p * (1 - p) * (1 - 2 * p))) by (unfold Rsqr; ring) end. rewrite sqrt_Rsqr_abs.
      replace (3 * h * p * (1 - p) * (1 - 2 * p)) with (h * (p * (1 - p)) * (3 * (1 - 2 * p))) by ring. rewrite Rabs_mult, (Rabs_right (h * (p * (1 - p)))) by (apply Rle_ge, Rmult_le_pos; nra).
      replace (3 * (1 - 2 * p)) with (- (6/5) * (rnd [] - 1/2)) by (rewrite Ep; field). rewrite Rabs_mult, Rabs_Ropp, (Rabs_right (6/5)) by lra.
      pose proof (Rabs_pos (rnd [] - 1/2)) as RP. assert (p * (1 - p) <= 1/4) by (pose proof (pow2_ge_0 (p - 1/2)); lra).
      assert (h * (p * (1 - p)) * (6/5 * Rabs (rnd [] - 1/2)) <= h * (1/4) * (6/5 * Rabs (rnd [] - 1/2))) by (apply Rmult_le_compat_r; [lra|apply Rmult_le_compat_l; lra]). lra. }
    rnum. rewrite (proj2 (Rltb_true _ tol) D). cbn [obind mapM]. rewrite E0. cbn [obind]. rewrite E1. reflexivity.
  - intros d Hd F. destruct (F (1/4)) as (q & Eq & N); [unfold s; cbn [s_range fst snd]; rewrite Rmin_left, Rmax_right; lra|].
    unfold s in Eq. cbn [s_curve bezier3_curve c_get_point] in Eq. rewrite ess_at in Eq. apply Ok_inj in Eq. subst q. revert N. apply not_near.
    intros t Ht'. eapply Rlt_le_trans; [exact Hd|]. eapply Rle_trans; [|apply dist3_y]. unfold chord. cbn [y3]. replace (3 * h * (1 / 4) * (1 - 1 / 4) * (1 - 2 * (1 / 4)) - (0 + t * (0 - 0))) with (9/32 * h) by field. rewrite Rabs_right; lra.
Qed.
(** two full turns of the unit circle: a first random number of exactly 1/2 gives the same point twice *)
Definition unit_circle : Circle R := {| ci_center := V3 0 0 0; ci_radius := 1; ci_axis := V3 0 0 1; ci_ref_dir := V3 1 0 0 |}.
Lemma unit_circle_frame : orthonormal (ci_axis unit_circle) (ci_ref_dir unit_circle).
Proof. unfold orthonormal, unit3, dot3, unit_circle. cbn [ci_axis ci_ref_dir]. vsimp. rnum. repeat split; ring. Qed.
Lemma unit_circle_at a : circle_get_point unit_circle a = V3 (cos a) (sin a) 0.
Proof. rewrite (circle_point _ unit_circle_frame). unfold unit_circle. cbn [ci_axis ci_ref_dir ci_center ci_radius]. apply vec3_ext; vsimp; rnum; ring. Qed.
Theorem C77_two_turns_refuted (tol : R) (rnd : list bool -> R) fuel dv :
  let s := {| s_curve := circle_curve unit_circle; s_range := (0, 4 * PI); s_tolerance := tol; s_division := dv |} in
  0 < tol -> rnd [] = 1/2 -> segment_get_points (S fuel) rnd s = Ok [V3 1 0 0; V3 1 0 0] /\ forall d, d < 2 -> ~ followed d s [V3 1 0 0; V3 1 0 0].
Proof.
  intros s Ht Hr. pose proof PI_RGT_0 as HPI.
  assert (E0 : circle_get_point unit_circle 0 = V3 1 0 0) by now rewrite unit_circle_at, cos_0, sin_0.
  assert (E4 : circle_get_point unit_circle (4 * PI) = V3 1 0 0).
  { replace (4 * PI) with (0 + 2 * PI + 2 * PI) by ring. now rewrite !(C28_periodic _ unit_circle_frame). }
  assert (E2 : circle_get_point unit_circle (2 * PI) = V3 1 0 0) by now rewrite unit_circle_at, cos_2PI, sin_2PI.
  split.
  - unfold segment_get_points, s. cbn [s_curve s_range s_tolerance circle_curve c_get_point parameter_division fst snd obind]. rewrite Hr.
    replace (probe (1 / 2)) with (1/2) by (unfold probe; rnum; field). replace (range_at (0, 4 * PI) (1/2)) with (2 * PI) by (unfold range_at; rnum; field). rewrite E0, E4, E2.
    rewrite chord_model, dist3_distance. replace (dist3 (V3 1 0 0) (chord (V3 1 0 0) (V3 1 0 0) (1 / 2))) with 0.
    2:{ unfold dist3, chord. cbn [x3 y3 z3]. match goal with |- 0 = sqrt ?e => replace e with 0 by field end. now rewrite sqrt_0. }
    rnum. rewrite (proj2 (Rltb_true 0 tol) Ht). cbn [obind mapM]. now rewrite E0, E4.
  - intros d Hd F. destruct (F PI) as (q & Eq & N); [unfold s; cbn [s_range fst snd]; rewrite Rmin_left, Rmax_right; lra|].
    unfold s in Eq. cbn [s_curve circle_curve c_get_point] in Eq. rewrite unit_circle_at, cos_PI, sin_PI in Eq. apply Ok_inj in Eq. subst q. revert N. apply not_near.
    intros t Ht'. unfold dist3, chord. cbn [x3 y3 z3]. match goal with |- _ < sqrt ?e => replace e with (2 * 2) by ring end. rewrite sqrt_square; lra.
Qed.
(** ** Concrete cases *)
(** half a turn with tolerance 1/2: the chord of the ends is 1 off, three points are taken; likewise for an arch *)
Example C77_nonvacuous :
  orthonormal (ci_axis unit_circle) (ci_ref_dir unit_circle) /\
  let s := {| s_curve := circle_curve unit_circle; s_range := (0, PI); s_tolerance := 1/2; s_division := 8 |} in
  segment_get_points 2 (fun _ => 1/2) s = Ok [V3 1 0 0; V3 0 1 0; V3 (-1) 0 0] /\
  (let p := {| s_curve := bezier3_curve [V3 0 0 0; V3 1 2 0; V3 2 0 0]; s_range := (0, 1); s_tolerance := 1/2; s_division := 8 |} in
   segment_get_points 2 (fun _ => 1/2) p = Ok [V3 0 0 0; V3 1 1 0; V3 2 0 0]).
Proof.
  split; [exact unit_circle_frame|]. pose proof PI_RGT_0 as HPI. split.
  - assert (P : probe (1 / 2) = 1/2) by (unfold probe; rnum; field).
    assert (R1 : forall a b, range_at (a, b) (1/2) = (a + b) / 2) by (intros; unfold range_at; rnum; field).
    unfold segment_get_points. cbn [s_curve s_range s_tolerance circle_curve c_get_point parameter_division fst snd obind]. rewrite !P, !R1.
    unfold f2. rnum. replace (2 / 1) with 2 by field. replace ((0 + PI) / 2) with (PI / 2) by field.
    rewrite !chord_model, !dist3_distance. rewrite !unit_circle_at. replace ((0 + PI / 2) / 2) with (PI / 4) by field. replace ((PI / 2 + PI) / 2) with (3 * (PI / 4)) by field.
    rewrite cos_0, sin_0, cos_PI, sin_PI, cos_PI2, sin_PI2, cos_PI4, sin_PI4, cos_3PI4, sin_3PI4.
    assert (S2 : 1 / sqrt 2 = sqrt 2 / 2). { pose proof (sqrt_sqrt 2 ltac:(lra)). assert (0 < sqrt 2) by (apply sqrt_lt_R0; lra). apply Rmult_eq_reg_r with (sqrt 2); [|lra]. unfold Rdiv. rewrite Rmult_assoc, Rinv_l by lra. lra. }
    replace (-1 / sqrt 2) with (- (sqrt 2 / 2)) by (rewrite <- S2; field; apply Rgt_not_eq, sqrt_lt_R0; lra). rewrite S2.
    assert (B : 7/5 <= sqrt 2 <= 3/2). { split; [rewrite <- (sqrt_square (7/5)) by lra; apply sqrt_le_1_alt; lra|rewrite <- (sqrt_square (3/2)) by lra; apply sqrt_le_1_alt; lra]. }
    assert (K : forall e, 0 <= e -> e < 1/4 -> sqrt e < 1/2). { intros e He1 He2. rewrite <- (sqrt_square (1/2)) by lra. apply sqrt_lt_1_alt. lra. }
    assert (T1 : Rltb (dist3 (V3 0 1 0) (chord (V3 1 0 0) (V3 (-1) 0 0) (1 / 2))) (1 / 2) = false).
    { apply Rltb_false. unfold dist3, chord. cbn [x3 y3 z3]. match goal with |- _ <= sqrt ?e => replace e with (1 * 1) by field end. rewrite sqrt_square; lra. }
    assert (T2 : Rltb (dist3 (V3 (sqrt 2 / 2) (sqrt 2 / 2) 0) (chord (V3 1 0 0) (V3 0 1 0) (1 / 2))) (1 / 2) = true).
    { apply Rltb_true. unfold dist3, chord. cbn [x3 y3 z3]. apply K; set (q := sqrt 2) in *; clearbody q; [|nra].
      match goal with |- 0 <= ?a ^ 2 + ?b ^ 2 + ?d ^ 2 => pose proof (pow2_ge_0 a); pose proof (pow2_ge_0 b); pose proof (pow2_ge_0 d); lra end. }
    assert (T3 : Rltb (dist3 (V3 (- (sqrt 2 / 2)) (sqrt 2 / 2) 0) (chord (V3 0 1 0) (V3 (-1) 0 0) (1 / 2))) (1 / 2) = true).
    { apply Rltb_true. unfold dist3, chord. cbn [x3 y3 z3]. apply K; set (q := sqrt 2) in *; clearbody q; [|nra].
      match goal with |- 0 <= ?a ^ 2 + ?b ^ 2 + ?d ^ 2 => pose proof (pow2_ge_0 a); pose proof (pow2_ge_0 b); pose proof (pow2_ge_0 d); lra end. }
    rewrite T1, T2, T3. cbn [obind removelast app mapM]. now rewrite !unit_circle_at, cos_0, sin_0, cos_PI, sin_PI, cos_PI2, sin_PI2.
  - assert (P : probe (1 / 2) = 1/2) by (unfold probe; rnum; field).
    assert (Q : forall u, bezier3_get_point [V3 0 0 0; V3 1 2 0; V3 2 0 0] u = Ok (V3 (2 * u) (4 * u * (1 - u)) 0)).
    { intros u. rewrite (bezier_quadratic (V3 0 0 0) (V3 1 2 0) (V3 2 0 0) u). f_equal. cbn [x3 y3 z3]. f_equal; ring. }
    unfold segment_get_points. cbn [s_curve s_range s_tolerance bezier3_curve c_get_point parameter_division fst snd]. rewrite ?Q. cbn [obind]. rewrite !P, ?Q.
    unfold range_at, f2. rnum. cbn [obind]. rewrite !chord_model, !dist3_distance. unfold dist3, chord. cbn [x3 y3 z3].
    assert (T : forall e k t, 0 <= k -> 0 <= t -> e = k * k -> Rltb (sqrt e) t = Rltb k t) by (intros e k t Hk Ht ->; now rewrite sqrt_square).
    rewrite (T _ 1 (1/2)) by (try lra; field). rewrite (proj2 (Rltb_false 1 (1/2))) by lra.
    rewrite ?Q. cbn [obind x3 y3 z3]. rewrite !(T _ (1/4) (1/2)) by (try lra; field). rewrite (proj2 (Rltb_true (1/4) (1/2))) by lra. cbn [obind removelast app mapM]. rewrite ?Q. cbn [obind].
    repeat f_equal; field.
Qed.
