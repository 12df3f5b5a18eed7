(** Property C73: when the Newton iteration of the curve projections converges, to what, and how fast. *)
From Coq Require Import ZArith NArith Reals Lra Lia List Bool Arith Floats.SpecFloat Psatz.
From Verif Require Import Prelude Num M_vec M_utils M_curve L_base L_vec L_bezier L_geom L_polygon Props_bezier Props_utils Props_polygon Props_sproject.
Open Scope R_scope.

(** ** Specification: the squared distance and its derivatives *)
(** half the squared distance of the curve point at [u] from [P] *)
Definition half_distance2 (c : R -> outcome (vec3 R)) (P : vec3 R) (u : R) : R :=
  ((x3 (at3 (c u)) - x3 P) ^ 2 + (y3 (at3 (c u)) - y3 P) ^ 2 + (z3 (at3 (c u)) - z3 P) ^ 2) / 2.
(** [d] gives the derivative of [c] at [u], and both can be evaluated there *)
Definition derives (c d : R -> outcome (vec3 R)) (u : R) : Prop := exists q q', c u = Ok q /\ d u = Ok q' /\
  derivable_pt_lim (fun x => x3 (at3 (c x))) u (x3 q') /\ derivable_pt_lim (fun x => y3 (at3 (c x))) u (y3 q') /\ derivable_pt_lim (fun x => z3 (at3 (c x))) u (z3 q').

Lemma half_nonneg c P u : 0 <= half_distance2 c P u.
Proof.
  unfold half_distance2. pose proof (pow2_ge_0 (x3 (at3 (c u)) - x3 P)). pose proof (pow2_ge_0 (y3 (at3 (c u)) - y3 P)). pose proof (pow2_ge_0 (z3 (at3 (c u)) - z3 P)). lra.
Qed.
Section Newton.
Variables (c d1 d2 : R -> outcome (vec3 R)) (P : vec3 R) (lo hi us rho : R).
Hypothesis Hlh : lo <= hi.
Hypothesis Hus : lo <= us <= hi.
(** the part of the parameter range that is looked at *)
Definition around (u : R) : Prop := lo <= u <= hi /\ Rabs (u - us) <= rho.
Hypothesis HD : forall u, around u -> derives c d1 u /\ derives d1 d2 u.

Definition slope1 (u : R) : R := x3 (at3 (d1 u)) * (x3 (at3 (c u)) - x3 P) + y3 (at3 (d1 u)) * (y3 (at3 (c u)) - y3 P) + z3 (at3 (d1 u)) * (z3 (at3 (c u)) - z3 P).
Definition slope2 (u : R) : R :=
  x3 (at3 (d2 u)) * (x3 (at3 (c u)) - x3 P) + y3 (at3 (d2 u)) * (y3 (at3 (c u)) - y3 P) + z3 (at3 (d2 u)) * (z3 (at3 (c u)) - z3 P)
  + (x3 (at3 (d1 u)) ^ 2 + y3 (at3 (d1 u)) ^ 2 + z3 (at3 (d1 u)) ^ 2).
Lemma mul_limits f g u a b : derivable_pt_lim f u a -> derivable_pt_lim g u b -> derivable_pt_lim (fun x => f x * g x) u (a * g u + f u * b).
Proof. intros H1 H2. exact (derivable_pt_lim_mult f g u a b H1 H2). Qed.
Lemma sub_limit f u a k : derivable_pt_lim f u a -> derivable_pt_lim (fun x => f x - k) u a.
Proof. intros H. replace a with (a - 0) by ring. exact (derivable_pt_lim_minus f (fun _ => k) u a 0 H (derivable_pt_lim_const k u)). Qed.
Lemma add_limits f g u a b : derivable_pt_lim f u a -> derivable_pt_lim g u b -> derivable_pt_lim (fun x => f x + g x) u (a + b).
Proof. intros H1 H2. exact (derivable_pt_lim_plus f g u a b H1 H2). Qed.
Lemma limit_ext (f g : R -> R) u a b : (forall x, f x = g x) -> a = b -> derivable_pt_lim f u a -> derivable_pt_lim g u b.
Proof. intros E -> H e He. destruct (H e He) as [d Hd]. exists d. intros h H1 H2. rewrite <- !E. auto. Qed.
(** the program's [f] and [fprime] are the first and second derivative of half the squared distance *)
Lemma distance_slope u : around u -> derivable_pt_lim (half_distance2 c P) u (slope1 u).
Proof.
  intros Hu. destruct (HD u Hu) as [(q & q' & E & E' & Dx & Dy & Dz) _].
  eapply (limit_ext (fun x => ((x3 (at3 (c x)) - x3 P) * (x3 (at3 (c x)) - x3 P) + (y3 (at3 (c x)) - y3 P) * (y3 (at3 (c x)) - y3 P) + (z3 (at3 (c x)) - z3 P) * (z3 (at3 (c x)) - z3 P)) * / 2)); [intros x; unfold half_distance2; field| |].
  2:{ apply mul_limits; [|apply derivable_pt_lim_const]. apply add_limits; [apply add_limits|]; apply mul_limits; apply sub_limit; eassumption. }
  unfold slope1. rewrite E, E'. cbn [at3]. field.
Qed.
Lemma slope_slope u : around u -> derivable_pt_lim slope1 u (slope2 u).
Proof.
  intros Hu. destruct (HD u Hu) as [(q & q' & E & E' & Dx & Dy & Dz) (r & r' & F & F' & Ex & Ey & Ez)]. rewrite E' in F. apply Ok_inj in F. subst r.
  eapply (limit_ext (fun x => x3 (at3 (d1 x)) * (x3 (at3 (c x)) - x3 P) + y3 (at3 (d1 x)) * (y3 (at3 (c x)) - y3 P) + z3 (at3 (d1 x)) * (z3 (at3 (c x)) - z3 P))); [intros x; reflexivity| |].
  2:{ apply add_limits; [apply add_limits|]; apply mul_limits; try apply sub_limit; eassumption. }
  unfold slope2. rewrite E, E', F'. cbn [at3]. ring.
Qed.
Lemma between_around u v : around u -> around v -> forall w, Rmin u v <= w <= Rmax u v -> around w.
Proof.
  intros [U1 U2] [V1 V2] w Hw. assert (K : (u <= w <= v \/ v <= w <= u)) by (revert Hw; unfold Rmin, Rmax; destruct (Rle_dec u v); lra).
  split; [lra|]. revert U2 V2. unfold Rabs. destruct (Rcase_abs (u - us)), (Rcase_abs (v - us)), (Rcase_abs (w - us)); lra.
Qed.
Lemma mean_value f f' u : 0 <= rho -> (forall x, around x -> derivable_pt_lim f x (f' x)) -> around u -> exists xi, around xi /\ Rabs (u - xi) <= Rabs (u - us) /\ 0 <= (u - us) * (xi - us) /\ f u - f us = f' xi * (u - us).
Proof.
  intros Hr H Hu. assert (A : around us) by (split; [exact Hus|rewrite Rminus_eq_0, Rabs_R0; exact Hr]).
  destruct (Rtotal_order u us) as [L|[L|L]].
  - destruct (MVT_cor2 f f' u us L) as (xi & E & X); [intros x Hx; apply H, (between_around u us Hu A); rewrite Rmin_left, Rmax_right by lra; lra|]. exists xi. split; [apply (between_around u us Hu A); rewrite Rmin_left, Rmax_right by lra; lra|]. split; [rewrite !Rabs_left by lra; lra|]. split; [nra|lra].
  - subst u. exists us. split; [exact A|]. split; [lra|]. split; [lra|ring].
  - destruct (MVT_cor2 f f' us u L) as (xi & E & X); [intros x Hx; apply H, (between_around u us Hu A); rewrite Rmin_right, Rmax_left by lra; lra|]. exists xi. split; [apply (between_around u us Hu A); rewrite Rmin_right, Rmax_left by lra; lra|]. split; [rewrite !Rabs_right by lra; lra|]. split; [nra|lra].
Qed.

(** [us] satisfies the condition for a nearest parameter of the range *)
Hypothesis Hopt : forall u, lo <= u <= hi -> 0 <= slope1 us * (u - us).
Variable m : R.
Hypothesis Hm : 0 < m.
Hypothesis Hr : 0 <= rho.
Hypothesis Hconv : forall u, around u -> m <= slope2 u.

Lemma strong_min u : around u -> half_distance2 c P us + m / 2 * (u - us) ^ 2 <= half_distance2 c P u.
Proof.
  intros Hu.
  destruct (mean_value (fun x => half_distance2 c P x - m / 2 * ((x - us) * (x - us))) (fun x => slope1 x - m * (x - us)) u Hr) as (xi & X1 & X2 & X3 & X4); [|exact Hu|].
  { intros x Hx. eapply (limit_ext (fun x => half_distance2 c P x + (- (m / 2)) * ((x - us) * (x - us)))); [intros; ring| |].
    2:{ apply add_limits; [apply distance_slope; exact Hx|]. apply mul_limits; [apply derivable_pt_lim_const|]. apply mul_limits; apply sub_limit, derivable_pt_lim_id. }
    cbv beta. field. }
  destruct (mean_value slope1 slope2 xi Hr) as (eta & Y1 & _ & _ & Y4); [intros; now apply slope_slope|exact X1|].
  pose proof (Hconv eta Y1) as C. pose proof (Hopt u (proj1 Hu)) as O. pose proof (Hopt xi (proj1 X1)) as O'.
  assert (G : 0 <= (slope1 xi - m * (xi - us)) * (u - us)).
  { replace (slope1 xi) with (slope1 us + slope2 eta * (xi - us)) by lra. replace ((slope1 us + slope2 eta * (xi - us) - m * (xi - us)) * (u - us)) with (slope1 us * (u - us) + (slope2 eta - m) * ((u - us) * (xi - us))) by ring.
    apply Rplus_le_le_0_compat; [exact O|]. apply Rmult_le_pos; lra. }
  rewrite Rminus_eq_0, Rmult_0_r in X4. nra.
Qed.
Lemma slope_bound u : around u -> m * Rabs (u - us) <= Rabs (slope1 u).
Proof.
  intros Hu. destruct (mean_value slope1 slope2 u Hr) as (xi & X1 & _ & _ & X4); [intros; now apply slope_slope|exact Hu|]. pose proof (Hconv xi X1) as C. pose proof (Hopt u (proj1 Hu)) as O.
  assert (E : slope1 u = slope1 us + slope2 xi * (u - us)) by lra. rewrite E.
  destruct (Rtotal_order u us) as [L|[L|L]].
  - assert (slope1 us <= 0) by nra. rewrite (Rabs_left (u - us)) by lra. rewrite Rabs_left1 by nra. nra.
  - subst u. rewrite Rminus_eq_0, Rabs_R0, Rmult_0_r. apply Rabs_pos.
  - assert (0 <= slope1 us) by nra. rewrite (Rabs_right (u - us)) by lra. rewrite Rabs_right by nra. nra.
Qed.
(** one step: clamping included *)
Lemma step_bound u : around u -> exists xi w, around xi /\ Rabs (u - xi) <= Rabs (u - us) /\ clamp_in_range (u - slope1 u / slope2 u) (lo, hi) = Ok w /\ lo <= w <= hi /\ Rabs (w - us) <= Rabs (slope2 u - slope2 xi) / slope2 u * Rabs (u - us).
Proof.
  intros Hu. destruct (mean_value slope1 slope2 u Hr) as (xi & X1 & X2 & _ & X4); [intros; now apply slope_slope|exact Hu|]. exists xi.
  destruct (C58_clamp_in_range (u - slope1 u / slope2 u) lo hi) as (w & E & W1 & W2). rewrite Rmin_left, Rmax_right in W1, W2 by exact Hlh. exists w. split; [exact X1|]. split; [exact X2|]. split; [exact E|]. split; [exact W1|].
  pose proof (Hconv u Hu) as C. set (v := u - slope1 u / slope2 u) in *.
  assert (V : v - us = (slope2 u - slope2 xi) / slope2 u * (u - us) - slope1 us / slope2 u) by (unfold v; replace (slope1 u) with (slope1 us + slope2 xi * (u - us)) by lra; field; lra).
  set (k := (slope2 u - slope2 xi) / slope2 u * (u - us)) in *. pose proof (Hopt w W1) as O.
  assert (K : Rabs (slope2 u - slope2 xi) / slope2 u * Rabs (u - us) = Rabs k).
  { unfold k, Rdiv. rewrite !Rabs_mult. rewrite (Rabs_right (/ slope2 u)); [ring|]. apply Rle_ge, Rlt_le, Rinv_0_lt_compat. lra. }
  rewrite K. assert (I : 0 < / slope2 u) by (apply Rinv_0_lt_compat; lra).
  destruct (Rtotal_order w us) as [L|[L|L]].
  - assert (S0 : slope1 us <= 0) by nra. assert (S1 : 0 <= - (slope1 us / slope2 u)) by (unfold Rdiv; nra).
    assert (VW : v <= w). { destruct (Rle_lt_dec v w) as [|N]; [assumption|exfalso]. specialize (W2 (Rmin us v)). assert (w < Rmin us v <= v) by (unfold Rmin; destruct (Rle_dec us v); lra). assert (Rmin us v <= us) by apply Rmin_l. specialize (W2 ltac:(lra)). rewrite (Rabs_left (w - v)), (Rabs_left1 (Rmin us v - v)) in W2 by lra. lra. }
    rewrite (Rabs_left (w - us)) by lra. rewrite (Rabs_left1 k) by lra. lra.
  - subst w. rewrite Rminus_eq_0, Rabs_R0. apply Rabs_pos.
  - assert (S0 : 0 <= slope1 us) by nra. assert (S1 : 0 <= slope1 us / slope2 u) by (unfold Rdiv; nra).
    assert (VW : w <= v). { destruct (Rle_lt_dec w v) as [|N]; [assumption|exfalso]. specialize (W2 (Rmax us v)). assert (v <= Rmax us v < w) by (unfold Rmax; destruct (Rle_dec us v); lra). assert (us <= Rmax us v) by apply Rmax_l. specialize (W2 ltac:(lra)). rewrite (Rabs_right (w - v)), (Rabs_right (Rmax us v - v)) in W2 by lra. lra. }
    rewrite (Rabs_right (w - us)) by lra. rewrite (Rabs_right k) by lra. lra.
Qed.
Lemma newton_case n u : around u ->
  (half_distance2 c P u <= TOL / 2 /\ newton (S n) c d1 d2 P (lo, hi) u = Ok u) \/
  (Rabs (slope1 u) <= TOL /\ newton (S n) c d1 d2 P (lo, hi) u = Ok u) \/
  exists xi w, around xi /\ Rabs (u - xi) <= Rabs (u - us) /\ lo <= w <= hi /\ Rabs (w - us) <= Rabs (slope2 u - slope2 xi) / slope2 u * Rabs (u - us) /\
    newton (S n) c d1 d2 P (lo, hi) u = newton n c d1 d2 P (lo, hi) w.
Proof.
  intros Hu. destruct (step_bound u Hu) as (xi & w & X1 & X2 & W & W1 & W2). destruct (HD u Hu) as [(q & q' & E & E' & _) (r & r' & _ & F' & _)].
  assert (S1 : slope1 u = dot3 q' (vsub q P)) by (unfold slope1; rewrite E, E'; reflexivity).
  assert (S2 : slope2 u = fadd (dot3 r' (vsub q P)) (length_squared3 q')) by (unfold slope2; rewrite E, E', F'; cbn [at3]; unfold length_squared3, dot3; vsimp; rnum; ring).
  assert (S0 : half_distance2 c P u = length_squared3 (vsub q P) / 2) by (unfold half_distance2; rewrite E; cbn [at3]; unfold length_squared3, dot3; vsimp; rnum; field).
  cbn [newton]. rewrite E. cbn [obind]. destruct (near (length_squared3 (vsub q P)) f0) eqn:N1.
  { left. split; [|reflexivity]. rewrite S0. unfold near, abs_diff_eq in N1. apply Rleb_true in N1. rnum. change (@ftol R RNum) with TOL in N1. pose proof (Rle_abs (length_squared3 (vsub q P) - 0)). lra. }
  rewrite E'. cbn [obind]. rewrite <- S1. destruct (near (slope1 u) f0) eqn:N2.
  { right. left. split; [|reflexivity]. unfold near, abs_diff_eq in N2. apply Rleb_true in N2. rnum. change (@ftol R RNum) with TOL in N2. rewrite Rminus_0_r in N2. exact N2. }
  rewrite F'. cbn [obind]. rewrite <- S2. right. right. exists xi, w. split; [exact X1|]. split; [exact X2|]. split; [exact W1|]. split; [exact W2|]. change (fsub u (fdiv (slope1 u) (slope2 u))) with (u - slope1 u / slope2 u). rewrite W. reflexivity.
Qed.
(** where the iteration stops: nearly no distance, nearly no slope, or after all trials *)
Definition stopped (v : R) : Prop := half_distance2 c P v <= TOL / 2 \/ Rabs (slope1 v) <= TOL.
Lemma stopped_close v : around v -> stopped v -> Rabs (v - us) <= Rmax (TOL / m) (sqrt (TOL / m)).
Proof.
  intros Hv [H|H].
  - eapply Rle_trans; [|apply Rmax_r]. pose proof (strong_min v Hv) as M. pose proof (half_nonneg c P us) as H0.
    assert (Q : (v - us) ^ 2 <= TOL / m) by (apply Rmult_le_reg_l with m; [exact Hm|]; replace (m * (TOL / m)) with TOL by (field; lra); lra).
    rewrite <- (sqrt_Rsqr_abs (v - us)). apply sqrt_le_1_alt. unfold Rsqr. lra.
  - eapply Rle_trans; [|apply Rmax_l]. pose proof (slope_bound v Hv) as M. apply Rmult_le_reg_l with m; [exact Hm|]. replace (m * (TOL / m)) with TOL by (field; lra). lra.
Qed.
Lemma newton_linear q : 0 <= q <= 1 -> (forall u xi, around u -> around xi -> Rabs (u - xi) <= Rabs (u - us) -> Rabs (slope2 u - slope2 xi) <= q * slope2 u) ->
  forall n u, around u -> exists v, newton n c d1 d2 P (lo, hi) u = Ok v /\ around v /\ (stopped v \/ Rabs (v - us) <= q ^ n * Rabs (u - us)).
Proof.
  intros Hq HB. induction n as [|n IH]; intros u Hu.
  - exists u. split; [reflexivity|]. split; [exact Hu|]. right. cbn [pow]. lra.
  - destruct (newton_case n u Hu) as [[H ->]|[[H ->]|(xi & w & X1 & X2 & W1 & W2 & ->)]]; [exists u; unfold stopped; auto..|].
    pose proof (Hconv u Hu) as C. pose proof (Rabs_pos (u - us)) as Pu.
    assert (B : Rabs (w - us) <= q * Rabs (u - us)).
    { eapply Rle_trans; [exact W2|]. apply Rmult_le_compat_r; [exact Pu|]. apply Rmult_le_reg_r with (slope2 u); [lra|]. unfold Rdiv. rewrite Rmult_assoc, Rinv_l, Rmult_1_r by lra. now apply HB. }
    assert (Aw : around w) by (split; [exact W1|]; destruct Hu as [_ Hu]; nra). destruct (IH w Aw) as (v & E & Av & St). exists v. split; [exact E|]. split; [exact Av|]. destruct St as [St|St]; [now left|right]. eapply Rle_trans; [exact St|]. cbn [pow]. rewrite (Rmult_comm q), Rmult_assoc. apply Rmult_le_compat_l; [apply pow_le; lra|exact B].
Qed.
Lemma newton_quadratic b : 0 <= b -> b * rho <= 1 -> (forall u xi, around u -> around xi -> Rabs (u - xi) <= Rabs (u - us) -> Rabs (slope2 u - slope2 xi) <= b * Rabs (u - us) * slope2 u) ->
  forall n u, around u -> exists v, newton n c d1 d2 P (lo, hi) u = Ok v /\ around v /\ (stopped v \/ b * Rabs (v - us) <= (b * Rabs (u - us)) ^ (2 ^ n)).
Proof.
  intros Hb Hbr HB. induction n as [|n IH]; intros u Hu.
  - exists u. split; [reflexivity|]. split; [exact Hu|]. right. cbn [Nat.pow pow]. lra.
  - destruct (newton_case n u Hu) as [[H ->]|[[H ->]|(xi & w & X1 & X2 & W1 & W2 & ->)]]; [exists u; unfold stopped; auto..|].
    pose proof (Hconv u Hu) as C. pose proof (Rabs_pos (u - us)) as Pu.
    assert (B : Rabs (w - us) <= b * Rabs (u - us) * Rabs (u - us)).
    { eapply Rle_trans; [exact W2|]. apply Rmult_le_compat_r; [exact Pu|]. apply Rmult_le_reg_r with (slope2 u); [lra|]. unfold Rdiv. rewrite Rmult_assoc, Rinv_l, Rmult_1_r by lra. now apply HB. }
    assert (b1 : b * Rabs (u - us) <= 1) by (destruct Hu as [_ Hu]; nra).
    assert (Aw : around w) by (split; [exact W1|]; destruct Hu as [_ Hu]; nra). destruct (IH w Aw) as (v & E & Av & St). exists v. split; [exact E|]. split; [exact Av|]. destruct St as [St|St]; [now left|right]. eapply Rle_trans; [exact St|].
    replace (2 ^ S n)%nat with (2 * 2 ^ n)%nat by (cbn; lia). rewrite pow_mult. apply pow_incr. split; [apply Rmult_le_pos; [exact Hb|apply Rabs_pos]|]. cbn [pow]. pose proof (Rabs_pos (w - us)). nra.
Qed.
End Newton.

(** ** The theorems *)
(** near a nearest parameter [us] *)
Theorem C73_newton_converges (c d1 d2 : R -> outcome (vec3 R)) (P : vec3 R) (lo hi us rho m L : R) (n : nat) (u : R) :
  let near_us := around lo hi us rho in
  lo <= us <= hi -> 0 <= rho -> (forall x, near_us x -> derives c d1 x /\ derives d1 d2 x) ->
  (forall x, lo <= x <= hi -> 0 <= slope1 c d1 P us * (x - us)) ->
  0 < m -> L <= 2 * m -> (forall x, near_us x -> m <= slope2 c d1 d2 P x <= L) -> near_us u ->
  (forall x, near_us x -> half_distance2 c P us + m / 2 * (x - us) ^ 2 <= half_distance2 c P x) /\
  exists v, newton n c d1 d2 P (lo, hi) u = Ok v /\ near_us v /\ Rabs (v - us) <= Rmax (((L - m) / m) ^ n * Rabs (u - us)) (Rmax (TOL / m) (sqrt (TOL / m))).
Proof.
  intros J Hus Hr HD Hopt Hm HL Hc Hu. assert (Hlh : lo <= hi) by lra. assert (Hc1 : forall x, J x -> m <= slope2 c d1 d2 P x) by (intros x Hx; now apply Hc).
  split; [intros x Hx; now apply (strong_min c d1 d2 P lo hi us rho Hus HD Hopt m Hr Hc1)|].
  pose proof (Hc u Hu) as Cu. assert (Q : 0 <= (L - m) / m <= 1).
  { split; [apply Rmult_le_pos; [lra|left; now apply Rinv_0_lt_compat]|]. apply Rmult_le_reg_r with m; [exact Hm|]. unfold Rdiv. rewrite Rmult_assoc, Rinv_l by lra. lra. }
  destruct (newton_linear c d1 d2 P lo hi us rho Hlh Hus HD Hopt m Hm Hr Hc1 ((L - m) / m) Q) with (n := n) (u := u) as (v & E & Av & St); [|exact Hu|].
  { intros x y Hx Hy _. pose proof (Hc x Hx) as Cx. pose proof (Hc y Hy) as Cy. apply Rle_trans with (L - m); [apply Rabs_le; lra|]. apply Rle_trans with ((L - m) / m * m); [right; field; lra|]. apply Rmult_le_compat_l; lra. }
  exists v. split; [exact E|]. split; [exact Av|]. destruct St as [St|St]; [eapply Rle_trans; [|apply Rmax_r]; now apply (stopped_close c d1 d2 P lo hi us rho Hus HD Hopt m Hm Hr Hc1)|eapply Rle_trans; [exact St|apply Rmax_l]].
Qed.
(** quadratic convergence: the number of correct digits doubles with every trial *)
Theorem C73_newton_quadratic (c d1 d2 : R -> outcome (vec3 R)) (P : vec3 R) (lo hi us rho m K : R) (n : nat) (u : R) :
  let near_us := around lo hi us rho in
  lo <= us <= hi -> 0 <= rho -> (forall x, near_us x -> derives c d1 x /\ derives d1 d2 x) ->
  (forall x, lo <= x <= hi -> 0 <= slope1 c d1 P us * (x - us)) ->
  0 < m -> (forall x, near_us x -> m <= slope2 c d1 d2 P x) -> 0 < K -> K * rho <= m ->
  (forall x y, near_us x -> near_us y -> Rabs (slope2 c d1 d2 P x - slope2 c d1 d2 P y) <= K * Rabs (x - y)) -> near_us u ->
  exists v, newton n c d1 d2 P (lo, hi) u = Ok v /\ near_us v /\ Rabs (v - us) <= Rmax (m / K * (K / m * Rabs (u - us)) ^ (2 ^ n)) (Rmax (TOL / m) (sqrt (TOL / m))).
Proof.
  intros J Hus Hr HD Hopt Hm Hc HK HKr HLip Hu. assert (Hlh : lo <= hi) by lra. assert (Hb : 0 < K / m) by (apply Rmult_lt_0_compat; [exact HK|now apply Rinv_0_lt_compat]).
  destruct (newton_quadratic c d1 d2 P lo hi us rho Hlh Hus HD Hopt m Hm Hr Hc (K / m)) with (n := n) (u := u) as (v & E & Av & St); [lra| | |exact Hu|].
  { apply Rmult_le_reg_r with m; [exact Hm|]. replace (K / m * rho * m) with (K * rho) by (field; lra). lra. }
  { intros x y Hx Hy Hxy. pose proof (Hc x Hx) as Cx. apply Rle_trans with (K * Rabs (x - y)); [now apply HLip|]. apply Rle_trans with (K * Rabs (x - us)); [apply Rmult_le_compat_l; lra|].
    replace (K * Rabs (x - us)) with (K / m * Rabs (x - us) * m) by (field; lra). apply Rmult_le_compat_l; [|exact Cx]. apply Rmult_le_pos; [lra|apply Rabs_pos]. }
  exists v. split; [exact E|]. split; [exact Av|]. destruct St as [St|St]; [eapply Rle_trans; [|apply Rmax_r]; now apply (stopped_close c d1 d2 P lo hi us rho Hus HD Hopt m Hm Hr Hc)|]. eapply Rle_trans; [|apply Rmax_l].
  apply Rmult_le_reg_l with (K / m); [exact Hb|]. eapply Rle_trans; [exact St|]. right. field. lra.
Qed.
(** a nearest parameter of the range satisfies the condition on the slope *)
Lemma nearest_condition c d1 P lo hi us : lo <= us <= hi -> derivable_pt_lim (half_distance2 c P) us (slope1 c d1 P us) -> (forall x, lo <= x <= hi -> half_distance2 c P us <= half_distance2 c P x) ->
  forall x, lo <= x <= hi -> 0 <= slope1 c d1 P us * (x - us).
Proof.
  intros Hus HD Hmin x Hx. destruct (Rle_lt_dec 0 (slope1 c d1 P us * (x - us))) as [|N]; [assumption|exfalso]. set (s := slope1 c d1 P us) in *.
  assert (Xn : x - us <> 0) by (intros Z; rewrite Z in N; lra). assert (Sn : 0 < Rabs s) by (apply Rabs_pos_lt; intros Z; rewrite Z in N; lra).
  destruct (HD (Rabs s / 2) ltac:(lra)) as [[d Hd] HL]. cbn [pos] in HL.
  set (k := Rmin 1 (d / (2 * Rabs (x - us)))). pose proof (Rabs_pos_lt _ Xn) as Ax.
  assert (K0 : 0 < k) by (unfold k; apply Rmin_glb_lt; [lra|]; apply Rmult_lt_0_compat; [exact Hd|]; apply Rinv_0_lt_compat; lra).
  assert (K1 : k <= 1) by apply Rmin_l. assert (K2 : k * Rabs (x - us) < d).
  { assert (k <= d / (2 * Rabs (x - us))) by apply Rmin_r. apply Rle_lt_trans with (d / (2 * Rabs (x - us)) * Rabs (x - us)); [apply Rmult_le_compat_r; lra|]. replace (d / (2 * Rabs (x - us)) * Rabs (x - us)) with (d / 2) by (field; lra). lra. }
  set (h := k * (x - us)) in *. assert (Hh : h <> 0) by (unfold h; apply Rmult_integral_contrapositive_currified; lra). assert (Ah : Rabs h < d) by (unfold h; rewrite Rabs_mult, (Rabs_right k) by lra; exact K2).
  specialize (HL h Hh Ah). specialize (Hmin (us + h)). assert (R1 : lo <= us + h <= hi) by (unfold h; destruct (Rle_dec us x); nra). specialize (Hmin R1).
  assert (SH : s * h < 0) by (unfold h; nra).
  set (D := (half_distance2 c P (us + h) - half_distance2 c P us) / h) in *.
  assert (DH : 0 <= D * h) by (unfold D; replace ((half_distance2 c P (us + h) - half_distance2 c P us) / h * h) with (half_distance2 c P (us + h) - half_distance2 c P us) by (field; exact Hh); lra).
  revert HL Sn. unfold Rabs. destruct (Rcase_abs (D - s)), (Rcase_abs s); intros HL Sn; nra.
Qed.
(** projection of a point to which the whole curve is curved little enough *)
Theorem C73_find_nearest (c d1 d2 : R -> outcome (vec3 R)) (P : vec3 R) (lo hi m L : R) (division n : nat) :
  lo <= hi -> (1 <= division)%nat -> (forall x, lo <= x <= hi -> derives c d1 x /\ derives d1 d2 x) ->
  0 < m -> L <= 2 * m -> (forall x, lo <= x <= hi -> m <= slope2 c d1 d2 P x <= L) ->
  exists us v, lo <= us <= hi /\ (forall x, lo <= x <= hi -> half_distance2 c P us + m / 2 * (x - us) ^ 2 <= half_distance2 c P x) /\
    find_nearest_parameter c d1 d2 P (lo, hi) division n = Ok v /\ lo <= v <= hi /\
    Rabs (v - us) <= Rmax (((L - m) / m) ^ n * (hi - lo)) (Rmax (TOL / m) (sqrt (TOL / m))).
Proof.
  intros Hlh Hd HD Hm HL Hc.
  assert (A0 : forall us, lo <= us <= hi -> forall x, lo <= x <= hi -> around lo hi us (hi - lo) x) by (intros us Hus x Hx; split; [exact Hx|]; apply Rabs_le; lra).
  assert (DS : forall x, lo <= x <= hi -> derivable_pt_lim (half_distance2 c P) x (slope1 c d1 P x)) by (intros x Hx; apply (distance_slope c d1 d2 P lo hi lo (hi - lo)); [intros y [Hy _]; now apply HD|apply A0; lra]).
  destruct (continuity_ab_min (half_distance2 c P) lo hi Hlh) as (us & Hmin & Hus).
  { intros x Hx. apply derivable_continuous_pt. exists (slope1 c d1 P x). now apply DS. }
  assert (Hopt := nearest_condition c d1 P lo hi us Hus (DS us Hus) Hmin).
  destruct (C26_total c d1 d2 P (lo, hi) division n Hd) as (v & E & _).
  { intros x Hx. unfold in_range in Hx. cbn [fst snd] in Hx. rewrite Rmin_left, Rmax_right in Hx by exact Hlh. destruct (HD x Hx) as [(q & q' & Q1 & Q2 & _) (r & r' & _ & R2 & _)]. split; [eauto|split; eauto]. }
  pose proof E as E2. unfold find_nearest_parameter in E2. bindas E2 ps Ep. bindas E2 pts Epts. bindas E2 u Eu. apply idx_In in Eu. pose proof (uniform_divide_in_range _ _ _ _ Ep _ Eu) as Ru. unfold in_range in Ru. cbn [fst snd] in Ru. rewrite Rmin_left, Rmax_right in Ru by exact Hlh.
  destruct (C73_newton_converges c d1 d2 P lo hi us (hi - lo) m L n u Hus ltac:(lra)) as [S (v' & E' & [Av _] & B)]; [intros x [Hx _]; now apply HD|exact Hopt|exact Hm|exact HL|intros x [Hx _]; now apply Hc|now apply A0|].
  rewrite E2 in E'. apply Ok_inj in E'. subst v'. exists us, v. split; [exact Hus|]. split; [intros x Hx; apply S; now apply A0|]. split; [exact E|]. split; [exact Av|]. eapply Rle_trans; [exact B|]. apply Rle_max_compat_r. apply Rmult_le_compat_l; [|apply Rabs_le; lra].
  apply pow_le. pose proof (Hc us Hus). apply Rmult_le_pos; [lra|left; now apply Rinv_0_lt_compat].
Qed.
Lemma coord_at3 (g : R -> outcome (vec3 R)) (f : vec3 R -> R) x : f (V3 0 0 0) = 0 -> curve_coord g f x = f (at3 (g x)).
Proof. intros H. unfold curve_coord, at3. destruct (g x); auto. Qed.
Lemma bezier_derives cps ders u : (2 <= length cps)%nat -> bezier_derivative cps = Ok ders -> derives (bezier3_get_point cps) (bezier3_get_point ders) u.
Proof.
  intros HL E. destruct (C04_bezier_derivative cps ders HL E) as [_ D]. destruct (D u) as (q & Eq & Dx & Dy & Dz). exists (comb3 (fun i => C (length cps - 1) i * u ^ i * (1 - u) ^ (length cps - 1 - i)) cps), q. split; [apply C01_bezier_eval; lia|]. split; [exact Eq|].
  repeat split; (eapply limit_ext; [|reflexivity|eassumption]); intros x; now apply coord_at3.
Qed.
Theorem C73_bezier_project (cps d1 d2 : list (vec3 R)) (P : vec3 R) (m L : R) :
  (3 <= length cps)%nat -> bezier_derivative cps = Ok d1 -> bezier_derivative d1 = Ok d2 ->
  0 < m -> L <= 2 * m -> (forall u, 0 <= u <= 1 -> m <= slope2 (bezier3_get_point cps) (bezier3_get_point d1) (bezier3_get_point d2) P u <= L) ->
  exists us v, 0 <= us <= 1 /\ (forall u, 0 <= u <= 1 -> half_distance2 (bezier3_get_point cps) P us + m / 2 * (u - us) ^ 2 <= half_distance2 (bezier3_get_point cps) P u) /\
    bezier3_project cps P = Ok v /\ 0 <= v <= 1 /\ Rabs (v - us) <= Rmax (((L - m) / m) ^ 10) (Rmax (TOL / m) (sqrt (TOL / m))).
Proof.
  intros HL E1 E2 Hm HmL Hc. destruct (C04_bezier_derivative cps d1 ltac:(lia) E1) as [L1 _].
  destruct (C73_find_nearest (bezier3_get_point cps) (bezier3_get_point d1) (bezier3_get_point d2) P 0 1 m L ((length cps - 1) * 4) 10) as (us & v & H1 & H2 & H3 & H4 & H5); [lra|lia| |exact Hm|exact HmL|exact Hc|].
  { intros x _. split; apply bezier_derives; auto; lia. }
  exists us, v. split; [exact H1|]. split; [exact H2|]. split.
  { unfold bezier3_project, bezier_degree. rewrite usub_Ok by lia. cbn [obind]. rewrite (proj2 (Nat.eqb_neq _ _)) by lia. rewrite E1. cbn [obind]. rewrite E2. cbn [obind]. exact H3. }
  split; [exact H4|]. replace (((L - m) / m) ^ 10) with (((L - m) / m) ^ 10 * (1 - 0)) by ring. exact H5.
Qed.

(** ** Concrete cases *)
Definition arch : list (vec3 R) := [V3 0 0 0; V3 (1/2) (1/4) 0; V3 1 0 0].
Definition arch1 : list (vec3 R) := [V3 1 (1/2) 0; V3 1 (-1/2) 0].
Definition arch2 : list (vec3 R) := [V3 0 (-1) 0].
Lemma arch_at u : at3 (bezier3_get_point arch u) = V3 u (u * (1 - u) / 2) 0.
Proof. rewrite C01_bezier_eval by (cbn; lia). cbn [at3]. unfold comb3, sumf. cbn [arch length seq map fold_right nth x3 y3 z3 Nat.sub pow]. unfold C. cbn [fact Nat.mul Nat.add Nat.sub INR]. f_equal; field. Qed.
Lemma arch1_at u : at3 (bezier3_get_point arch1 u) = V3 1 (1/2 - u) 0.
Proof. rewrite C01_bezier_eval by (cbn; lia). cbn [at3]. unfold comb3, sumf. cbn [arch1 length seq map fold_right nth x3 y3 z3 Nat.sub pow]. unfold C. cbn [fact Nat.mul Nat.add Nat.sub INR]. f_equal; field. Qed.
Lemma arch2_at u : at3 (bezier3_get_point arch2 u) = V3 0 (-1) 0.
Proof. rewrite C01_bezier_eval by (cbn; lia). cbn [at3]. unfold comb3, sumf. cbn [arch2 length seq map fold_right nth x3 y3 z3 Nat.sub pow]. unfold C. cbn [fact Nat.mul Nat.add Nat.sub INR]. f_equal; field. Qed.
Lemma arch_derivatives : bezier_derivative arch = Ok arch1 /\ bezier_derivative arch1 = Ok arch2.
Proof.
  unfold bezier_derivative, bezier_degree, arch, arch1, arch2. cbn. split; apply f_equal; repeat (apply f_equal2; [apply vec3_ext; cbn [x3 y3 z3]; lra|]); reflexivity.
Qed.
Example C73_bezier_nonvacuous : exists us v, 0 <= us <= 1 /\ bezier3_project arch (V3 (1/3) (1/4) 0) = Ok v /\ Rabs (v - us) <= Rmax ((1 / 3) ^ 10) (Rmax (TOL / (9 / 8)) (sqrt (TOL / (9 / 8)))) /\
  forall u, 0 <= u <= 1 -> (us - 1 / 3) ^ 2 + (us * (1 - us) / 2 - 1 / 4) ^ 2 <= (u - 1 / 3) ^ 2 + (u * (1 - u) / 2 - 1 / 4) ^ 2.
Proof.
  destruct arch_derivatives as [E1 E2].
  destruct (C73_bezier_project arch arch1 arch2 (V3 (1/3) (1/4) 0) (9 / 8) (3 / 2)) as (us & v & H1 & H2 & H3 & _ & H5); [cbn; lia|exact E1|exact E2|lra|lra| |].
  { intros u Hu. unfold slope2. rewrite arch_at, arch1_at, arch2_at. cbn [x3 y3 z3]. assert (A : 0 <= u * (1 - u)) by (apply Rmult_le_pos; lra). pose proof (pow2_ge_0 (u - 1 / 2)) as B. nra. }
  exists us, v. split; [exact H1|]. split; [exact H3|]. split; [replace (1 / 3) with ((3 / 2 - 9 / 8) / (9 / 8)) by field; exact H5|]. intros u Hu. specialize (H2 u Hu). unfold half_distance2 in H2. rewrite !arch_at in H2. cbn [x3 y3 z3] in H2. pose proof (pow2_ge_0 (u - us)). lra.
Qed.
Example C73_quadratic_nonvacuous : exists v, newton 3 (bezier3_get_point arch) (bezier3_get_point arch1) (bezier3_get_point arch2) (V3 (1/2) (1/4) 0) (0, 1) 0 = Ok v /\
  Rabs (v - 1 / 2) <= Rmax (3 / 4 * (2 / 3) ^ 8) (Rmax (TOL / (9 / 8)) (sqrt (TOL / (9 / 8)))).
Proof.
  destruct arch_derivatives as [E1 E2].
  assert (S2 : forall x, slope2 (bezier3_get_point arch) (bezier3_get_point arch1) (bezier3_get_point arch2) (V3 (1/2) (1/4) 0) x = 3 / 2 * (1 - x * (1 - x))) by (intros x; unfold slope2; rewrite arch_at, arch1_at, arch2_at; cbn [x3 y3 z3]; field).
  assert (X : forall x, 0 <= x <= 1 -> Rabs (x - 1 / 2) <= 1 / 2) by (intros x Hx; apply Rabs_le; lra).
  destruct (C73_newton_quadratic (bezier3_get_point arch) (bezier3_get_point arch1) (bezier3_get_point arch2) (V3 (1/2) (1/4) 0) 0 1 (1 / 2) (1 / 2) (9 / 8) (3 / 2) 3 0) as (v & E & _ & B).
  - lra.
  - lra.
  - intros x _. split; apply bezier_derives; auto; cbn; lia.
  - intros x Hx. unfold slope1. rewrite arch_at, arch1_at. cbn [x3 y3 z3]. lra.
  - lra.
  - intros x [Hx _]. rewrite S2. pose proof (pow2_ge_0 (x - 1 / 2)). nra.
  - lra.
  - lra.
  - intros x y [Hx _] [Hy _]. rewrite !S2. replace (3 / 2 * (1 - x * (1 - x)) - 3 / 2 * (1 - y * (1 - y))) with (3 / 2 * ((x + y - 1) * (x - y))) by ring. rewrite !Rabs_mult, (Rabs_right (3 / 2)) by lra. assert (Rabs (x + y - 1) <= 1) by (apply Rabs_le; lra). pose proof (Rabs_pos (x - y)). nra.
  - split; [lra|]. apply X. lra.
  - exists v. split; [exact E|]. replace (3 / 4 * (2 / 3) ^ 8) with (9 / 8 / (3 / 2) * (3 / 2 / (9 / 8) * Rabs (0 - 1 / 2)) ^ 2 ^ 3); [exact B|]. rewrite Rabs_left by lra. cbn [Nat.pow Nat.mul Nat.add]. field.
Qed.
(** The nearest point of this curve is its start, which is among the points that are tried first; the
    iteration leaves it because the distance is not convex there, and returns the farthest point. *)
Definition hook : list (vec3 f64) := [V3 f0 f1 f0; V3 f0 f0 f0; V3 f1 f0 f0].
Theorem C73_farthest_refuted : let P := V3 f0 (f64_of_Z 4) f0 in exists a b, bezier3_project hook P = Ok f1 /\
  bezier3_get_point hook f0 = Ok a /\ bezier3_get_point hook f1 = Ok b /\ length_squared3 (vsub a P) = (f64_of_Z 9) /\ length_squared3 (vsub b P) = (f64_of_Z 17).
Proof. intros P. do 2 eexists. split; [vm_compute; reflexivity|]. split; [vm_compute; reflexivity|]. split; [vm_compute; reflexivity|]. split; vm_compute; reflexivity. Qed.
