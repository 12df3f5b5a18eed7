(** Property C86: sampling across a jump in doubles. *)
From Coq Require Import ZArith Reals Lra Lia List Bool Arith Floats.SpecFloat Psatz.
From Verif Require Import Prelude Num M_vec M_utils M_curve L_base L_vec L_geom L_float L_grid L_err L_bserr Props_utils Props_accuracy Props_plane64 Props_edges64.
Import ListNotations.
Open Scope R_scope.

(** ** Any arithmetic *)
Lemma total_no_panic {F} {NF : Num F} rnd (gp : F -> outcome (vec3 F)) tol : (forall u, exists p, gp u = Ok p) -> forall fuel path r, parameter_division fuel rnd path gp r tol <> Panic.
Proof.
  intros G. induction fuel as [|fuel IH]; intros path r; [discriminate|]. cbn [parameter_division]. destruct (G (fst r)) as (pa & ->). destruct (G (snd r)) as (pb & ->). destruct (G (range_at r (probe (rnd path)))) as (q & ->). cbn [obind].
  match goal with |- context [fltb ?x tol] => destruct (fltb x tol) end; [discriminate|]. match goal with |- context [parameter_division fuel rnd (false :: path) gp ?r1 tol] => pose proof (IH (false :: path) r1) as N1; destruct (parameter_division fuel rnd (false :: path) gp r1 tol); cbn [obind] end; [|now destruct N1|discriminate].
  match goal with |- context [parameter_division fuel rnd (true :: path) gp ?r2 tol] => pose proof (IH (true :: path) r2) as N2; destruct (parameter_division fuel rnd (true :: path) gp r2 tol); cbn [obind] end; [discriminate|now destruct N2|discriminate].
Qed.
(** a curve with two values, both far from the probed points of the chord between them, is divided for ever between parameters with different values; no property of the arithmetic is used *)
Theorem C86_jump {F} {NF : Num F} (side : F -> bool) (A B : vec3 F) gp rnd tol : (forall u, gp u = Ok (if side u then A else B)) ->
  (forall path (l : bool), fltb (distance3 (if l then A else B) (vadd A (vmulr (vsub B A) (probe (rnd path))))) tol = false) ->
  forall fuel path a b, side a = true -> side b = false -> parameter_division fuel rnd path gp (a, b) tol = OutOfFuel.
Proof.
  intros G Hf. induction fuel as [|fuel IH]; intros path a b Ha Hb; [reflexivity|]. cbn [parameter_division fst snd]. rewrite (G a), (G b), (G (range_at (a, b) (probe (rnd path)))), Ha, Hb. cbn [obind]. rewrite Hf.
  match goal with |- context [parameter_division fuel rnd (false :: path) gp (a, ?m') tol] => set (m := m') end. destruct (side m) eqn:Hm; [|now rewrite (IH (false :: path) a m)].
  pose proof (total_no_panic rnd gp tol ltac:(intros u; eexists; apply G) fuel (false :: path) (a, m)) as N. destruct (parameter_division fuel rnd (false :: path) gp (a, m) tol); cbn [obind]; [|now destruct N|reflexivity]. now rewrite (IH (true :: path) m b).
Qed.

(** ** Doubles *)
Lemma probe_middle (r : f64) : num64 r -> 0 <= val r <= 1 -> num64 (probe r) /\ 39 / 100 <= val (probe r) <= 61 / 100.
Proof.
  intros N H. pose proof eps_tiny as [F1 F2]. pose proof (lit_close 1 5 ltac:(lia) ltac:(lia) ltac:(rewrite Rabs_right; lra)) as L5. pose proof (lit_close 1 10 ltac:(lia) ltac:(lia) ltac:(rewrite Rabs_right; lra)) as L10.
  pose proof (lit_close 1 2 ltac:(lia) ltac:(lia) ltac:(rewrite Rabs_right; lra)) as L2.
  pose proof (appr_scale 1 one_490 _ _ _ r _ L5 N ltac:(rewrite Rabs_right; lra) ltac:(lra) ltac:(lra)) as A1. pose proof (appr_sub 1 one_490 _ _ _ _ _ _ _ _ A1 L10 ltac:(lra) ltac:(lra) ltac:(lra)) as A2.
  pose proof (appr_add 1 one_490 _ _ _ _ _ _ _ _ L2 A2 ltac:(lra) ltac:(lra) ltac:(lra)) as (N3 & A3 & _). split; [exact N3|]. change (val (probe r)) with (val (fadd (flit 1 2) (fsub (fmul (flit 1 5) r) (flit 1 10)))). apply abs_between in A3. lra.
Qed.
Section Far.
Variable M : R.
Hypothesis HM : 1 <= M <= pow2 490.
Lemma exact3 (p : vec3 f64) : finite3 p -> within M (val3 p) -> appr3 M 0 1 p (val3 p).
Proof. intros (N1 & N2 & N3) (B1 & B2 & B3). cbn [val3 x3 y3 z3] in *. split; [|split]; apply appr_exact; auto; rewrite Rmult_1_l; assumption. Qed.
Lemma far_test (A B : vec3 f64) (l : bool) (k tol : f64) : finite3 A -> finite3 B -> within M (val3 A) -> within M (val3 B) -> num64 k -> 39 / 100 <= val k <= 61 / 100 -> num64 tol -> 0 < val tol ->
  val tol * val tol + pow2 (-43) * (M * M) <= 3 / 20 * dist2 (val3 A) (val3 B) -> fltb (distance3 (if l then A else B) (vadd A (vmulr (vsub B A) k))) tol = false.
Proof.
  intros FA FB WA WB Nk Hk Nt Ht HD. pose proof (epsM M HM) as EM. pose proof eps_tiny as [F1 F2]. pose proof (exact3 A FA WA) as EA. pose proof (exact3 B FB WB) as EB.
  pose proof (vsub_appr M HM _ _ _ _ _ _ _ _ EB EA ltac:(lra) ltac:(lra) ltac:(lra)) as D. pose proof (vmulr_appr M HM _ _ _ _ k D Nk ltac:(rewrite Rabs_right; lra) ltac:(lra) ltac:(lra)) as E. pose proof (vadd_appr M HM _ _ _ _ _ _ _ _ EA E ltac:(lra) ltac:(lra) ltac:(lra)) as G.
  set (q := if l then A else B). assert (EQ : appr3 M 0 1 q (val3 q)) by (unfold q; destruct l; assumption).
  pose proof (vsub_appr M HM _ _ _ _ _ _ _ _ EQ G ltac:(lra) ltac:(lra) ltac:(lra)) as (D1 & D2 & D3). unfold distance3. set (w := vsub q (vadd A (vmulr (vsub B A) k))) in *. set (W := vsub (val3 q) (vadd (val3 A) (vmulr (vsub (val3 B) (val3 A)) (val k)))) in *.
  match type of D1 with appr _ ?e ?b _ _ => change (appr M e b (x3 w) (x3 W)) in D1; change (appr M e b (y3 w) (y3 W)) in D2; change (appr M e b (z3 w) (z3 W)) in D3 end.
  pose proof (appr_size M HM _ _ _ _ D1 ltac:(lra)) as S1. pose proof (appr_size M HM _ _ _ _ D2 ltac:(lra)) as S2. pose proof (appr_size M HM _ _ _ _ D3 ltac:(lra)) as S3.
  assert (E1024 : pow2 (-43) = 1024 * eps). { replace 1024 with (pow2 10) by (rewrite <- pow2_Z by lia; reflexivity). rewrite <- eps_pow2, <- pow2_add. reflexivity. }
  assert (Nw : finite3 w) by exact (conj (proj1 D1) (conj (proj1 D2) (proj1 D3))). assert (Bw : within (4001 / 1000 * M) (val3 w)) by (repeat split; cbn [val3 x3 y3 z3]; lra). assert (Hd : eps * / 2 <= 4001 / 1000 * M <= 10 * M) by lra.
  destruct (sumsq_err M HM w (4001 / 1000 * M) Nw Bw Hd) as (N & S & Er).
  assert (MM : 1 <= M * M) by nra. assert (P0 : 0 <= eps * (M * M)) by (apply Rmult_le_pos; lra).
  assert (Q : forall x X, Rabs (x - X) <= 12 * (eps * M) -> Rabs x <= 4001 / 1000 * M -> Rabs X <= 4 * M -> Rabs (x * x - X * X) <= 100 * (eps * (M * M))).
  { intros x X H1 H2 H3. replace (x * x - X * X) with ((x - X) * (x + X)) by ring. rewrite Rabs_mult. apply Rle_trans with (12 * (eps * M) * (8001 / 1000 * M)).
    - apply Rmult_le_compat; auto using Rabs_pos. eapply Rle_trans; [apply Rabs_triang|]. lra.
    - lra. }
  destruct D1 as (_ & D1 & D1'). destruct D2 as (_ & D2 & D2'). destruct D3 as (_ & D3 & D3').
  pose proof (Q _ _ ltac:(eapply Rle_trans; [exact D1|]; apply Rmult_le_compat_r; lra) ltac:(lra) ltac:(lra)) as Q1. pose proof (Q _ _ ltac:(eapply Rle_trans; [exact D2|]; apply Rmult_le_compat_r; lra) ltac:(lra) ltac:(lra)) as Q2. pose proof (Q _ _ ltac:(eapply Rle_trans; [exact D3|]; apply Rmult_le_compat_r; lra) ltac:(lra) ltac:(lra)) as Q3.
  set (T := dist2 (val3 A) (val3 B)) in *. assert (T0 : 0 <= T) by (unfold T, dist2; repeat apply Rplus_le_le_0_compat; apply Rle_0_sqr).
  assert (EW : 1521 / 10000 * T <= x3 W * x3 W + y3 W * y3 W + z3 W * z3 W).
  { assert (X : x3 W * x3 W + y3 W * y3 W + z3 W * z3 W = (if l then val k * val k else (1 - val k) * (1 - val k)) * T) by (unfold W, T, dist2, q; destruct l; vsimp; cbn [val3 x3 y3 z3]; rnum; ring). rewrite X. apply Rmult_le_compat_r; [exact T0|]. destruct l; nra. }
  destruct (length_err M HM w _ Nw Bw Hd) as (NL & BL). rewrite ltb_val by assumption. apply Rltb_false. apply Rnot_lt_le. intros Lt.
  set (s := sqrt (val (dot3 w w))). assert (Es : s * s = val (dot3 w w)) by (apply sqrt_sqrt; lra). assert (Ps : 0 <= s) by apply sqrt_pos.
  assert (Bs : s <= 81 / 10 * M). { apply Rsqr_incr_0_var; [unfold Rsqr; rewrite Es|lra]. eapply Rle_trans; [apply S|]. nra. }
  pose proof (M_big M HM) as Big. destruct (sqrt64 (dot3 w w) N (proj1 S) ltac:(fold s; lra)) as (_ & (R1 & _)). fold s in R1. rewrite (Rabs_right s) in R1 by lra. change (fsqrt (dot3 w w)) with (length3 w) in R1. apply abs_between in R1.
  pose proof (eta_M M HM) as Et. assert (eps * s <= eps * (81 / 10 * M)) by (apply Rmult_le_compat_l; lra). assert (Hs : s < val tol + 9 * (eps * M)) by lra.
  assert (Td : T <= 12 * (M * M)). { destruct WA as (a1 & a2 & a3). destruct WB as (b1 & b2 & b3). cbn [val3 x3 y3 z3] in *. unfold T, dist2. cbn [val3 x3 y3 z3]. assert (K : forall x y, Rabs x <= M -> Rabs y <= M -> (x - y) * (x - y) <= 4 * (M * M)) by (intros x y Hx Hy; assert (Rabs (x - y) <= 2 * M) by (eapply Rle_trans; [apply Rabs_triang|]; rewrite Rabs_Ropp; lra); replace ((x - y) * (x - y)) with (Rabs (x - y) * Rabs (x - y)) by (unfold Rabs; destruct Rcase_abs; ring); pose proof (Rabs_pos (x - y)); replace (4 * (M * M)) with (2 * M * (2 * M)) by ring; apply Rmult_le_compat; lra).
    pose proof (K _ _ a1 b1). pose proof (K _ _ a2 b2). pose proof (K _ _ a3 b3). lra. }
  assert (Tt : val tol <= 2 * M). { apply Rsqr_incr_0_var; [unfold Rsqr|lra]. rewrite E1024 in HD. nra. }
  assert (Sq : s * s <= (val tol + 9 * (eps * M)) * (val tol + 9 * (eps * M))) by (apply Rmult_le_compat; lra).
  assert (C1 : val tol * (eps * M) <= 2 * (eps * (M * M))) by (replace (2 * (eps * (M * M))) with (2 * M * (eps * M)) by ring; apply Rmult_le_compat_r; lra).
  assert (C2 : (eps * M) * (eps * M) <= eps * (M * M)). { replace ((eps * M) * (eps * M)) with (eps * (eps * (M * M))) by ring. rewrite <- (Rmult_1_l (eps * (M * M))) at 2. apply Rmult_le_compat_r; lra. }
  rewrite E1024 in HD. apply abs_between in Er, Q1, Q2, Q3. rewrite Es in Sq. assert (0 < eps * (M * M)) by (apply Rmult_lt_0_compat; lra). lra.
Qed.
End Far.
(** in doubles: points with coordinates up to [M], a tolerance well below 2/5 of their distance *)
Theorem C86_jump_f64 (M : R) (side : f64 -> bool) (A B : vec3 f64) gp rnd (tol : f64) : 1 <= M <= pow2 490 -> finite3 A -> finite3 B -> within M (val3 A) -> within M (val3 B) -> oracle64 rnd -> num64 tol -> 0 < val tol -> val tol * val tol + pow2 (-43) * (M * M) <= 3 / 20 * dist2 (val3 A) (val3 B) ->
  (forall u, gp u = Ok (if side u then A else B)) -> forall fuel path a b, side a = true -> side b = false -> parameter_division fuel rnd path gp (a, b) tol = OutOfFuel.
Proof.
  intros HM FA FB WA WB HO Nt Ht HD G. apply (C86_jump side A B); [exact G|]. intros path l. destruct (HO path) as (Nr & Hr). destruct (probe_middle _ Nr Hr) as (Np & Hp). now apply (far_test M HM).
Qed.

(** ** A B-spline of degree 0 *)
Definition steps : BSpline f64 (vec3 f64) := mkBSpline [V3 f0 f0 f0; V3 f1 f0 f0] [f0; f1; f2] 0.
Definition steps_side (u : f64) : bool := negb (fleb f2 u) && (negb (fleb f1 u) && fleb f0 u).
Lemma steps_value u : bspline3_get_point steps u = Ok (if steps_side u then V3 f0 f0 f0 else V3 f1 f0 f0).
Proof.
  unfold steps_side, bspline3_get_point, bspline_basis, span_index. cbn [bs_knots bs_cps bs_degree steps rposition]. destruct (fleb f2 u); [vm_compute; reflexivity|]. destruct (fleb f1 u); [vm_compute; reflexivity|]. destruct (fleb f0 u); vm_compute; reflexivity.
Qed.
(** over any range from the first step to the second, at any tolerance up to 3/8 *)
Theorem C86_steps (tol a b : f64) division : num64 tol -> val tol <= 3 / 8 -> 0 < val tol -> steps_side a = true -> steps_side b = false ->
  forall fuel rnd, oracle64 rnd -> segment_get_points fuel rnd {| s_curve := bspline3_curve steps; s_range := (a, b); s_tolerance := tol; s_division := division |} = OutOfFuel.
Proof.
  intros Nt Ht Hp Ha Hb fuel rnd HO. unfold segment_get_points. cbn [s_curve s_range s_tolerance bspline3_curve c_get_point].
  assert (V0 : val (f0 : f64) = 0) by reflexivity. pose proof f1_val as V1.
  rewrite (C86_jump_f64 1 steps_side (V3 f0 f0 f0) (V3 f1 f0 f0) _ rnd tol one_490); auto using steps_value.
  - repeat split; exact f0_num || apply f0_num.
  - repeat split; apply f0_num || apply f1_num.
  - unfold within, val3. cbn [x3 y3 z3]. rewrite V0, Rabs_R0. lra.
  - unfold within, val3. cbn [x3 y3 z3]. rewrite V0, V1, Rabs_R0, Rabs_R1. lra.
  - unfold dist2, val3. cbn [x3 y3 z3]. rewrite V0, V1. assert (pow2 (-43) <= / 1000). { rewrite <- (Rinv_inv (pow2 (-43))). apply Rinv_le_contravar; [lra|]. replace (/ pow2 (-43)) with (pow2 43); [rewrite <- pow2_Z by lia; change (IZR (2 ^ 43)) with 8796093022208; lra|]. pose proof (pow2_pos (-43)). apply (Rmult_eq_reg_r (pow2 (-43))); [|lra]. rewrite Rinv_l by lra. rewrite <- pow2_add. reflexivity. }
    assert (val tol * val tol <= 3 / 8 * (3 / 8)) by (apply Rmult_le_compat; lra). lra.
Qed.
(** the ranges from 0 to 2 and between 1 and the double before it; the tolerance 1/4 *)
Example C86_nonvacuous : steps_side f0 = true /\ steps_side f2 = false /\ steps_side (S754_finite false 9007199254740991 (-53)) = true /\ steps_side f1 = false /\ num64 (flit 1 4 : f64) /\ 0 < val (flit 1 4 : f64) <= 3 / 8 /\ oracle64 (fun _ => f0).
Proof.
  assert (E : (flit 1 4 : f64) = S754_finite false 4503599627370496 (-54)) by (vm_compute; reflexivity).
  assert (Ev : val (flit 1 4 : f64) = / 4). { rewrite E. cbn [B2R]. replace (-54)%Z with (- 53 + -1)%Z by reflexivity. rewrite pow2_add, eps_pow2, pow2_m1. unfold eps. lra. }
  repeat split; try (vm_compute; reflexivity); try (rewrite Ev; lra); try (change (val (f0 : f64)) with 0; lra).
Qed.
