(** Property C67: straight edges and loops of them in doubles; plane faces given by their edges. *)
From Coq Require Import ZArith NArith Reals Lra Lia List Bool Arith Floats.SpecFloat Psatz.
From Verif Require Import Prelude Num M_vec M_utils M_curve M_polygon M_meshgen M_surface L_base L_vec L_geom L_cycle L_polygon L_float L_grid L_err L_bserr
  Props_bspline Props_polygon Props_ears L_simple L_sides L_twoears L_earexist L_clip Props_simple Props_segments Props_grid Props_accuracy Props_robust
  Props_merge Props_mesh Props_loops L_convex Props_trim Props_straight Props_lattice Props_trim3 Props_trim4 Props_solid Props_plane64.
Open Scope R_scope.

(** ** Specification *)
(** the point at ratio [p] between two points *)
Definition mix (A B : vec3 R) (p : R) : vec3 R := V3 (x3 A + (x3 B - x3 A) * p) (y3 A + (y3 B - y3 A) * p) (z3 A + (z3 B - z3 A) * p).
(** the random numbers: finite doubles between 0 and 1 *)
Definition oracle64 (rnd : list bool -> f64) : Prop := forall path, num64 (rnd path) /\ 0 <= val (rnd path) <= 1.
(** an edge from [A] to [B] whose curve is straight up to rounding: the ends are computed to within 8 eps [M], the points between them to within 22 eps [M]; and the
    tolerance of the edge is more than 2^-46 [M] *)
Definition straight64 (M : R) (e : CurveSegment f64) (A B : vec3 R) : Prop :=
  within M A /\ within M B /\ num64 (s_tolerance e) /\ pow2 (-46) * M < val (s_tolerance e) /\
  (exists a, c_get_point (s_curve e) (fst (s_range e)) = Ok a /\ close3 (8 * (eps * M)) a A) /\ (exists b, c_get_point (s_curve e) (snd (s_range e)) = Ok b /\ close3 (8 * (eps * M)) b B) /\
  forall p, num64 p -> 0 <= val p <= 1 -> exists q, c_get_point (s_curve e) (range_at (s_range e) p) = Ok q /\ close3 (22 * (eps * M)) q (mix A B (val p)).
(** an edge along a line: in exact arithmetic the line meets both ends up to 2 eps [M] *)
Definition line64 (M : R) (e : CurveSegment f64) (A B : vec3 R) : Prop := exists l D K,
  s_curve e = line_curve l /\ within M A /\ within M B /\ num64 (s_tolerance e) /\ pow2 (-46) * M < val (s_tolerance e) /\
  bounded3 M (l_origin l) /\ bounded3 D (l_direction l) /\ 1 <= D /\ 1 <= K /\ D * K <= 2 * M /\
  num64 (fst (s_range e)) /\ num64 (snd (s_range e)) /\ Rabs (val (fst (s_range e))) <= K /\ Rabs (val (snd (s_range e))) <= K /\
  let at_ t := vadd (val3 (l_origin l)) (vmulr (val3 (l_direction l)) t) in
  within (2 * (eps * M)) (vsub (at_ (val (fst (s_range e)))) A) /\ within (2 * (eps * M)) (vsub (at_ (val (snd (s_range e)))) B).

(** ** Errors of single operations, in units of eps [M] *)
Section Calc.
Variable M : R.
Hypothesis HM : 1 <= M <= pow2 490.
Definition appr (e B : R) (x : f64) (X : R) : Prop := num64 x /\ Rabs (val x - X) <= e * (eps * M) /\ Rabs X <= B * M.
Lemma epsM : 0 <= eps * M <= / 1000000 * M.
Proof. pose proof eps_tiny. destruct HM. split; [apply Rmult_le_pos; lra|apply Rmult_le_compat_r; lra]. Qed.
Lemma appr_size e B x X : appr e B x X -> e <= 100 -> Rabs (val x) <= (B + / 1000) * M.
Proof. intros (N & E & H) He. pose proof epsM as P. assert (e * (eps * M) <= 100 * (eps * M)) by (apply Rmult_le_compat_r; lra). replace (val x) with ((val x - X) + X) by ring. eapply Rle_trans; [apply Rabs_triang|]. lra. Qed.
Lemma appr_round x y X e B (z : R) : num64 y -> near64 (val y) z -> Rabs (z - X) <= e * (eps * M) -> Rabs X <= B * M -> 0 <= e <= 100 -> x = y -> appr (e + B + / 10) B x X.
Proof.
  intros N [E _] H1 H2 He ->. split; [exact N|]. split; [|exact H2]. pose proof epsM as P. pose proof eps_tiny as [E1 E2]. pose proof (eta_M M HM) as E3. assert (e * (eps * M) <= 100 * (eps * M)) by (apply Rmult_le_compat_r; lra).
  assert (Z : Rabs z <= B * M + 100 * (eps * M)) by (replace z with ((z - X) + X) by ring; eapply Rle_trans; [apply Rabs_triang|]; lra).
  assert (eps * Rabs z <= eps * (B * M + 100 * (eps * M))) by (apply Rmult_le_compat_l; lra). assert (eps * (100 * (eps * M)) <= / 100 * (eps * M)) by (assert (100 * eps * (eps * M) <= / 100 * (eps * M)) by (apply Rmult_le_compat_r; lra); lra).
  replace (val y - X) with ((val y - z) + (z - X)) by ring. eapply Rle_trans; [apply Rabs_triang|]. lra.
Qed.
Lemma appr_add e B e' B' x y X Y : appr e B x X -> appr e' B' y Y -> 0 <= e <= 50 -> 0 <= e' <= 50 -> B + B' <= 20 -> appr (e + e' + (B + B') + / 10) (B + B') (fadd x y) (X + Y).
Proof.
  intros Hx Hy He He' HB. pose proof (appr_size _ _ _ _ Hx ltac:(lra)) as S1. pose proof (appr_size _ _ _ _ Hy ltac:(lra)) as S2. destruct Hx as (N1 & E1 & B1), Hy as (N2 & E2 & B2).
  pose proof (M_big M HM) as MB. assert ((B + B') * M <= 20 * M) by (apply Rmult_le_compat_r; [destruct HM; lra|exact HB]). pose proof epsM.
  destruct (add64 x y N1 N2) as [N R]; [eapply Rle_lt_trans; [apply Rabs_triang|]; destruct HM; lra|].
  apply (appr_round _ _ _ (e + e') (B + B') _ N R); [|eapply Rle_trans; [apply Rabs_triang|]; lra|lra|reflexivity]. replace (val x + val y - (X + Y)) with ((val x - X) + (val y - Y)) by ring. eapply Rle_trans; [apply Rabs_triang|]. lra.
Qed.
Lemma appr_sub e B e' B' x y X Y : appr e B x X -> appr e' B' y Y -> 0 <= e <= 50 -> 0 <= e' <= 50 -> B + B' <= 20 -> appr (e + e' + (B + B') + / 10) (B + B') (fsub x y) (X - Y).
Proof.
  intros Hx Hy He He' HB. pose proof (appr_size _ _ _ _ Hx ltac:(lra)) as S1. pose proof (appr_size _ _ _ _ Hy ltac:(lra)) as S2. destruct Hx as (N1 & E1 & B1), Hy as (N2 & E2 & B2).
  pose proof (M_big M HM) as MB. assert ((B + B') * M <= 20 * M) by (apply Rmult_le_compat_r; [destruct HM; lra|exact HB]). pose proof epsM.
  destruct (sub64 x y N1 N2) as [N R]; [eapply Rle_lt_trans; [apply Rabs_minus_triang|]; destruct HM; lra|].
  apply (appr_round _ _ _ (e + e') (B + B') _ N R); [|eapply Rle_trans; [apply Rabs_minus_triang|]; lra|lra|reflexivity]. replace (val x - val y - (X - Y)) with ((val x - X) - (val y - Y)) by ring. eapply Rle_trans; [apply Rabs_minus_triang|]. lra.
Qed.
(** a product with a ratio *)
Lemma appr_scale e B x p X : appr e B x X -> num64 p -> Rabs (val p) <= 1 -> 0 <= e <= 50 -> B <= 20 -> appr (e + B + / 10) B (fmul x p) (X * val p).
Proof.
  intros Hx Np Hp He HB. pose proof (appr_size _ _ _ _ Hx ltac:(lra)) as S1. destruct Hx as (N1 & E1 & B1). pose proof (M_big M HM) as MB. assert (B * M <= 20 * M) by (apply Rmult_le_compat_r; [destruct HM; lra|exact HB]). pose proof epsM.
  assert (G : forall z c, Rabs z <= c -> Rabs (z * val p) <= c). { intros z c Hz. rewrite Rabs_mult. apply Rle_trans with (c * 1); [|lra]. apply Rmult_le_compat; auto using Rabs_pos. }
  destruct (mul64 x p N1 Np) as [N R]; [eapply Rle_lt_trans; [apply G, S1|]; destruct HM; lra|].
  apply (appr_round _ _ _ e B _ N R); [|now apply G|lra|reflexivity]. replace (val x * val p - X * val p) with ((val x - X) * val p) by ring. now apply G.
Qed.
Lemma appr_exact x B : num64 x -> Rabs (val x) <= B * M -> appr 0 B x (val x).
Proof. intros N H. split; [exact N|]. split; [|exact H]. rewrite Rminus_diag_eq, Rabs_R0 by reflexivity. lra. Qed.
Lemma appr_weaken e B e' B' x X X' : appr e B x X -> Rabs (X - X') <= (e' - e) * (eps * M) -> Rabs X' <= B' * M -> appr e' B' x X'.
Proof. intros (N & E & _) H HB. split; [exact N|]. split; [|exact HB]. replace (val x - X') with ((val x - X) + (X - X')) by ring. eapply Rle_trans; [apply Rabs_triang|]. lra. Qed.
Definition appr3 (e B : R) (p : vec3 f64) (P : vec3 R) : Prop := appr e B (x3 p) (x3 P) /\ appr e B (y3 p) (y3 P) /\ appr e B (z3 p) (z3 P).
Lemma appr3_close e p P : close3 (e * (eps * M)) p P -> forall B, within (B * M) P -> appr3 e B p P.
Proof. intros ((N1 & N2 & N3) & E1 & E2 & E3) B (B1 & B2 & B3). repeat split; assumption || (destruct N1; assumption) || (destruct N2; assumption) || (destruct N3; assumption). Qed.
Lemma close_appr3 e B p P : appr3 e B p P -> close3 (e * (eps * M)) p P.
Proof. intros ((N1 & E1 & _) & (N2 & E2 & _) & (N3 & E3 & _)). exact (conj (conj N1 (conj N2 N3)) (conj E1 (conj E2 E3))). Qed.

(** ** The flatness test *)
Lemma mix_within A B p : within M A -> within M B -> 0 <= p <= 1 -> within M (mix A B p).
Proof.
  intros (A1 & A2 & A3) (B1 & B2 & B3) Hp. unfold within, mix. cbn [x3 y3 z3]. assert (G : forall a b, Rabs a <= M -> Rabs b <= M -> Rabs (a + (b - a) * p) <= M).
  { intros a b Ha Hb. replace (a + (b - a) * p) with (a * (1 - p) + b * p) by ring. eapply Rle_trans; [apply Rabs_triang|]. rewrite !Rabs_mult, (Rabs_right p), (Rabs_right (1 - p)) by lra.
    assert (Rabs a * (1 - p) <= M * (1 - p)) by (apply Rmult_le_compat_r; lra). assert (Rabs b * p <= M * p) by (apply Rmult_le_compat_r; lra). lra. }
  auto.
Qed.
Lemma sqrt64 (x : f64) : num64 x -> 0 <= val x -> sqrt (val x) < pow2 1023 -> num64 (fsqrt x) /\ near64 (val (fsqrt x)) (sqrt (val x)).
Proof. intros N H B. apply rounded64; [apply SFsqrt_rounded; auto; reflexivity|]. rewrite Rabs_right; [exact B|]. apply Rle_ge, sqrt_pos. Qed.
(** a sum of three squares *)
Lemma MM_big : 100 * (M * M) * 10 < pow2 1023.
Proof.
  assert (MM : M * M <= pow2 980) by (change 980%Z with (490 + 490)%Z; rewrite pow2_add; apply Rmult_le_compat; destruct HM; lra).
  assert (P : 1000 * pow2 980 < pow2 1023). { assert (1000 < pow2 43) by (rewrite <- pow2_Z by lia; apply IZR_lt; reflexivity). replace 1023%Z with (43 + 980)%Z by lia. rewrite pow2_add. apply Rmult_lt_compat_r; [apply pow2_pos|assumption]. }
  lra.
Qed.
Lemma d_small d : eps * / 2 <= d <= 10 * M -> 0 <= eps * (d * d) <= / 100000 * (d * d) /\ 0 <= d * d <= 100 * (M * M) /\ eta <= eps * (d * d) /\ eta <= / 1000 * d.
Proof.
  intros Hd. pose proof eps_tiny as [E1 E2]. assert (D0 : 0 <= d * d) by (apply Rmult_le_pos; lra). split; [split; [apply Rmult_le_pos; lra|apply Rmult_le_compat_r; lra]|]. split; [split; [exact D0|]|].
  - replace (100 * (M * M)) with ((10 * M) * (10 * M)) by ring. apply Rmult_le_compat; lra.
  - assert (Q1 : pow2 (-1000) <= pow2 (-53) * pow2 (-53) * pow2 (-53)) by (rewrite <- !pow2_add; apply pow2_le; lia). rewrite eps_pow2 in Q1. assert (eps * eps * eps <= eps * eps * / 4) by (apply Rmult_le_compat_l; [apply Rmult_le_pos|]; lra). split.
    + apply Rle_trans with (eps * pow2 (-1000)); [rewrite <- eps_pow2, <- pow2_add; apply pow2_le; lia|]. apply Rmult_le_compat_l; [lra|]. apply Rle_trans with (eps * / 2 * (eps * / 2)); [lra|apply Rmult_le_compat; lra].
    + pose proof eta_small. assert (eps * eps <= / 1000000 * eps) by (apply Rmult_le_compat_r; lra). lra.
Qed.
Lemma square_err (x : f64) d : num64 x -> Rabs (val x) <= d -> eps * / 2 <= d <= 10 * M ->
  num64 (fmul x x) /\ 0 <= val (fmul x x) <= 1001 / 1000 * (d * d) /\ Rabs (val (fmul x x) - val x * val x) <= 2 * (eps * (d * d)).
Proof.
  intros N H Hd. destruct (d_small d Hd) as (D1 & D2 & D3 & _). pose proof MM_big. pose proof eps_tiny as [E1 E2].
  assert (S : 0 <= val x * val x <= d * d). { split; [apply Rle_0_sqr|]. rewrite <- (Rabs_right (val x * val x)) by (apply Rle_ge, Rle_0_sqr). rewrite Rabs_mult. apply Rmult_le_compat; auto using Rabs_pos. }
  destruct (rounded_nonneg (fmul x x) (val x * val x)) as (N' & E & P); [apply SFmul_rounded; auto; reflexivity|rewrite Rabs_right; lra|lra|]. split; [exact N'|].
  assert (eps * (val x * val x) <= eps * (d * d)) by (apply Rmult_le_compat_l; lra). assert (Q : Rabs (val (fmul x x) - val x * val x) <= 2 * (eps * (d * d))) by lra. split; [|exact Q]. apply abs_between in Q. lra.
Qed.
Lemma plus_err (x y : f64) d a : num64 x -> num64 y -> 0 <= val x -> 0 <= val y -> val x + val y <= a * (d * d) -> a <= 4 -> eps * / 2 <= d <= 10 * M ->
  num64 (fadd x y) /\ 0 <= val (fadd x y) <= (a + / 1000) * (d * d) /\ Rabs (val (fadd x y) - (val x + val y)) <= 5 * (eps * (d * d)).
Proof.
  intros Nx Ny Px Py Hs Ha Hd. destruct (d_small d Hd) as (D1 & D2 & D3 & _). pose proof MM_big. pose proof eps_tiny as [E1 E2]. assert (a * (d * d) <= 4 * (d * d)) by (apply Rmult_le_compat_r; lra).
  destruct (rounded_nonneg (fadd x y) (val x + val y)) as (N' & E & P); [apply SFadd_rounded; auto; reflexivity|rewrite Rabs_right; lra|lra|]. split; [exact N'|].
  assert (eps * (val x + val y) <= eps * (4 * (d * d))) by (apply Rmult_le_compat_l; lra). assert (Q : Rabs (val (fadd x y) - (val x + val y)) <= 5 * (eps * (d * d))) by lra. split; [|exact Q]. apply abs_between in Q. lra.
Qed.
Lemma sumsq_err (w : vec3 f64) d : finite3 w -> within d (val3 w) -> eps * / 2 <= d <= 10 * M ->
  num64 (dot3 w w) /\ 0 <= val (dot3 w w) <= 4 * (d * d) /\ Rabs (val (dot3 w w) - (val (x3 w) * val (x3 w) + val (y3 w) * val (y3 w) + val (z3 w) * val (z3 w))) <= 16 * (eps * (d * d)).
Proof.
  intros (N1 & N2 & N3) (B1 & B2 & B3) Hd. cbn [val3 x3 y3 z3] in B1, B2, B3. destruct (d_small d Hd) as (D1 & D2 & D3 & _).
  destruct (square_err _ d N1 B1 Hd) as (S1 & S2 & S3). destruct (square_err _ d N2 B2 Hd) as (T1 & T2 & T3). destruct (square_err _ d N3 B3 Hd) as (U1 & U2 & U3).
  destruct (plus_err _ _ d (2003 / 1000) S1 T1) as (V1 & V2 & V3); [lra|lra|lra|lra|exact Hd|]. destruct (plus_err _ _ d (3006 / 1000) V1 U1) as (W1 & W2 & W3); [lra|lra|lra|lra|exact Hd|].
  change (dot3 w w) with (fadd (fadd (fmul (x3 w) (x3 w)) (fmul (y3 w) (y3 w))) (fmul (z3 w) (z3 w))). split; [exact W1|]. split; [lra|].
  apply abs_between in S3, T3, U3, V3, W3. apply Rabs_le. lra.
Qed.
Lemma length_err (w : vec3 f64) d : finite3 w -> within d (val3 w) -> eps * / 2 <= d <= 10 * M -> num64 (length3 w) /\ 0 <= val (length3 w) <= 201 / 100 * d.
Proof.
  intros N B Hd. destruct (d_small d Hd) as (_ & _ & _ & D4). destruct (sumsq_err w d N B Hd) as (S1 & S2 & _). pose proof eps_tiny as [E1 E2]. assert (D0 : 0 <= d) by lra.
  assert (Q : 0 <= sqrt (val (dot3 w w)) <= 2 * d). { split; [apply sqrt_pos|]. rewrite <- (sqrt_Rsqr (2 * d)) by lra. apply sqrt_le_1_alt. unfold Rsqr. lra. }
  pose proof (M_big M HM). destruct (rounded_nonneg (fsqrt (dot3 w w)) (sqrt (val (dot3 w w)))) as (N' & E & P); [apply SFsqrt_rounded; auto; try reflexivity; exact (proj1 S2)|rewrite Rabs_right; lra|lra|].
  unfold length3. split; [exact N'|]. assert (eps * sqrt (val (dot3 w w)) <= / 1000 * (2 * d)) by (apply Rmult_le_compat; lra). apply abs_between in E. lra.
Qed.
(** the difference of two computed points *)
Lemma vsub_appr e B e' B' (p q : vec3 f64) P Q : appr3 e B p P -> appr3 e' B' q Q -> 0 <= e <= 50 -> 0 <= e' <= 50 -> B + B' <= 20 -> appr3 (e + e' + (B + B') + / 10) (B + B') (vsub p q) (vsub P Q).
Proof. intros (P1 & P2 & P3) (Q1 & Q2 & Q3) H1 H2 H3. split; [|split]; (apply (appr_sub e B e' B'); assumption). Qed.
Lemma vadd_appr e B e' B' (p q : vec3 f64) P Q : appr3 e B p P -> appr3 e' B' q Q -> 0 <= e <= 50 -> 0 <= e' <= 50 -> B + B' <= 20 -> appr3 (e + e' + (B + B') + / 10) (B + B') (vadd p q) (vadd P Q).
Proof. intros (P1 & P2 & P3) (Q1 & Q2 & Q3) H1 H2 H3. split; [|split]; (apply (appr_add e B e' B'); assumption). Qed.
Lemma vmulr_appr e B (p : vec3 f64) P r : appr3 e B p P -> num64 r -> Rabs (val r) <= 1 -> 0 <= e <= 50 -> B <= 20 -> appr3 (e + B + / 10) B (vmulr p r) (vmulr P (val r)).
Proof. intros (P1 & P2 & P3) N H H1 H2. split; [|split]; (apply (appr_scale e B); assumption). Qed.
Lemma tight_sub (p q : f64) X e e' : num64 p -> num64 q -> Rabs (val p - X) <= e * (eps * M) -> Rabs (val q - X) <= e' * (eps * M) -> 0 <= e + e' <= 100 -> num64 (fsub p q) /\ Rabs (val (fsub p q)) <= (e + e' + / 10) * (eps * M).
Proof.
  intros N1 N2 E1 E2 He. pose proof epsM as EM. pose proof eps_tiny as [F1 F2]. pose proof (eta_M M HM) as F3. pose proof (M_big M HM) as MB.
  assert (D : Rabs (val p - val q) <= (e + e') * (eps * M)) by (replace (val p - val q) with ((val p - X) - (val q - X)) by ring; eapply Rle_trans; [apply Rabs_minus_triang|]; lra).
  assert ((e + e') * (eps * M) <= 100 * (eps * M)) by (apply Rmult_le_compat_r; lra). destruct (sub64 p q N1 N2) as [N [E _]]; [lra|]. split; [exact N|].
  assert (eps * Rabs (val p - val q) <= eps * (100 * (eps * M))) by (apply Rmult_le_compat_l; lra). assert (eps * (100 * (eps * M)) <= / 100 * (eps * M)) by (assert (100 * eps * (eps * M) <= / 100 * (eps * M)) by (apply Rmult_le_compat_r; lra); lra).
  replace (val (fsub p q)) with ((val (fsub p q) - (val p - val q)) + (val p - val q)) by ring. eapply Rle_trans; [apply Rabs_triang|]. lra.
Qed.
Lemma tight_vsub (p q : vec3 f64) P e e' : close3 (e * (eps * M)) p P -> close3 (e' * (eps * M)) q P -> 0 <= e + e' <= 100 -> finite3 (vsub p q) /\ within ((e + e' + / 10) * (eps * M)) (val3 (vsub p q)).
Proof.
  intros ((N1 & N2 & N3) & E1 & E2 & E3) ((K1 & K2 & K3) & F1 & F2 & F3) He. destruct (tight_sub _ _ _ e e' N1 K1 E1 F1 He) as [X1 Y1]. destruct (tight_sub _ _ _ e e' N2 K2 E2 F2 He) as [X2 Y2]. destruct (tight_sub _ _ _ e e' N3 K3 E3 F3 He) as [X3 Y3].
  split; [exact (conj X1 (conj X2 X3))|exact (conj Y1 (conj Y2 Y3))].
Qed.
Lemma flat_test (q a b : vec3 f64) (p tol : f64) A B : within M A -> within M B -> close3 (8 * (eps * M)) a A -> close3 (8 * (eps * M)) b B -> num64 p -> 0 <= val p <= 1 ->
  close3 (22 * (eps * M)) q (mix A B (val p)) -> num64 tol -> pow2 (-46) * M < val tol -> fltb (distance3 q (vadd a (vmulr (vsub b a) p))) tol = true.
Proof.
  intros WA WB Ca Cb Np Hp Cq Nt Ht. pose proof epsM as EM. pose proof eps_tiny as [F1 F2]. destruct HM as [M1 _].
  assert (Aa : appr3 8 1 a A) by (apply appr3_close; [exact Ca|now rewrite Rmult_1_l]). assert (Ab : appr3 8 1 b B) by (apply appr3_close; [exact Cb|now rewrite Rmult_1_l]).
  pose proof (vsub_appr _ _ _ _ _ _ _ _ Ab Aa ltac:(lra) ltac:(lra) ltac:(lra)) as D. pose proof (vmulr_appr _ _ _ _ p D Np ltac:(rewrite Rabs_right; lra) ltac:(lra) ltac:(lra)) as E. pose proof (vadd_appr _ _ _ _ _ _ _ _ Aa E ltac:(lra) ltac:(lra) ltac:(lra)) as G.
  apply close_appr3 in G. destruct (tight_vsub q _ (mix A B (val p)) 22 _ Cq G ltac:(lra)) as [X Y]. unfold distance3.
  destruct (length_err _ (54 * (eps * M)) X) as [N L].
  - destruct Y as (Y1 & Y2 & Y3). repeat split; (eapply Rle_trans; [eassumption|]; apply Rmult_le_compat_r; lra).
  - split; [|lra]. assert (eps * 1 <= eps * M) by (apply Rmult_le_compat_l; lra). lra.
  - rewrite ltb_val by assumption. apply Rltb_true. apply Rle_lt_trans with (201 / 100 * (54 * (eps * M))); [apply L|]. rewrite eps_46 in Ht. lra.
Qed.
Lemma near_same (a b : vec3 f64) A : M <= pow2 32 -> close3 (8 * (eps * M)) a A -> close3 (8 * (eps * M)) b A -> near_points a b = true.
Proof.
  intros H32 Ca Cb. pose proof epsM as EM. pose proof eps_tiny as [F1 F2]. destruct HM as [M1 _]. destruct (tight_vsub a b A 8 8 Ca Cb ltac:(lra)) as [X Y].
  assert (E21 : eps * M <= / 2097152). { rewrite <- (pow2_Z 32) in H32 by lia. change (IZR (2 ^ 32)) with 4294967296 in H32. apply Rle_trans with (eps * 4294967296); [apply Rmult_le_compat_l; lra|unfold eps; lra]. }
  destruct (sumsq_err _ (17 * (eps * M)) X) as (N & S & _).
  - destruct Y as (Y1 & Y2 & Y3). repeat split; (eapply Rle_trans; [eassumption|]; apply Rmult_le_compat_r; lra).
  - split; [|lra]. assert (eps * 1 <= eps * M) by (apply Rmult_le_compat_l; lra). lra.
  - unfold near_points, distance_squared3, length_squared3. rewrite near_64 by exact N. apply Rleb_true. rewrite Rabs_right by lra. pose proof ftol_close as TC. apply abs_between in TC. unfold TOL in TC.
    assert (17 * (eps * M) * (17 * (eps * M)) <= 17 * / 2097152 * (17 * / 2097152)) by (apply Rmult_le_compat; lra). lra.
Qed.
Definition dist2 (A B : vec3 R) : R := (x3 A - x3 B) * (x3 A - x3 B) + (y3 A - y3 B) * (y3 A - y3 B) + (z3 A - z3 B) * (z3 A - z3 B).
Lemma near_apart (a b : vec3 f64) A B : within M A -> within M B -> close3 (8 * (eps * M)) a A -> close3 (8 * (eps * M)) b B -> TOL + pow2 (-44) * (M * M) < dist2 A B -> near_points a b = false.
Proof.
  intros WA WB Ca Cb HD. pose proof epsM as EM. pose proof eps_tiny as [F1 F2]. destruct HM as [M1 _].
  assert (Aa : appr3 8 1 a A) by (apply appr3_close; [exact Ca|now rewrite Rmult_1_l]). assert (Ab : appr3 8 1 b B) by (apply appr3_close; [exact Cb|now rewrite Rmult_1_l]).
  pose proof (vsub_appr _ _ _ _ _ _ _ _ Aa Ab ltac:(lra) ltac:(lra) ltac:(lra)) as (D1 & D2 & D3). pose proof (appr_size _ _ _ _ D1 ltac:(lra)) as S1. pose proof (appr_size _ _ _ _ D2 ltac:(lra)) as S2. pose proof (appr_size _ _ _ _ D3 ltac:(lra)) as S3.
  assert (E512 : pow2 (-44) = 512 * eps). { replace 512 with (pow2 9) by (rewrite <- pow2_Z by lia; reflexivity). rewrite <- eps_pow2, <- pow2_add. reflexivity. }
  set (w := vsub a b) in *. destruct (sumsq_err w (2001 / 1000 * M)) as (N & S & E); [exact (conj (proj1 D1) (conj (proj1 D2) (proj1 D3)))|repeat split; cbn [val3 x3 y3 z3]; lra|lra|].
  assert (Q : forall x X, Rabs (x - X) <= (8 + 8 + (1 + 1) + / 10) * (eps * M) -> Rabs x <= (1 + 1 + / 1000) * M -> Rabs X <= (1 + 1) * M -> Rabs (x * x - X * X) <= 80 * (eps * (M * M))).
  { intros x X H1 H2 H3. replace (x * x - X * X) with ((x - X) * (x + X)) by ring. rewrite Rabs_mult. apply Rle_trans with ((8 + 8 + (1 + 1) + / 10) * (eps * M) * (4001 / 1000 * M)).
    - apply Rmult_le_compat; auto using Rabs_pos. eapply Rle_trans; [apply Rabs_triang|]. lra.
    - assert (0 <= eps * (M * M)) by (apply Rmult_le_pos; [lra|]; apply Rmult_le_pos; lra). lra. }
  pose proof (Q _ _ (proj1 (proj2 D1)) S1 (proj2 (proj2 D1))) as Q1. pose proof (Q _ _ (proj1 (proj2 D2)) S2 (proj2 (proj2 D2))) as Q2. pose proof (Q _ _ (proj1 (proj2 D3)) S3 (proj2 (proj2 D3))) as Q3.
  unfold near_points, distance_squared3, length_squared3. fold w. rewrite near_64 by exact N. apply not_true_iff_false. rewrite Rleb_true. rewrite Rabs_right by lra. pose proof ftol_close as TC. apply abs_between in TC, E, Q1, Q2, Q3.
  assert (MM : 1 <= M * M) by nra. assert (eps * 1 <= eps * (M * M)) by (apply Rmult_le_compat_l; lra).
  change (x3 (vsub A B)) with (x3 A - x3 B) in Q1. change (y3 (vsub A B)) with (y3 A - y3 B) in Q2. change (z3 (vsub A B)) with (z3 A - z3 B) in Q3. unfold dist2 in HD. rewrite E512 in HD. lra.
Qed.
End Calc.

(** ** Edges *)
Lemma one_490 : 1 <= 1 <= pow2 490. Proof. split; [lra|]. rewrite <- pow2_0. apply pow2_le. lia. Qed.
Lemma lit_close n d : (Z.abs n <= 1000)%Z -> (Zpos d <= 1000)%Z -> Rabs (IZR n / IZR (Zpos d)) <= 1 -> appr 1 (11 / 10) 1 (flit n d : f64) (IZR n / IZR (Zpos d)).
Proof.
  intros Hn Hd Hb. destruct (int_val n Hn) as [N1 V1]. destruct (int_val (Zpos d) Hd) as [N2 V2]. assert (D0 : IZR (Zpos d) <> 0) by (apply not_0_IZR; discriminate).
  destruct (div64 (f64_of_Z n) (f64_of_Z (Zpos d)) N1 N2) as [N E]; [now rewrite V2|rewrite V1, V2; apply small_bound with 1; lra|]. rewrite V1, V2 in E. split; [exact N|]. split; [|lra]. destruct E as [E _].
  eapply Rle_trans; [exact E|]. pose proof eta_small. pose proof eps_tiny as [F1 F2]. assert (eps * Rabs (IZR n / IZR (Zpos d)) <= eps * 1) by (apply Rmult_le_compat_l; lra). assert (eps * eps <= / 100 * eps) by (apply Rmult_le_compat_r; lra). lra.
Qed.
(** the ratio at which the edge is probed lies between the ends *)
Lemma probe_ratio (r : f64) : num64 r -> 0 <= val r <= 1 -> num64 (probe r) /\ 0 <= val (probe r) <= 1.
Proof.
  intros N H. pose proof eps_tiny as [F1 F2]. pose proof (lit_close 1 5 ltac:(lia) ltac:(lia) ltac:(rewrite Rabs_right; lra)) as L5. pose proof (lit_close 1 10 ltac:(lia) ltac:(lia) ltac:(rewrite Rabs_right; lra)) as L10.
  pose proof (lit_close 1 2 ltac:(lia) ltac:(lia) ltac:(rewrite Rabs_right; lra)) as L2.
  pose proof (appr_scale 1 one_490 _ _ _ r _ L5 N ltac:(rewrite Rabs_right; lra) ltac:(lra) ltac:(lra)) as A1. pose proof (appr_sub 1 one_490 _ _ _ _ _ _ _ _ A1 L10 ltac:(lra) ltac:(lra) ltac:(lra)) as A2.
  pose proof (appr_add 1 one_490 _ _ _ _ _ _ _ _ L2 A2 ltac:(lra) ltac:(lra) ltac:(lra)) as (N3 & A3 & _). split; [exact N3|]. change (val (probe r)) with (val (fadd (flit 1 2) (fsub (fmul (flit 1 5) r) (flit 1 10)))). apply abs_between in A3. lra.
Qed.
Theorem C67_straight_edge (M : R) (e : CurveSegment f64) A B fuel rnd : 1 <= M <= pow2 490 -> straight64 M e A B -> oracle64 rnd ->
  exists a b, segment_get_points (S fuel) rnd e = Ok [a; b] /\ close3 (8 * (eps * M)) a A /\ close3 (8 * (eps * M)) b B.
Proof.
  intros HM (WA & WB & Nt & Ht & (a & Ea & Ca) & (b & Eb & Cb) & Hq) HO. destruct (HO []) as [Nr Hr]. destruct (probe_ratio _ Nr Hr) as [Np Hp]. destruct (Hq _ Np Hp) as (q & Eq & Cq).
  exists a, b. split; [|auto]. unfold segment_get_points. cbn [parameter_division]. rewrite Ea, Eb. cbn [obind]. rewrite Eq. cbn [obind]. rewrite (flat_test M HM q a b (probe (rnd [])) (s_tolerance e) A B); auto. cbn [obind mapM]. rewrite Ea. cbn [obind]. rewrite Eb. reflexivity.
Qed.
(** lines *)
Lemma line_product M D K (d t : f64) T et : 1 <= M <= pow2 490 -> num64 d -> num64 t -> Rabs (val d) <= D -> 1 <= D -> 1 <= K -> D * K <= 2 * M -> Rabs (val t - T) <= et * (eps * K) -> 0 <= et <= 8 -> Rabs T <= K ->
  appr M (2 * et + 2 + / 10) 2 (fmul d t) (val d * T).
Proof.
  intros HM Nd Nt Hd HD HK HDK Et Het HT. pose proof (epsM M HM) as EM. pose proof eps_tiny as [F1 F2].
  assert (B1 : Rabs (val d * T) <= 2 * M) by (rewrite Rabs_mult; apply Rle_trans with (D * K); [apply Rmult_le_compat; auto using Rabs_pos|exact HDK]).
  assert (B2 : Rabs (val d * val t - val d * T) <= 2 * et * (eps * M)). { replace (val d * val t - val d * T) with (val d * (val t - T)) by ring. rewrite Rabs_mult. apply Rle_trans with (D * (et * (eps * K))); [apply Rmult_le_compat; auto using Rabs_pos|].
    replace (D * (et * (eps * K))) with (et * eps * (D * K)) by ring. replace (2 * et * (eps * M)) with (et * eps * (2 * M)) by ring. apply Rmult_le_compat_l; [apply Rmult_le_pos; lra|exact HDK]. }
  destruct (mul64 d t Nd Nt) as [N R].
  { pose proof (M_big M HM). assert (2 * et * (eps * M) <= 16 * (eps * M)) by (apply Rmult_le_compat_r; lra). replace (val d * val t) with ((val d * val t - val d * T) + val d * T) by ring. eapply Rle_lt_trans; [apply Rabs_triang|]. lra. }
  replace (2 * et + 2 + / 10) with (2 * et + 2 + / 10) by ring. apply (appr_round M HM _ _ _ (2 * et) 2 _ N R); auto. lra.
Qed.
Lemma line_point_close M D K (o d t : f64) T et : 1 <= M <= pow2 490 -> num64 o -> Rabs (val o) <= M -> num64 d -> num64 t -> Rabs (val d) <= D -> 1 <= D -> 1 <= K -> D * K <= 2 * M -> Rabs (val t - T) <= et * (eps * K) -> 0 <= et <= 8 -> Rabs T <= K ->
  appr M (2 * et + 53 / 10) 3 (fadd o (fmul d t)) (val o + val d * T).
Proof.
  intros HM No Ho Nd Nt Hd HD HK HDK Et Het HT. pose proof (line_product M D K d t T et HM Nd Nt Hd HD HK HDK Et Het HT) as P. pose proof (appr_exact M o 1 No ltac:(lra)) as O.
  pose proof (appr_add M HM _ _ _ _ _ _ _ _ O P ltac:(lra) ltac:(lra) ltac:(lra)) as Q. eapply appr_weaken; [exact Q| |]; [|destruct Q as (_ & _ & Q); eapply Rle_trans; [exact Q|]; apply Req_le; ring].
  rewrite Rminus_diag_eq, Rabs_R0 by reflexivity. apply Rmult_le_pos; [lra|]. apply epsM; exact HM.
Qed.
Lemma ratio_close K (t0 t1 p : f64) : 1 <= K <= pow2 490 -> num64 t0 -> num64 t1 -> Rabs (val t0) <= K -> Rabs (val t1) <= K -> num64 p -> 0 <= val p <= 1 ->
  num64 (range_at (t0, t1) p) /\ Rabs (val (range_at (t0, t1) p) - (val t0 + (val t1 - val t0) * val p)) <= 73 / 10 * (eps * K) /\ Rabs (val t0 + (val t1 - val t0) * val p) <= K.
Proof.
  intros HK N0 N1 B0 B1 Np Hp. pose proof (appr_exact K t0 1 N0 ltac:(lra)) as A0. pose proof (appr_exact K t1 1 N1 ltac:(lra)) as A1. pose proof (appr_sub K HK _ _ _ _ _ _ _ _ A1 A0 ltac:(lra) ltac:(lra) ltac:(lra)) as D.
  pose proof (appr_scale K HK _ _ _ p _ D Np ltac:(rewrite Rabs_right; lra) ltac:(lra) ltac:(lra)) as S. pose proof (appr_add K HK _ _ _ _ _ _ _ _ A0 S ltac:(lra) ltac:(lra) ltac:(lra)) as (N & E & _). split; [exact N|]. split.
  - change (range_at (t0, t1) p) with (fadd t0 (fmul (fsub t1 t0) p)). eapply Rle_trans; [exact E|]. apply Req_le. lra.
  - apply (mix_within K (V3 (val t0) 0 0) (V3 (val t1) 0 0)); [repeat split; cbn; rewrite ?Rabs_R0; lra|repeat split; cbn; rewrite ?Rabs_R0; lra|exact Hp].
Qed.
Theorem C67_line M e A B : 1 <= M <= pow2 489 -> line64 M e A B -> straight64 M e A B.
Proof.
  intros HM0 (l & D & K & EL & WA & WB & Nt & Ht & (O1 & O2 & O3 & P1 & P2 & P3) & (D1 & D2 & D3 & Q1 & Q2 & Q3) & HD & HK & HDK & N0 & N1 & T0 & T1 & FA & FB). cbv zeta in FA, FB.
  assert (HM : 1 <= M <= pow2 490) by (split; [apply HM0|]; eapply Rle_trans; [apply HM0|apply pow2_le; lia]). assert (HK' : 1 <= K <= pow2 490).
  { split; [exact HK|]. assert (E : pow2 490 = 2 * pow2 489) by (change 490%Z with (1 + 489)%Z; rewrite pow2_add; f_equal; rewrite <- (pow2_Z 1) by lia; reflexivity). assert (1 * K <= D * K) by (apply Rmult_le_compat_r; lra). destruct HM0. lra. }
  pose proof (epsM M HM) as EM. destruct (s_range e) as [t0 t1] eqn:ER. cbn [fst snd] in *.
  assert (G : forall (o d t : f64) T X et c, num64 o -> Rabs (val o) <= M -> num64 d -> Rabs (val d) <= D -> num64 t -> Rabs (val t - T) <= et * (eps * K) -> 0 <= et <= 8 -> Rabs T <= K -> Rabs (val o + val d * T - X) <= 2 * (eps * M) -> 2 * et + 73 / 10 <= c ->
    num64 (fadd o (fmul d t)) /\ Rabs (val (fadd o (fmul d t)) - X) <= c * (eps * M)).
  { intros o d t T X et c No Bo Nd Bd N Et Het HT HX Hc. destruct (line_point_close M D K o d t T et HM No Bo Nd N Bd HD HK HDK Et Het HT) as (NR & ER' & _). split; [exact NR|].
    replace (val (fadd o (fmul d t)) - X) with ((val (fadd o (fmul d t)) - (val o + val d * T)) + (val o + val d * T - X)) by ring. eapply Rle_trans; [apply Rabs_triang|]. assert ((2 * et + 73 / 10) * (eps * M) <= c * (eps * M)) by (apply Rmult_le_compat_r; lra). lra. }
  assert (Z : forall t, Rabs (val t - val t) <= 0 * (eps * K)) by (intros t; rewrite Rminus_diag_eq, Rabs_R0 by reflexivity; lra).
  destruct FA as (FA1 & FA2 & FA3), FB as (FB1 & FB2 & FB3). unfold straight64. rewrite EL, ER. cbn [fst snd line_curve c_get_point].
  split; [exact WA|]. split; [exact WB|]. split; [exact Nt|]. split; [exact Ht|]. split; [|split].
  - eexists. split; [reflexivity|]. unfold close3, finite3. change (x3 (line_get_point l t0)) with (fadd (x3 (l_origin l)) (fmul (x3 (l_direction l)) t0)). change (y3 (line_get_point l t0)) with (fadd (y3 (l_origin l)) (fmul (y3 (l_direction l)) t0)). change (z3 (line_get_point l t0)) with (fadd (z3 (l_origin l)) (fmul (z3 (l_direction l)) t0)).
    destruct (G _ _ t0 (val t0) (x3 A) 0 8 O1 P1 D1 Q1 N0 (Z t0) ltac:(lra) T0 FA1 ltac:(lra)) as [K1 L1]. destruct (G _ _ t0 (val t0) (y3 A) 0 8 O2 P2 D2 Q2 N0 (Z t0) ltac:(lra) T0 FA2 ltac:(lra)) as [K2 L2]. destruct (G _ _ t0 (val t0) (z3 A) 0 8 O3 P3 D3 Q3 N0 (Z t0) ltac:(lra) T0 FA3 ltac:(lra)) as [K3 L3]. tauto.
  - eexists. split; [reflexivity|]. unfold close3, finite3. change (x3 (line_get_point l t1)) with (fadd (x3 (l_origin l)) (fmul (x3 (l_direction l)) t1)). change (y3 (line_get_point l t1)) with (fadd (y3 (l_origin l)) (fmul (y3 (l_direction l)) t1)). change (z3 (line_get_point l t1)) with (fadd (z3 (l_origin l)) (fmul (z3 (l_direction l)) t1)).
    destruct (G _ _ t1 (val t1) (x3 B) 0 8 O1 P1 D1 Q1 N1 (Z t1) ltac:(lra) T1 FB1 ltac:(lra)) as [K1 L1]. destruct (G _ _ t1 (val t1) (y3 B) 0 8 O2 P2 D2 Q2 N1 (Z t1) ltac:(lra) T1 FB2 ltac:(lra)) as [K2 L2]. destruct (G _ _ t1 (val t1) (z3 B) 0 8 O3 P3 D3 Q3 N1 (Z t1) ltac:(lra) T1 FB3 ltac:(lra)) as [K3 L3]. tauto.
  - intros p Np Hp. destruct (ratio_close K t0 t1 p HK' N0 N1 T0 T1 Np Hp) as (Nr & Er & Br). set (t := range_at (t0, t1) p) in *. set (T := val t0 + (val t1 - val t0) * val p) in *. eexists. split; [reflexivity|].
    assert (X : forall o d a b, Rabs (o + d * val t0 - a) <= 2 * (eps * M) -> Rabs (o + d * val t1 - b) <= 2 * (eps * M) -> Rabs (o + d * T - (a + (b - a) * val p)) <= 2 * (eps * M)).
    { intros o d a b H1 H2. unfold T. replace (o + d * (val t0 + (val t1 - val t0) * val p) - (a + (b - a) * val p)) with ((o + d * val t0 - a) * (1 - val p) + (o + d * val t1 - b) * val p) by ring. eapply Rle_trans; [apply Rabs_triang|]. rewrite !Rabs_mult, (Rabs_right (val p)), (Rabs_right (1 - val p)) by lra.
      assert (Rabs (o + d * val t0 - a) * (1 - val p) <= 2 * (eps * M) * (1 - val p)) by (apply Rmult_le_compat_r; lra). assert (Rabs (o + d * val t1 - b) * val p <= 2 * (eps * M) * val p) by (apply Rmult_le_compat_r; lra). lra. }
    unfold close3, finite3. change (x3 (line_get_point l t)) with (fadd (x3 (l_origin l)) (fmul (x3 (l_direction l)) t)). change (y3 (line_get_point l t)) with (fadd (y3 (l_origin l)) (fmul (y3 (l_direction l)) t)). change (z3 (line_get_point l t)) with (fadd (z3 (l_origin l)) (fmul (z3 (l_direction l)) t)).
    destruct (G _ _ t T (x3 (mix A B (val p))) _ 22 O1 P1 D1 Q1 Nr Er ltac:(lra) Br (X _ _ _ _ FA1 FB1) ltac:(lra)) as [K1 L1]. destruct (G _ _ t T (y3 (mix A B (val p))) _ 22 O2 P2 D2 Q2 Nr Er ltac:(lra) Br (X _ _ _ _ FA2 FB2) ltac:(lra)) as [K2 L2]. destruct (G _ _ t T (z3 (mix A B (val p))) _ 22 O3 P3 D3 Q3 Nr Er ltac:(lra) Br (X _ _ _ _ FA3 FB3) ltac:(lra)) as [K3 L3]. tauto.
Qed.
(** Bezier curves of degree 1 over the whole parameter range *)
Definition bezier64 (M : R) (e : CurveSegment f64) (A B : vec3 R) : Prop := exists a b,
  s_curve e = bezier3_curve [a; b] /\ s_range e = (f0, f1) /\ num64 (s_tolerance e) /\ pow2 (-46) * M < val (s_tolerance e) /\ bounded3 M a /\ bounded3 M b /\ val3 a = A /\ val3 b = B.
Lemma bezier_two (a b : vec3 f64) (u : f64) : bezier3_get_point [a; b] u = Ok (vadd (vadd vzero (vmull (fadd f0 (fmul (fsub f1 u) f1)) a)) (vmull (fmul u f1) b)).
Proof. reflexivity. Qed.
Lemma ratio_product M (c x : f64) C ec : 1 <= M <= pow2 490 -> num64 c -> num64 x -> Rabs (val c - C) <= ec * eps -> 0 <= ec <= 20 -> Rabs C <= 1 -> Rabs (val x) <= M -> appr M (ec + 1 + / 10) 1 (fmul c x) (C * val x).
Proof.
  intros HM Nc Nx Ec Hec HC Hx. pose proof (epsM M HM) as EM. pose proof eps_tiny as [F1 F2].
  assert (B1 : Rabs (C * val x) <= 1 * M) by (rewrite Rabs_mult; apply Rmult_le_compat; auto using Rabs_pos).
  assert (B2 : Rabs (val c * val x - C * val x) <= ec * (eps * M)). { replace (val c * val x - C * val x) with ((val c - C) * val x) by ring. rewrite Rabs_mult. replace (ec * (eps * M)) with (ec * eps * M) by ring. apply Rmult_le_compat; auto using Rabs_pos. }
  destruct (mul64 c x Nc Nx) as [N R].
  { pose proof (M_big M HM). assert (ec * (eps * M) <= 20 * (eps * M)) by (apply Rmult_le_compat_r; lra). replace (val c * val x) with ((val c * val x - C * val x) + C * val x) by ring. eapply Rle_lt_trans; [apply Rabs_triang|]. lra. }
  apply (appr_round M HM _ _ _ ec 1 _ N R); auto. lra.
Qed.
Lemma two_terms M (c0 c1 a b : f64) C0 C1 e0 e1 c : 1 <= M <= pow2 490 -> num64 c0 -> num64 c1 -> num64 a -> num64 b -> Rabs (val c0 - C0) <= e0 * eps -> Rabs (val c1 - C1) <= e1 * eps -> 0 <= e0 <= 10 -> 0 <= e1 <= 10 -> Rabs C0 <= 1 -> Rabs C1 <= 1 ->
  Rabs (val a) <= M -> Rabs (val b) <= M -> e0 + e1 + 54 / 10 <= c ->
  num64 (fadd (fadd f0 (fmul c0 a)) (fmul c1 b)) /\ Rabs (val (fadd (fadd f0 (fmul c0 a)) (fmul c1 b)) - (C0 * val a + C1 * val b)) <= c * (eps * M).
Proof.
  intros HM N0 N1 Na Nb E0 E1 H0 H1 B0 B1 Ba Bb Hc. pose proof (ratio_product M c0 a C0 e0 HM N0 Na E0 ltac:(lra) B0 Ba) as P. pose proof (ratio_product M c1 b C1 e1 HM N1 Nb E1 ltac:(lra) B1 Bb) as Q.
  pose proof (appr_exact M (@f0 f64 F64Num) 0 f0_num ltac:(change (val (@f0 f64 F64Num)) with 0; rewrite Rabs_R0; lra)) as Z. pose proof (appr_add M HM _ _ _ _ _ _ _ _ Z P ltac:(lra) ltac:(lra) ltac:(lra)) as S. pose proof (appr_add M HM _ _ _ _ _ _ _ _ S Q ltac:(lra) ltac:(lra) ltac:(lra)) as (N & E & _).
  split; [exact N|]. change (val (@f0 f64 F64Num)) with 0 in E. replace (C0 * val a + C1 * val b) with (0 + C0 * val a + C1 * val b) by ring. eapply Rle_trans; [exact E|]. apply Rmult_le_compat_r; [apply epsM; exact HM|lra].
Qed.
Lemma two_points M (a b : vec3 f64) (c0 c1 : f64) C0 C1 e0 e1 c : 1 <= M <= pow2 490 -> num64 c0 -> num64 c1 -> bounded3 M a -> bounded3 M b -> Rabs (val c0 - C0) <= e0 * eps -> Rabs (val c1 - C1) <= e1 * eps -> 0 <= e0 <= 10 -> 0 <= e1 <= 10 -> Rabs C0 <= 1 -> Rabs C1 <= 1 ->
  e0 + e1 + 54 / 10 <= c -> forall P, P = V3 (C0 * val (x3 a) + C1 * val (x3 b)) (C0 * val (y3 a) + C1 * val (y3 b)) (C0 * val (z3 a) + C1 * val (z3 b)) -> close3 (c * (eps * M)) (vadd (vadd vzero (vmull c0 a)) (vmull c1 b)) P.
Proof.
  intros HM N0 N1 (A1 & A2 & A3 & A4 & A5 & A6) (B1 & B2 & B3 & B4 & B5 & B6) E0 E1 H0 H1 L0 L1 Hc P ->.
  destruct (two_terms M c0 c1 _ _ C0 C1 e0 e1 c HM N0 N1 A1 B1 E0 E1 H0 H1 L0 L1 A4 B4 Hc) as [X1 Y1]. destruct (two_terms M c0 c1 _ _ C0 C1 e0 e1 c HM N0 N1 A2 B2 E0 E1 H0 H1 L0 L1 A5 B5 Hc) as [X2 Y2]. destruct (two_terms M c0 c1 _ _ C0 C1 e0 e1 c HM N0 N1 A3 B3 E0 E1 H0 H1 L0 L1 A6 B6 Hc) as [X3 Y3].
  exact (conj (conj X1 (conj X2 X3)) (conj Y1 (conj Y2 Y3))).
Qed.
Lemma f1_sub_f0 : fsub (f1 : f64) f0 = f1. Proof. reflexivity. Qed.
Theorem C67_bezier M e A B : 1 <= M <= pow2 490 -> bezier64 M e A B -> straight64 M e A B.
Proof.
  intros HM (a & b & EC & ER & Nt & Ht & Ba & Bb & <- & <-). pose proof eps_tiny as [F1 F2]. unfold straight64. rewrite EC, ER. cbn [fst snd bezier3_curve c_get_point].
  assert (W : forall p, bounded3 M p -> within M (val3 p)) by (intros p (_ & _ & _ & H); exact H). split; [now apply W|]. split; [now apply W|]. split; [exact Nt|]. split; [exact Ht|].
  assert (Z0 : forall x y : R, x = y -> Rabs (x - y) <= 0 * eps) by (intros x y ->; rewrite Rminus_diag_eq, Rabs_R0 by reflexivity; lra).
  assert (I0 : Rabs 0 <= 1) by (rewrite Rabs_R0; lra). assert (I1 : Rabs 1 <= 1) by (rewrite Rabs_R1; lra).
  split; [|split].
  - eexists. split; [apply bezier_two|]. change (fadd f0 (fmul (fsub f1 f0) f1) : f64) with (f1 : f64). change (fmul f0 f1 : f64) with (f0 : f64).
    apply (two_points M a b f1 f0 1 0 0 0 8 HM f1_num f0_num Ba Bb (Z0 _ _ f1_val) (Z0 _ _ f0_val)); auto; try lra. unfold val3. f_equal; ring.
  - eexists. split; [apply bezier_two|]. change (fadd f0 (fmul (fsub f1 f1) f1) : f64) with (f0 : f64). change (fmul f1 f1 : f64) with (f1 : f64).
    apply (two_points M a b f0 f1 0 1 0 0 8 HM f0_num f1_num Ba Bb (Z0 _ _ f0_val) (Z0 _ _ f1_val)); auto; try lra. unfold val3. f_equal; ring.
  - intros p Np Hp. unfold range_at. rewrite f1_sub_f0. set (u := fadd f0 (fmul f1 p)). eexists. split; [apply bezier_two|].
    pose proof (appr_exact 1 (@f1 f64 F64Num) 1 f1_num ltac:(rewrite f1_val, Rabs_R1; lra)) as A1. pose proof (appr_exact 1 (@f0 f64 F64Num) 0 f0_num ltac:(change (val (@f0 f64 F64Num)) with 0; rewrite Rabs_R0; lra)) as A0. rewrite f1_val in A1. change (val (@f0 f64 F64Num)) with 0 in A0.
    pose proof (appr_scale 1 one_490 _ _ _ p _ A1 Np ltac:(rewrite Rabs_right; lra) ltac:(lra) ltac:(lra)) as S. pose proof (appr_add 1 one_490 _ _ _ _ _ _ _ _ A0 S ltac:(lra) ltac:(lra) ltac:(lra)) as U. fold u in U.
    pose proof (appr_sub 1 one_490 _ _ _ _ _ _ _ _ A1 U ltac:(lra) ltac:(lra) ltac:(lra)) as V. assert (V' : appr 1 (44 / 10) 1 (fsub f1 u) (1 - val p)). { eapply appr_weaken; [exact V|replace (1 - (0 + 1 * val p) - (1 - val p)) with 0 by ring; rewrite Rabs_R0; lra|apply Rabs_le; lra]. }
    assert (V1 : Rabs (val (@f1 f64 F64Num)) <= 1) by (rewrite f1_val, Rabs_R1; lra). pose proof (appr_scale 1 one_490 _ _ _ (@f1 f64 F64Num) _ V' f1_num V1 ltac:(lra) ltac:(lra)) as X. pose proof (appr_add 1 one_490 _ _ _ _ _ _ _ _ A0 X ltac:(lra) ltac:(lra) ltac:(lra)) as (N0 & E0 & _).
    pose proof (appr_scale 1 one_490 _ _ _ (@f1 f64 F64Num) _ U f1_num V1 ltac:(lra) ltac:(lra)) as (N1 & E1 & _). rewrite f1_val, Rmult_1_r in E0, E1.
    apply (two_points M a b _ _ (1 - val p) (val p) 8 5 22 HM N0 N1 Ba Bb); try lra; try (apply Rabs_le; lra).
    + eapply Rle_trans; [|eapply Rle_trans; [exact E0|lra]]. apply Req_le. f_equal. ring.
    + eapply Rle_trans; [|eapply Rle_trans; [exact E1|lra]]. apply Req_le. f_equal. ring.
    + unfold mix, val3. cbn [x3 y3 z3]. f_equal; ring.
Qed.

(** ** Loops of straight edges *)
Definition apart_corners (M : R) (C : list (vec3 R)) : Prop := forall A B, In (A, B) (pairs (C ++ firstn 1 C)) -> TOL + pow2 (-44) * (M * M) < dist2 A B.
Definition straight_loop (M : R) (edges : list (CurveSegment f64)) (C : list (vec3 R)) : Prop := Forall2 (fun e AB => straight64 M e (fst AB) (snd AB)) edges (pairs (C ++ firstn 1 C)).
Lemma dist2_sym A B : dist2 A B = dist2 B A. Proof. unfold dist2. ring. Qed.
Section Loop.
Variable M : R.
Hypothesis HM : 1 <= M <= pow2 32.
Lemma HM490 : 1 <= M <= pow2 490. Proof. split; [apply HM|]. eapply Rle_trans; [apply HM|apply pow2_le; lia]. Qed.
Let ok := close3 (8 * (eps * M)).
Definition two_ends (l : list (vec3 f64)) (AB : vec3 R * vec3 R) : Prop := exists a b, l = [a; b] /\ ok a (fst AB) /\ ok b (snd AB).
Lemma dedup_chain pts : forall kept A Cs, ok kept A -> within M A -> Forall (within M) Cs -> Forall2 two_ends pts (pairs (A :: Cs)) -> (forall X Y, In (X, Y) (pairs (A :: Cs)) -> TOL + pow2 (-44) * (M * M) < dist2 X Y) ->
  exists ends, dedup_by_from (fun a b => near_points a b) kept (concat pts) = ends /\ Forall2 ok ends Cs.
Proof.
  induction pts as [|p pts IH]; intros kept A [|B Cs] Hk WA WC H HD; [|inversion H|inversion H|].
  - exists []. split; [reflexivity|constructor].
  - cbn [pairs] in H, HD. inversion H as [|? ? ? ? (a & b & -> & Ha & Hb) H']; subst. cbn [fst snd] in Ha, Hb. inversion WC as [|? ? WB WC']; subst.
    destruct (IH b B Cs Hb WB WC' H') as (ends & E & F); [intros X Y I; apply HD; right; exact I|]. exists (b :: ends). split; [|now constructor]. cbn [concat app dedup_by_from].
    rewrite (near_same M HM490 a kept A (proj2 HM) Ha Hk). rewrite (near_apart M HM490 b kept B A WB WA Hb Hk) by (rewrite dist2_sym; apply HD; left; reflexivity). now rewrite E.
Qed.
Lemma straight_mapM fuel (rnd : nat -> list bool -> f64) edges l : (forall k, oracle64 (rnd k)) -> Forall2 (fun e AB => straight64 M e (fst AB) (snd AB)) edges l -> forall k,
  exists pts, mapM (fun '(k, e) => segment_get_points (S fuel) (rnd k) e) (combine (seq k (length edges)) edges) = Ok pts /\ Forall2 two_ends pts l.
Proof.
  intros HO H. induction H as [|e AB edges l He H IH]; intros k; [exists []; split; [reflexivity|constructor]|]. destruct (C67_straight_edge M e _ _ fuel (rnd k) HM490 He (HO k)) as (a & b & E & Ha & Hb). destruct (IH (S k)) as (pts & Ep & Hp).
  exists ([a; b] :: pts). split; [|constructor; [exists a, b; auto|exact Hp]]. cbn [length seq combine mapM]. rewrite E. cbn [obind]. rewrite Ep. reflexivity.
Qed.
Lemma chain_within l : forall (A : vec3 R) Cs, Forall2 (fun e AB => straight64 M e (fst AB) (snd AB)) l (pairs (A :: Cs)) -> Cs <> [] -> within M A /\ Forall (within M) Cs.
Proof.
  induction l as [|e l IH]; intros A [|B Cs] H N; [congruence|inversion H|congruence|]. cbn [pairs] in H. inversion H as [|? ? ? ? He H']; subst. destruct He as (WA & WB & _). cbn [fst snd] in WA, WB. split; [exact WA|]. constructor; [exact WB|].
  destruct Cs as [|C Cs]; [constructor|]. apply (IH B (C :: Cs) H' ltac:(discriminate)).
Qed.
Theorem C67_straight_loop fuel rnd edges (C : list (vec3 R)) : C <> [] -> (forall k, oracle64 (rnd k)) -> straight_loop M edges C -> apart_corners M C ->
  exists vs, to_polygon (S fuel) rnd edges = Ok vs /\ Forall2 (close3 (8 * (eps * M))) vs C.
Proof.
  intros NC HO HL HD. destruct C as [|A Cs]; [congruence|]. unfold straight_loop in HL. unfold apart_corners in HD. cbn [firstn app] in HL, HD. pose proof HL as HW. apply chain_within in HW as [WA WC]; [|now destruct Cs].
  destruct (straight_mapM fuel rnd edges _ HO HL 0) as (pts & Ep & Hp). unfold to_polygon. unfold enumerate. rewrite Ep. cbn [obind].
  assert (Hp0 : exists a b pts', pts = [a; b] :: pts' /\ ok a A). { destruct Cs as [|B Cs]; cbn [app pairs] in Hp; inversion Hp as [|? ? ? ? (a & b & -> & Ha & Hb) H']; subst; exists a, b; eexists; split; [reflexivity|exact Ha|reflexivity|exact Ha]. }
  destruct Hp0 as (a & b & pts' & -> & Ha). destruct (dedup_chain _ a A _ Ha WA WC Hp HD) as (ends & E & F).
  assert (ED : dedup_by (fun a b => near_points a b) (concat ([a; b] :: pts')) = a :: ends). { cbn [concat app dedup_by]. f_equal. rewrite <- E. cbn [concat app dedup_by_from]. now rewrite (near_same M HM490 a a A (proj2 HM) Ha Ha). }
  rewrite ED. apply Forall2_app_inv_r in F as (e1 & e2 & F1 & F2 & ->). inversion F2 as [|z ? e3 ? Hz F3]; subst. inversion F3; subst. exists (a :: e1). split; [|now constructor].
  cbn [idx nth_error obind]. unfold usub. cbn [length]. rewrite app_length. cbn [length]. replace (1 <=? S (length e1 + 1))%nat with true by (symmetry; apply Nat.leb_le; lia). cbn [obind]. replace (S (length e1 + 1) - 1)%nat with (S (length e1)) by lia.
  unfold idx. cbn [nth_error]. rewrite nth_error_app2, Nat.sub_diag by lia. cbn [nth_error obind]. rewrite (near_same M HM490 a z A (proj2 HM) Ha Hz). f_equal. change (a :: e1 ++ [z]) with ((a :: e1) ++ [z]). apply removelast_last.
Qed.
End Loop.

(** ** Plane faces bounded by straight edges *)
Definition ideal_flat (s : Plane f64) (C : list (vec3 R)) : list (vec2 R) := map (plane_project (val_plane s)) C.
(** the corners as given: coordinates up to [M], neighbours apart, and three corners always span twice an area of more than 1e-7 + n 2^-37 M^2 in the plane *)
Definition clear_corners (M : R) (s : Plane f64) (C : list (vec3 R)) : Prop :=
  1 <= M <= pow2 32 /\ bounded3 M (p_origin s) /\ bounded3 1 (p_u_axis s) /\ bounded3 1 (p_v_axis s) /\ (Z.of_nat (length C) <= 2 ^ 20)%Z /\ apart_corners M C /\
  let rs := ideal_flat s C in let n := length C in
  forall i j k, (i < n)%nat -> (j < n)%nat -> (k < n)%nat -> i <> j -> j <> k -> i <> k -> TOL + INR n * (pow2 (-37) * (M * M)) < Rabs (tri_area2 (pt rs i) (pt rs j) (pt rs k)).
Lemma eps_16 : pow2 (-37) = 65536 * eps.
Proof. replace 65536 with (pow2 16) by (rewrite <- pow2_Z by lia; reflexivity). rewrite <- eps_pow2, <- pow2_add. reflexivity. Qed.
Lemma flat_close M s (v : vec3 f64) A : 1 <= M <= pow2 490 -> bounded3 M (p_origin s) -> bounded3 1 (p_u_axis s) -> bounded3 1 (p_v_axis s) -> within M A -> close3 (8 * (eps * M)) v A ->
  let p := plane_project (val_plane s) (val3 v) in let p' := plane_project (val_plane s) A in
  Rabs (x2 p - x2 p') <= 32 * (eps * M) /\ Rabs (y2 p - y2 p') <= 32 * (eps * M) /\ Rabs (x2 p') <= 6 * M /\ Rabs (y2 p') <= 6 * M.
Proof.
  intros HM (_ & _ & _ & O1 & O2 & O3) (_ & _ & _ & U1 & U2 & U3) (_ & _ & _ & V1 & V2 & V3) (W1 & W2 & W3) (_ & E1 & E2 & E3). cbv zeta. pose proof (epsM M HM) as EM.
  assert (G : forall x c b, Rabs x <= b -> Rabs c <= 1 -> Rabs (x * c) <= b) by (intros x c b Hx Hc; rewrite Rabs_mult; apply Rle_trans with (b * 1); [apply Rmult_le_compat; auto using Rabs_pos|lra]).
  assert (D : forall a b, Rabs a <= M -> Rabs b <= M -> Rabs (a - b) <= 2 * M) by (intros a b Ha Hb; eapply Rle_trans; [apply Rabs_minus_triang|lra]).
  assert (S3 : forall x y z b, Rabs x <= b -> Rabs y <= b -> Rabs z <= b -> Rabs (x + y + z) <= 3 * b) by (intros x y z b Hx Hy Hz; eapply Rle_trans; [apply Rabs_triang|]; assert (Rabs (x + y) <= Rabs x + Rabs y) by apply Rabs_triang; lra).
  unfold plane_project, val_plane. cbn [p_origin p_u_axis p_v_axis x2 y2]. set (o := p_origin s) in *. set (a := p_u_axis s) in *. set (b := p_v_axis s) in *.
  assert (L : forall c : vec3 f64, Rabs (val (x3 c)) <= 1 -> Rabs (val (y3 c)) <= 1 -> Rabs (val (z3 c)) <= 1 ->
    Rabs (dot3 (vsub (val3 v) (val3 o)) (val3 c) - dot3 (vsub A (val3 o)) (val3 c)) <= 32 * (eps * M) /\ Rabs (dot3 (vsub A (val3 o)) (val3 c)) <= 6 * M).
  { intros c C1 C2 C3. split.
    - change (dot3 (vsub (val3 v) (val3 o)) (val3 c)) with ((val (x3 v) - val (x3 o)) * val (x3 c) + (val (y3 v) - val (y3 o)) * val (y3 c) + (val (z3 v) - val (z3 o)) * val (z3 c)).
      change (dot3 (vsub A (val3 o)) (val3 c)) with ((x3 A - val (x3 o)) * val (x3 c) + (y3 A - val (y3 o)) * val (y3 c) + (z3 A - val (z3 o)) * val (z3 c)).
      match goal with |- Rabs ?t <= _ => replace t with ((val (x3 v) - x3 A) * val (x3 c) + (val (y3 v) - y3 A) * val (y3 c) + (val (z3 v) - z3 A) * val (z3 c)) by ring end.
      apply Rle_trans with (3 * (8 * (eps * M))); [apply S3; now apply G|lra].
    - change (dot3 (vsub A (val3 o)) (val3 c)) with ((x3 A - val (x3 o)) * val (x3 c) + (y3 A - val (y3 o)) * val (y3 c) + (z3 A - val (z3 o)) * val (z3 c)). replace (6 * M) with (3 * (2 * M)) by ring. apply S3; apply G; auto. }
  destruct (L a U1 U2 U3) as [L1 L2]. destruct (L b V1 V2 V3) as [L3 L4]. auto.
Qed.
Definition near2 (M : R) (p p' : vec2 R) : Prop := Rabs (x2 p - x2 p') <= 32 * (eps * M) /\ Rabs (y2 p - y2 p') <= 32 * (eps * M) /\ Rabs (x2 p') <= 6 * M /\ Rabs (y2 p') <= 6 * M.
Lemma cross_close M p p' q q' : 1 <= M <= pow2 490 -> near2 M p p' -> near2 M q q' -> Rabs (cross2 p q - cross2 p' q') <= 1000 * (eps * (M * M)).
Proof.
  intros HM (P1 & P2 & P3 & P4) (Q1 & Q2 & Q3 & Q4). pose proof (epsM M HM) as EM. destruct HM as [M1 _].
  assert (G : forall a a' b b', Rabs (a - a') <= 32 * (eps * M) -> Rabs (b - b') <= 32 * (eps * M) -> Rabs a' <= 6 * M -> Rabs b' <= 6 * M -> Rabs (a * b - a' * b') <= 400 * (eps * (M * M))).
  { intros a a' b b' H1 H2 H3 H4. replace (a * b - a' * b') with ((a - a') * (b - b') + (a - a') * b' + a' * (b - b')) by ring. assert (K : forall x y c d, Rabs x <= c -> Rabs y <= d -> Rabs (x * y) <= c * d) by (intros; rewrite Rabs_mult; apply Rmult_le_compat; auto using Rabs_pos).
    pose proof (K _ _ _ _ H1 H2) as K1. pose proof (K _ _ _ _ H1 H4) as K2. pose proof (K _ _ _ _ H3 H2) as K3.
    assert (T1 : Rabs ((a - a') * (b - b') + (a - a') * b' + a' * (b - b')) <= Rabs ((a - a') * (b - b')) + Rabs ((a - a') * b') + Rabs (a' * (b - b'))) by (eapply Rle_trans; [apply Rabs_triang|]; apply Rplus_le_compat_r, Rabs_triang).
    assert (0 <= eps * (M * M)) by (pose proof eps_tiny; apply Rmult_le_pos; [lra|apply Rmult_le_pos; lra]).
    assert (32 * (eps * M) * (32 * (eps * M)) <= 32 * (/ 1000000 * M) * (32 * (eps * M))) by (apply Rmult_le_compat_r; lra). lra. }
  unfold cross2. pose proof (G _ _ _ _ P1 Q2 P3 Q4) as G1. pose proof (G _ _ _ _ P2 Q1 P4 Q3) as G2. match goal with |- Rabs ?t <= _ => replace t with ((x2 p * y2 q - x2 p' * y2 q') - (y2 p * x2 q - y2 p' * x2 q')) by ring end.
  eapply Rle_trans; [apply Rabs_minus_triang|]. assert (0 <= eps * (M * M)) by (pose proof eps_tiny; apply Rmult_le_pos; [lra|apply Rmult_le_pos; lra]). lra.
Qed.
Lemma chain_close M l l' : 1 <= M <= pow2 490 -> Forall2 (near2 M) l l' -> Rabs (chain cross2 l - chain cross2 l') <= INR (length l - 1) * (1000 * (eps * (M * M))).
Proof.
  intros HM H. assert (E0 : 0 <= eps * (M * M)) by (pose proof eps_tiny; destruct HM; apply Rmult_le_pos; [lra|apply Rmult_le_pos; lra]). induction H as [|p p' l l' Hp H IH]; [cbn; rewrite Rminus_diag_eq, Rabs_R0 by reflexivity; lra|].
  destruct H as [|q q' l l' Hq H]; [cbn; rewrite Rminus_diag_eq, Rabs_R0 by reflexivity; lra|]. 
  change (chain cross2 (p :: q :: l)) with (cross2 p q + chain cross2 (q :: l)). change (chain cross2 (p' :: q' :: l')) with (cross2 p' q' + chain cross2 (q' :: l')).
  replace (length (p :: q :: l) - 1)%nat with (S (length (q :: l) - 1)) by (cbn; lia). rewrite S_INR. pose proof (cross_close M _ _ _ _ HM Hp Hq).
  match goal with |- Rabs ?t <= _ => replace t with ((cross2 p q - cross2 p' q') + (chain cross2 (q :: l) - chain cross2 (q' :: l'))) by ring end. eapply Rle_trans; [apply Rabs_triang|]. lra.
Qed.
Lemma area2_near M l l' : 1 <= M <= pow2 490 -> Forall2 (near2 M) l l' -> Rabs (area2 l - area2 l') <= INR (length l) * (1000 * (eps * (M * M))).
Proof.
  intros HM H. unfold area2, cyc. destruct H as [|p p' l l' Hp H]; [cbn; rewrite Rminus_diag_eq, Rabs_R0 by reflexivity; lra|].
  eapply Rle_trans; [apply (chain_close M); [exact HM|apply Forall2_app; [now constructor|now constructor]]|]. rewrite app_length. replace (length (p :: l) + length [p] - 1)%nat with (length (p :: l)) by (cbn; lia). lra.
Qed.
Definition same_sign (x y : R) : Prop := x = 0 /\ y = 0 \/ 0 < x /\ 0 < y \/ x < 0 /\ y < 0.
Lemma same_sign_product x y z t : same_sign x z -> same_sign y t -> x * y < 0 -> z * t < 0.
Proof. intros [[-> ->]|[[A B]|[A B]]] [[-> ->]|[[P Q]|[P Q]]] H; nra. Qed.
Lemma simple_transfer (ps qs : list (vec2 R)) : length ps = length qs -> (forall i j k, (i < length ps)%nat -> (j < length ps)%nat -> (k < length ps)%nat -> same_sign (tri_area2 (pt ps i) (pt ps j) (pt ps k)) (tri_area2 (pt qs i) (pt qs j) (pt qs k))) ->
  simple_polygon qs -> simple_polygon ps.
Proof.
  intros HL HS HQ. unfold simple_polygon in *. cbv zeta in *. intros i j Hi Hj [X Y]. apply (HQ i j); [lia|lia|]. rewrite <- HL. set (n := length ps) in *.
  assert (Hi' : ((i + 1) mod n < n)%nat) by (apply Nat.mod_upper_bound; lia). assert (Hj' : ((j + 1) mod n < n)%nat) by (apply Nat.mod_upper_bound; lia).
  split; [eapply same_sign_product; [| |exact X]|eapply same_sign_product; [| |exact Y]]; apply HS; assumption.
Qed.
Lemma Forall2_len {A B} (P : A -> B -> Prop) l l' : Forall2 P l l' -> length l = length l'.
Proof. intros H. induction H; cbn; congruence. Qed.
Lemma Forall2_maps {A B X Y} (P : A -> B -> Prop) (W : B -> Prop) (Q : X -> Y -> Prop) (f : A -> X) (g : B -> Y) l l' : (forall a b, W b -> P a b -> Q (f a) (g b)) -> Forall W l' -> Forall2 P l l' -> Forall2 Q (map f l) (map g l').
Proof. intros H HW H2. revert HW. induction H2 as [|a b l l' Hab H2 IH]; intros HW; [constructor|]. inversion HW; subst. cbn [map]. constructor; auto. Qed.
Lemma Forall2_in {A B} (P : A -> B -> Prop) (W : B -> Prop) l l' a : Forall W l' -> Forall2 P l l' -> In a l -> exists b, W b /\ P a b.
Proof. intros HW H2. revert HW. induction H2 as [|x y l l' Hxy H2 IH]; intros HW I; [destruct I|]. inversion HW; subst. destruct I as [<-|I]; [exists y; auto|auto]. Qed.
Section Face.
Context (M : R) (s : Plane f64) (C : list (vec3 R)) (vs : list (vec3 f64)).
Hypothesis HC : clear_corners M s C.
Hypothesis HW : Forall (within M) C.
Hypothesis HV : Forall2 (close3 (8 * (eps * M))) vs C.
Hypothesis H3 : (3 <= length C)%nat.
Let n := length C.
Let rs := exact_flat s vs.
Let is := ideal_flat s C.
Lemma fc_M : 1 <= M <= pow2 490. Proof. destruct HC as ([A B] & _). split; [exact A|]. eapply Rle_trans; [exact B|apply pow2_le; lia]. Qed.
Lemma fc_len : length vs = n. Proof. exact (Forall2_len _ _ _ HV). Qed.
Lemma fc_lens : length rs = n /\ length is = n. Proof. unfold rs, is, exact_flat, ideal_flat. rewrite !map_length, fc_len. auto. Qed.
Lemma fc_near : Forall2 (near2 M) rs is.
Proof.
  pose proof fc_M as HM. destruct HC as (_ & HO & HU & HV' & _). unfold rs, is, exact_flat, ideal_flat. rewrite map_map. apply (Forall2_maps (close3 (8 * (eps * M))) (within M)); auto. intros v A WA Hv. exact (flat_close M s v A HM HO HU HV' WA Hv).
Qed.
Lemma Forall2_pt (R2 : vec2 R -> vec2 R -> Prop) l l' i : Forall2 R2 l l' -> (i < length l)%nat -> R2 (pt l i) (pt l' i).
Proof. intros H. revert i. induction H as [|x y l l' Hx H IH]; intros i Hi; [cbn in Hi; lia|]. destruct i; [exact Hx|]. apply IH. cbn in Hi. lia. Qed.
Lemma fc_area i j k : (i < n)%nat -> (j < n)%nat -> (k < n)%nat -> Rabs (tri_area2 (pt rs i) (pt rs j) (pt rs k) - tri_area2 (pt is i) (pt is j) (pt is k)) <= 3100 * (eps * (M * M)).
Proof.
  intros Hi Hj Hk. destruct fc_lens as [L1 L2]. rewrite <- L1 in Hi, Hj, Hk. apply (area_close M fc_M). intros p p' [E|[E|[E|[]]]]; injection E as <- <-; apply (Forall2_pt (near2 M) _ _ _ fc_near); assumption.
Qed.
Lemma fc_n : 3 <= INR n. Proof. change 3 with (IZR (Z.of_nat 3)). rewrite <- INR_IZR_INZ. apply le_INR. exact H3. Qed.
Lemma fc_MM : 0 <= eps * (M * M). Proof. pose proof eps_tiny. destruct fc_M. apply Rmult_le_pos; [lra|apply Rmult_le_pos; lra]. Qed.
Lemma fc_far i j k : (i < n)%nat -> (j < n)%nat -> (k < n)%nat -> i <> j -> j <> k -> i <> k -> TOL + INR n * (65536 * (eps * (M * M))) < Rabs (tri_area2 (pt is i) (pt is j) (pt is k)).
Proof. intros Hi Hj Hk A B D. destruct HC as (_ & _ & _ & _ & _ & _ & H). specialize (H i j k Hi Hj Hk A B D). rewrite eps_16, Rmult_assoc in H. exact H. Qed.
Lemma fc_sign i j k : (i < n)%nat -> (j < n)%nat -> (k < n)%nat -> same_sign (tri_area2 (pt rs i) (pt rs j) (pt rs k)) (tri_area2 (pt is i) (pt is j) (pt is k)).
Proof.
  intros Hi Hj Hk. assert (Z : forall a b : vec2 R, tri_area2 a a b = 0 /\ tri_area2 a b b = 0 /\ tri_area2 a b a = 0) by (intros a b; unfold tri_area2; repeat split; ring).
  destruct (Nat.eq_dec i j) as [->|A]; [left; split; apply Z|]. destruct (Nat.eq_dec j k) as [->|B]; [left; split; apply Z|]. destruct (Nat.eq_dec i k) as [->|D]; [left; split; apply Z|]. right.
  pose proof (fc_far i j k Hi Hj Hk A B D) as F. pose proof (fc_area i j k Hi Hj Hk) as K. apply abs_between in K. pose proof fc_n. pose proof fc_MM. pose proof TOL_pos. assert (3 * (65536 * (eps * (M * M))) <= INR n * (65536 * (eps * (M * M)))) by (apply Rmult_le_compat_r; lra).
  destruct (Rle_lt_dec 0 (tri_area2 (pt is i) (pt is j) (pt is k))); [left; rewrite Rabs_right in F by lra|right; rewrite Rabs_left in F by lra]; lra.
Qed.
Lemma fc_clear : clear_face (2 * M) s vs.
Proof.
  pose proof fc_M as HM. pose proof (epsM M HM) as EM. pose proof fc_MM as MM. pose proof fc_n. destruct HC as ([M1 M2] & HO & HU & HV' & HN & _). assert (B2 : forall p, bounded3 M p -> bounded3 (2 * M) p) by (intros p (A1 & A2 & A3 & A4 & A5 & A6); unfold bounded3; split; [exact A1|split; [exact A2|split; [exact A3|split; [lra|split; lra]]]]).
  split; [split; [lra|]|split; [|split; [now apply B2|split; [exact HU|split; [exact HV'|split; [rewrite fc_len; exact HN|]]]]]].
  - assert (pow2 33 = 2 * pow2 32) by (change 33%Z with (1 + 32)%Z; rewrite pow2_add; f_equal; rewrite <- (pow2_Z 1) by lia; reflexivity). pose proof (pow2_le 33 490 ltac:(lia)). lra.
  - intros p I. destruct (Forall2_in _ _ _ _ _ HW HV I) as (A & WA & Hv). destruct Hv as ((N1 & N2 & N3) & E1 & E2 & E3), WA as (W1 & W2 & W3).
    assert (G : forall x X, Rabs (x - X) <= 8 * (eps * M) -> Rabs X <= M -> Rabs x <= 2 * M) by (intros x X G1 G2; replace x with ((x - X) + X) by ring; eapply Rle_trans; [apply Rabs_triang|]; lra).
    exact (conj N1 (conj N2 (conj N3 (conj (G _ _ E1 W1) (conj (G _ _ E2 W2) (G _ _ E3 W3)))))).
  - fold rs. cbv zeta. rewrite fc_len. intros i j k Hi Hj Hk A B D. pose proof (fc_far i j k Hi Hj Hk A B D) as F. pose proof (fc_area i j k Hi Hj Hk) as K. rewrite eps_13. assert (3 * (eps * (M * M)) <= INR n * (eps * (M * M))) by (apply Rmult_le_compat_r; lra).
    set (a := tri_area2 (pt rs i) _ _) in *. set (b := tri_area2 (pt is i) _ _) in *. pose proof (Rabs_triang (b - a) a) as TR. replace (b - a + a) with b in TR by ring. rewrite Rabs_minus_sym in K. replace (INR n * (8192 * eps * (2 * M * (2 * M)))) with (32768 * (INR n * (eps * (M * M)))) by ring. lra.
Qed.
Lemma fc_area2 : Rabs (area2 rs - area2 is) <= INR n * (1000 * (eps * (M * M))).
Proof. pose proof (area2_near M rs is fc_M fc_near) as H. now rewrite (proj1 fc_lens) in H. Qed.
Lemma fc_general : general_position is.
Proof. destruct fc_lens as [_ L]. unfold general_position. cbv zeta. rewrite L. intros i j k Hi Hj Hk A B D. pose proof (fc_far i j k Hi Hj Hk A B D). pose proof fc_n. pose proof fc_MM. assert (0 <= INR n * (65536 * (eps * (M * M)))) by (apply Rmult_le_pos; lra). lra. Qed.
Lemma triple_distinct (l : list nat) a b c : NoDup l -> cyc_triple l a b c -> In a l /\ In b l /\ In c l /\ a <> b /\ b <> c /\ a <> c.
Proof.
  intros ND H. assert (G : forall x y z, sublist [x; y; z] l -> In x l /\ In y l /\ In z l /\ x <> y /\ y <> z /\ x <> z).
  { intros x y z S. assert (I : forall t, In t [x; y; z] -> In t l) by (intros t; exact (sublist_In _ _ t S)). pose proof (sublist_NoDup _ _ S ND) as N3. inversion N3 as [|? ? X1 N2]; subst. inversion N2 as [|? ? X2 _]; subst. cbn in *. repeat split; try (apply I; cbn; tauto); intros ->; tauto. }
  destruct H as [H|[H|H]]; apply G in H; intuition congruence.
Qed.
Lemma fc_positive : simple_polygon is -> 0 < area2 is -> INR n * (65536 * (eps * (M * M))) < area2 is.
Proof.
  intros HS HA. destruct fc_lens as [_ L]. destruct (C40_simple is ltac:(rewrite L; exact H3) HS fc_general HA) as (conc & T & _ & _ & LT & FT & EA & _). rewrite L in LT, FT. pose proof TOL_pos as TP. pose proof fc_n. pose proof fc_MM.
  destruct T as [|[[a b] c] T]; [cbn in LT; unfold n in LT; lia|]. rewrite EA. change (total_area2 is ((a, b, c) :: T)) with (tri_area2 (pt is a) (pt is b) (pt is c) + total_area2 is T). apply Forall_cons_iff in FT as [[CT PT] FT'].
  assert (P : 0 <= total_area2 is T). { clear - FT'. induction FT' as [|[[x y] z] T K _ IH]; [cbn; lra|]. change (total_area2 is ((x, y, z) :: T)) with (tri_area2 (pt is x) (pt is y) (pt is z) + total_area2 is T). destruct K as [_ K]. lra. }
  apply triple_distinct in CT as (Ia & Ib & Ic & Q1 & Q2 & Q3); [|apply seq_NoDup]. apply in_seq in Ia, Ib, Ic. pose proof (fc_far a b c ltac:(lia) ltac:(lia) ltac:(lia) Q1 Q2 Q3) as F. rewrite Rabs_right in F by lra. lra.
Qed.
End Face.
Theorem C67_face (s : Plane f64) fuel (rnd : nat -> nat -> list bool -> f64) edges (C : list (vec3 R)) (M : R) : let is := ideal_flat s C in let n := length C in
  clear_corners M s C -> (3 <= n)%nat -> straight_loop M edges C -> (forall k, oracle64 (rnd 0%nat k)) -> simple_polygon is -> 0 < area2 is ->
  exists vs m extra T, plane_trim s (S fuel) rnd [edges] = Ok m /\ m_vertices m = vs ++ extra /\ m_normals m = [] /\ m_triangles m = emit T /\
    Forall2 (close3 (8 * (eps * M))) vs C /\
    ((forall i, (i < n)%nat -> 0 < turn is i) /\ length T = n /\ (exists c, extra = [c] /\ near_mean ((INR n + 4) * (eps * (2 * M))) vs c) \/
     (exists i, (i < n)%nat /\ turn is i < 0) /\ length T = (n - 2)%nat /\ extra = []) /\
    let V := exact_flat s (m_vertices m) in
    Forall (fun '(i, j, k) => (i < length V)%nat /\ (j < length V)%nat /\ (k < length V)%nat /\ 0 < tri_area2 (pt V i) (pt V j) (pt V k)) T /\
    Rabs (total_area2 V T - area2 is) <= INR n * (pow2 (-43) * (M * M)) /\ (forall w, antisym w -> sumw w (map (fun '(a, b, c) => [a; b; c]) T) = cyc w (seq 0 n)) /\
    forall q, off_all_lines V T q -> INR (covering V T q) = winding (exact_flat s vs) q /\ (covering V T q <= 1)%nat.
Proof.
  intros is n HC H3 HL HO HS HA. assert (HM : 1 <= M <= pow2 32) by apply HC. assert (NC : C <> []) by (intros ->; cbn in H3; unfold n in H3; cbn in H3; lia).
  assert (HW : Forall (within M) C). { destruct C as [|A Cs]; [congruence|]. unfold straight_loop in HL. cbn [firstn app] in HL. apply chain_within in HL as [WA WC]; [|now destruct Cs]. constructor; [exact WA|]. now apply Forall_app in WC as [WC _]. }
  destruct (C67_straight_loop M HM fuel (rnd 0%nat) edges C NC HO HL ltac:(apply HC)) as (vs & EP & HV). exists vs.
  pose proof (fc_len M C vs HV) as LV. destruct (fc_lens M s C vs HV) as [L1 L2]. fold n in LV, L1, L2. fold is in L2. pose proof (fc_clear M s C vs HC HW HV H3) as CF. pose proof (fc_area2 M s C vs HC HW HV H3) as FA. pose proof (fc_positive M s C vs HC HV H3 HS HA) as FP. pose proof (fc_MM M s C HC H3) as MM. fold n is in FA, FP.
  assert (SR : simple_polygon (exact_flat s vs)). { apply (simple_transfer _ is); [congruence| |exact HS]. rewrite L1. intros i j k Hi Hj Hk. now apply (fc_sign M s C vs HC HW HV H3). }
  assert (AR : 0 < area2 (exact_flat s vs)). { pose proof (pos_INR n). assert (0 <= INR n * (eps * (M * M))) by (apply Rmult_le_pos; assumption). apply abs_between in FA. lra. }
  assert (PL : proper_loops (S fuel) rnd [edges] [vs]). { exists [vs]. split; [|destruct vs; [cbn in LV; lia|reflexivity]]. split; [reflexivity|]. intros [|k] b p Hb Hp; [|destruct k; discriminate]. injection Hb as <-. injection Hp as <-. exact EP. }
  destruct (C66_face s (S fuel) rnd [edges] vs (2 * M) PL CF ltac:(lia) SR AR) as (m & extra & T & E1 & E2 & E3 & E4 & E5 & E6 & E7 & E8 & E9). exists m, extra, T. rewrite LV in E5, E8.
  split; [exact E1|]. split; [exact E2|]. split; [exact E3|]. split; [exact E4|]. split; [exact HV|].
  assert (TS : forall i, (i < n)%nat -> same_sign (turn (exact_flat s vs) i) (turn is i)). { intros i Hi. unfold turn. rewrite L1, L2. apply (fc_sign M s C vs HC HW HV H3); try assumption; apply Nat.mod_upper_bound; lia. }
  split; [|cbv zeta; split; [exact E6|split; [|split; [exact E8|exact E9]]]].
  - destruct E5 as [(X & Y & Z)|((i & Hi & X) & Y & Z)]; [left; split; [|auto]; intros i Hi; pose proof (TS i Hi) as S; specialize (X i Hi); unfold same_sign in S; lra|right; split; [|auto]; exists i; split; [exact Hi|]; pose proof (TS i Hi) as S; unfold same_sign in S; lra].
  - rewrite E7. eapply Rle_trans; [exact FA|]. replace (pow2 (-43)) with (1024 * eps). { apply Rmult_le_compat_l; [apply pos_INR|]. rewrite Rmult_assoc. lra. } replace 1024 with (pow2 10) by (rewrite <- pow2_Z by lia; reflexivity). rewrite <- eps_pow2, <- pow2_add. reflexivity.
Qed.

(** ** Edges given by their end points *)
(** the line from [a] in direction [b] - [a], as computed in doubles, over the range 0 to 1 *)
Definition segment_between (a b : vec3 f64) (e : CurveSegment f64) : Prop := s_curve e = line_curve {| l_origin := a; l_direction := vsub b a |} /\ s_range e = (f0, f1).
Theorem C67_line_between K (a b : vec3 f64) e : 1 <= K <= pow2 480 -> bounded3 K a -> bounded3 K b -> segment_between a b e -> num64 (s_tolerance e) -> pow2 (-45) * K < val (s_tolerance e) -> straight64 (2 * K) e (val3 a) (val3 b).
Proof.
  intros HK (A1 & A2 & A3 & A4 & A5 & A6) (B1 & B2 & B3 & B4 & B5 & B6) [EC ER] Nt Ht. pose proof eps_tiny as [F1 F2].
  assert (E46 : pow2 (-45) = 2 * pow2 (-46)) by (change (-45)%Z with (1 + -46)%Z; rewrite pow2_add; f_equal; rewrite <- (pow2_Z 1) by lia; reflexivity). rewrite E46 in Ht.
  assert (HK' : 1 <= K <= pow2 490) by (split; [apply HK|]; eapply Rle_trans; [apply HK|apply pow2_le; lia]). pose proof (eta_M K HK') as EK. pose proof (epsM K HK') as EM. pose proof (M_big K HK') as MB.
  apply C67_line.
  { destruct HK. split; [lra|]. apply Rle_trans with (2 * pow2 480); [lra|]. assert (pow2 481 = 2 * pow2 480) by (change 481%Z with (1 + 480)%Z; rewrite pow2_add; f_equal; rewrite <- (pow2_Z 1) by lia; reflexivity). pose proof (pow2_le 481 489 ltac:(lia)). lra. }
  assert (D : forall x y : f64, num64 x -> num64 y -> Rabs (val x) <= K -> Rabs (val y) <= K -> num64 (fsub y x) /\ Rabs (val (fsub y x)) <= 4 * K /\ Rabs (val x + val (fsub y x) * 1 - val y) <= 2 * (eps * (2 * K))).
  { intros x y Nx Ny Bx By. assert (D : Rabs (val y - val x) <= 2 * K) by (eapply Rle_trans; [apply Rabs_minus_triang|lra]). destruct (sub64 y x Ny Nx) as [N [E _]]; [lra|]. assert (eps * Rabs (val y - val x) <= eps * (2 * K)) by (apply Rmult_le_compat_l; lra). split; [exact N|]. split.
    - replace (val (fsub y x)) with ((val (fsub y x) - (val y - val x)) + (val y - val x)) by ring. eapply Rle_trans; [apply Rabs_triang|]. lra.
    - replace (val x + val (fsub y x) * 1 - val y) with (val (fsub y x) - (val y - val x)) by ring. lra. }
  destruct (D _ _ A1 B1 A4 B4) as (N1 & L1 & R1). destruct (D _ _ A2 B2 A5 B5) as (N2 & L2 & R2). destruct (D _ _ A3 B3 A6 B6) as (N3 & L3 & R3).
  assert (Z : forall x y : R, Rabs (x + y * 0 - x) <= 2 * (eps * (2 * K))) by (intros x y; replace (x + y * 0 - x) with 0 by ring; rewrite Rabs_R0; lra).
  exists {| l_origin := a; l_direction := vsub b a |}, (4 * K), 1. rewrite EC, ER. cbn [fst snd l_origin l_direction]. change (val (@f0 f64 F64Num)) with 0. rewrite f1_val.
  split; [reflexivity|]. split; [unfold within, val3; cbn [x3 y3 z3]; lra|]. split; [unfold within, val3; cbn [x3 y3 z3]; lra|]. split; [exact Nt|]. split; [lra|]. split; [unfold bounded3; split; [exact A1|split; [exact A2|split; [exact A3|split; [lra|split; lra]]]]|].
  split; [exact (conj N1 (conj N2 (conj N3 (conj L1 (conj L2 L3)))))|]. split; [lra|]. split; [lra|]. split; [lra|]. split; [exact f0_num|]. split; [exact f1_num|]. split; [rewrite Rabs_R0; lra|]. split; [rewrite Rabs_R1; lra|].
  split; [exact (conj (Z _ _) (conj (Z _ _) (Z _ _)))|exact (conj R1 (conj R2 R3))].
Qed.
Lemma lines_loop K (l : list (vec3 f64)) edges : 1 <= K <= pow2 480 -> (forall p, In p l -> bounded3 K p) -> Forall2 (fun e ab => segment_between (fst ab) (snd ab) e /\ num64 (s_tolerance e) /\ pow2 (-45) * K < val (s_tolerance e)) edges (pairs l) ->
  Forall2 (fun e AB => straight64 (2 * K) e (fst AB) (snd AB)) edges (pairs (map val3 l)).
Proof.
  intros HK. revert edges. induction l as [|a [|b l] IH]; intros edges HB H; [inversion H; constructor|inversion H; constructor|]. cbn [pairs] in H. inversion H as [|e ? edges' ? (HS & Nt & Ht) H']; subst. cbn [map pairs]. constructor.
  - cbn [fst snd] in *. apply C67_line_between; auto; apply HB; cbn; auto.
  - apply (IH edges'); [intros p I; apply HB; right; exact I|exact H'].
Qed.
Theorem C67_lines K (vs : list (vec3 f64)) edges : 1 <= K <= pow2 480 -> (forall p, In p vs -> bounded3 K p) ->
  Forall2 (fun e ab => segment_between (fst ab) (snd ab) e /\ num64 (s_tolerance e) /\ pow2 (-45) * K < val (s_tolerance e)) edges (pairs (vs ++ firstn 1 vs)) -> straight_loop (2 * K) edges (map val3 vs).
Proof.
  intros HK HB H. unfold straight_loop. rewrite firstn_map, <- map_app. apply (lines_loop K); auto. intros p I. apply HB. apply in_app_or in I as [I|I]; [exact I|]. destruct vs; [destruct I|]. destruct I as [<-|[]]. now left.
Qed.

(** ** Witnesses *)
Lemma hundredth : num64 (flit 1 100) /\ / 200 < val (flit 1 100 : f64).
Proof. destruct (lit_close 1 100 ltac:(lia) ltac:(lia) ltac:(rewrite Rabs_right; lra)) as (N & E & _). split; [exact N|]. pose proof eps_tiny. apply abs_between in E. lra. Qed.
Lemma pow2_45_16 : pow2 (-45) * 16 < / 200.
Proof. assert (E : pow2 (-45) = 256 * eps) by (replace 256 with (pow2 8) by (rewrite <- pow2_Z by lia; reflexivity); rewrite <- eps_pow2, <- pow2_add; reflexivity). rewrite E. unfold eps. lra. Qed.
Lemma dart64_lines : straight_loop 32 (linesides64 dart64) (map val3 dart64).
Proof.
  replace 32 with (2 * 16) by lra. apply C67_lines.
  - split; [lra|]. apply Rle_trans with (pow2 4); [rewrite <- pow2_Z by lia; cbn; lra|apply pow2_le; lia].
  - intros p I. unfold dart64 in I. cbn [In] in I. destruct I as [<-|[<-|[<-|[<-|[]]]]]; apply (v64_bounded _ _ _ 16); cbn; lia.
  - pose proof hundredth as [N L]. pose proof pow2_45_16. assert (G : forall a b, segment_between a b (lineseg64 a b) /\ num64 (s_tolerance (lineseg64 a b)) /\ pow2 (-45) * 16 < val (s_tolerance (lineseg64 a b))) by (intros a b; split; [split; reflexivity|split; [exact N|cbn [lineseg64 s_tolerance]; lra]]).
    unfold linesides64, dart64. cbn [app firstn pairs map]. repeat constructor; cbn [fst snd]; apply G.
Qed.
Lemma dart64_corners : clear_corners 32 tilted64 (map val3 dart64).
Proof.
  destruct dart64_flat as [E Hs]. unfold exact_flat in E. set (s := 3 * _ + _) in *. destruct dart64_clear as (_ & _ & (O1 & O2 & O3 & O4 & O5 & O6) & HU & HV & _).
  split; [split; [lra|]|split; [unfold bounded3; split; [exact O1|split; [exact O2|split; [exact O3|split; [lra|split; lra]]]]|split; [exact HU|split; [exact HV|split; [cbn; lia|split]]]]].
  - apply Rle_trans with (pow2 5); [rewrite <- pow2_Z by lia; cbn; lra|apply pow2_le; lia].
  - unfold apart_corners, dart64. cbn [map]. rewrite !v64_val by (cbn; lia). cbn [firstn app pairs]. assert (E44 : pow2 (-44) = 512 * eps) by (replace 512 with (pow2 9) by (rewrite <- pow2_Z by lia; reflexivity); rewrite <- eps_pow2, <- pow2_add; reflexivity). rewrite E44.
    intros A B I. cbn [In] in I. destruct I as [I|[I|[I|[I|[]]]]]; injection I as <- <-; unfold dist2, TOL, eps; cbn [x3 y3 z3]; lra.
  - cbv zeta. unfold ideal_flat. rewrite E. cbn [length map dart64]. intros i j k Hi Hj Hk N1 N2 N3. pose proof (quad_clear s Hs i j k Hi Hj Hk N1 N2 N3) as K. rewrite eps_16. unfold eps, TOL. cbn [INR]. lra.
Qed.
(** the dart with lines for edges, whatever the random numbers *)
Example C67_nonvacuous (rnd : nat -> nat -> list bool -> f64) : (forall k, oracle64 (rnd 0%nat k)) -> exists m T vs, plane_trim (NF := F64Num) tilted64 1 rnd [linesides64 dart64] = Ok m /\ m_vertices m = vs /\ m_triangles m = emit T /\ length T = 2%nat /\
  Forall2 (close3 (8 * (eps * 32))) vs (map val3 dart64).
Proof.
  intros HO. destruct dart64_flat as [E Hs]. unfold exact_flat in E. set (s := 3 * _ + _) in *. assert (HA : area2 [V2 0 0; V2 (4 * s) 0; V2 s 1; V2 0 4] = 8 * s) by (unfold area2, cyc, chain, cross2; cbn; ring).
  destruct (C67_face tilted64 0 rnd (linesides64 dart64) (map val3 dart64) 32 dart64_corners) as (vs & m & extra & T & EM & EV & _ & ET & CL & D & _).
  - cbn; lia.
  - exact dart64_lines.
  - exact HO.
  - unfold ideal_flat. rewrite E. unfold simple_polygon, segments_cross. cbn [length]. intros i j Hi Hj [K1 K2]. unfold pt in K1, K2.
    destruct i as [|[|[|[|]]]]; [| | | |lia]; (destruct j as [|[|[|[|]]]]; [| | | |lia]); cbn in K1, K2; unfold tri_area2 in *; cbn [x2 y2] in *; nra.
  - unfold ideal_flat. rewrite E, HA. lra.
  - exists m, T, vs. split; [exact EM|]. destruct D as [(P & _)|(_ & LT & ->)].
    + exfalso. specialize (P 2%nat ltac:(cbn; lia)). unfold ideal_flat in P. rewrite E in P. unfold turn, pt in P. cbn in P. unfold tri_area2 in P. cbn [x2 y2] in P. lra.
    + rewrite app_nil_r in EV. auto.
Qed.
Example oracle64_nonvacuous : oracle64 (fun _ => f0) /\ oracle64 (fun path => if path then f1 else flit 1 2).
Proof.
  split; intros path; [split; [exact f0_num|change (val (@f0 f64 F64Num)) with 0; lra]|]. destruct path; [split; [exact f1_num|rewrite f1_val; lra]|].
  destruct (lit_close 1 2 ltac:(lia) ltac:(lia) ltac:(rewrite Rabs_right; lra)) as (N & E & _). split; [exact N|]. pose proof eps_tiny. apply abs_between in E. lra.
Qed.
