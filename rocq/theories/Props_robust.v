(** Property C63: the polygon functions on arbitrary doubles decide as exact arithmetic does, when the areas they look at
    are larger than the rounding error. *)
From Coq Require Import ZArith Reals Lra Lia List Bool Arith Floats.SpecFloat Psatz.
From Verif Require Import Prelude Num M_vec M_utils M_polygon M_meshgen L_base L_vec L_geom L_cycle L_polygon L_float L_grid L_err L_bserr
  Props_polygon Props_ears L_simple L_sides L_twoears L_earexist L_clip Props_simple Props_segments Props_grid Props_accuracy.
Open Scope R_scope.

(** ** Specification *)
(** a point of finite coordinates of absolute value at most [M] *)
Definition bounded_point (M : R) (p : vec2 f64) : Prop := num64 (x2 p) /\ num64 (y2 p) /\ Rabs (val (x2 p)) <= M /\ Rabs (val (y2 p)) <= M.
(** every three corners span twice an area of more than 1e-7 (the tolerance of the code) plus the rounding error 2^-47 M^2 *)
Definition clear_polygon (M : R) (ps : list (vec2 f64)) : Prop :=
  1 <= M <= pow2 500 /\ (forall p, In p ps -> bounded_point M p) /\
  forall i j k, (i < length ps)%nat -> (j < length ps)%nat -> (k < length ps)%nat -> i <> j -> j <> k -> i <> k ->
    TOL + pow2 (-47) * (M * M) < Rabs (tri_area2 (pt (map val2 ps) i) (pt (map val2 ps) j) (pt (map val2 ps) k)).

(** ** Sign symmetry of the rounding *)
Lemma round_opp s m e : binary_round p64 e64 (negb s) m e = SFopp (binary_round p64 e64 s m e).
Proof.
  unfold binary_round. destruct (shl_align m e _) as [mz ez]. unfold binary_round_aux. destruct (shr_fexp p64 e64 (Zpos mz) ez loc_Exact) as [mrs e1].
  destruct (shr_fexp p64 e64 (round_nearest_even (shr_m mrs) (loc_of_shr_record mrs)) e1 loc_Exact) as [mrs2 e2]. destruct (shr_m mrs2); [reflexivity| |reflexivity]. now destruct (e2 <=? e64 - p64)%Z.
Qed.
Lemma sub_opp (x y : f64) : num64 x -> num64 y -> fsub y x = SFopp (fsub x y) \/ (val (fsub x y) = 0 /\ val (fsub y x) = 0).
Proof.
  intros [Fx _] [Fy _]. destruct x as [sx|sx| |sx mx ex]; try discriminate; destruct y as [sy|sy| |sy my ey]; try discriminate.
  - right. destruct sx, sy; split; reflexivity.
  - left. cbn. now rewrite negb_involutive.
  - left. reflexivity.
  - change (fsub (S754_finite sx mx ex : f64) (S754_finite sy my ey)) with (SFsub p64 e64 (S754_finite sx mx ex) (S754_finite sy my ey)).
    change (fsub (S754_finite sy my ey : f64) (S754_finite sx mx ex)) with (SFsub p64 e64 (S754_finite sy my ey) (S754_finite sx mx ex)). unfold SFsub. cbv zeta. rewrite (Z.min_comm ey ex).
    set (a := cond_Zopp sx _). set (b := cond_Zopp sy _). replace (b - a)%Z with (- (a - b))%Z by lia. destruct (a - b)%Z as [|d|d]; cbn [Z.opp binary_normalize]; [right; split; reflexivity|left..].
    + apply (round_opp false).
    + apply (round_opp true).
Qed.
Lemma mul_opp_swap (x y : f64) : fmul x (SFopp y) = fmul y (SFopp x).
Proof.
  change (SFmul p64 e64 x (SFopp y) = SFmul p64 e64 y (SFopp x)). destruct x as [sx|sx| |sx mx ex], y as [sy|sy| |sy my ey]; cbn [SFopp SFmul]; try reflexivity;
    try (now destruct sx, sy). rewrite (Z.add_comm ex ey), (Pos.mul_comm mx my). now destruct sx, sy.
Qed.
Lemma mul_comm64 (x y : f64) : fmul x y = fmul y x.
Proof.
  change (SFmul p64 e64 x y = SFmul p64 e64 y x). destruct x as [sx|sx| |sx mx ex], y as [sy|sy| |sy my ey]; cbn [SFmul]; try reflexivity; rewrite xorb_comm; try reflexivity. now rewrite (Z.add_comm ex ey), (Pos.mul_comm mx my).
Qed.
Lemma mul_zero (x y : f64) : num64 x -> num64 y -> val x * val y = 0 -> num64 (fmul x y) /\ val (fmul x y) = 0.
Proof.
  intros Nx Ny E. destruct (exact64 (fmul x y) (val x * val y) 0 0) as [N V]; [apply SFmul_rounded; auto; reflexivity|reflexivity|unfold spaced; lia|rewrite E; ring|]. split; [exact N|now rewrite V].
Qed.

Lemma Rabs_minus_triang x y : Rabs (x - y) <= Rabs x + Rabs y.
Proof. unfold Rminus. eapply Rle_trans; [apply Rabs_triang|]. rewrite Rabs_Ropp. lra. Qed.

(** ** The area test *)
Section Area.
Variable M : R.
Hypothesis HM : 1 <= M <= pow2 500.
Lemma M_sq : 1 <= M * M /\ 1024 * (M * M) < pow2 1023.
Proof.
  split; [nra|]. apply Rle_lt_trans with (1024 * (pow2 500 * pow2 500)); [assert (M * M <= pow2 500 * pow2 500) by (apply Rmult_le_compat; lra); lra|].
  rewrite <- pow2_add. change 1024 with (IZR (2 ^ 10)). rewrite pow2_Z by lia. rewrite <- pow2_add. apply pow2_lt. lia.
Qed.
Lemma diff_err (x y : f64) : num64 x -> num64 y -> Rabs (val x) <= M -> Rabs (val y) <= M ->
  num64 (fsub x y) /\ Rabs (val (fsub x y) - (val x - val y)) <= 3 * eps * M /\ Rabs (val x - val y) <= 2 * M.
Proof.
  intros Nx Ny Bx By. destruct M_sq as [M1 M2]. pose proof eta_small as E1. assert (D : Rabs (val x - val y) <= 2 * M) by (eapply Rle_trans; [apply Rabs_minus_triang|lra]).
  destruct (sub64 x y Nx Ny) as [N [E _]]; [nra|]. split; [exact N|]. split; [|exact D]. eapply Rle_trans; [exact E|].
  assert (eta <= eps * M) by (unfold eps in *; lra). assert (eps * Rabs (val x - val y) <= eps * (2 * M)) by (apply Rmult_le_compat_l; [unfold eps; lra|exact D]). lra.
Qed.
Lemma prod_diff_err (x y X Y : R) : Rabs (x - X) <= 3 * eps * M -> Rabs X <= 2 * M -> Rabs (y - Y) <= 3 * eps * M -> Rabs Y <= 2 * M ->
  Rabs (x * y - X * Y) <= 13 * eps * (M * M) /\ Rabs (x * y) <= 5 * (M * M).
Proof.
  intros Ex Bx Ey By. assert (A : Rabs (x * y - X * Y) <= 13 * eps * (M * M)).
  { replace (x * y - X * Y) with ((x - X) * (y - Y) + (x - X) * Y + X * (y - Y)) by ring. eapply Rle_trans; [apply Rabs_triang|]. eapply Rle_trans; [apply Rplus_le_compat_r, Rabs_triang|]. rewrite !Rabs_mult.
    assert (P : 0 <= 3 * eps * M) by (unfold eps; lra).
    assert (A1 : Rabs (x - X) * Rabs (y - Y) <= 3 * eps * M * (3 * eps * M)) by (apply Rmult_le_compat; auto using Rabs_pos).
    assert (A2 : Rabs (x - X) * Rabs Y <= 3 * eps * M * (2 * M)) by (apply Rmult_le_compat; auto using Rabs_pos).
    assert (A3 : Rabs X * Rabs (y - Y) <= 2 * M * (3 * eps * M)) by (apply Rmult_le_compat; auto using Rabs_pos).
    assert (0 <= M * M) by nra. unfold eps in *. lra. }
  split; [exact A|]. replace (x * y) with ((x * y - X * Y) + X * Y) by ring. eapply Rle_trans; [apply Rabs_triang|]. rewrite Rabs_mult.
  assert (Rabs X * Rabs Y <= 2 * M * (2 * M)) by (apply Rmult_le_compat; auto using Rabs_pos). assert (0 <= M * M) by nra. unfold eps in *. lra.
Qed.
(** the area spanned by two differences of points *)
Lemma cross_err (a b c d : vec2 f64) : bounded_point M a -> bounded_point M b -> bounded_point M c -> bounded_point M d ->
  num64 (perp_dot (vsub a b) (vsub c d)) /\
  Rabs (val (perp_dot (vsub a b) (vsub c d)) - perp_dot (vsub (val2 a) (val2 b)) (vsub (val2 c) (val2 d))) <= 60 * eps * (M * M) /\
  Rabs (perp_dot (vsub (val2 a) (val2 b)) (vsub (val2 c) (val2 d))) <= 8 * (M * M).
Proof.
  intros (Nax & Nay & Bax & Bay) (Nbx & Nby & Bbx & Bby) (Ncx & Ncy & Bcx & Bcy) (Ndx & Ndy & Bdx & Bdy).
  destruct M_sq as [M1 M2]. pose proof eta_small as E1. pose proof eta_pos as E0.
  destruct (diff_err _ _ Nax Nbx Bax Bbx) as (N1 & D1 & B1). destruct (diff_err _ _ Nay Nby Bay Bby) as (N2 & D2 & B2). destruct (diff_err _ _ Ncx Ndx Bcx Bdx) as (N3 & D3 & B3). destruct (diff_err _ _ Ncy Ndy Bcy Bdy) as (N4 & D4 & B4).
  destruct (prod_diff_err _ _ _ _ D1 B1 D4 B4) as [P1 Q1]. destruct (prod_diff_err _ _ _ _ D2 B2 D3 B3) as [P2 Q2].
  destruct (mul64 _ _ N1 N4) as [N5 [E5 _]]; [lra|]. destruct (mul64 _ _ N2 N3) as [N6 [E6 _]]; [lra|].
  assert (S1 : eta <= eps * (M * M)) by (unfold eps in *; lra).
  assert (F5 : eps * Rabs (val (fsub (x2 a) (x2 b)) * val (fsub (y2 c) (y2 d))) <= eps * (5 * (M * M))) by (apply Rmult_le_compat_l; [unfold eps; lra|exact Q1]).
  assert (F6 : eps * Rabs (val (fsub (y2 a) (y2 b)) * val (fsub (x2 c) (x2 d))) <= eps * (5 * (M * M))) by (apply Rmult_le_compat_l; [unfold eps; lra|exact Q2]).
  set (u := fmul (fsub (x2 a) (x2 b)) (fsub (y2 c) (y2 d))) in *. set (v := fmul (fsub (y2 a) (y2 b)) (fsub (x2 c) (x2 d))) in *.
  set (U := (val (x2 a) - val (x2 b)) * (val (y2 c) - val (y2 d))) in *. set (V := (val (y2 a) - val (y2 b)) * (val (x2 c) - val (x2 d))) in *.
  assert (G1 : Rabs (val u - U) <= 19 * eps * (M * M)).
  { replace (val u - U) with ((val u - val (fsub (x2 a) (x2 b)) * val (fsub (y2 c) (y2 d))) + (val (fsub (x2 a) (x2 b)) * val (fsub (y2 c) (y2 d)) - U)) by ring. eapply Rle_trans; [apply Rabs_triang|]. lra. }
  assert (G2 : Rabs (val v - V) <= 19 * eps * (M * M)).
  { replace (val v - V) with ((val v - val (fsub (y2 a) (y2 b)) * val (fsub (x2 c) (x2 d))) + (val (fsub (y2 a) (y2 b)) * val (fsub (x2 c) (x2 d)) - V)) by ring. eapply Rle_trans; [apply Rabs_triang|]. lra. }
  assert (H1 : Rabs U <= 4 * (M * M)). { unfold U. rewrite Rabs_mult. apply Rle_trans with (2 * M * (2 * M)); [apply Rmult_le_compat; auto using Rabs_pos|lra]. }
  assert (H2 : Rabs V <= 4 * (M * M)). { unfold V. rewrite Rabs_mult. apply Rle_trans with (2 * M * (2 * M)); [apply Rmult_le_compat; auto using Rabs_pos|lra]. }
  assert (H3 : Rabs (val u - val v - (U - V)) <= 38 * eps * (M * M)).
  { replace (val u - val v - (U - V)) with ((val u - U) - (val v - V)) by ring. eapply Rle_trans; [apply Rabs_minus_triang|]. lra. }
  assert (H4 : Rabs (U - V) <= 8 * (M * M)) by (eapply Rle_trans; [apply Rabs_minus_triang|lra]).
  assert (H5 : Rabs (val u - val v) <= 9 * (M * M)).
  { replace (val u - val v) with ((val u - val v - (U - V)) + (U - V)) by ring. eapply Rle_trans; [apply Rabs_triang|]. unfold eps in *. lra. }
  destruct (sub64 u v N5 N6) as [N7 [E7 _]]; [lra|].
  assert (F7 : eps * Rabs (val u - val v) <= eps * (9 * (M * M))) by (apply Rmult_le_compat_l; [unfold eps; lra|exact H5]).
  change (perp_dot (vsub a b) (vsub c d)) with (fsub u v). change (perp_dot (vsub (val2 a) (val2 b)) (vsub (val2 c) (val2 d))) with (U - V). split; [exact N7|]. split; [|exact H4].
  replace (val (fsub u v) - (U - V)) with ((val (fsub u v) - (val u - val v)) + (val u - val v - (U - V))) by ring. eapply Rle_trans; [apply Rabs_triang|]. lra.
Qed.
End Area.

(** ** The decisions *)
Lemma sub_zero (x : f64) : num64 x -> num64 (fsub x f0) /\ val (fsub x f0) = val x.
Proof.
  intros N. destruct x as [s|s| |s m e]; try (destruct N; discriminate); [split; [destruct s; split; reflexivity|destruct s; reflexivity]|]. split; [exact N|reflexivity].
Qed.
Lemma ftol_close : Rabs (val (ftol : f64) - TOL) <= eps.
Proof.
  assert (E : (ftol : f64) = S754_finite false 7555786372591432 (-76)) by (vm_compute; reflexivity). rewrite E. cbn [B2R]. change (-76)%Z with (-53 + -23)%Z. rewrite pow2_add, eps_pow2.
  assert (P : IZR (2 ^ 23) * pow2 (-23) = 1) by (rewrite pow2_Z by lia; rewrite <- pow2_add; apply pow2_0). change (IZR (2 ^ 23)) with 8388608 in P. replace (pow2 (-23)) with (/ 8388608) by lra.
  unfold TOL, eps. apply Rabs_le. lra.
Qed.
Lemma near_64 (x : f64) : num64 x -> near x f0 = Rleb (Rabs (val x)) (val (ftol : f64)).
Proof.
  intros N. destruct (sub_zero x N) as [N' V]. unfold near, abs_diff_eq. rewrite leb_val; [|change (num64 (SFabs (fsub x f0))); now apply number_abs|exact ftol_num].
  change (val (fabs (fsub x f0))) with (val (SFabs (fsub x f0))). now rewrite B2R_abs, V.
Qed.
(** either clearly non-zero, or zero in both arithmetics *)
Definition decided (M : R) (t : f64) (T : R) : Prop :=
  num64 t /\ ((TOL + 64 * eps * (M * M) < Rabs T /\ Rabs (val t - T) <= 60 * eps * (M * M)) \/ (val t = 0 /\ T = 0)).
Lemma decided_tests M t T : 1 <= M -> decided M t T -> near t f0 = near T 0 /\ fltb f0 t = Rltb 0 T /\ fleb f0 t = Rleb 0 T.
Proof.
  intros HM [N D]. rewrite near_64, ltb_val, leb_val by (auto using f0_num). rewrite f0_val. pose proof ftol_close as TC. apply abs_between in TC.
  assert (NR : near T 0 = Rleb (Rabs T) TOL) by (unfold near, abs_diff_eq, ftol; rnum; now rewrite Rminus_0_r). rewrite NR. assert (T0 : 0 < TOL) by (unfold TOL; lra). assert (0 < eps) by (unfold eps; lra). assert (eps <= / 1000000000000) by (unfold eps; lra).
  destruct D as [[C E]|[-> ->]].
  - assert (M1 : 1 <= M * M) by nra. assert (M2 : eps * 1 <= eps * (M * M)) by (apply Rmult_le_compat_l; lra). apply abs_between in E.
    assert (L : val (ftol : f64) < Rabs (val t)).
    { unfold Rabs in *. destruct (Rcase_abs T), (Rcase_abs (val t)); lra. }
    split; [|split].
    + transitivity false; [|symmetry]; apply not_true_iff_false; rewrite Rleb_true; lra.
    + apply eq_true_iff_eq. rewrite !Rltb_true. unfold Rabs in C. destruct (Rcase_abs T); lra.
    + apply eq_true_iff_eq. rewrite !Rleb_true. unfold Rabs in C. destruct (Rcase_abs T); lra.
  - rewrite Rabs_R0. split; [|split; reflexivity]. apply eq_true_iff_eq. rewrite !Rleb_true. unfold TOL in *. lra.
Qed.
Lemma cross_zero (p q : vec2 f64) : num64 (x2 p) -> num64 (y2 p) -> num64 (x2 q) -> num64 (y2 q) ->
  val (x2 p) * val (y2 q) = 0 -> val (y2 p) * val (x2 q) = 0 -> num64 (perp_dot p q) /\ val (perp_dot p q) = 0.
Proof.
  intros N1 N2 N3 N4 E1 E2. destruct (mul_zero _ _ N1 N4 E1) as [A1 A2]. destruct (mul_zero _ _ N2 N3 E2) as [B1 B2]. apply diff64_zero; auto. congruence.
Qed.
Section Decide.
Variable M : R.
Hypothesis HM : 1 <= M <= pow2 500.
Lemma sub_self (p : vec2 f64) : bounded_point M p -> num64 (x2 (vsub p p)) /\ num64 (y2 (vsub p p)) /\ val (x2 (vsub p p)) = 0 /\ val (y2 (vsub p p)) = 0.
Proof. intros (Nx & Ny & _). destruct (diff64_zero (x2 p) (x2 p) Nx Nx eq_refl). destruct (diff64_zero (y2 p) (y2 p) Ny Ny eq_refl). auto. Qed.
Lemma sub_num (p q : vec2 f64) : bounded_point M p -> bounded_point M q -> num64 (x2 (vsub p q)) /\ num64 (y2 (vsub p q)).
Proof. intros (Nx & Ny & Bx & By) (Nx' & Ny' & Bx' & By'). split; eapply (diff_err M HM); eassumption. Qed.
Lemma decided_first a c d : bounded_point M a -> bounded_point M c -> bounded_point M d -> decided M (perp_dot (vsub a a) (vsub c d)) (perp_dot (vsub (val2 a) (val2 a)) (vsub (val2 c) (val2 d))).
Proof.
  intros Ha Hc Hd. destruct (sub_self a Ha) as (A1 & A2 & A3 & A4). destruct (sub_num c d Hc Hd) as [B1 B2]. destruct (cross_zero _ _ A1 A2 B1 B2) as [N V]; [rewrite A3; ring|rewrite A4; ring|].
  split; [exact N|]. right. split; [exact V|]. unfold perp_dot. vsimp. rnum. ring.
Qed.
Lemma decided_second a c d : bounded_point M a -> bounded_point M c -> bounded_point M d -> decided M (perp_dot (vsub c d) (vsub a a)) (perp_dot (vsub (val2 c) (val2 d)) (vsub (val2 a) (val2 a))).
Proof.
  intros Ha Hc Hd. destruct (sub_self a Ha) as (A1 & A2 & A3 & A4). destruct (sub_num c d Hc Hd) as [B1 B2]. destruct (cross_zero _ _ B1 B2 A1 A2) as [N V]; [rewrite A4; ring|rewrite A3; ring|].
  split; [exact N|]. right. split; [exact V|]. unfold perp_dot. vsimp. rnum. ring.
Qed.
Lemma decided_same a b : bounded_point M a -> bounded_point M b -> decided M (perp_dot (vsub a b) (vsub a b)) (perp_dot (vsub (val2 a) (val2 b)) (vsub (val2 a) (val2 b))).
Proof.
  intros Ha Hb. destruct (cross_err M HM a b a b Ha Hb Ha Hb) as (N & _ & _). split; [exact N|]. right. split; [|unfold perp_dot; vsimp; rnum; ring].
  destruct M_sq with M as [M1 M2]; [exact HM|]. destruct Ha as (Nax & Nay & Bax & Bay), Hb as (Nbx & Nby & Bbx & Bby).
  destruct (diff_err M HM _ _ Nax Nbx Bax Bbx) as (N1 & D1 & B1). destruct (diff_err M HM _ _ Nay Nby Bay Bby) as (N2 & D2 & B2). destruct (prod_diff_err M HM _ _ _ _ D1 B1 D2 B2) as [_ Q].
  destruct (mul64 _ _ N1 N2) as [N3 _]; [lra|]. rewrite Rmult_comm in Q. destruct (mul64 _ _ N2 N1) as [N4 _]; [lra|].
  apply diff64_zero; auto. f_equal. change (SFmul p64 e64 (x2 (vsub a b)) (y2 (vsub a b)) = SFmul p64 e64 (y2 (vsub a b)) (x2 (vsub a b))). apply mul_comm64.
Qed.
(** out and back: the two products are the same up to sign, and so are their roundings *)
Lemma decided_back a b : bounded_point M a -> bounded_point M b -> decided M (perp_dot (vsub b a) (vsub a b)) (perp_dot (vsub (val2 b) (val2 a)) (vsub (val2 a) (val2 b))).
Proof.
  intros Ha Hb. destruct (cross_err M HM b a a b Hb Ha Ha Hb) as (N & _ & _). split; [exact N|]. right. split; [|unfold perp_dot; vsimp; rnum; ring].
  destruct M_sq with M as [M1 M2]; [exact HM|]. destruct Ha as (Nax & Nay & Bax & Bay), Hb as (Nbx & Nby & Bbx & Bby).
  destruct (diff_err M HM _ _ Nbx Nax Bbx Bax) as (N1 & D1 & B1). destruct (diff_err M HM _ _ Nay Nby Bay Bby) as (N2 & D2 & B2). destruct (prod_diff_err M HM _ _ _ _ D1 B1 D2 B2) as [_ Q].
  destruct (diff_err M HM _ _ Nby Nay Bby Bay) as (N1' & D1' & B1'). destruct (diff_err M HM _ _ Nax Nbx Bax Bbx) as (N2' & D2' & B2'). destruct (prod_diff_err M HM _ _ _ _ D1' B1' D2' B2') as [_ Q'].
  destruct (mul64 _ _ N1 N2) as [N3 _]; [lra|]. destruct (mul64 _ _ N1' N2') as [N4 _]; [lra|].
  change (perp_dot (vsub b a) (vsub a b)) with (fsub (fmul (fsub (x2 b) (x2 a)) (fsub (y2 a) (y2 b))) (fmul (fsub (y2 b) (y2 a)) (fsub (x2 a) (x2 b)))).
  apply diff64_zero; auto.
  destruct (sub_opp (x2 b) (x2 a) Nbx Nax) as [Ex|[Ex Ex']].
  - destruct (sub_opp (y2 b) (y2 a) Nby Nay) as [Ey|[Ey Ey']].
    + rewrite Ex, Ey. now rewrite mul_opp_swap.
    + transitivity 0; [|symmetry]; apply mul_zero; auto; [rewrite Ey'; ring|rewrite Ey; ring].
  - transitivity 0; [|symmetry]; apply mul_zero; auto; [rewrite Ex; ring|rewrite Ex'; ring].
Qed.
Lemma decided_clear a b c d : bounded_point M a -> bounded_point M b -> bounded_point M c -> bounded_point M d ->
  TOL + pow2 (-47) * (M * M) < Rabs (perp_dot (vsub (val2 a) (val2 b)) (vsub (val2 c) (val2 d))) ->
  decided M (perp_dot (vsub a b) (vsub c d)) (perp_dot (vsub (val2 a) (val2 b)) (vsub (val2 c) (val2 d))).
Proof.
  intros Ha Hb Hc Hd H. destruct (cross_err M HM a b c d Ha Hb Hc Hd) as (N & E & _). split; [exact N|]. left. split; [|exact E].
  assert (E47 : pow2 (-47) = 64 * eps) by (change (-47)%Z with (6 + -53)%Z; rewrite pow2_add, eps_pow2, <- (pow2_Z 6) by lia; reflexivity). now rewrite E47 in H.
Qed.
(** three corners: clear, or two of them the same *)
Definition clear3 (a b c : vec2 f64) : Prop := a = b \/ b = c \/ a = c \/ TOL + pow2 (-47) * (M * M) < Rabs (tri_area2 (val2 a) (val2 b) (val2 c)).
Lemma clear3_rot a b c : clear3 a b c -> clear3 b c a.
Proof. unfold clear3. intros [H|[H|[H|H]]]; auto. right. right. right. replace (tri_area2 (val2 b) (val2 c) (val2 a)) with (tri_area2 (val2 a) (val2 b) (val2 c)); [exact H|]. unfold tri_area2. vsimp. rnum. ring. Qed.
Lemma clear3_swap a b c : clear3 a b c -> clear3 b a c.
Proof. unfold clear3. intros [H|[H|[H|H]]]; auto. right. right. right. replace (tri_area2 (val2 b) (val2 a) (val2 c)) with (- tri_area2 (val2 a) (val2 b) (val2 c)); [now rewrite Rabs_Ropp|]. unfold tri_area2. vsimp. rnum. ring. Qed.
Ltac area H := eapply Rlt_le_trans; [exact H|]; right; f_equal; unfold tri_area2, perp_dot; vsimp; rnum; ring.
Ltac area_neg H := eapply Rlt_le_trans; [exact H|]; right; rewrite <- Rabs_Ropp; f_equal; unfold tri_area2, perp_dot; vsimp; rnum; ring.
Lemma decided_corner a b c : bounded_point M a -> bounded_point M b -> bounded_point M c -> clear3 a b c ->
  decided M (perp_dot (vsub b a) (vsub c b)) (perp_dot (vsub (val2 b) (val2 a)) (vsub (val2 c) (val2 b))).
Proof.
  intros Ha Hb Hc [E|[E|[E|H]]]; [subst b; now apply decided_first|subst c; now apply decided_second|subst c; now apply decided_back|]. apply decided_clear; auto. area H.
Qed.
(** seen from the third corner *)
Lemma decided_from a b p : bounded_point M a -> bounded_point M b -> bounded_point M p -> clear3 a b p ->
  decided M (perp_dot (vsub a p) (vsub b p)) (perp_dot (vsub (val2 a) (val2 p)) (vsub (val2 b) (val2 p))).
Proof.
  intros Ha Hb Hp [E|[E|[E|H]]]; [subst b; now apply decided_same|subst p; now apply decided_second|subst p; now apply decided_first|]. apply decided_clear; auto. area H.
Qed.
Lemma decided_to a b p : bounded_point M a -> bounded_point M b -> bounded_point M p -> clear3 a b p ->
  decided M (perp_dot (vsub p a) (vsub p b)) (perp_dot (vsub (val2 p) (val2 a)) (vsub (val2 p) (val2 b))).
Proof.
  intros Ha Hb Hp [E|[E|[E|H]]]; [subst b; now apply decided_same|subst p; now apply decided_second|subst p; now apply decided_first|]. apply decided_clear; auto. area H.
Qed.
Lemma convexity_clear a b c : bounded_point M a -> bounded_point M b -> bounded_point M c -> clear3 a b c -> compute_convexity (val2 a) (val2 b) (val2 c) = compute_convexity a b c.
Proof.
  intros Ha Hb Hc H. unfold compute_convexity. cbv zeta. destruct (decided_tests M _ _ (proj1 HM) (decided_corner a b c Ha Hb Hc H)) as (E1 & E2 & _). rewrite E1, E2. reflexivity.
Qed.
Lemma inside_clear a b c p : bounded_point M a -> bounded_point M b -> bounded_point M c -> bounded_point M p -> clear3 a b p -> clear3 b c p -> clear3 c a p ->
  is_inside_triangle (val2 a) (val2 b) (val2 c) (val2 p) = is_inside_triangle a b c p.
Proof.
  intros Ha Hb Hc Hp H1 H2 H3. unfold is_inside_triangle.
  destruct (decided_tests M _ _ (proj1 HM) (decided_from a b p Ha Hb Hp H1)) as (_ & _ & E1). destruct (decided_tests M _ _ (proj1 HM) (decided_from b c p Hb Hc Hp H2)) as (_ & _ & E2). destruct (decided_tests M _ _ (proj1 HM) (decided_from c a p Hc Ha Hp H3)) as (_ & _ & E3).
  rewrite E1, E2, E3. reflexivity.
Qed.
End Decide.

(** ** C63: ear clipping *)
Lemma val2_pt ps i : (i < length ps)%nat -> pt (map val2 ps) i = val2 (nth i ps (V2 f0 f0)).
Proof. intros H. unfold pt. rewrite (nth_indep _ _ (val2 (V2 f0 f0))) by (rewrite map_length; exact H). apply map_nth. Qed.
Lemma clear_triples M ps : clear_polygon M ps -> forall a b c, In a ps -> In b ps -> In c ps -> clear3 M a b c.
Proof.
  intros (_ & _ & H) a b c Ha Hb Hc. apply (In_nth _ _ (V2 f0 f0)) in Ha, Hb, Hc. destruct Ha as (i & Hi & <-), Hb as (j & Hj & <-), Hc as (k & Hk & <-). unfold clear3.
  destruct (Nat.eq_dec i j) as [->|N1]; [auto|]. destruct (Nat.eq_dec j k) as [->|N2]; [auto|]. destruct (Nat.eq_dec i k) as [->|N3]; [auto|].
  right. right. right. rewrite <- !val2_pt by assumption. now apply H.
Qed.
(** C63: the corner test and the ear clipper return in double arithmetic what they return in exact arithmetic. *)
Theorem C63_same_triangles M ps : clear_polygon M ps ->
  compute_vertex_convexity ps = compute_vertex_convexity (map val2 ps) /\
  (forall vs, find_concave_vertices ps vs = find_concave_vertices (map val2 ps) vs) /\
  (forall vs conc, trianglate_polygon ps vs conc = trianglate_polygon (map val2 ps) vs conc).
Proof.
  intros HC. pose proof HC as (HM & HB & _).
  assert (C : forall a b c, In a ps -> In b ps -> In c ps -> compute_convexity (val2 a) (val2 b) (val2 c) = compute_convexity a b c) by (intros; apply (convexity_clear M); auto; now apply (clear_triples M ps)).
  assert (I : forall a b c p, In a ps -> In b ps -> In c ps -> In p ps -> is_inside_triangle (val2 a) (val2 b) (val2 c) (val2 p) = is_inside_triangle a b c p) by (intros; apply (inside_clear M); auto; now apply (clear_triples M ps)).
  split; [symmetry; now apply convexity_transfer|]. split; intros; symmetry; [now apply find_concave_transfer|now apply trianglate_transfer].
Qed.
(** C63: hence every simple counter-clockwise polygon with clear corners is tiled by the program as it runs. *)
Theorem C63_simple M (ps : list (vec2 f64)) : clear_polygon M ps -> let n := length ps in let rs := map val2 ps in (3 <= n)%nat -> simple_polygon rs -> 0 < area2 rs ->
  exists conc T, compute_vertex_convexity ps = Ok (seq 0 n, conc) /\ trianglate_polygon ps (seq 0 n) conc = Ok (emit T) /\ length T = (n - 2)%nat /\
    Forall (fun '(a, b, c) => cyc_triple (seq 0 n) a b c /\ 0 < tri_area2 (pt rs a) (pt rs b) (pt rs c)) T /\
    area2 rs = total_area2 rs T /\
    forall q, off_all_lines rs T q -> winding rs q = INR (covers rs T q) /\ (covers rs T q <= 1)%nat.
Proof.
  intros HC. cbv zeta. intros H3 HS HA. set (rs := map val2 ps) in *. assert (EL : length rs = length ps) by apply map_length.
  assert (GP : general_position rs).
  { intros i j k Hi Hj Hk N1 N2 N3. rewrite EL in Hi, Hj, Hk. destruct HC as (HM & _ & H). specialize (H i j k Hi Hj Hk N1 N2 N3). fold rs in H. eapply Rle_lt_trans; [|exact H].
    assert (0 <= pow2 (-47) * (M * M)) by (apply Rmult_le_pos; [left; apply pow2_pos|nra]). lra. }
  destruct (C40_simple rs) as (conc & T & H); [lia|exact HS|exact GP|exact HA|]. rewrite EL in H. destruct (C63_same_triangles M ps HC) as (E1 & _ & E2). exists conc, T. rewrite E1, E2. exact H.
Qed.


(** ** C63: the orientation test *)
Section Shoelace.
Variable M : R.
Hypothesis HM : 1 <= M <= pow2 500.
Lemma sum_err (x y : f64) : num64 x -> num64 y -> Rabs (val x) <= M -> Rabs (val y) <= M ->
  num64 (fadd x y) /\ Rabs (val (fadd x y) - (val x + val y)) <= 3 * eps * M /\ Rabs (val x + val y) <= 2 * M.
Proof.
  intros Nx Ny Bx By. destruct (M_sq M HM) as [M1 M2]. pose proof eta_small as E1. assert (D : Rabs (val x + val y) <= 2 * M) by (eapply Rle_trans; [apply Rabs_triang|lra]).
  destruct (add64 x y Nx Ny) as [N [E _]]; [nra|]. split; [exact N|]. split; [|exact D]. eapply Rle_trans; [exact E|].
  assert (eta <= eps * M) by (unfold eps in *; lra). assert (eps * Rabs (val x + val y) <= eps * (2 * M)) by (apply Rmult_le_compat_l; [unfold eps; lra|exact D]). lra.
Qed.
Definition shoe {F} {NF : Num F} (p q : vec2 F) : F := fmul (fsub (x2 q) (x2 p)) (fadd (y2 p) (y2 q)).
Lemma shoe_err p q : bounded_point M p -> bounded_point M q ->
  num64 (shoe p q) /\ Rabs (val (shoe p q) - shoe (val2 p) (val2 q)) <= 19 * eps * (M * M) /\ Rabs (shoe (val2 p) (val2 q)) <= 4 * (M * M).
Proof.
  intros (Npx & Npy & Bpx & Bpy) (Nqx & Nqy & Bqx & Bqy). destruct (M_sq M HM) as [M1 M2]. pose proof eta_small as E1. pose proof eta_pos as E0.
  destruct (diff_err M HM _ _ Nqx Npx Bqx Bpx) as (N1 & D1 & B1). destruct (sum_err _ _ Npy Nqy Bpy Bqy) as (N2 & D2 & B2). destruct (prod_diff_err M HM _ _ _ _ D1 B1 D2 B2) as [P Q].
  destruct (mul64 _ _ N1 N2) as [N3 [E3 _]]; [lra|]. fold (shoe p q) in N3, E3. split; [exact N3|].
  change (shoe (val2 p) (val2 q)) with ((val (x2 q) - val (x2 p)) * (val (y2 p) + val (y2 q))). set (T := (val (x2 q) - val (x2 p)) * (val (y2 p) + val (y2 q))) in *. set (t := val (fsub (x2 q) (x2 p)) * val (fadd (y2 p) (y2 q))) in *.
  assert (F3 : eps * Rabs t <= eps * (5 * (M * M))) by (apply Rmult_le_compat_l; [unfold eps; lra|exact Q]). assert (S1 : eta <= eps * (M * M)) by (unfold eps in *; lra). split.
  - replace (val (shoe p q) - T) with ((val (shoe p q) - t) + (t - T)) by ring. eapply Rle_trans; [apply Rabs_triang|]. lra.
  - unfold T. rewrite Rabs_mult. apply Rle_trans with (2 * M * (2 * M)); [apply Rmult_le_compat; auto using Rabs_pos|lra].
Qed.
(** one more term *)
Lemma shoe_step (k : nat) (s : f64) (S : R) p q : (Z.of_nat k <= 2 ^ 20)%Z -> num64 s -> Rabs (val s - S) <= INR k * (26 + 6 * INR k) * (eps * (M * M)) -> Rabs S <= INR k * (4 * (M * M)) ->
  bounded_point M p -> bounded_point M q ->
  num64 (fadd s (shoe p q)) /\ Rabs (val (fadd s (shoe p q)) - (S + shoe (val2 p) (val2 q))) <= INR (k + 1) * (26 + 6 * INR (k + 1)) * (eps * (M * M)) /\
  Rabs (S + shoe (val2 p) (val2 q)) <= INR (k + 1) * (4 * (M * M)).
Proof.
  intros Hk Ns Es Bs Hp Hq. destruct (M_sq M HM) as [M1 M2]. pose proof eta_small as E1. pose proof eta_pos as E0.
  destruct (shoe_err p q Hp Hq) as (N & E & B). assert (K : INR k <= 1048576) by (rewrite INR_IZR_INZ; apply IZR_le; exact Hk). pose proof (pos_INR k) as K0. rewrite plus_INR. change (INR 1) with 1. set (x := INR k) in *.
  assert (Pm : 0 <= eps * (M * M)) by (unfold eps; lra).
  assert (Sum : Rabs (S + shoe (val2 p) (val2 q)) <= (x + 1) * (4 * (M * M))) by (eapply Rle_trans; [apply Rabs_triang|lra]).
  assert (D : Rabs (val s + val (shoe p q) - (S + shoe (val2 p) (val2 q))) <= (x * (26 + 6 * x) + 19) * (eps * (M * M))).
  { replace (val s + val (shoe p q) - (S + shoe (val2 p) (val2 q))) with ((val s - S) + (val (shoe p q) - shoe (val2 p) (val2 q))) by ring. eapply Rle_trans; [apply Rabs_triang|]. lra. }
  assert (Small : (x * (26 + 6 * x) + 19) * eps <= x + 1).
  { assert (A : x * (26 + 6 * x) <= x * (26 + 6 * 1048576)) by (apply Rmult_le_compat_l; lra). unfold eps. lra. }
  assert (D2 : (x * (26 + 6 * x) + 19) * (eps * (M * M)) <= (x + 1) * (M * M)) by (rewrite <- Rmult_assoc; apply Rmult_le_compat_r; lra).
  assert (Big : Rabs (val s + val (shoe p q)) <= (x + 1) * (5 * (M * M))).
  { replace (val s + val (shoe p q)) with ((val s + val (shoe p q) - (S + shoe (val2 p) (val2 q))) + (S + shoe (val2 p) (val2 q))) by ring. eapply Rle_trans; [apply Rabs_triang|]. lra. }
  assert (Fit : Rabs (val s + val (shoe p q)) < pow2 1023).
  { eapply Rle_lt_trans; [exact Big|]. apply Rle_lt_trans with (1048577 * (5 * (M * M))); [apply Rmult_le_compat_r; lra|]. clear - HM. 
    apply Rle_lt_trans with (1048577 * (5 * (pow2 500 * pow2 500))); [assert (M * M <= pow2 500 * pow2 500) by (apply Rmult_le_compat; lra); lra|].
    apply Rlt_le_trans with (8388608 * (pow2 500 * pow2 500)); [assert (0 < pow2 500 * pow2 500) by (apply Rmult_lt_0_compat; apply pow2_pos); lra|]. rewrite <- pow2_add. change 8388608 with (IZR (2 ^ 23)). rewrite pow2_Z by lia. rewrite <- pow2_add. apply pow2_le. lia. }
  destruct (add64 s (shoe p q) Ns N Fit) as [Nr [Er _]]. split; [exact Nr|]. split; [|exact Sum].
  replace (val (fadd s (shoe p q)) - (S + shoe (val2 p) (val2 q))) with ((val (fadd s (shoe p q)) - (val s + val (shoe p q))) + (val s + val (shoe p q) - (S + shoe (val2 p) (val2 q)))) by ring.
  eapply Rle_trans; [apply Rabs_triang|]. assert (F : eps * Rabs (val s + val (shoe p q)) <= eps * ((x + 1) * (5 * (M * M)))) by (apply Rmult_le_compat_l; [unfold eps; lra|exact Big]).
  assert (S1 : eta <= eps * (M * M)) by (unfold eps in *; lra). assert (XX : 0 <= x * (eps * (M * M))) by (apply Rmult_le_pos; assumption). lra.
Qed.
End Shoelace.
(** the sum of the code over the reals is minus twice the area *)
Lemma shoelace_sum (l : list (vec2 R)) V : (1 <= length l)%nat ->
  foldM (fun sum i => p1 <- idx l (i + 1) ;; p <- idx l i ;; Ok (fadd sum (fmul (fsub (x2 p1) (x2 p)) (fadd (y2 p) (y2 p1))))) f0 (Prelude.range 0 (length l - 1)) = Ok V ->
  V + shoe (nth (length l - 1) l (V2 0 0)) (nth 0 l (V2 0 0)) = - area2 l.
Proof.
  intros HL EV. remember (length l - 1)%nat as n1 eqn:En1.
  assert (E : V = chain trapezoid l).
  { replace (chain trapezoid l) with (chain trapezoid (firstn (S n1) l)) by (rewrite firstn_all2 by lia; reflexivity).
    destruct (foldM_range (fun i s => s = chain trapezoid (firstn (S i) l)) (fun sum i => p1 <- idx l (i + 1) ;; p <- idx l i ;; Ok (fadd sum (fmul (fsub (x2 p1) (x2 p)) (fadd (y2 p) (y2 p1))))) 0 n1 f0) as (s & Es & Hs); [lia|destruct l; [cbn in HL; lia|]; cbn; rnum; reflexivity| |congruence].
    intros i s Hi ->. rewrite (idx_nth _ _ (V2 0 0)), (idx_nth _ _ (V2 0 0)) by lia. cbn [obind]. eexists. split; [reflexivity|]. rnum.
    replace (i + 1)%nat with (S i) by lia. rewrite (firstn_S_nth l (S i) (V2 0 0)) by lia. rewrite (firstn_S_nth l i (V2 0 0)) by lia. rewrite chain_snoc. f_equal. }
  subst V. rewrite <- cyc_trapezoid. clear EV. destruct (exists_last (l := l)) as (k & z & Ek); [intros El; subst l; cbn in HL; lia|]. rewrite En1, Ek, app_length. cbn [length].
  replace (length k + 1 - 1)%nat with (length k) by lia. rewrite nth_middle. unfold shoe, cyc. rnum. destruct k as [|b k]; cbn [app nth].
  + cbn. unfold trapezoid. lra.
  + change (b :: (k ++ [z]) ++ [b]) with (((b :: k) ++ [z]) ++ [b]). rewrite chain_snoc. unfold trapezoid at 3. reflexivity.
Qed.
(** the sign of the area decides, when the area is larger than the rounding error of the sum *)
Theorem C63_orientation M (ps : list (vec2 f64)) : 1 <= M <= pow2 500 -> (forall p, In p ps -> bounded_point M p) -> ps <> [] -> (Z.of_nat (length ps) <= 2 ^ 20)%Z ->
  INR (length ps) * INR (length ps) * pow2 (-48) * (M * M) < Rabs (area2 (map val2 ps)) ->
  exists b, is_polygon_counter_clockwise ps = Ok b /\ (b = true <-> 0 < area2 (map val2 ps)).
Proof.
  intros HM HB Hne Hlen Hc. set (rs := map val2 ps) in *. assert (Hrs : rs <> []) by (unfold rs; destruct ps; [congruence|discriminate]).
  assert (H1 : (1 <= length ps)%nat) by (destruct ps; [congruence|cbn; lia]).
  assert (P : forall i, (i < length ps)%nat -> idx ps i = Ok (nth i ps (V2 f0 f0)) /\ idx rs i = Ok (val2 (nth i ps (V2 f0 f0))) /\ bounded_point M (nth i ps (V2 f0 f0))).
  { intros i Hi. unfold rs. rewrite idx_map, (idx_nth ps i (V2 f0 f0)) by exact Hi. repeat split; try reflexivity; apply HB, nth_In, Hi. }
  assert (S : forall m, (m <= length ps - 1)%nat -> exists v V, foldM (fun sum i => p1 <- idx ps (i + 1) ;; p <- idx ps i ;; Ok (fadd sum (fmul (fsub (x2 p1) (x2 p)) (fadd (y2 p) (y2 p1))))) f0 (Prelude.range 0 m) = Ok v /\
     foldM (fun sum i => p1 <- idx rs (i + 1) ;; p <- idx rs i ;; Ok (fadd sum (fmul (fsub (x2 p1) (x2 p)) (fadd (y2 p) (y2 p1))))) f0 (Prelude.range 0 m) = Ok V /\
     num64 v /\ Rabs (val v - V) <= INR m * (26 + 6 * INR m) * (eps * (M * M)) /\ Rabs V <= INR m * (4 * (M * M))).
  { induction m as [|m IH]; intros Hm.
    - exists f0, 0. split; [reflexivity|]. split; [reflexivity|]. split; [exact f0_num|]. rewrite f0_val, Rminus_0_r, Rabs_R0. cbn [INR]. lra.
    - destruct (IH ltac:(lia)) as (v & V & E1 & E2 & Nv & Ev & Bv). unfold Prelude.range in *. rewrite Nat.sub_0_r in *. rewrite seq_S, !foldM_app, E1, E2. cbn [obind foldM plus].
      destruct (P m ltac:(lia)) as (I1 & I2 & G1). destruct (P (m + 1)%nat ltac:(lia)) as (J1 & J2 & G2). rewrite I1, I2, J1, J2. cbn [obind].
      destruct (shoe_step M HM m v V _ _ ltac:(lia) Nv Ev Bv G1 G2) as (A & B & D). eexists. eexists. split; [reflexivity|]. split; [reflexivity|]. replace (S m) with (m + 1)%nat by lia. split; [exact A|]. split; [exact B|exact D]. }
  unfold is_polygon_counter_clockwise. rewrite usub_Ok by lia. cbn [obind].
  destruct (S (length ps - 1)%nat ltac:(lia)) as (v & V & E1 & E2 & Nv & Ev & Bv). rewrite E1. cbn [obind].
  destruct (P 0%nat ltac:(lia)) as (I1 & I2 & G0). destruct (P (length ps - 1)%nat ltac:(lia)) as (J1 & J2 & G1). rewrite I1, J1. cbn [obind].
  destruct (shoe_step M HM (length ps - 1) v V _ _ ltac:(lia) Nv Ev Bv G1 G0) as (A & B & D). replace (length ps - 1 + 1)%nat with (length ps) in B, D by lia.
  set (W := V + shoe (val2 (nth (length ps - 1) ps (V2 f0 f0))) (val2 (nth 0 ps (V2 f0 f0)))) in *.
  assert (EW : W = - area2 rs).
  { assert (LR : length rs = length ps) by apply map_length. rewrite <- (shoelace_sum rs V) by (rewrite LR; assumption). unfold W. rewrite LR. f_equal. f_equal; (rewrite (nth_indep rs _ (val2 (V2 f0 f0))) by lia; symmetry; apply map_nth). }
  exists (Rltb (val (fadd v (shoe (nth (length ps - 1) ps (V2 f0 f0)) (nth 0 ps (V2 f0 f0))))) 0). split.
  - f_equal. change (fltb (fadd v (shoe (nth (length ps - 1) ps (V2 f0 f0)) (nth 0 ps (V2 f0 f0)))) f0 = Rltb (val (fadd v (shoe (nth (length ps - 1) ps (V2 f0 f0)) (nth 0 ps (V2 f0 f0))))) 0). rewrite ltb_val by (auto using f0_num). now rewrite f0_val.
  - rewrite Rltb_true. rewrite EW in B. assert (E48 : pow2 (-48) = 32 * eps) by (change (-48)%Z with (5 + -53)%Z; rewrite pow2_add, eps_pow2, <- (pow2_Z 5) by lia; reflexivity). rewrite E48 in Hc.
    assert (Pn : 1 <= INR (length ps)) by (change 1 with (INR 1); apply le_INR; exact H1). set (n := INR (length ps)) in *.
    assert (Q : n * (26 + 6 * n) <= 32 * (n * n)) by nra. assert (0 <= eps * (M * M)) by (assert (0 <= M * M) by nra; unfold eps; lra).
    assert (Q' : n * (26 + 6 * n) * (eps * (M * M)) <= 32 * (n * n) * (eps * (M * M))) by (apply Rmult_le_compat_r; assumption).
    apply abs_between in B. unfold Rabs in Hc. destruct (Rcase_abs (area2 rs)); lra.
Qed.

(** ** C63: the segment test *)
Lemma decided_product M t1 T1 t2 T2 : 1 <= M <= pow2 250 -> decided M t1 T1 -> decided M t2 T2 -> Rabs T1 <= 8 * (M * M) -> Rabs T2 <= 8 * (M * M) ->
  fltb (fmul t1 t2) f0 = Rltb (T1 * T2) 0.
Proof.
  intros HM [N1 D1] [N2 D2] B1 B2. pose proof eta_small as E1. pose proof eta_pos as E0.
  assert (Z : val t1 * val t2 = 0 -> T1 * T2 = 0 -> fltb (fmul t1 t2) f0 = Rltb (T1 * T2) 0).
  { intros Z1 Z2. destruct (mul_zero t1 t2 N1 N2 Z1) as [N V]. rewrite ltb_val by (auto using f0_num). now rewrite V, Z2, f0_val. }
  destruct D1 as [[C1 D1]|[Z1 Z1']]; [|apply Z; [rewrite Z1|rewrite Z1']; ring]. destruct D2 as [[C2 D2]|[Z2 Z2']]; [|apply Z; [rewrite Z2|rewrite Z2']; ring]. clear Z.
  assert (MM : 1 <= M * M) by nra. assert (PM : eps * (M * M) <= M * M / 1000) by (unfold eps; lra). assert (Pm : 0 <= eps * (M * M)) by (unfold eps; lra).
  assert (S1 : TOL < Rabs (val t1) <= 9 * (M * M) /\ (0 < val t1 <-> 0 < T1)) by (apply abs_between in D1; unfold TOL in *; unfold Rabs in *; destruct (Rcase_abs T1), (Rcase_abs (val t1)); lra).
  assert (S2 : TOL < Rabs (val t2) <= 9 * (M * M) /\ (0 < val t2 <-> 0 < T2)) by (apply abs_between in D2; unfold TOL in *; unfold Rabs in *; destruct (Rcase_abs T2), (Rcase_abs (val t2)); lra).
  destruct S1 as [[L1 U1] S1], S2 as [[L2 U2] S2]. assert (T0 : 0 < TOL) by (unfold TOL; lra).
  assert (Lo : TOL * TOL < Rabs (val t1 * val t2)) by (rewrite Rabs_mult; apply Rmult_le_0_lt_compat; lra).
  assert (Up : Rabs (val t1 * val t2) < pow2 1023).
  { rewrite Rabs_mult. apply Rle_lt_trans with (9 * (M * M) * (9 * (M * M))); [apply Rmult_le_compat; auto using Rabs_pos|].
    assert (MQ : M * M <= pow2 500) by (change 500%Z with (250 + 250)%Z; rewrite pow2_add; apply Rmult_le_compat; lra). assert (MQ2 : M * M * (M * M) <= pow2 1000) by (change 1000%Z with (500 + 500)%Z; rewrite pow2_add; apply Rmult_le_compat; lra).
    apply Rle_lt_trans with (IZR (2 ^ 7) * pow2 1000); [change (IZR (2 ^ 7)) with 128; pose proof (pow2_pos 1000); lra|]. rewrite pow2_Z by lia. rewrite <- pow2_add. apply pow2_lt. lia. }
  destruct (mul64 t1 t2 N1 N2 Up) as [N [E S]]. rewrite ltb_val by (auto using f0_num). rewrite f0_val. apply eq_true_iff_eq. rewrite !Rltb_true. set (z := val (fmul t1 t2)) in *. set (x := val t1 * val t2) in *.
  assert (Nx : z <> 0). { intros Hz. rewrite Hz in E. replace (0 - x) with (- x) in E by ring. rewrite Rabs_Ropp in E. unfold TOL, eps in *. lra. }
  assert (G : z < 0 <-> x < 0) by (split; intros; destruct (Req_dec x 0) as [X0|X0]; try (rewrite X0, Rabs_R0 in Lo; nra); nra). rewrite G. unfold x.
  assert (X1 : val t1 <> 0) by (intros H; rewrite H, Rabs_R0 in L1; lra). assert (X2 : val t2 <> 0) by (intros H; rewrite H, Rabs_R0 in L2; lra).
  assert (Y1 : T1 <> 0) by (intros H; rewrite H, Rabs_R0 in C1; lra). assert (Y2 : T2 <> 0) by (intros H; rewrite H, Rabs_R0 in C2; lra).
  clear - X1 X2 Y1 Y2 S1 S2.
  assert (K : forall u v : R, u <> 0 -> v <> 0 -> (u * v < 0 <-> ~ (0 < u <-> 0 < v))).
  { intros u v Hu Hv. destruct (Rlt_dec 0 u), (Rlt_dec 0 v); split; intros; try tauto; try nra. }
  rewrite !K by assumption. rewrite S1, S2. reflexivity.
Qed.
(** each endpoint is clear of the line of the other segment, or equal to one of its endpoints *)
Theorem C63_segments M (a b c d : vec2 f64) : 1 <= M <= pow2 250 -> bounded_point M a -> bounded_point M b -> bounded_point M c -> bounded_point M d ->
  clear3 M c d a -> clear3 M c d b -> clear3 M a b c -> clear3 M a b d ->
  is_segments_intersect a b c d = true <-> segments_meet (val2 a) (val2 b) (val2 c) (val2 d).
Proof.
  intros HM Ha Hb Hc Hd H1 H2 H3 H4. rewrite <- C43_segments_intersect. assert (HM' : 1 <= M <= pow2 500) by (split; [lra|apply Rle_trans with (pow2 250); [lra|apply pow2_le; lia]]).
  assert (E : is_segments_intersect a b c d = is_segments_intersect (val2 a) (val2 b) (val2 c) (val2 d)); [|now rewrite E].
  unfold is_segments_intersect. cbv zeta.
  assert (B : forall x y z w, num64 x -> num64 y -> num64 z -> num64 w -> fltb (fmax z w) (fmin x y) = fltb (fmax (val z) (val w)) (fmin (val x) (val y))).
  { intros x y z w Hx Hy Hz Hw. destruct (fmin_val x y Hx Hy) as [N1 V1]. destruct (fmax_val z w Hz Hw) as [N2 V2]. rewrite ltb_val by assumption. now rewrite V1, V2. }
  assert (X1 := decided_from M HM' c d a Hc Hd Ha H1). assert (X2 := decided_from M HM' d c b Hd Hc Hb (clear3_swap M c d b H2)).
  assert (X3 := decided_to M HM' a b c Ha Hb Hc H3). assert (X4 := decided_to M HM' b a d Hb Ha Hd (clear3_swap M a b d H4)).
  destruct (cross_err M HM' c a d a Hc Ha Hd Ha) as (_ & _ & Y1). destruct (cross_err M HM' d b c b Hd Hb Hc Hb) as (_ & _ & Y2). destruct (cross_err M HM' c a c b Hc Ha Hc Hb) as (_ & _ & Y3). destruct (cross_err M HM' d b d a Hd Hb Hd Ha) as (_ & _ & Y4).
  rewrite (decided_product M _ _ _ _ HM X1 X2 Y1 Y2), (decided_product M _ _ _ _ HM X3 X4 Y3 Y4).
  destruct Ha as (Ax & Ay & _), Hb as (Bx & By & _), Hc as (Cx & Cy & _), Hd as (Dx & Dy & _). rewrite !B by assumption. reflexivity.
Qed.
(** ** C63: the point test of the mesher *)
Theorem C63_point_in_triangle M (p a b c : vec2 f64) : 1 <= M <= pow2 500 -> bounded_point M p -> bounded_point M a -> bounded_point M b -> bounded_point M c ->
  clear3 M a b p -> clear3 M b c p -> clear3 M c a p -> 0 < tri_area2 (val2 a) (val2 b) (val2 c) ->
  point_is_inside_triangle p a b c = true <-> in_triangle 0 (val2 a) (val2 b) (val2 c) (val2 p).
Proof.
  intros HM Hp Ha Hb Hc H1 H2 H3 HA.
  assert (X1 := decided_from M HM a b p Ha Hb Hp H1). assert (X2 := decided_from M HM b c p Hb Hc Hp H2). assert (X3 := decided_from M HM c a p Hc Ha Hp H3).
  rewrite <- C44_ear_test by exact HA.
  assert (E : point_is_inside_triangle p a b c = is_inside_triangle (val2 a) (val2 b) (val2 c) (val2 p)); [|now rewrite E].
  unfold point_is_inside_triangle, is_inside_triangle. cbv zeta.
  assert (K : forall t T, decided M t T -> fleb f0 t || near t f0 = Rleb 0 T).
  { intros t T D. destruct (decided_tests M t T (proj1 HM) D) as (E1 & _ & E3). rewrite E1, E3. destruct D as [_ [[D _]|[_ D]]].
    - assert (NR : near T 0 = false); [|rewrite NR; apply orb_false_r]. unfold near, abs_diff_eq, ftol. rnum. rewrite Rminus_0_r. apply not_true_iff_false. rewrite Rleb_true. assert (0 <= eps * (M * M)) by (assert (0 <= M * M) by nra; unfold eps; lra). unfold TOL in D. lra.
    - rewrite D. assert (R0 : Rleb 0 0 = true) by (apply Rleb_true; lra). now rewrite R0. }
  rewrite (K _ _ X1), (K _ _ X2), (K _ _ X3). reflexivity.
Qed.

(** ** Concrete cases: corners with decimal coordinates, none of which but 0 is a double exactly *)
Definition decimals (a b : Z) : vec2 f64 := V2 (tenth a) (tenth b).
Definition decimal_dart : list (vec2 f64) := [decimals 0 0; decimals 9 1; decimals 3 3; decimals 1 9].
Lemma tenth_0 : num64 (tenth 0) /\ val (tenth 0) = 0.
Proof. split; [now vm_compute|reflexivity]. Qed.
Lemma tenth_values : (num64 (tenth 1) /\ val (tenth 1) = 7205759403792794 / 72057594037927936) /\ (num64 (tenth 3) /\ val (tenth 3) = 5404319552844595 / 18014398509481984) /\
  num64 (tenth 9) /\ val (tenth 9) = 8106479329266893 / 9007199254740992.
Proof.
  assert (Q : forall m e k, (e = - Z.pos k)%Z -> IZR (2 ^ Z.pos k) * (IZR (Z.pos m) * pow2 e) = IZR (Z.pos m)).
  { intros m e k E. rewrite pow2_Z by lia. rewrite Rmult_comm, Rmult_assoc, <- pow2_add, E. replace (- Z.pos k + Z.pos k)%Z with 0%Z by lia. rewrite pow2_0. ring. }
  split; [|split].
  - assert (E : tenth 1 = S754_finite false 7205759403792794 (-56)) by (vm_compute; reflexivity). split; [rewrite E; now vm_compute|]. rewrite E. cbn [B2R].
    pose proof (Q 7205759403792794%positive (-56)%Z 56%positive eq_refl) as P. change (IZR (2 ^ 56)) with 72057594037927936 in P. lra.
  - assert (E : tenth 3 = S754_finite false 5404319552844595 (-54)) by (vm_compute; reflexivity). split; [rewrite E; now vm_compute|]. rewrite E. cbn [B2R].
    pose proof (Q 5404319552844595%positive (-54)%Z 54%positive eq_refl) as P. change (IZR (2 ^ 54)) with 18014398509481984 in P. lra.
  - assert (E : tenth 9 = S754_finite false 8106479329266893 (-53)) by (vm_compute; reflexivity). split; [rewrite E; now vm_compute|]. rewrite E. cbn [B2R].
    pose proof (Q 8106479329266893%positive (-53)%Z 53%positive eq_refl) as P. change (IZR (2 ^ 53)) with 9007199254740992 in P. lra.
Qed.
Ltac decimal_values := pose proof tenth_0 as [_ V0]; pose proof tenth_values as [[_ V1] [[_ V3] [_ V9]]]; rewrite ?V0, ?V1, ?V3, ?V9.
Lemma decimal_bounded a b : In a [0; 1; 3; 9]%Z -> In b [0; 1; 3; 9]%Z -> bounded_point 1 (decimals a b).
Proof.
  assert (K : forall z, In z [0; 1; 3; 9]%Z -> num64 (tenth z) /\ Rabs (val (tenth z)) <= 1).
  { intros z Hz. pose proof tenth_0 as [N0 V0]. pose proof tenth_values as [[N1 V1] [[N3 V3] [N9 V9]]]. cbn [In] in Hz.
    destruct Hz as [Hz|[Hz|[Hz|[Hz|[]]]]]; subst z; (split; [assumption|]); rewrite ?V0, ?V1, ?V3, ?V9; unfold Rabs; destruct (Rcase_abs _); lra. }
  intros Ha Hb. destruct (K a Ha), (K b Hb). unfold bounded_point, decimals. cbn [x2 y2]. tauto.
Qed.
Lemma one_range k : (0 <= k)%Z -> 1 <= 1 <= pow2 k.
Proof. intros H. split; [lra|]. rewrite <- pow2_0. now apply pow2_le. Qed.
Lemma pow2_47 : pow2 (-47) <= / 1000000.
Proof.
  assert (P : IZR (2 ^ 47) * pow2 (-47) = 1) by (rewrite pow2_Z by lia; rewrite <- pow2_add; apply pow2_0). change (IZR (2 ^ 47)) with 140737488355328 in P. lra.
Qed.
Lemma decimal_clear : clear_polygon 1 decimal_dart.
Proof.
  split; [apply one_range; lia|]. split.
  - intros p Hp. cbn [decimal_dart In] in Hp. destruct Hp as [Hp|[Hp|[Hp|[Hp|[]]]]]; subst p; apply decimal_bounded; cbn; tauto.
  - cbn [decimal_dart length]. intros i j k Hi Hj Hk N1 N2 N3. pose proof pow2_47 as P. unfold pt, decimal_dart, decimals, val2. cbn [map x2 y2]. decimal_values.
    destruct i as [|[|[|[|]]]]; [| | | |lia]; (destruct j as [|[|[|[|]]]]; [| | | |lia]); try (exfalso; lia); (destruct k as [|[|[|[|]]]]; [| | | |lia]); try (exfalso; lia);
    cbn [nth]; unfold tri_area2, TOL; cbn [x2 y2]; unfold Rabs; destruct (Rcase_abs _); lra.
Qed.
Lemma decimal_simple : simple_polygon (map val2 decimal_dart).
Proof.
  unfold simple_polygon, segments_cross. cbn [decimal_dart length map]. intros i j Hi Hj [K1 K2]. revert K1 K2. unfold pt, decimals, val2. cbn [x2 y2]. decimal_values.
  destruct i as [|[|[|[|]]]]; [| | | |lia]; (destruct j as [|[|[|[|]]]]; [| | | |lia]); cbn; unfold tri_area2; cbn [x2 y2]; lra.
Qed.
Lemma decimal_area : / 10 < area2 (map val2 decimal_dart) < 1.
Proof. unfold decimal_dart, decimals, val2. cbn [map x2 y2]. decimal_values. unfold area2, cyc, chain, cross2. cbn. lra. Qed.
Example C63_simple_nonvacuous : exists conc T, compute_vertex_convexity decimal_dart = Ok ([0; 1; 2; 3]%nat, conc) /\ trianglate_polygon decimal_dart [0; 1; 2; 3]%nat conc = Ok (emit T) /\ length T = 2%nat.
Proof.
  destruct (C63_simple 1 decimal_dart) as (conc & T & E1 & E2 & E3 & _); [exact decimal_clear|cbn; lia|exact decimal_simple|pose proof decimal_area; lra|].
  exists conc, T. split; [exact E1|]. split; [exact E2|exact E3].
Qed.
Example C63_orientation_nonvacuous : is_polygon_counter_clockwise decimal_dart = Ok true.
Proof.
  pose proof decimal_clear as (HM & HB & _). pose proof decimal_area as HA. pose proof pow2_47 as P.
  destruct (C63_orientation 1 decimal_dart HM HB) as (b & E & Hb); [discriminate|cbn; lia| |].
  - replace (pow2 (-48)) with (/ 2 * pow2 (-47)) by (change (-47)%Z with (1 + -48)%Z; rewrite pow2_add; replace (pow2 1) with (IZR (2 ^ 1)) by (rewrite pow2_Z by lia; reflexivity); cbn; lra).
    change (INR (length decimal_dart)) with (1 + 1 + 1 + 1). rewrite Rabs_right by lra. lra.
  - rewrite E. f_equal. apply Hb. lra.
Qed.
Example C63_segments_nonvacuous : is_segments_intersect (decimals 0 0) (decimals 9 9) (decimals 1 3) (decimals 3 1) = true /\
  segments_meet (val2 (decimals 0 0)) (val2 (decimals 9 9)) (val2 (decimals 1 3)) (val2 (decimals 3 1)).
Proof.
  assert (E : is_segments_intersect (decimals 0 0) (decimals 9 9) (decimals 1 3) (decimals 3 1) = true) by (vm_compute; reflexivity). split; [exact E|].
  apply (C63_segments 1) in E; try exact E; try (apply decimal_bounded; cbn; tauto); [apply one_range; lia|..]; right; right; right; pose proof pow2_47 as P;
    unfold tri_area2, decimals, val2, TOL; cbn [x2 y2]; decimal_values; unfold Rabs; destruct (Rcase_abs _); lra.
Qed.
Example C63_point_in_triangle_nonvacuous : in_triangle 0 (val2 (decimals 0 0)) (val2 (decimals 9 1)) (val2 (decimals 1 9)) (val2 (decimals 3 3)) /\
  point_is_inside_triangle (decimals 9 9) (decimals 0 0) (decimals 9 1) (decimals 1 9) = false.
Proof.
  split; [|vm_compute; reflexivity]. assert (E : point_is_inside_triangle (decimals 3 3) (decimals 0 0) (decimals 9 1) (decimals 1 9) = true) by (vm_compute; reflexivity).
  apply (C63_point_in_triangle 1) in E; try exact E; try (apply decimal_bounded; cbn; tauto); [apply one_range; lia| | | |];
    [right; right; right; pose proof pow2_47 as P..|]; unfold tri_area2, decimals, val2, TOL; cbn [x2 y2]; decimal_values; unfold Rabs; try destruct (Rcase_abs _); lra.
Qed.
