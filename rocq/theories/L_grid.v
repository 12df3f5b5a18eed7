(** Double arithmetic is exact on coordinate grids: sums, differences and products of small
    integer multiples of a power of two. *)
From Coq Require Import ZArith Reals Lra Lia List Bool Floats.SpecFloat.
From Verif Require Import Prelude Num M_vec M_utils M_polygon L_base L_float.
Open Scope R_scope.
Notation num64 := (number p64 e64).
Notation val := B2R.
(** [x] is a finite double and its value is an integer multiple of [2^s], at most [K] of them *)
Definition grid (s K : Z) (x : f64) : Prop := num64 x /\ exists k, (Z.abs k <= K)%Z /\ val x = IZR k * pow2 s.
(** exponents for which no underflow or overflow happens *)
Definition spaced (s : Z) : Prop := (-1074 <= s <= 971)%Z.
Lemma p64_pos : (1 < p64)%Z. Proof. reflexivity. Qed.
Lemma p64_lt : (p64 < e64)%Z. Proof. reflexivity. Qed.
Lemma exact64 res x k s : rounded p64 e64 res x -> (Z.abs k < 2 ^ 53)%Z -> spaced s -> x = IZR k * pow2 s -> num64 res /\ val res = x.
Proof. intros H Hk Hs E. eapply (rounded_exact p64 e64); eauto; unfold spaced in Hs; cbn; lia. Qed.
Lemma grid_add s K L x y : grid s K x -> grid s L y -> (K + L < 2 ^ 53)%Z -> spaced s -> grid s (K + L) (fadd x y) /\ val (fadd x y) = val x + val y.
Proof.
  intros (Nx & k & Hk & Ex) (Ny & l & Hl & Ey) HKL Hs. assert (E : val x + val y = IZR (k + l) * pow2 s) by (rewrite Ex, Ey, plus_IZR; ring).
  destruct (exact64 (fadd x y) (val x + val y) (k + l) s) as [N V]; [apply SFadd_rounded; auto; reflexivity|lia|exact Hs|exact E|].
  split; [split; [exact N|]; exists (k + l)%Z; split; [lia|]; now rewrite V|exact V].
Qed.
Lemma grid_sub s K L x y : grid s K x -> grid s L y -> (K + L < 2 ^ 53)%Z -> spaced s -> grid s (K + L) (fsub x y) /\ val (fsub x y) = val x - val y.
Proof.
  intros (Nx & k & Hk & Ex) (Ny & l & Hl & Ey) HKL Hs. assert (E : val x - val y = IZR (k - l) * pow2 s) by (rewrite Ex, Ey, minus_IZR; ring).
  destruct (exact64 (fsub x y) (val x - val y) (k - l) s) as [N V]; [apply SFsub_rounded; auto; reflexivity|lia|exact Hs|exact E|].
  split; [split; [exact N|]; exists (k - l)%Z; split; [lia|]; now rewrite V|exact V].
Qed.
Lemma grid_mul s t K L x y : grid s K x -> grid t L y -> (K * L < 2 ^ 53)%Z -> spaced (s + t) -> grid (s + t) (K * L) (fmul x y) /\ val (fmul x y) = val x * val y.
Proof.
  intros (Nx & k & Hk & Ex) (Ny & l & Hl & Ey) HKL Hs. assert (E : val x * val y = IZR (k * l) * pow2 (s + t)) by (rewrite Ex, Ey, mult_IZR, pow2_add; ring).
  assert (B : (Z.abs (k * l) <= K * L)%Z) by (rewrite Z.abs_mul; apply Z.mul_le_mono_nonneg; lia).
  destruct (exact64 (fmul x y) (val x * val y) (k * l) (s + t)) as [N V]; [apply SFmul_rounded; auto; reflexivity|lia|exact Hs|exact E|].
  split; [split; [exact N|]; exists (k * l)%Z; split; [exact B|]; now rewrite V|exact V].
Qed.
Lemma grid_zero s K : (0 <= K)%Z -> grid s K f0.
Proof. intros H. split; [split; reflexivity|]. exists 0%Z. split; [lia|]. change (0 = 0 * pow2 s). ring. Qed.
Lemma grid_mono s K L x : grid s K x -> (K <= L)%Z -> grid s L x.
Proof. intros (N & k & Hk & E) H. split; [exact N|]. exists k. split; [lia|exact E]. Qed.
Lemma f0_val : val (f0 : f64) = 0. Proof. reflexivity. Qed.
(** comparisons of finite doubles are those of their values *)
Lemma ltb_val x y : num64 x -> num64 y -> fltb x y = Rltb (val x) (val y).
Proof.
  intros Hx Hy. apply eq_true_iff_eq. rewrite Rltb_true. apply (SFltb_correct p64 e64); auto; reflexivity.
Qed.
Lemma leb_val x y : num64 x -> num64 y -> fleb x y = Rleb (val x) (val y).
Proof. intros Hx Hy. apply eq_true_iff_eq. rewrite Rleb_true. apply (SFleb_correct p64 e64); auto; reflexivity. Qed.
Lemma eqb_val x y : num64 x -> num64 y -> feqb x y = Reqb (val x) (val y).
Proof. intros Hx Hy. apply eq_true_iff_eq. rewrite Reqb_true. apply (SFeqb_correct p64 e64); auto; reflexivity. Qed.
(** the tolerance *)
Lemma ftol_num : num64 ftol. Proof. split; vm_compute; reflexivity. Qed.
Lemma ftol_val : 0 < val (ftol : f64) < pow2 (-22).
Proof.
  assert (E : (ftol : f64) = S754_finite false 7555786372591432 (-76)) by (vm_compute; reflexivity). rewrite E. cbn [B2R]. split.
  - apply Rmult_lt_0_compat; [lra|apply pow2_pos].
  - replace (-22)%Z with (54 + -76)%Z by lia. rewrite pow2_add. apply Rmult_lt_compat_r; [apply pow2_pos|]. rewrite <- pow2_Z by lia. apply IZR_lt. reflexivity.
Qed.
(** values on a grid coarser than the tolerance are near zero only if they are zero *)
Lemma small_multiple k s : (-22 <= s)%Z -> Rabs (IZR k * pow2 s) < pow2 (-22) -> k = 0%Z.
Proof.
  intros Hs H. destruct (Z.eq_dec k 0) as [|N]; [assumption|exfalso]. rewrite Rabs_mult, (Rabs_right (pow2 s)), <- abs_IZR in H by (left; apply pow2_pos).
  assert (1 <= IZR (Z.abs k)) by (apply IZR_le; lia). pose proof (pow2_le (-22) s Hs). pose proof (pow2_pos s). nra.
Qed.
Lemma grid_near s K x : grid s K x -> (K < 2 ^ 53)%Z -> (-22 <= s <= 971)%Z -> near x f0 = near (val x) 0 /\ (near x f0 = true <-> val x = 0).
Proof.
  intros G HK Hs. assert (HM : spaced s) by (unfold spaced; lia).
  assert (A : near x f0 = true <-> val x = 0).
  { unfold near, abs_diff_eq. pose proof G as (Nx & k & Hk & Ex).
    destruct (grid_sub s K 0 x f0) as [(N & _) V]; [exact G|now apply grid_zero|lia|exact HM|]. rewrite f0_val, Rminus_0_r in V.
    rewrite leb_val; [|change (num64 (SFabs (fsub x f0))); now apply number_abs|exact ftol_num]. change (val (fabs (fsub x f0))) with (val (SFabs (fsub x f0))). rewrite B2R_abs, V, Rleb_true. pose proof ftol_val as [T1 T2].
    split; [|intros ->; rewrite Rabs_R0; lra]. intros H. rewrite Ex in *. rewrite (small_multiple k s) by (try lia; lra). ring. }
  split; [|exact A]. apply eq_true_iff_eq. rewrite A. destruct G as (_ & k & _ & Ex). rewrite Ex. unfold near, abs_diff_eq, ftol. rnum. rewrite Rminus_0_r, Rleb_true.
  split; [intros ->; rewrite Rabs_R0; lra|]. intros H. rewrite (small_multiple k s); [ring|lia|]. eapply Rle_lt_trans; [exact H|].
  assert (E : pow2 (-22) * 4194304 = 1) by (replace 4194304 with (pow2 22) by (rewrite <- pow2_Z by lia; reflexivity); rewrite <- pow2_add; reflexivity).
  lra.
Qed.

(** ** Points *)
Definition val2 (p : vec2 f64) : vec2 R := V2 (val (x2 p)) (val (y2 p)).
Definition grid2 (s K : Z) (p : vec2 f64) : Prop := grid s K (x2 p) /\ grid s K (y2 p).
Section Points.
Variables s K : Z.
Hypothesis Hs : (-11 <= s <= 485)%Z.
Hypothesis HK : (8 * (K * K) < 2 ^ 53)%Z.
Lemma K_small p : grid2 s K p -> (0 <= K < 2 ^ 26)%Z.
Proof. intros ((_ & k & Hk & _) & _). split; [lia|]. destruct (Z.lt_ge_cases K (2 ^ 26)) as [|G]; [assumption|]. nia. Qed.
Lemma spaced_s : spaced s. Proof. unfold spaced; lia. Qed.
Lemma spaced_2s : spaced (s + s). Proof. unfold spaced; lia. Qed.
Lemma sub_grid2 p q : grid2 s K p -> grid2 s K q -> grid2 s (2 * K) (vsub p q) /\ val2 (vsub p q) = vsub (val2 p) (val2 q).
Proof.
  intros Hp Hq. pose proof (K_small p Hp). destruct Hp as [Px Py], Hq as [Qx Qy].
  destruct (grid_sub s K K _ _ Px Qx ltac:(lia) spaced_s) as [A1 A2]. destruct (grid_sub s K K _ _ Py Qy ltac:(lia) spaced_s) as [B1 B2].
  split; [split; (eapply grid_mono; [eassumption|lia])|]. change (V2 (val (fsub (x2 p) (x2 q))) (val (fsub (y2 p) (y2 q))) = V2 (val (x2 p) - val (x2 q)) (val (y2 p) - val (y2 q))). now rewrite A2, B2.
Qed.
Lemma perp_grid p q L : grid2 s L p -> grid2 s L q -> (2 * (L * L) < 2 ^ 53)%Z -> grid (s + s) (2 * (L * L)) (perp_dot p q) /\ val (perp_dot p q) = perp_dot (val2 p) (val2 q).
Proof.
  intros [Px Py] [Qx Qy] HL. assert (0 <= L)%Z by (destruct Px as (_ & k & ? & _); lia).
  destruct (grid_mul s s L L _ _ Px Qy ltac:(nia) spaced_2s) as [A1 A2]. destruct (grid_mul s s L L _ _ Py Qx ltac:(nia) spaced_2s) as [B1 B2].
  destruct (grid_sub (s + s) (L * L) (L * L) _ _ A1 B1 ltac:(lia) spaced_2s) as [C1 C2].
  split; [eapply grid_mono; [exact C1|lia]|]. unfold perp_dot, val2. cbn [x2 y2]. rewrite C2, A2, B2. reflexivity.
Qed.
Lemma cross_grid a b c d : grid2 s K a -> grid2 s K b -> grid2 s K c -> grid2 s K d ->
  grid (s + s) (8 * (K * K)) (perp_dot (vsub a b) (vsub c d)) /\ val (perp_dot (vsub a b) (vsub c d)) = perp_dot (vsub (val2 a) (val2 b)) (vsub (val2 c) (val2 d)).
Proof.
  intros Ha Hb Hc Hd. destruct (sub_grid2 a b Ha Hb) as [A1 A2]. destruct (sub_grid2 c d Hc Hd) as [B1 B2].
  destruct (perp_grid _ _ (2 * K) A1 B1 ltac:(lia)) as [C1 C2]. split; [eapply grid_mono; [exact C1|lia]|]. now rewrite C2, A2, B2.
Qed.
Lemma convexity_grid a b c : grid2 s K a -> grid2 s K b -> grid2 s K c -> compute_convexity (val2 a) (val2 b) (val2 c) = compute_convexity a b c.
Proof.
  intros Ha Hb Hc. unfold compute_convexity. cbv zeta. destruct (cross_grid b a c b Hb Ha Hc Hb) as [G V]. rewrite <- V.
  destruct (grid_near (s + s) _ _ G ltac:(lia) ltac:(lia)) as [-> _]. rewrite (ltb_val f0) by (try apply G; apply (grid_zero 0 0); lia). reflexivity.
Qed.
Lemma inside_grid a b c p : grid2 s K a -> grid2 s K b -> grid2 s K c -> grid2 s K p -> is_inside_triangle (val2 a) (val2 b) (val2 c) (val2 p) = is_inside_triangle a b c p.
Proof.
  intros Ha Hb Hc Hp. unfold is_inside_triangle. destruct (cross_grid a p b p Ha Hp Hb Hp) as [G1 V1]. destruct (cross_grid b p c p Hb Hp Hc Hp) as [G2 V2]. destruct (cross_grid c p a p Hc Hp Ha Hp) as [G3 V3].
  rewrite <- V1, <- V2, <- V3. rewrite !(leb_val f0) by (try (apply G1); try apply G2; try apply G3; apply (grid_zero 0 0); lia). reflexivity.
Qed.
Lemma point_inside_grid a b c p : grid2 s K a -> grid2 s K b -> grid2 s K c -> grid2 s K p -> point_is_inside_triangle (val2 p) (val2 a) (val2 b) (val2 c) = point_is_inside_triangle p a b c.
Proof.
  intros Ha Hb Hc Hp. unfold point_is_inside_triangle. cbv zeta. destruct (cross_grid a p b p Ha Hp Hb Hp) as [G1 V1]. destruct (cross_grid b p c p Hb Hp Hc Hp) as [G2 V2]. destruct (cross_grid c p a p Hc Hp Ha Hp) as [G3 V3].
  rewrite <- V1, <- V2, <- V3. rewrite !(leb_val f0) by (try (apply G1); try apply G2; try apply G3; apply (grid_zero 0 0); lia).
  destruct (grid_near (s + s) _ _ G1 ltac:(lia) ltac:(lia)) as [-> _]. destruct (grid_near (s + s) _ _ G2 ltac:(lia) ltac:(lia)) as [-> _]. destruct (grid_near (s + s) _ _ G3 ltac:(lia) ltac:(lia)) as [-> _]. reflexivity.
Qed.
End Points.
