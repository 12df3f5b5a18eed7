(** Property C74: lines, planes, circles and cylinders evaluated in doubles. *)
From Coq Require Import ZArith NArith Reals Lra Lia List Bool Arith Floats.SpecFloat Psatz Machin Ratan.
From Verif Require Import Prelude Props_robust Num M_vec M_utils M_curve M_surface L_base L_vec L_float L_grid L_err L_bserr Props_grid L_geom L_polygon L_round Props_utils Props_round Props_edges64 Props_accuracy.
Open Scope R_scope.

(** ** Absolute errors in units of eps * S *)
Definition scale (S : R) : Prop := pow2 (-900) <= S <= pow2 900.
Definition ap (S e B : R) (x : f64) (X : R) : Prop := num64 x /\ Rabs (val x - X) <= e * (eps * S) /\ Rabs X <= B * S.
Lemma scale_1 : scale 1.
Proof. unfold scale. rewrite <- pow2_0. split; apply pow2_le; lia. Qed.
Lemma scale_facts S : scale S -> 0 < S /\ eta <= eps * S / 1000 /\ 100000000 * S < pow2 1000.
Proof.
  intros [H1 H2]. pose proof (pow2_pos (-900)) as P. split; [lra|]. split.
  - apply Rle_trans with (eps * pow2 (-900) / 1000); [|apply Rmult_le_compat_r; [lra|]; apply Rmult_le_compat_l; [unfold eps; lra|exact H1]].
    unfold eta. rewrite <- eps_pow2, <- pow2_add. replace (-1075)%Z with (-122 + (-53 + -900))%Z by lia. rewrite (pow2_add (-122)). assert (pow2 (-122) <= / 1000); [|pose proof (pow2_pos (-53 + -900)); nra].
    apply Rle_trans with (pow2 (-53)); [apply pow2_le; lia|]. rewrite eps_pow2. unfold eps. lra.
  - assert (pow2 1000 = pow2 27 * pow2 973) by (rewrite <- pow2_add; reflexivity). assert (pow2 900 < pow2 973) by (apply pow2_lt; lia). assert (E : pow2 27 = 134217728) by (rewrite <- pow2_Z by lia; reflexivity). pose proof (pow2_pos 973). rewrite E in *. lra.
Qed.
Lemma ap_round S e B e' (x : f64) z X : scale S -> num64 x -> near64 (val x) z -> Rabs (z - X) <= e * (eps * S) -> Rabs X <= B * S -> 0 <= e <= 10000000 -> e + B + / 10 <= e' -> ap S e' B x X.
Proof.
  intros HS N [R0 _] HE HB He He'. destruct (scale_facts S HS) as (S0 & S1 & _). split; [exact N|]. split; [|exact HB].
  assert (U : 0 < eps * S) by (apply Rmult_lt_0_compat; [unfold eps; lra|exact S0]).
  assert (Z : Rabs z <= B * S + e * (eps * S)) by (replace z with (X + (z - X)) by ring; eapply Rle_trans; [apply Rabs_triang|]; lra).
  assert (Q : eps * Rabs z <= B * (eps * S) + / 100 * (eps * S)).
  { apply Rle_trans with (eps * (B * S + e * (eps * S))); [apply Rmult_le_compat_l; [unfold eps; lra|exact Z]|]. assert (e * eps <= / 100) by (unfold eps; lra). assert (e * eps * (eps * S) <= / 100 * (eps * S)) by (apply Rmult_le_compat_r; lra). lra. }
  replace (val x - X) with ((val x - z) + (z - X)) by ring. eapply Rle_trans; [apply Rabs_triang|]. assert (e' * (eps * S) >= (e + B + / 10) * (eps * S)) by (apply Rmult_ge_compat_r; lra). lra.
Qed.
Lemma ap_size S e B x X : scale S -> ap S e B x X -> 0 <= e <= 1000000 -> Rabs (val x) <= (B + 1) * S.
Proof.
  intros HS (N & E & HB) He. destruct (scale_facts S HS) as (S0 & _). replace (val x) with (X + (val x - X)) by ring. eapply Rle_trans; [apply Rabs_triang|]. assert (e * eps <= 1) by (unfold eps; lra). assert (e * eps * S <= 1 * S) by (apply Rmult_le_compat_r; lra). lra.
Qed.
Lemma ap_add S e1 B1 e2 B2 e B x y X Y : scale S -> ap S e1 B1 x X -> ap S e2 B2 y Y -> 0 <= e1 <= 10000 -> 0 <= e2 <= 10000 -> 0 <= B1 <= 1000 -> 0 <= B2 <= 1000 ->
  e1 + e2 + (B1 + B2) + / 10 <= e -> B = B1 + B2 -> ap S e B (fadd x y) (X + Y).
Proof.
  intros HS Hx Hy He1 He2 HB1 HB2 He ->. destruct (scale_facts S HS) as (S0 & _ & S2). pose proof (ap_size _ _ _ _ _ HS Hx ltac:(lra)) as Z1. pose proof (ap_size _ _ _ _ _ HS Hy ltac:(lra)) as Z2. destruct Hx as (Nx & Ex & Bx), Hy as (Ny & Ey & By).
  pose proof pow2_1000_1023 as P. destruct (add64 x y Nx Ny) as [N R0]. { eapply Rle_lt_trans; [apply Rabs_triang|]. assert ((B1 + 1) * S <= 1001 * S) by (apply Rmult_le_compat_r; lra). assert ((B2 + 1) * S <= 1001 * S) by (apply Rmult_le_compat_r; lra). lra. }
  apply (ap_round S (e1 + e2) (B1 + B2) e _ (val x + val y)); try assumption; try lra.
  - replace (val x + val y - (X + Y)) with ((val x - X) + (val y - Y)) by ring. eapply Rle_trans; [apply Rabs_triang|]. lra.
  - eapply Rle_trans; [apply Rabs_triang|]. lra.
Qed.
Lemma ap_sub S e1 B1 e2 B2 e B x y X Y : scale S -> ap S e1 B1 x X -> ap S e2 B2 y Y -> 0 <= e1 <= 10000 -> 0 <= e2 <= 10000 -> 0 <= B1 <= 1000 -> 0 <= B2 <= 1000 ->
  e1 + e2 + (B1 + B2) + / 10 <= e -> B = B1 + B2 -> ap S e B (fsub x y) (X - Y).
Proof.
  intros HS Hx Hy He1 He2 HB1 HB2 He ->. destruct (scale_facts S HS) as (S0 & _ & S2). pose proof (ap_size _ _ _ _ _ HS Hx ltac:(lra)) as Z1. pose proof (ap_size _ _ _ _ _ HS Hy ltac:(lra)) as Z2. destruct Hx as (Nx & Ex & Bx), Hy as (Ny & Ey & By).
  assert (T : forall a b, Rabs (a - b) <= Rabs a + Rabs b) by (intros a b; unfold Rminus; rewrite <- (Rabs_Ropp b); apply Rabs_triang).
  pose proof pow2_1000_1023 as P. destruct (sub64 x y Nx Ny) as [N R0]. { eapply Rle_lt_trans; [apply T|]. assert ((B1 + 1) * S <= 1001 * S) by (apply Rmult_le_compat_r; lra). assert ((B2 + 1) * S <= 1001 * S) by (apply Rmult_le_compat_r; lra). lra. }
  apply (ap_round S (e1 + e2) (B1 + B2) e _ (val x - val y)); try assumption; try lra.
  - replace (val x - val y - (X - Y)) with ((val x - X) - (val y - Y)) by ring. eapply Rle_trans; [apply T|]. lra.
  - eapply Rle_trans; [apply T|]. lra.
Qed.
Lemma ap_mul S e1 B1 e2 B2 e B x y X Y : scale S -> ap 1 e1 B1 x X -> ap S e2 B2 y Y -> 0 <= e1 <= 10000 -> 0 <= e2 <= 10000 -> 0 <= B1 <= 100 -> 0 <= B2 <= 100 ->
  e1 * B2 + e2 * B1 + B1 * B2 + / 5 <= e -> B = B1 * B2 -> ap S e B (fmul x y) (X * Y).
Proof.
  intros HS Hx Hy He1 He2 HB1 HB2 He ->. destruct (scale_facts S HS) as (S0 & _ & S2). pose proof (ap_size _ _ _ _ _ scale_1 Hx ltac:(lra)) as Z1. pose proof (ap_size _ _ _ _ _ HS Hy ltac:(lra)) as Z2. destruct Hx as (Nx & Ex & Bx), Hy as (Ny & Ey & By). rewrite !Rmult_1_r in *.
  pose proof pow2_1000_1023 as P. pose proof (Rabs_pos (val x)). pose proof (Rabs_pos (val y)). pose proof (Rabs_pos X). pose proof (Rabs_pos Y).
  assert (U : 0 < eps * S) by (apply Rmult_lt_0_compat; [unfold eps; lra|exact S0]).
  destruct (mul64 x y Nx Ny) as [N R0].
  { rewrite Rabs_mult. apply Rle_lt_trans with (101 * (101 * S)); [|lra]. apply Rmult_le_compat; try lra. assert ((B2 + 1) * S <= 101 * S) by (apply Rmult_le_compat_r; lra). lra. }
  assert (E12 : 0 <= e1 * e2 <= 100000000) by (split; [apply Rmult_le_pos; lra|apply Rle_trans with (10000 * 10000); [apply Rmult_le_compat; lra|lra]]).
  assert (G1 : Rabs (val x - X) * Rabs Y <= e1 * eps * (B2 * S)) by (apply Rmult_le_compat; auto using Rabs_pos).
  assert (G2 : Rabs X * Rabs (val y - Y) <= B1 * (e2 * (eps * S))) by (apply Rmult_le_compat; auto using Rabs_pos).
  assert (G3 : Rabs (val x - X) * Rabs (val y - Y) <= e1 * eps * (e2 * (eps * S))) by (apply Rmult_le_compat; auto using Rabs_pos).
  assert (G4 : (e1 * e2 * eps) * (eps * S) <= / 10 * (eps * S)) by (apply Rmult_le_compat_r; [lra|unfold eps; lra]).
  assert (E1B : 0 <= e1 * B2 <= 1000000) by (split; [apply Rmult_le_pos; lra|apply Rle_trans with (10000 * 100); [apply Rmult_le_compat; lra|lra]]).
  assert (E2B : 0 <= e2 * B1 <= 1000000) by (split; [apply Rmult_le_pos; lra|apply Rle_trans with (10000 * 100); [apply Rmult_le_compat; lra|lra]]).
  apply (ap_round S (e1 * B2 + e2 * B1 + / 10) (B1 * B2) e _ (val x * val y)); try assumption; try lra.
  - replace (val x * val y - X * Y) with ((val x - X) * Y + X * (val y - Y) + (val x - X) * (val y - Y)) by ring. eapply Rle_trans; [apply Rabs_triang|]. eapply Rle_trans; [apply Rplus_le_compat_r, Rabs_triang|]. rewrite !Rabs_mult. lra.
  - rewrite Rabs_mult. apply Rle_trans with (B1 * (B2 * S)); [apply Rmult_le_compat; lra|lra].
Qed.
Lemma ap_mul_r S e1 B1 e2 B2 e B x y X Y : scale S -> ap S e1 B1 x X -> ap 1 e2 B2 y Y -> 0 <= e1 <= 10000 -> 0 <= e2 <= 10000 -> 0 <= B1 <= 100 -> 0 <= B2 <= 100 ->
  e1 * B2 + e2 * B1 + B1 * B2 + / 5 <= e -> B = B1 * B2 -> ap S e B (fmul x y) (X * Y).
Proof. intros HS Hx Hy He1 He2 HB1 HB2 He ->. rewrite (Rmult_comm X), mul_comm64. eapply ap_mul; [exact HS|exact Hy|exact Hx|lra..]. Qed.
Lemma ap_weak S e B e' B' x X : scale S -> ap S e B x X -> e <= e' -> B <= B' -> ap S e' B' x X.
Proof.
  intros HS (N & E & HB) He HB'. destruct (scale_facts S HS) as (S0 & _). split; [exact N|]. split.
  - eapply Rle_trans; [exact E|]. apply Rmult_le_compat_r; [|exact He]. apply Rmult_le_pos; [unfold eps|]; lra.
  - eapply Rle_trans; [exact HB|]. apply Rmult_le_compat_r; lra.
Qed.
Lemma ap_exact S B x : scale S -> num64 x -> Rabs (val x) <= B * S -> ap S 0 B x (val x).
Proof. intros HS N HB. split; [exact N|]. split; [rewrite Rminus_diag_eq, Rabs_R0 by reflexivity; lra|exact HB]. Qed.

(** ** Vectors *)
Definition ap3 (S e B : R) (v : vec3 f64) (V : vec3 R) : Prop := ap S e B (x3 v) (x3 V) /\ ap S e B (y3 v) (y3 V) /\ ap S e B (z3 v) (z3 V).
Lemma ap3_add S e1 B1 e2 B2 e B v w V W : scale S -> ap3 S e1 B1 v V -> ap3 S e2 B2 w W -> 0 <= e1 <= 10000 -> 0 <= e2 <= 10000 -> 0 <= B1 <= 1000 -> 0 <= B2 <= 1000 ->
  e1 + e2 + (B1 + B2) + / 10 <= e -> B = B1 + B2 -> ap3 S e B (vadd v w) (vadd V W).
Proof. intros HS (X & Y & Z) (X' & Y' & Z') *. intros. split; [|split]; vsimp; eapply ap_add; eassumption. Qed.
Lemma ap3_sub S e1 B1 e2 B2 e B v w V W : scale S -> ap3 S e1 B1 v V -> ap3 S e2 B2 w W -> 0 <= e1 <= 10000 -> 0 <= e2 <= 10000 -> 0 <= B1 <= 1000 -> 0 <= B2 <= 1000 ->
  e1 + e2 + (B1 + B2) + / 10 <= e -> B = B1 + B2 -> ap3 S e B (vsub v w) (vsub V W).
Proof. intros HS (X & Y & Z) (X' & Y' & Z') *. intros. split; [|split]; vsimp; eapply ap_sub; eassumption. Qed.
Lemma ap3_mul S e1 B1 e2 B2 e B v w V W : scale S -> ap3 1 e1 B1 v V -> ap S e2 B2 w W -> 0 <= e1 <= 10000 -> 0 <= e2 <= 10000 -> 0 <= B1 <= 100 -> 0 <= B2 <= 100 ->
  e1 * B2 + e2 * B1 + B1 * B2 + / 5 <= e -> B = B1 * B2 -> ap3 S e B (vmulr v w) (vmulr V W).
Proof. intros HS (X & Y & Z) H' *. intros. split; [|split]; vsimp; eapply ap_mul; eassumption. Qed.
Lemma ap_dot S e1 B1 e2 B2 e B v w V W : scale S -> ap3 S e1 B1 v V -> ap3 1 e2 B2 w W -> 0 <= e1 <= 200 -> 0 <= e2 <= 200 -> 0 <= B1 <= 6 -> 0 <= B2 <= 6 ->
  3 * (e1 * B2 + e2 * B1 + B1 * B2 + / 5) + 5 * (B1 * B2) + / 5 <= e -> B = 3 * (B1 * B2) -> ap S e B (dot3 v w) (dot3 V W).
Proof.
  intros HS (X & Y & Z) (X' & Y' & Z') H1 H2 H3 H4 He ->. set (E := e1 * B2 + e2 * B1 + B1 * B2 + / 5) in *.
  assert (0 <= e1 * B2 <= 1200) by (split; [apply Rmult_le_pos; lra|apply Rle_trans with (200 * 6); [apply Rmult_le_compat; lra|lra]]).
  assert (0 <= e2 * B1 <= 1200) by (split; [apply Rmult_le_pos; lra|apply Rle_trans with (200 * 6); [apply Rmult_le_compat; lra|lra]]).
  assert (0 <= B1 * B2 <= 36) by (split; [apply Rmult_le_pos; lra|apply Rle_trans with (6 * 6); [apply Rmult_le_compat; lra|lra]]).
  assert (P : forall a b A A', ap S e1 B1 a A -> ap 1 e2 B2 b A' -> ap S E (B1 * B2) (fmul a b) (A * A')) by (intros; eapply ap_mul_r; [exact HS|eassumption|eassumption|unfold E; lra..]).
  unfold dot3. apply (ap_add S (2 * E + 2 * (B1 * B2) + / 10) (2 * (B1 * B2)) E (B1 * B2)); [exact HS| |apply P; [exact Z|exact Z']|unfold E in *; lra..].
  apply (ap_add S E (B1 * B2) E (B1 * B2)); [exact HS|apply P; eassumption|apply P; eassumption|unfold E in *; lra..].
Qed.
Lemma ap3_cross e1 B1 e2 B2 e B v w V W : ap3 1 e1 B1 v V -> ap3 1 e2 B2 w W -> 0 <= e1 <= 100 -> 0 <= e2 <= 100 -> 0 <= B1 <= 10 -> 0 <= B2 <= 10 ->
  2 * (e1 * B2 + e2 * B1 + B1 * B2 + / 5) + 2 * (B1 * B2) + / 10 <= e -> B = 2 * (B1 * B2) -> ap3 1 e B (cross3 v w) (cross3 V W).
Proof.
  intros (X & Y & Z) (X' & Y' & Z') H1 H2 H3 H4 He ->. set (E := e1 * B2 + e2 * B1 + B1 * B2 + / 5) in *.
  assert (0 <= e1 * B2 <= 1000) by (split; [apply Rmult_le_pos; lra|apply Rle_trans with (100 * 10); [apply Rmult_le_compat; lra|lra]]).
  assert (0 <= e2 * B1 <= 1000) by (split; [apply Rmult_le_pos; lra|apply Rle_trans with (100 * 10); [apply Rmult_le_compat; lra|lra]]).
  assert (0 <= B1 * B2 <= 100) by (split; [apply Rmult_le_pos; lra|apply Rle_trans with (10 * 10); [apply Rmult_le_compat; lra|lra]]).
  assert (P : forall a b A A', ap 1 e1 B1 a A -> ap 1 e2 B2 b A' -> ap 1 E (B1 * B2) (fmul a b) (A * A')) by (intros; eapply ap_mul; [exact scale_1|eassumption|eassumption|unfold E; lra..]).
  assert (P' : forall a b A A', ap 1 e1 B1 a A -> ap 1 e2 B2 b A' -> ap 1 E (B1 * B2) (fmul b a) (A' * A)) by (intros; rewrite mul_comm64, (Rmult_comm A'); now apply P).
  unfold cross3. split; [|split]; vsimp; (apply (ap_sub 1 E (B1 * B2) E (B1 * B2)); [exact scale_1|apply P; eassumption|apply P'; eassumption|unfold E in *; lra..]).
Qed.

(** ** The digits of pi, from the series of Machin in the standard library *)
Definition pterm (n : nat) : Z := (2 * 10 ^ 30 / (3 ^ (2 * Z.of_nat n + 1) * (2 * Z.of_nat n + 1)) + 10 ^ 30 / (7 ^ (2 * Z.of_nat n + 1) * (2 * Z.of_nat n + 1)))%Z.
Fixpoint psum (n : nat) : Z := match n with O => pterm O | S k => (psum k + (-1) ^ Z.of_nat n * pterm n)%Z end.
Lemma div_bounds a b : (0 < b)%Z -> IZR (a / b) <= IZR a / IZR b <= IZR (a / b) + 1.
Proof.
  intros Hb. pose proof (Z.div_mod a b ltac:(lia)) as E. pose proof (Z.mod_pos_bound a b Hb) as M. apply (IZR_lt 0) in Hb as Hb'. assert (I : 0 < / IZR b) by now apply Rinv_0_lt_compat.
  assert (F : IZR a / IZR b = IZR (a / b) + IZR (a mod b) / IZR b). { rewrite E at 1. rewrite plus_IZR, mult_IZR. field. lra. }
  rewrite F. assert (0 <= IZR (a mod b) <= IZR b) by (split; apply IZR_le; lia). assert (0 <= IZR (a mod b) / IZR b <= 1). { split; [apply Rmult_le_pos; lra|]. unfold Rdiv. rewrite <- (Rinv_r (IZR b)) by lra. apply Rmult_le_compat_r; lra. } lra.
Qed.
Lemma pterm_ok n : IZR (pterm n) <= 10 ^ 30 * PI_2_3_7_tg n <= IZR (pterm n) + 2.
Proof.
  unfold PI_2_3_7_tg, Ratan_seq. assert (E : INR (2 * n + 1) = IZR (2 * Z.of_nat n + 1)) by (rewrite INR_IZR_INZ; f_equal; lia). rewrite E.
  assert (P : forall z, IZR z <> 0 -> (/ IZR z) ^ (2 * n + 1) = / IZR (z ^ (2 * Z.of_nat n + 1))). { intros z Hz. rewrite pow_inv. f_equal. rewrite pow_IZR. f_equal. f_equal. lia. }
  rewrite !P by lra. set (k := (2 * Z.of_nat n + 1)%Z). assert (0 < k)%Z by lia. assert (0 < 3 ^ k)%Z by (apply Z.pow_pos_nonneg; lia). assert (0 < 7 ^ k)%Z by (apply Z.pow_pos_nonneg; lia).
  pose proof (div_bounds (2 * 10 ^ 30) (3 ^ k * k) ltac:(nia)) as A. pose proof (div_bounds (10 ^ 30) (7 ^ k * k) ltac:(nia)) as B. unfold pterm. fold k. rewrite plus_IZR.
  set (a := (2 * 10 ^ 30 / (3 ^ k * k))%Z) in *. set (b := (10 ^ 30 / (7 ^ k * k))%Z) in *. clearbody a b.
  rewrite !mult_IZR in A. rewrite !mult_IZR in B. assert (T : IZR (10 ^ 30) = 10 ^ 30) by (rewrite pow_IZR; reflexivity). rewrite T in A, B. set (t := 10 ^ 30) in *. clearbody t.
  assert (0 < IZR k) by now apply (IZR_lt 0). assert (0 < IZR (3 ^ k)) by now apply (IZR_lt 0). assert (0 < IZR (7 ^ k)) by now apply (IZR_lt 0).
  replace (t * (2 * (/ IZR (3 ^ k) / IZR k) + / IZR (7 ^ k) / IZR k)) with (2 * t / (IZR (3 ^ k) * IZR k) + t / (IZR (7 ^ k) * IZR k)) by (field; lra). lra.
Qed.
Lemma psum_ok n : Rabs (10 ^ 30 * sum_f_R0 (tg_alt PI_2_3_7_tg) n - IZR (psum n)) <= 2 * (INR n + 1).
Proof.
  induction n as [|n IH]; cbn [sum_f_R0 psum].
  - unfold tg_alt. cbn [pow INR]. rewrite Rmult_1_l. pose proof (pterm_ok 0). apply Rabs_le. lra.
  - rewrite plus_IZR, mult_IZR. rewrite S_INR. unfold tg_alt at 2. pose proof (pterm_ok (S n)) as P. rewrite <- pow_IZR. set (s := (-1) ^ S n). assert (Hs : s = 1 \/ s = -1) by (unfold s; destruct (Nat.Even_or_Odd (S n)) as [[m ->]|[m ->]]; [left; apply pow_1_even|right; rewrite Nat.add_1_r; apply pow_1_odd]).
    set (q := sum_f_R0 (tg_alt PI_2_3_7_tg) n) in *. set (g := PI_2_3_7_tg (S n)) in *. set (z := IZR (psum n)) in *. set (w := IZR (pterm (S n))) in *. set (t := 10 ^ 30) in *. clearbody q g z w t s.
    apply Rabs_le. assert (I : - (2 * (INR n + 1)) <= t * q - z <= 2 * (INR n + 1)) by (revert IH; unfold Rabs; destruct Rcase_abs; lra). destruct Hs as [-> | ->]; lra.
Qed.
Lemma PI_digits : 31415926535897932384 / 10 ^ 19 <= PI <= 31415926535897932385 / 10 ^ 19.
Proof.
  pose proof (PI_2_3_7_ineq 20) as [L H].
  pose proof (psum_ok (S (2 * 20))) as A. pose proof (psum_ok (2 * 20)) as B.
  assert (EA : psum (S (2 * 20)) = ltac:(let v := eval vm_compute in (psum (S (2 * 20))) in exact v)) by (vm_compute; reflexivity).
  assert (EB : psum (2 * 20) = ltac:(let v := eval vm_compute in (psum (2 * 20)) in exact v)) by (vm_compute; reflexivity).
  rewrite EA in A. rewrite EB in B. clear EA EB. 
  set (x := sum_f_R0 (tg_alt PI_2_3_7_tg) (S (2 * 20))) in *. set (y := sum_f_R0 (tg_alt PI_2_3_7_tg) (2 * 20)) in *. clearbody x y. rewrite INR_IZR_INZ in A, B. cbn [Z.of_nat Pos.of_succ_nat Pos.succ Nat.mul Nat.add] in A, B.
  revert A B. unfold Rabs. destruct Rcase_abs; destruct Rcase_abs; intros; lra.
Qed.

Lemma fpi_num : num64 (fpi : f64). Proof. split; reflexivity. Qed.
Lemma fpi_val : Rabs (val (fpi : f64) - PI) <= 2 * eps.
Proof.
  assert (E : val (fpi : f64) = 7074237752028440 * pow2 (-51)) by (vm_compute; lra).
  assert (E2 : pow2 (-51) = 4 * eps) by (change (-51)%Z with (2 + -53)%Z; rewrite pow2_add, eps_pow2; f_equal; rewrite <- pow2_Z by lia; reflexivity).
  rewrite E, E2. pose proof PI_digits. apply Rabs_le. unfold eps. lra.
Qed.
Lemma flit2_num : num64 (f2 : f64). Proof. split; reflexivity. Qed.
Lemma flit2_val : val (f2 : f64) = 2. Proof. vm_compute; lra. Qed.
Lemma half_num : num64 (fhalf : f64). Proof. split; reflexivity. Qed.
Lemma half_val : val (fhalf : f64) = / 2. Proof. vm_compute; lra. Qed.

(** ** Specification *)
(** the sine and cosine of the platform: within 2^-52 of the true ones for angles up to 16 *)
Definition accurate_sin_cos (TF : Trig f64) : Prop := forall x : f64, num64 x -> Rabs (val x) <= 16 ->
  num64 (fsin x) /\ Rabs (val (fsin x) - sin (val x)) <= 2 * eps /\ num64 (fcos x) /\ Rabs (val (fcos x) - cos (val x)) <= 2 * eps.
(** a direction in doubles: within 4 eps of a vector of length 1 *)
Definition near_unit (d : vec3 f64) (D : vec3 R) : Prop := unit3 D /\ close3 (4 * eps) d D.

(** the circle and the cylinder meant: centre and radius as stored, with exact directions *)
Definition real_circle (c : Circle f64) (K V : vec3 R) : Circle R := {| ci_center := val3 (ci_center c); ci_radius := val (ci_radius c); ci_axis := K; ci_ref_dir := V |}.
Definition real_cylinder (c : Cylinder f64) (K V : vec3 R) : Cylinder R := {| cy_origin := val3 (cy_origin c); cy_axis := K; cy_ref_dir := V; cy_radius := val (cy_radius c) |}.

Lemma unit_coords D : unit3 D -> Rabs (x3 D) <= 1 /\ Rabs (y3 D) <= 1 /\ Rabs (z3 D) <= 1.
Proof. unfold unit3, dot3. rnum. intros H. split; [|split]; apply Rabs_le; nra. Qed.
Lemma ap3_dir d D : near_unit d D -> ap3 1 4 1 d D.
Proof. intros [U ((N1 & N2 & N3) & H1 & H2 & H3)]. destruct (unit_coords D U) as (A & B & C). unfold ap3, ap. rewrite !Rmult_1_r. tauto. Qed.
Lemma ap3_exact M p : scale M -> finite3 p -> within M (val3 p) -> ap3 M 0 1 p (val3 p).
Proof. intros HS (N1 & N2 & N3) (H1 & H2 & H3). split; [|split]; apply ap_exact; try assumption; now rewrite Rmult_1_l. Qed.
Lemma ap3_close M e B p q : ap3 M e B p q -> close3 (e * eps * M) p q.
Proof. intros ((N1 & E1 & _) & (N2 & E2 & _) & (N3 & E3 & _)). split; [now split|]. rewrite Rmult_assoc. tauto. Qed.
Lemma sin_lip a b : Rabs (sin a - sin b) <= Rabs (a - b).
Proof. destruct (MVT_abs sin cos b a) as (c & E & _). { intros c _. apply derivable_pt_lim_sin. } rewrite E. rewrite <- (Rmult_1_l (Rabs (a - b))) at 2. apply Rmult_le_compat_r; [apply Rabs_pos|]. apply Rabs_le. apply COS_bound. Qed.
Lemma cos_lip a b : Rabs (cos a - cos b) <= Rabs (a - b).
Proof. destruct (MVT_abs cos (fun x => - sin x) b a) as (c & E & _). { intros c _. apply derivable_pt_lim_cos. } rewrite E, Rabs_Ropp. rewrite <- (Rmult_1_l (Rabs (a - b))) at 2. apply Rmult_le_compat_r; [apply Rabs_pos|]. apply Rabs_le. apply SIN_bound. Qed.

Section Rotation.
Context {TF : Trig f64} (HT : accurate_sin_cos TF).
(** the sine and cosine of half an angle known up to an error *)
Lemma half_angle a A h : num64 a -> Rabs (val a) <= 15 -> Rabs (val a - A) <= h * eps -> 0 <= h <= 100 ->
  ap 1 (h / 2 + 21 / 2) 1 (fsin (fmul a fhalf)) (sin (A / 2)) /\ ap 1 (h / 2 + 21 / 2) 1 (fcos (fmul a fhalf)) (cos (A / 2)).
Proof.
  intros N HA HE Hh. assert (P : ap 1 (h / 2 + 41 / 5) 8 (fmul a fhalf) (A * / 2)).
  { apply (ap_mul_r 1 h 16 0 (/ 2)); try lra; [exact scale_1| |].
    - split; [exact N|]. rewrite !Rmult_1_r. split; [exact HE|]. replace A with (val a - (val a - A)) by ring. unfold Rminus at 1. eapply Rle_trans; [apply Rabs_triang|]. rewrite Rabs_Ropp. unfold eps in *. lra.
    - rewrite <- half_val. apply ap_exact; [exact scale_1|exact half_num|]. rewrite half_val, Rabs_pos_eq; lra. }
  pose proof (ap_size _ _ _ _ _ scale_1 P ltac:(lra)) as Z. destruct P as (NH & EH & _). rewrite !Rmult_1_r in *.
  destruct (HT _ NH ltac:(lra)) as (NS & ES & NC & EC). change (A / 2) with (A * / 2).
  assert (T : forall x y z e d, Rabs (x - y) <= e -> Rabs (y - z) <= d -> Rabs (x - z) <= e + d) by (intros x y z e d H1 H2; replace (x - z) with ((x - y) + (y - z)) by ring; eapply Rle_trans; [apply Rabs_triang|]; lra).
  split; (split; [assumption|]; rewrite !Rmult_1_r; split; [|apply Rabs_le; first [apply SIN_bound|apply COS_bound]]).
  - eapply Rle_trans; [apply (T _ _ _ _ _ ES (Rle_trans _ _ _ (sin_lip _ _) EH))|]. unfold eps. lra.
  - eapply Rle_trans; [apply (T _ _ _ _ _ EC (Rle_trans _ _ _ (cos_lip _ _) EH))|]. unfold eps. lra.
Qed.
(** the rotated reference direction *)
Lemma quat_ap b B w W v V : ap3 1 26 1 b B -> ap 1 20 1 w W -> ap3 1 4 1 v V ->
  ap3 1 848 14 (quat_mul_vec3 (V4 (x3 b) (y3 b) (z3 b) w) v) (quat_mul_vec3 (V4 (x3 B) (y3 B) (z3 B) W) V).
Proof.
  intros Hb Hw Hv. assert (H2 : ap 1 0 2 (f2 : f64) 2) by (rewrite <- flit2_val at 2; apply ap_exact; [exact scale_1|exact flit2_num|rewrite flit2_val, Rabs_pos_eq; lra]).
  assert (Eb : forall (F : Type) (u : vec3 F), V3 (x3 u) (y3 u) (z3 u) = u) by (intros F [? ? ?]; reflexivity).
  unfold quat_mul_vec3. cbn [w4 x4 y4 z4]. rewrite !Eb. pose proof scale_1 as S1.
  assert (Q2 : ap 1 165 3 (dot3 b b) (dot3 B B)) by (apply (ap_dot 1 26 1 26 1); try assumption; lra).
  assert (QW : ap 1 42 1 (fmul w w) (W * W)) by (apply (ap_mul 1 20 1 20 1); try assumption; lra).
  assert (QD : ap 1 212 4 (fsub (fmul w w) (dot3 b b)) (W * W - dot3 B B)) by (apply (ap_sub 1 42 1 165 3); try assumption; lra).
  assert (T1 : ap3 1 233 4 (vmulr v (fsub (fmul w w) (dot3 b b))) (vmulr V (W * W - dot3 B B))) by (apply (ap3_mul 1 4 1 212 4); try assumption; lra).
  assert (QV : ap 1 99 3 (dot3 v b) (dot3 V B)) by (apply (ap_dot 1 4 1 26 1); try assumption; lra).
  assert (QV2 : ap 1 205 6 (fmul (dot3 v b) f2) (dot3 V B * 2)) by (apply (ap_mul 1 99 3 0 2); try assumption; lra).
  assert (T2 : ap3 1 368 6 (vmulr b (fmul (dot3 v b) f2)) (vmulr B (dot3 V B * 2))) by (apply (ap3_mul 1 26 1 205 6); try assumption; lra).
  assert (QC : ap3 1 65 2 (cross3 b v) (cross3 B V)) by (apply (ap3_cross 26 1 4 1); try assumption; lra).
  assert (QW2 : ap 1 43 2 (fmul w f2) (W * 2)) by (apply (ap_mul 1 20 1 0 2); try assumption; lra).
  assert (T3 : ap3 1 221 4 (vmulr (cross3 b v) (fmul w f2)) (vmulr (cross3 B V) (W * 2))) by (apply (ap3_mul 1 65 2 43 2); try assumption; lra).
  assert (T12 : ap3 1 612 10 (vadd (vmulr v (fsub (fmul w w) (dot3 b b))) (vmulr b (fmul (dot3 v b) f2))) (vadd (vmulr V (W * W - dot3 B B)) (vmulr B (dot3 V B * 2)))) by (apply (ap3_add 1 233 4 368 6); try assumption; lra).
  assert (E2 : @f2 R RNum = 2) by (unfold f2; rnum; lra). rewrite E2.
  apply (ap3_add 1 612 10 221 4); try assumption; lra.
Qed.
Lemma rotated64 axis K ref V a A h : near_unit axis K -> near_unit ref V -> num64 a -> Rabs (val a) <= 15 -> Rabs (val a - A) <= h * eps -> 0 <= h <= 18 ->
  ap3 1 848 14 (quat_mul_vec3 (quat_from_axis_angle axis a) ref) (quat_mul_vec3 (quat_from_axis_angle K A) V).
Proof.
  intros HK HV N HA HE Hh. apply ap3_dir in HK. apply ap3_dir in HV. destruct (half_angle a A h N HA HE ltac:(lra)) as [HS HC]. pose proof scale_1 as S1.
  apply (ap_weak 1 (h / 2 + 21 / 2) 1 20 1) in HS, HC; try lra; try exact scale_1.
  unfold quat_from_axis_angle. assert (E : @fhalf R RNum = / 2) by (unfold fhalf; rnum; lra).
  rewrite E.
  apply quat_ap; [|exact HC|exact HV]. apply (ap3_mul 1 4 1 20 1); try assumption; lra.
Qed.

(** ** C74: evaluation *)
Theorem C74_circle64 M (c : Circle f64) K V a : scale M -> finite3 (ci_center c) -> within M (val3 (ci_center c)) -> num64 (ci_radius c) -> Rabs (val (ci_radius c)) <= M ->
  near_unit (ci_axis c) K -> near_unit (ci_ref_dir c) V -> num64 a -> Rabs (val a) <= 15 ->
  close3 (1024 * eps * M) (circle_get_point c a)
    (circle_get_point (real_circle c K V) (val a)).
Proof.
  intros HS FC WC Nr Hr HK HV Na Ha. apply (ap3_close M 1024 15). unfold circle_get_point. cbn [real_circle ci_center ci_radius ci_axis ci_ref_dir].
  apply (ap3_add M 0 1 863 14); try lra; [exact HS|now apply ap3_exact|].
  apply (ap3_mul M 848 14 0 1); try lra; [exact HS| |apply ap_exact; [exact HS|exact Nr|lra]].
  apply (rotated64 _ _ _ _ a (val a) 0); try assumption; [|lra]. rewrite Rminus_diag_eq, Rabs_R0 by reflexivity. lra.
Qed.
Theorem C74_cylinder64 M (c : Cylinder f64) K V l a : scale M -> finite3 (cy_origin c) -> within M (val3 (cy_origin c)) -> num64 (cy_radius c) -> Rabs (val (cy_radius c)) <= M ->
  near_unit (cy_axis c) K -> near_unit (cy_ref_dir c) V -> num64 l -> Rabs (val l) <= M -> num64 a -> Rabs (val a) <= 15 ->
  close3 (1024 * eps * M) (cylinder_get_point c l a)
    (cylinder_get_point (real_cylinder c K V) (val l) (val a)).
Proof.
  intros HS FC WC Nr Hr HK HV Nl Hl Na Ha. apply (ap3_close M 1024 16). unfold cylinder_get_point. cbn [real_cylinder cy_origin cy_radius cy_axis cy_ref_dir].
  apply (ap3_add M 10 2 863 14); try lra; [exact HS| |].
  - apply (ap3_add M 0 1 6 1); try lra; [exact HS|now apply ap3_exact|]. apply (ap3_mul M 4 1 0 1); try lra; [exact HS|now apply ap3_dir|apply ap_exact; [exact HS|exact Nl|lra]].
  - apply (ap3_mul M 848 14 0 1); try lra; [exact HS| |apply ap_exact; [exact HS|exact Nr|lra]].
    apply (rotated64 _ _ _ _ a (val a) 0); try assumption; [|lra]. rewrite Rminus_diag_eq, Rabs_R0 by reflexivity. lra.
Qed.
End Rotation.

(** ** Lines and planes *)
Theorem C74_line64 M (l : Line f64) D u : scale M -> finite3 (l_origin l) -> within M (val3 (l_origin l)) -> near_unit (l_direction l) D -> num64 u -> Rabs (val u) <= M ->
  close3 (8 * eps * M) (line_get_point l u) (line_get_point {| l_origin := val3 (l_origin l); l_direction := D |} (val u)) /\
  num64 (line_project l (line_get_point l u)) /\ Rabs (val (line_project l (line_get_point l u)) - val u) <= 100 * eps * M.
Proof.
  intros HS FO WO HD Nu Hu. unfold line_project, line_get_point. cbn [l_origin l_direction].
  assert (P : ap3 M 8 2 (vadd (l_origin l) (vmulr (l_direction l) u)) (vadd (val3 (l_origin l)) (vmulr D (val u)))).
  { apply (ap3_add M 0 1 (26 / 5) 1); try lra; [exact HS|now apply ap3_exact|]. apply (ap3_mul M 4 1 0 1); try lra; [exact HS|now apply ap3_dir|apply ap_exact; [exact HS|exact Nu|lra]]. }
  split; [exact (ap3_close _ _ _ _ _ P)|].
  assert (E : dot3 (vsub (vadd (val3 (l_origin l)) (vmulr D (val u))) (val3 (l_origin l))) D = val u).
  { destruct HD as [U _]. unfold unit3 in U. transitivity (val u * dot3 D D); [unfold dot3; vsimp; ring|rewrite U; ring]. }
  assert (Q : ap M 100 9 (dot3 (vsub (vadd (l_origin l) (vmulr (l_direction l) u)) (l_origin l)) (l_direction l)) (dot3 (vsub (vadd (val3 (l_origin l)) (vmulr D (val u))) (val3 (l_origin l))) D)).
  { apply (ap_dot M (56 / 5) 3 4 1); try lra; [exact HS| |now apply ap3_dir]. apply (ap3_sub M 8 2 0 1); try lra; [exact HS|exact P|now apply ap3_exact]. }
  rewrite E in Q. destruct Q as (N & Q & _). split; [exact N|]. rewrite Rmult_assoc. exact Q.
Qed.
Theorem C74_plane64 M (s : Plane f64) U V u v : scale M -> finite3 (p_origin s) -> within M (val3 (p_origin s)) -> near_unit (p_u_axis s) U -> near_unit (p_v_axis s) V -> dot3 U V = 0 ->
  num64 u -> Rabs (val u) <= M -> num64 v -> Rabs (val v) <= M ->
  let w := plane_project s (plane_get_point s u v) in
  close3 (17 * eps * M) (plane_get_point s u v) (vadd (vadd (val3 (p_origin s)) (vmulr U (val u))) (vmulr V (val v))) /\
  num64 (x2 w) /\ Rabs (val (x2 w) - val u) <= 160 * eps * M /\ num64 (y2 w) /\ Rabs (val (y2 w) - val v) <= 160 * eps * M.
Proof.
  intros HS FO WO HU HV UV Nu Hu Nv Hv. cbv zeta. unfold plane_project, plane_get_point. cbn [x2 y2].
  assert (A : forall d D t, near_unit d D -> num64 t -> Rabs (val t) <= M -> ap3 M (26 / 5) 1 (vmulr d t) (vmulr D (val t))).
  { intros d D t HD Nt Ht. apply (ap3_mul M 4 1 0 1); try lra; [exact HS|now apply ap3_dir|apply ap_exact; [exact HS|exact Nt|lra]]. }
  set (p := vadd (vadd (p_origin s) _) _). set (P := vadd (vadd (val3 (p_origin s)) _) _).
  assert (HP : ap3 M 17 3 p P).
  { apply (ap3_add M 8 2 (26 / 5) 1); try lra; [exact HS| |now apply A]. apply (ap3_add M 0 1 (26 / 5) 1); try lra; [exact HS|now apply ap3_exact|now apply A]. }
  split; [exact (ap3_close _ _ _ _ _ HP)|].
  assert (EU : dot3 (vsub P (val3 (p_origin s))) U = val u).
  { destruct HU as [I _]. unfold unit3 in I. transitivity (val u * dot3 U U + val v * dot3 U V); [unfold P, dot3; vsimp; ring|rewrite I, UV; ring]. }
  assert (EV : dot3 (vsub P (val3 (p_origin s))) V = val v).
  { destruct HV as [I _]. unfold unit3 in I. transitivity (val u * dot3 U V + val v * dot3 V V); [unfold P, dot3; vsimp; ring|rewrite I, UV; ring]. }
  assert (HW : ap3 M (17 + 4 + / 10) 4 (vsub p (p_origin s)) (vsub P (val3 (p_origin s)))) by (apply (ap3_sub M 17 3 0 1); try lra; [exact HS|exact HP|now apply ap3_exact]).
  assert (Q : forall d D, near_unit d D -> ap M 160 12 (dot3 (vsub p (p_origin s)) d) (dot3 (vsub P (val3 (p_origin s))) D)).
  { intros d D HD. apply (ap_dot M (17 + 4 + / 10) 4 4 1); try lra; [exact HS|exact HW|now apply ap3_dir]. }
  pose proof (Q _ _ HU) as QU. pose proof (Q _ _ HV) as QV. rewrite EU in QU. rewrite EV in QV. rewrite !Rmult_assoc. unfold ap in QU, QV. tauto.
Qed.

(** ** Projecting and evaluating again *)
(** the arctangent of the platform: within 4 eps of an argument of (x, y) *)
Definition accurate_atan2 (TF : Trig f64) : Prop := forall y x : f64, num64 y -> num64 x ->
  num64 (fatan2 y x) /\ exists t, - PI <= t <= PI /\ Rabs (val (fatan2 y x) - t) <= 4 * eps /\
    sqrt (val x * val x + val y * val y) * cos t = val x /\ sqrt (val x * val x + val y * val y) * sin t = val y.

Lemma polar_close r f x y t d : 0 <= r -> Rabs (x - r * cos f) <= d -> Rabs (y - r * sin f) <= d -> sqrt (x * x + y * y) * cos t = x -> sqrt (x * x + y * y) * sin t = y ->
  Rabs (r * cos t - r * cos f) <= 3 * d /\ Rabs (r * sin t - r * sin f) <= 3 * d.
Proof.
  intros Hr HX HY EX EY. set (q := sqrt (x * x + y * y)) in *. assert (Hq : 0 <= q) by apply sqrt_pos. clearbody q.
  assert (T : forall z, sin z * sin z + cos z * cos z = 1) by (intros z; exact (sin2_cos2 z)).
  assert (P : forall z w e, Rabs z <= e -> -1 <= w <= 1 -> - e <= z * w <= e). { intros z w e Hz Hw. assert (H : Rabs (z * w) <= e). { rewrite Rabs_mult. rewrite <- (Rmult_1_r e). apply Rmult_le_compat; try apply Rabs_pos; [exact Hz|]. apply Rabs_le. exact Hw. } split; [pose proof (Rle_abs (- (z * w))) as L; rewrite Rabs_Ropp in L; lra|pose proof (Rle_abs (z * w)); lra]. }
  assert (C1 : cos (t - f) <= 1) by apply COS_bound. rewrite cos_minus in C1.
  assert (G1 : q - r <= 2 * d).
  { pose proof (P _ _ _ HX (COS_bound t)) as A. pose proof (P _ _ _ HY (SIN_bound t)) as B. assert (E : q = x * cos t + y * sin t) by (rewrite <- EX, <- EY; pose proof (T t); transitivity (q * (sin t * sin t + cos t * cos t)); [rewrite H; ring|ring]). assert (r * (cos t * cos f + sin t * sin f) <= r * 1) by (apply Rmult_le_compat_l; lra). lra. }
  assert (G2 : r - q <= 2 * d).
  { pose proof (P _ _ _ HX (COS_bound f)) as A. pose proof (P _ _ _ HY (SIN_bound f)) as B. assert (E : r = r * cos f * cos f + r * sin f * sin f) by (pose proof (T f); transitivity (r * (sin f * sin f + cos f * cos f)); [rewrite H; ring|ring]). assert (q * (cos t * cos f + sin t * sin f) <= q * 1) by (apply Rmult_le_compat_l; lra). rewrite <- EX in A. rewrite <- EY in B. lra. }
  assert (G : Rabs (r - q) <= 2 * d) by (apply Rabs_le; lra).
  split.
  - replace (r * cos t - r * cos f) with ((x - r * cos f) + (r - q) * cos t) by (rewrite <- EX; ring). pose proof (P _ _ _ G (COS_bound t)). eapply Rle_trans; [apply Rabs_triang|]. assert (Rabs ((r - q) * cos t) <= 2 * d) by (apply Rabs_le; lra). lra.
  - replace (r * sin t - r * sin f) with ((y - r * sin f) + (r - q) * sin t) by (rewrite <- EY; ring). pose proof (P _ _ _ G (SIN_bound t)). eapply Rle_trans; [apply Rabs_triang|]. assert (Rabs ((r - q) * sin t) <= 2 * d) by (apply Rabs_le; lra). lra.
Qed.
Lemma dot_unit_bound w D d : unit3 D -> Rabs (x3 w) <= d -> Rabs (y3 w) <= d -> Rabs (z3 w) <= d -> Rabs (dot3 w D) <= 2 * d.
Proof.
  intros U H1 H2 H3. assert (D0 : 0 <= d) by (pose proof (Rabs_pos (x3 w)); lra).
  assert (S2 : dot3 w w <= 3 * (d * d)). { unfold dot3. rnum. assert (Q : forall z, Rabs z <= d -> z * z <= d * d) by (intros z Hz; rewrite <- (Rabs_pos_eq (z * z)) by apply Rle_0_sqr; rewrite Rabs_mult; apply Rmult_le_compat; auto using Rabs_pos). pose proof (Q _ H1). pose proof (Q _ H2). pose proof (Q _ H3). lra. }
  assert (CS : dot3 w D * dot3 w D <= dot3 w w * dot3 D D).
  { unfold dot3. rnum. set (a := x3 w). set (b := y3 w). set (c := z3 w). set (a' := x3 D). set (b' := y3 D). set (c' := z3 D). pose proof (Rle_0_sqr (a * b' - b * a')) as A1. pose proof (Rle_0_sqr (a * c' - c * a')) as A2. pose proof (Rle_0_sqr (b * c' - c * b')) as A3. unfold Rsqr in *. lra. }
  unfold unit3 in U. rewrite U in CS. apply Rabs_le. split; nra.
Qed.

Section RoundTrip.
Context {TF : Trig f64} (HT : accurate_sin_cos TF) (HA : accurate_atan2 TF).
(** the angle computed from [y] and [x], as both projections do, turns by the argument of (x, y) *)
Lemma angle64 (x y : f64) : num64 x -> num64 y ->
  let a := fatan2 y x in let a' := if fleb f0 a then a else fadd a ftau in
  exists t T, num64 a' /\ Rabs (val a') <= 15 /\ Rabs (val a' - T) <= 18 * eps /\ cos T = cos t /\ sin T = sin t /\
    sqrt (val x * val x + val y * val y) * cos t = val x /\ sqrt (val x * val x + val y * val y) * sin t = val y.
Proof.
  intros Nx Ny. cbv zeta. destruct (HA y x Ny Nx) as (Na & t & Ht & Et & C & S'). pose proof PI_digits as PD. set (a := fatan2 y x) in *. clearbody a.
  assert (Za : ap 1 4 (3142 / 1000) a t). { split; [exact Na|]. rewrite !Rmult_1_r. split; [exact Et|]. apply Rabs_le. lra. }
  destruct (fleb f0 a).
  - exists t, t. split; [exact Na|]. pose proof (ap_size _ _ _ _ _ scale_1 Za ltac:(lra)). split; [lra|]. split; [unfold eps in *; lra|]. now repeat split.
  - exists t, (t + 2 * PI). assert (H2 : ap 1 4 (6284 / 1000) (ftau : f64) (2 * PI)).
    { assert (E : val (ftau : f64) = 2 * val (fpi : f64)) by (vm_compute; lra). split; [split; reflexivity|]. rewrite !Rmult_1_r, E. split; [|apply Rabs_le; lra]. pose proof fpi_val as F. replace (2 * val (fpi : f64) - 2 * PI) with (2 * (val (fpi : f64) - PI)) by ring. rewrite Rabs_mult, Rabs_pos_eq by lra. lra. }
    assert (P : ap 1 18 (9426 / 1000) (fadd a ftau) (t + 2 * PI)) by (apply (ap_add 1 4 (3142 / 1000) 4 (6284 / 1000)); try lra; [exact scale_1|exact Za|exact H2]).
    pose proof (ap_size _ _ _ _ _ scale_1 P ltac:(lra)) as Z. destruct P as (N & E & _). rewrite !Rmult_1_r in *. split; [exact N|]. split; [lra|]. split; [exact E|]. split; [|split; [|now split]].
    + rewrite cos_plus, cos_2PI, sin_2PI. ring.
    + rewrite sin_plus, cos_2PI, sin_2PI. ring.
Qed.
Definition apart3 (d : R) (p q : vec3 R) : Prop := Rabs (x3 p - x3 q) <= d /\ Rabs (y3 p - y3 q) <= d /\ Rabs (z3 p - z3 q) <= d.
Lemma ring64 M axis K ref V r (x y : f64) f d : scale M -> near_unit axis K -> near_unit ref V -> orthonormal K V -> num64 r -> 0 <= val r <= M -> num64 x -> num64 y ->
  Rabs (val x - val r * cos f) <= d -> Rabs (val y - val r * sin f) <= d ->
  let a := fatan2 y x in let a' := if fleb f0 a then a else fadd a ftau in
  exists Q, ap3 M 863 14 (vmulr (quat_mul_vec3 (quat_from_axis_angle axis a') ref) r) Q /\
    apart3 (6 * d) Q (vmulr (vadd (vmulr V (cos f)) (vmulr (cross3 K V) (sin f))) (val r)).
Proof.
  intros HS HK HV HO Nr Hr Nx Ny HX HY. cbv zeta. destruct (angle64 x y Nx Ny) as (t & T & Na & Ba & Ea & EC & ES & PC & PS). set (a' := if fleb f0 (fatan2 y x) then _ else _) in *. clearbody a'.
  exists (vmulr (quat_mul_vec3 (quat_from_axis_angle K T) V) (val r)). split.
  - apply (ap3_mul M 848 14 0 1); try lra; [exact HS| |apply ap_exact; [exact HS|exact Nr|rewrite Rabs_pos_eq; lra]]. apply (rotated64 HT _ _ _ _ a' T 18); try assumption; lra.
  - destruct (cross_orthonormal K V HO) as (A1 & _). destruct HO as (U1 & U2 & U3). rewrite quat_is_rotation by exact U1. rewrite rodrigues_perp by exact U3. rewrite EC, ES.
    destruct (polar_close (val r) f (val x) (val y) t d ltac:(lra) HX HY PC PS) as [G1 G2].
    assert (B : forall v u, Rabs v <= 1 -> Rabs u <= 1 -> Rabs ((v * cos t + u * sin t) * val r - (v * cos f + u * sin f) * val r) <= 6 * d).
    { intros v u Hv Hu. replace ((v * cos t + u * sin t) * val r - (v * cos f + u * sin f) * val r) with (v * (val r * cos t - val r * cos f) + u * (val r * sin t - val r * sin f)) by ring. eapply Rle_trans; [apply Rabs_triang|]. rewrite !Rabs_mult.
      assert (P : forall z w, Rabs z <= 1 -> Rabs w <= 3 * d -> Rabs z * Rabs w <= 3 * d) by (intros z w Hz Hw; rewrite <- (Rmult_1_l (3 * d)); apply Rmult_le_compat; auto using Rabs_pos). pose proof (P _ _ Hv G1). pose proof (P _ _ Hu G2). lra. }
    destruct (unit_coords V U2) as (V1 & V2' & V3'). destruct (unit_coords (cross3 K V) A1) as (W1 & W2 & W3). split; [|split]; vsimp; apply B; assumption.
Qed.
(** the components of [p - o] along a direction *)
Lemma component64 M p o d D e : scale M -> finite3 p -> within M (val3 p) -> finite3 o -> within M (val3 o) -> ap3 1 e 1 d D -> 4 <= e <= 200 ->
  ap M (6 * e + 24) 6 (dot3 (vsub p o) d) (dot3 (vsub (val3 p) (val3 o)) D).
Proof.
  intros HS Fp Wp Fo Wo HD He. apply (ap_dot M (21 / 10) 2 e 1); try lra; [exact HS| |exact HD]. apply (ap3_sub M 0 1 0 1); try lra; [exact HS|now apply ap3_exact|now apply ap3_exact].
Qed.
Theorem C74_cylinder_round_trip64 M (c : Cylinder f64) K V p l f d : scale M -> finite3 (cy_origin c) -> within M (val3 (cy_origin c)) -> num64 (cy_radius c) -> 0 <= val (cy_radius c) <= M ->
  near_unit (cy_axis c) K -> near_unit (cy_ref_dir c) V -> dot3 K V = 0 -> finite3 p -> within M (val3 p) ->
  apart3 d (val3 p) (cylinder_get_point (real_cylinder c K V) l f) ->
  close3 (2048 * eps * M + 16 * d) (cylinder_get_point c (x2 (cylinder_project c p)) (y2 (cylinder_project c p))) (val3 p).
Proof.
  intros HS FO WO Nr Hr HK HV HKV Fp Wp HP. assert (HO : orthonormal K V) by (split; [exact (proj1 HK)|split; [exact (proj1 HV)|exact HKV]]).
  destruct (cross_orthonormal K V HO) as (UU & _). destruct (scale_facts M HS) as (M0 & _).
  pose proof (cylinder_point_coords (real_cylinder c K V) HO l f) as (C1 & C2 & C3). cbn [real_cylinder cy_origin cy_axis cy_ref_dir cy_radius] in C1, C2, C3.
  set (P := cylinder_get_point (real_cylinder c K V) l f) in *. set (o := val3 (cy_origin c)) in *. set (r := cy_radius c) in *.
  assert (D : forall D, unit3 D -> Rabs (dot3 (vsub (val3 p) o) D - dot3 (vsub P o) D) <= 2 * d).
  { intros D HD. replace (dot3 (vsub (val3 p) o) D - dot3 (vsub P o) D) with (dot3 (vsub (val3 p) P) D) by (unfold dot3; vsimp; ring). destruct HP as (H1 & H2 & H3). apply dot_unit_bound; vsimp; assumption. }
  assert (AU : ap3 1 21 1 (cross3 (cy_axis c) (cy_ref_dir c)) (cross3 K V)).
  { assert (Q : ap3 1 21 2 (cross3 (cy_axis c) (cy_ref_dir c)) (cross3 K V)) by (apply (ap3_cross 4 1 4 1); try lra; now apply ap3_dir). destruct (unit_coords _ UU) as (W1 & W2 & W3). unfold ap3, ap in *. rewrite !Rmult_1_r in *. tauto. }
  pose proof (component64 M p (cy_origin c) (cy_axis c) K 4 HS Fp Wp FO WO (ap3_dir _ _ HK) ltac:(lra)) as QL.
  pose proof (component64 M p (cy_origin c) (cy_ref_dir c) V 4 HS Fp Wp FO WO (ap3_dir _ _ HV) ltac:(lra)) as QX.
  pose proof (component64 M p (cy_origin c) _ _ 21 HS Fp Wp FO WO AU ltac:(lra)) as QY.
  fold o in QL, QX, QY. unfold cylinder_project. cbn [x2 y2].
  set (L := dot3 (vsub p (cy_origin c)) (cy_axis c)) in *. set (x := dot3 (vsub p (cy_origin c)) (cy_ref_dir c)) in *. set (y := dot3 (vsub p (cy_origin c)) (cross3 (cy_axis c) (cy_ref_dir c))) in *.
  set (dd := 150 * (eps * M) + 2 * d).
  assert (E0 : 0 < eps * M) by (apply Rmult_lt_0_compat; [unfold eps; lra|exact M0]).
  assert (T : forall x y z e d, Rabs (x - y) <= e -> Rabs (y - z) <= d -> Rabs (x - z) <= e + d) by (intros x' y' z' e' d' H1 H2; replace (x' - z') with ((x' - y') + (y' - z')) by ring; eapply Rle_trans; [apply Rabs_triang|]; lra).
  assert (HX : Rabs (val x - val r * cos f) <= dd). { rewrite <- C1. eapply Rle_trans; [apply (T _ _ _ _ _ (proj1 (proj2 QX)) (D V (proj1 HV)))|]. unfold dd. lra. }
  assert (HY : Rabs (val y - val r * sin f) <= dd). { rewrite <- C2. eapply Rle_trans; [apply (T _ _ _ _ _ (proj1 (proj2 QY)) (D _ UU))|]. unfold dd. lra. }
  destruct (ring64 M (cy_axis c) K (cy_ref_dir c) V r x y f dd HS HK HV HO Nr Hr (proj1 QX) (proj1 QY) HX HY) as (Q & QR & QA). cbv zeta in QR.
  unfold cylinder_get_point. fold r. match type of QR with ap3 _ _ _ ?t _ => change (close3 (2048 * eps * M + 16 * d) (vadd (vadd (cy_origin c) (vmulr (cy_axis c) L)) t) (val3 p)); set (R1 := t) in * end. clearbody R1.
  assert (G : ap3 M 1024 21 (vadd (vadd (cy_origin c) (vmulr (cy_axis c) L)) R1) (vadd (vadd o (vmulr K (dot3 (vsub (val3 p) o) K))) Q)).
  { apply (ap3_add M 87 7 863 14); try lra; [exact HS| |exact QR]. apply (ap3_add M 0 1 79 6); try lra; [exact HS|now apply ap3_exact|]. apply (ap3_mul M 4 1 48 6); try lra; [exact HS|now apply ap3_dir|]. eapply ap_weak; [exact HS|exact QL|lra|lra]. }
  assert (EP : P = vadd (vadd o (vmulr K l)) (vmulr (vadd (vmulr V (cos f)) (vmulr (cross3 K V) (sin f))) (val r))) by (unfold P; apply (cylinder_point (real_cylinder c K V) HO)).
  pose proof (D K (proj1 HK)) as DL. rewrite C3 in DL. set (LL := dot3 (vsub (val3 p) o) K) in *. destruct (unit_coords K (proj1 HK)) as (K1 & K2 & K3).
  destruct G as ((N1 & G1 & _) & (N2 & G2 & _) & (N3 & G3 & _)). destruct QA as (A1 & A2 & A3). destruct HP as (P1 & P2 & P3). rewrite EP in P1, P2, P3.
  assert (FIN : forall g o1 k q v u pp, Rabs (val g - (o1 + k * LL + q)) <= 1024 * (eps * M) -> Rabs k <= 1 -> Rabs (q - (v * cos f + u * sin f) * val r) <= 6 * dd -> Rabs (pp - (o1 + k * l + (v * cos f + u * sin f) * val r)) <= d -> Rabs (val g - pp) <= 2048 * eps * M + 16 * d).
  { intros g o1 k q v u pp H1 H2 H3 H4. set (w := (v * cos f + u * sin f) * val r) in *. clearbody w.
    replace (val g - pp) with ((val g - (o1 + k * LL + q)) + k * (LL - l) + (q - w) - (pp - (o1 + k * l + w))) by ring.
    assert (H5 : Rabs (k * (LL - l)) <= 2 * d) by (rewrite Rabs_mult, <- (Rmult_1_l (2 * d)); apply Rmult_le_compat; auto using Rabs_pos).
    set (s1 := val g - (o1 + k * LL + q)) in *. set (s2 := k * (LL - l)) in *. set (s3 := q - w) in *. set (s4 := pp - (o1 + k * l + w)) in *. clearbody s1 s2 s3 s4.
    pose proof (Rle_abs s1). pose proof (Rle_abs (- s1)). pose proof (Rle_abs s2). pose proof (Rle_abs (- s2)). pose proof (Rle_abs s3). pose proof (Rle_abs (- s3)). pose proof (Rle_abs s4). pose proof (Rle_abs (- s4)). rewrite !Rabs_Ropp in *. unfold dd in *. apply Rabs_le. lra. }
  split; [split; [exact N1|split; assumption]|]. clear - FIN G1 G2 G3 A1 A2 A3 P1 P2 P3 K1 K2 K3. split; [|split].
  - eapply FIN; [exact G1|exact K1|exact A1|exact P1].
  - eapply FIN; [exact G2|exact K2|exact A2|exact P2].
  - eapply FIN; [exact G3|exact K3|exact A3|exact P3].
Qed.
(** normalising a vector that is nearly of length 1 *)
Lemma normalized64 v V : unit3 V -> ap3 1 21 1 v V -> ap3 1 170 1 (normalize3 v) V.
Proof.
  intros U H. pose proof scale_1 as S1. assert (Q : ap 1 135 3 (dot3 v v) (dot3 V V)) by (apply (ap_dot 1 21 1 21 1); try assumption; lra). unfold unit3 in U. rewrite U in Q. destruct Q as (N & E & _). rewrite !Rmult_1_r in E. set (z := dot3 v v) in *.
  assert (Z : Rabs (val z - 1) <= / 1000) by (unfold eps in *; lra). assert (Z1 : 1 - / 1000 <= val z <= 1 + / 1000) by (revert Z; unfold Rabs; destruct Rcase_abs; lra).
  assert (SQ : Rabs (sqrt (val z) - 1) <= 135 * eps).
  { assert (P : 0 < sqrt (val z)) by (apply sqrt_lt_R0; lra). assert (E1 : (sqrt (val z) - 1) * (sqrt (val z) + 1) = val z - 1) by (rewrite <- (sqrt_sqrt (val z)) at 3 by lra; ring).
    eapply Rle_trans; [|exact E]. rewrite <- E1, Rabs_mult. rewrite (Rabs_pos_eq (sqrt (val z) + 1)) by lra. rewrite <- (Rmult_1_r (Rabs _)) at 1. apply Rmult_le_compat_l; [apply Rabs_pos|lra]. }
  pose proof pow2_1000_1023 as PB. destruct (scale_facts 1 S1) as (_ & ET & BB).
  assert (SQ1 : Rabs (sqrt (val z) - 1) <= / 1000) by (unfold eps in *; lra). assert (SQ2 : 1 - / 1000 <= sqrt (val z) <= 1 + / 1000) by (revert SQ1; unfold Rabs; destruct Rcase_abs; lra).
  destruct (sqrt64 z N ltac:(lra) ltac:(lra)) as [Ns Rs].
  assert (AL : ap 1 137 1 (fsqrt z) 1). { apply (ap_round 1 135 1 137 (fsqrt z) (sqrt (val z)) 1); try assumption; try lra; try (rewrite Rmult_1_r; assumption). rewrite Rabs_R1. lra. }
  destruct AL as (_ & AE & _). rewrite !Rmult_1_r in AE. set (l := fsqrt z) in *.
  assert (AE1 : Rabs (val l - 1) <= / 1000) by (unfold eps in *; lra). assert (AE2 : 1 - / 1000 <= val l <= 1 + / 1000) by (revert AE1; unfold Rabs; destruct Rcase_abs; lra).
  assert (I0 : 0 < / val l <= 1 + / 500). { split; [apply Rinv_0_lt_compat; lra|]. apply Rmult_le_reg_l with (val l); [lra|]. rewrite Rinv_r by lra. lra. }
  assert (IN : Rabs (1 / val l - 1) <= 138 * eps).
  { replace (1 / val l - 1) with ((1 - val l) * / val l) by (field; lra). rewrite Rabs_mult, (Rabs_pos_eq (/ val l)) by lra. rewrite Rabs_minus_sym. apply Rle_trans with (137 * eps * (1 + / 500)); [apply Rmult_le_compat; try apply Rabs_pos; lra|]. unfold eps. lra. }
  destruct (div64 f1 l f1_num Ns ltac:(lra)) as [Nd Rd]. { rewrite f1_val. unfold Rdiv. rewrite Rmult_1_l, Rabs_pos_eq by lra. lra. }
  rewrite f1_val in Rd.
  assert (AI : ap 1 140 1 (fdiv f1 l) 1). { apply (ap_round 1 138 1 140 _ (1 / val l) 1); try assumption; try lra; try (rewrite Rmult_1_r; assumption). rewrite Rabs_R1. lra. }
  unfold normalize3. assert (EV : vmulr V 1 = V) by (destruct V as [p q r']; vsimp; rnum; now rewrite !Rmult_1_r). rewrite <- EV.
  apply (ap3_mul 1 21 1 140 1); try assumption; lra.
Qed.
Theorem C74_circle_round_trip64 M (c : Circle f64) K V p f d : scale M -> finite3 (ci_center c) -> within M (val3 (ci_center c)) -> num64 (ci_radius c) -> 0 <= val (ci_radius c) <= M ->
  near_unit (ci_axis c) K -> near_unit (ci_ref_dir c) V -> dot3 K V = 0 -> finite3 p -> within M (val3 p) ->
  apart3 d (val3 p) (circle_get_point (real_circle c K V) f) ->
  close3 (8192 * eps * M + 16 * d) (circle_get_point c (circle_project c p)) (val3 p).
Proof.
  intros HS FO WO Nr Hr HK HV HKV Fp Wp HP. assert (HO : orthonormal K V) by (split; [exact (proj1 HK)|split; [exact (proj1 HV)|exact HKV]]).
  destruct (cross_orthonormal K V HO) as (UU & _). destruct (scale_facts M HS) as (M0 & _).
  pose proof (circle_point_coords (real_circle c K V) HO f) as (C1 & C2 & C3). cbn [real_circle ci_center ci_axis ci_ref_dir ci_radius] in C1, C2, C3.
  set (P := circle_get_point (real_circle c K V) f) in *. set (o := val3 (ci_center c)) in *. set (r := ci_radius c) in *.
  assert (D : forall D, unit3 D -> Rabs (dot3 (vsub (val3 p) o) D - dot3 (vsub P o) D) <= 2 * d).
  { intros D HD. replace (dot3 (vsub (val3 p) o) D - dot3 (vsub P o) D) with (dot3 (vsub (val3 p) P) D) by (unfold dot3; vsimp; ring). destruct HP as (H1 & H2 & H3). apply dot_unit_bound; vsimp; assumption. }
  assert (AU : ap3 1 170 1 (normalize3 (cross3 (ci_axis c) (ci_ref_dir c))) (cross3 K V)).
  { apply normalized64; [exact UU|]. assert (Q : ap3 1 21 2 (cross3 (ci_axis c) (ci_ref_dir c)) (cross3 K V)) by (apply (ap3_cross 4 1 4 1); try lra; now apply ap3_dir). destruct (unit_coords _ UU) as (W1 & W2 & W3). unfold ap3, ap in *. rewrite !Rmult_1_r in *. tauto. }
  pose proof (component64 M p (ci_center c) (ci_ref_dir c) V 4 HS Fp Wp FO WO (ap3_dir _ _ HV) ltac:(lra)) as QX.
  pose proof (component64 M p (ci_center c) _ _ 170 HS Fp Wp FO WO AU ltac:(lra)) as QY.
  fold o in QX, QY. unfold circle_project. cbv zeta.
  set (x := dot3 (vsub p (ci_center c)) (ci_ref_dir c)) in *. set (y := dot3 (vsub p (ci_center c)) (normalize3 (cross3 (ci_axis c) (ci_ref_dir c)))) in *.
  set (dd := 1044 * (eps * M) + 2 * d).
  assert (E0 : 0 < eps * M) by (apply Rmult_lt_0_compat; [unfold eps; lra|exact M0]).
  assert (T : forall x y z e d, Rabs (x - y) <= e -> Rabs (y - z) <= d -> Rabs (x - z) <= e + d) by (intros x' y' z' e' d' H1 H2; replace (x' - z') with ((x' - y') + (y' - z')) by ring; eapply Rle_trans; [apply Rabs_triang|]; lra).
  assert (HX : Rabs (val x - val r * cos f) <= dd). { rewrite <- C1. eapply Rle_trans; [apply (T _ _ _ _ _ (proj1 (proj2 QX)) (D V (proj1 HV)))|]. unfold dd. lra. }
  assert (HY : Rabs (val y - val r * sin f) <= dd). { rewrite <- C2. eapply Rle_trans; [apply (T _ _ _ _ _ (proj1 (proj2 QY)) (D _ UU))|]. unfold dd. lra. }
  destruct (ring64 M (ci_axis c) K (ci_ref_dir c) V r x y f dd HS HK HV HO Nr Hr (proj1 QX) (proj1 QY) HX HY) as (Q & QR & QA). cbv zeta in QR.
  unfold circle_get_point. fold r. match type of QR with ap3 _ _ _ ?t _ => change (close3 (8192 * eps * M + 16 * d) (vadd (ci_center c) t) (val3 p)); set (R1 := t) in * end. clearbody R1.
  assert (G : ap3 M 1024 15 (vadd (ci_center c) R1) (vadd o Q)).
  { apply (ap3_add M 0 1 863 14); try lra; [exact HS|now apply ap3_exact|exact QR]. }
  assert (EP : P = vadd o (vmulr (vadd (vmulr V (cos f)) (vmulr (cross3 K V) (sin f))) (val r))) by (unfold P; apply (circle_point (real_circle c K V) HO)).
  destruct G as ((N1 & G1 & _) & (N2 & G2 & _) & (N3 & G3 & _)). destruct QA as (A1 & A2 & A3). destruct HP as (P1 & P2 & P3). rewrite EP in P1, P2, P3.
  assert (FIN : forall g o1 q v u pp, Rabs (val g - (o1 + q)) <= 1024 * (eps * M) -> Rabs (q - (v * cos f + u * sin f) * val r) <= 6 * dd -> Rabs (pp - (o1 + (v * cos f + u * sin f) * val r)) <= d -> Rabs (val g - pp) <= 8192 * eps * M + 16 * d).
  { intros g o1 q v u pp H1 H3 H4. set (w := (v * cos f + u * sin f) * val r) in *. clearbody w.
    replace (val g - pp) with ((val g - (o1 + q)) + (q - w) - (pp - (o1 + w))) by ring.
    set (s1 := val g - (o1 + q)) in *. set (s3 := q - w) in *. set (s4 := pp - (o1 + w)) in *. clearbody s1 s3 s4.
    pose proof (Rle_abs s1). pose proof (Rle_abs (- s1)). pose proof (Rle_abs s3). pose proof (Rle_abs (- s3)). pose proof (Rle_abs s4). pose proof (Rle_abs (- s4)). pose proof (Rabs_pos s4). rewrite !Rabs_Ropp in *. unfold dd in *. apply Rabs_le. lra. }
  split; [split; [exact N1|split; assumption]|]. clear - FIN G1 G2 G3 A1 A2 A3 P1 P2 P3. split; [|split].
  - eapply FIN; [exact G1|exact A1|exact P1].
  - eapply FIN; [exact G2|exact A2|exact P2].
  - eapply FIN; [exact G3|exact A3|exact P3].
Qed.
End RoundTrip.

(** ** The hypotheses can be met *)
(** [t] rounded to a multiple of 2^-50 or 2^-52 *)
Definition tick (k : Z) : f64 := S754_finite false (2 ^ 52) (- 52 - k).
Definition rnd (k : Z) (t : R) : f64 := fmul (f64_of_Z (Int_part (t * pow2 k + / 2))) (tick k).
Lemma rnd_ok k t : (k = 50 \/ k = 52)%Z -> Rabs (t * pow2 k) <= pow2 52 -> num64 (rnd k t) /\ Rabs (val (rnd k t) - t) <= / 2 * pow2 (- k).
Proof.
  intros Hk Ht. set (z := Int_part (t * pow2 k + / 2)). assert (Bz : (Z.abs z <= 2 ^ 52 + 1)%Z /\ Rabs (IZR z - t * pow2 k) <= / 2).
  { destruct (base_Int_part (t * pow2 k + / 2)) as [L H]. fold z in L, H. set (w := t * pow2 k) in *. clearbody z w. split; [|apply Rabs_le; lra].
    rewrite <- (pow2_Z 52) in Ht by lia. assert (W : - IZR (2 ^ 52) <= w <= IZR (2 ^ 52)) by (revert Ht; unfold Rabs; destruct Rcase_abs; lra).
    assert (IZR (- (2 ^ 52) - 1) <= IZR z) by (rewrite minus_IZR, opp_IZR; lra). assert (IZR z <= IZR (2 ^ 52 + 1)) by (rewrite plus_IZR; lra). apply le_IZR in H0, H1. lia. }
  destruct Bz as [Bz Ez]. destruct (int_grid z (2 ^ 52 + 1) ltac:(lia)) as [Gz Vz].
  assert (Gt : grid (- k) 1 (tick k) /\ val (tick k) = pow2 (- k)).
  { assert (V : val (tick k) = pow2 (- k)). { unfold tick. change (val (S754_finite false (2 ^ 52) (- 52 - k))) with (IZR (2 ^ 52) * pow2 (- 52 - k)). rewrite pow2_Z, <- pow2_add by lia. f_equal. lia. } split; [|exact V]. split; [destruct Hk as [-> | ->]; split; reflexivity|]. exists 1%Z. split; [lia|]. rewrite V. lra. }
  destruct Gt as [Gt Vt]. destruct (grid_mul 0 (- k) (2 ^ 52 + 1) 1 _ _ Gz Gt ltac:(lia) ltac:(unfold spaced; lia)) as [[N _] E]. fold (rnd k t) in N. split; [exact N|].
  unfold rnd. fold z. rewrite E, Vz, Vt. pose proof (pow2_pos (- k)) as P. assert (I : pow2 k * pow2 (- k) = 1) by (rewrite <- pow2_add, Z.add_opp_diag_r; apply pow2_0).
  replace (IZR z * pow2 (- k) - t) with ((IZR z - t * pow2 k) * pow2 (- k)) by (rewrite Rmult_minus_distr_r, Rmult_assoc, I; ring). rewrite Rabs_mult, (Rabs_pos_eq (pow2 (- k))) by lra. apply Rmult_le_compat_r; lra.
Qed.
(** correctly rounded sines, cosines and arctangents *)
Definition rounded_trig : Trig f64 := {| fsin x := rnd 52 (sin (val x)); fcos x := rnd 52 (cos (val x)); fatan2 y x := rnd 50 (Ratan2 (val y) (val x)) |}.
Lemma C74_trig_nonvacuous : accurate_sin_cos rounded_trig /\ accurate_atan2 rounded_trig.
Proof.
  assert (E52 : / 2 * pow2 (- 52) = eps). { rewrite <- eps_pow2. change (-52)%Z with (1 + -53)%Z. rewrite (pow2_add 1), <- (pow2_Z 1) by lia. change (IZR (2 ^ 1)) with 2. lra. }
  assert (E50 : / 2 * pow2 (- 50) = 4 * eps). { rewrite <- eps_pow2. change (-50)%Z with (3 + -53)%Z. rewrite (pow2_add 3), <- (pow2_Z 3) by lia. change (IZR (2 ^ 3)) with 8. lra. }
  assert (B52 : forall w, -1 <= w <= 1 -> Rabs (w * pow2 52) <= pow2 52). { intros w Hw. pose proof (pow2_pos 52). rewrite Rabs_mult, (Rabs_pos_eq (pow2 52)) by lra. rewrite <- (Rmult_1_l (pow2 52)) at 2. apply Rmult_le_compat_r; [lra|]. now apply Rabs_le. }
  split.
  - intros x _ _. change (@fsin f64 rounded_trig x) with (rnd 52 (sin (val x))). change (@fcos f64 rounded_trig x) with (rnd 52 (cos (val x))).
    destruct (rnd_ok 52 (sin (val x)) ltac:(lia) (B52 _ (SIN_bound _))) as [N1 E1]. destruct (rnd_ok 52 (cos (val x)) ltac:(lia) (B52 _ (COS_bound _))) as [N2 E2].
    change (/ 2 * pow2 (- (52))) with (/ 2 * pow2 (-52)) in E1, E2. rewrite E52 in E1, E2. assert (0 < eps) by (unfold eps; lra). repeat split; try apply N1; try apply N2; lra.
  - intros y x _ _. change (@fatan2 f64 rounded_trig y x) with (rnd 50 (Ratan2 (val y) (val x))). pose proof PI_digits as PD.
    assert (Q : - PI <= Ratan2 (val y) (val x) <= PI /\ sqrt (val x * val x + val y * val y) * cos (Ratan2 (val y) (val x)) = val x /\ sqrt (val x * val x + val y * val y) * sin (Ratan2 (val y) (val x)) = val y).
    { destruct (Req_dec (val x) 0) as [Ex|Ex]; [destruct (Req_dec (val y) 0) as [Ey|Ey]|].
      - rewrite Ex, Ey, Ratan2_00. replace (0 * 0 + 0 * 0) with 0 by ring. rewrite sqrt_0. repeat split; lra.
      - destruct (Ratan2_polar (val x) (val y)) as (A & B & C); [tauto|]. repeat split; try assumption; lra.
      - destruct (Ratan2_polar (val x) (val y)) as (A & B & C); [tauto|]. repeat split; try assumption; lra. }
    destruct Q as (B & QC & QS). destruct (rnd_ok 50 (Ratan2 (val y) (val x)) ltac:(lia)) as [N E].
    { replace (pow2 52) with (4 * pow2 50). 2:{ change 52%Z with (2 + 50)%Z. rewrite (pow2_add 2), <- (pow2_Z 2) by lia. reflexivity. } pose proof (pow2_pos 50). rewrite Rabs_mult, (Rabs_pos_eq (pow2 50)) by lra. apply Rmult_le_compat_r; [lra|]. apply Rabs_le. lra. }
    split; [exact N|]. exists (Ratan2 (val y) (val x)). split; [exact B|]. split; [eapply Rle_trans; [exact E|right; exact E50]|]. now split.
Qed.
(** the circle of radius 2 around (1,2,3) in the plane z = 3, and its point (1,4,3) *)
Definition ipt (x y z : Z) : vec3 f64 := V3 (f64_of_Z x) (f64_of_Z y) (f64_of_Z z).
Definition ring : Circle f64 := {| ci_center := ipt 1 2 3; ci_radius := f64_of_Z 2; ci_axis := ipt 0 0 1; ci_ref_dir := ipt 1 0 0 |}.
Definition tube : Cylinder f64 := {| cy_origin := ipt 1 2 3; cy_axis := ipt 0 0 1; cy_ref_dir := ipt 1 0 0; cy_radius := f64_of_Z 2 |}.
Lemma ipt_val x y z : (Z.abs x <= 8 -> Z.abs y <= 8 -> Z.abs z <= 8 -> finite3 (ipt x y z) /\ val3 (ipt x y z) = V3 (IZR x) (IZR y) (IZR z))%Z.
Proof.
  intros Hx Hy Hz. assert (P : forall k, (Z.abs k <= 8)%Z -> num64 (f64_of_Z k) /\ val (f64_of_Z k) = IZR k). { intros k Hk. destruct (int_grid k 8 ltac:(lia)) as [[N _] V]. now split. }
  destruct (P x Hx) as [N1 V1], (P y Hy) as [N2 V2], (P z Hz) as [N3 V3']. split; [now split|]. unfold val3, ipt. cbn [x3 y3 z3]. now rewrite V1, V2, V3'.
Qed.
Lemma ipt_within x y z : (Z.abs x <= 8 -> Z.abs y <= 8 -> Z.abs z <= 8 -> within 8 (val3 (ipt x y z)))%Z.
Proof. intros Hx Hy Hz. rewrite (proj2 (ipt_val x y z Hx Hy Hz)). split; [|split]; cbn [x3 y3 z3]; rewrite <- abs_IZR; apply IZR_le; assumption. Qed.
Lemma ipt_unit x y z : (Z.abs x <= 8 -> Z.abs y <= 8 -> Z.abs z <= 8 -> x * x + y * y + z * z = 1 -> near_unit (ipt x y z) (V3 (IZR x) (IZR y) (IZR z)))%Z.
Proof.
  intros Hx Hy Hz H1. destruct (ipt_val x y z Hx Hy Hz) as [N V]. split.
  - unfold unit3, dot3. vsimp. rnum. rewrite <- !mult_IZR, <- !plus_IZR, H1. reflexivity.
  - injection V as V1 V2 V3'. assert (0 <= 4 * eps) by (unfold eps; lra). split; [exact N|]. cbn [x3 y3 z3 ipt] in *. rewrite V1, V2, V3', !Rminus_diag_eq, Rabs_R0 by reflexivity. now repeat split.
Qed.
Lemma scale_8 : scale 8.
Proof. unfold scale. change 8 with (IZR (2 ^ 3)). rewrite pow2_Z by lia. split; apply pow2_le; lia. Qed.
Example C74_nonvacuous : 
  close3 (8192 * eps * 8 + 16 * 0) (@circle_get_point f64 _ rounded_trig ring (@circle_project f64 _ rounded_trig ring (ipt 1 4 3))) (val3 (ipt 1 4 3)) /\
  close3 (2048 * eps * 8 + 16 * 0) (let w := @cylinder_project f64 _ rounded_trig tube (ipt 1 4 8) in @cylinder_get_point f64 _ rounded_trig tube (x2 w) (y2 w)) (val3 (ipt 1 4 8)) /\
  close3 (1024 * eps * 8) (@circle_get_point f64 _ rounded_trig ring (f64_of_Z 7)) (V3 (1 + 2 * cos 7) (2 + 2 * sin 7) 3).
Proof.
  destruct C74_trig_nonvacuous as [TS TA]. destruct (int_grid 2 8 ltac:(lia)) as [[N2 _] V2']. destruct (int_grid 7 8 ltac:(lia)) as [[N7 _] V7].
  destruct (ipt_val 1 2 3 ltac:(lia) ltac:(lia) ltac:(lia)) as [F0 V0].
  assert (O : orthonormal (V3 0 0 1) (V3 1 0 0)) by (unfold orthonormal, unit3, dot3; vsimp; rnum; repeat split; lra).
  assert (C0 : cross3 (V3 0 0 1) (V3 1 0 0) = V3 0 1 0 :> vec3 R) by (unfold cross3; vsimp; rnum; f_equal; ring).
  assert (PC : forall f, circle_get_point (real_circle ring (V3 0 0 1) (V3 1 0 0)) f = V3 (1 + 2 * cos f) (2 + 2 * sin f) 3).
  { intros f. rewrite (circle_point (real_circle ring (V3 0 0 1) (V3 1 0 0)) O). cbn [real_circle ring ci_center ci_axis ci_ref_dir ci_radius]. rewrite V0, V2', C0. vsimp. rnum. f_equal; ring. }
  assert (PY : forall l f, cylinder_get_point (real_cylinder tube (V3 0 0 1) (V3 1 0 0)) l f = V3 (1 + 2 * cos f) (2 + 2 * sin f) (3 + l)).
  { intros l f. rewrite (cylinder_point (real_cylinder tube (V3 0 0 1) (V3 1 0 0)) O). cbn [real_cylinder tube cy_origin cy_axis cy_ref_dir cy_radius]. rewrite V0, V2', C0. vsimp. rnum. f_equal; ring. }
  split; [|split].
  - apply (C74_circle_round_trip64 TS TA 8 ring (V3 0 0 1) (V3 1 0 0) (ipt 1 4 3) (PI / 2) 0); try exact scale_8; cbn [ring ci_center ci_axis ci_ref_dir ci_radius]; try apply ipt_within; try lia; try apply (ipt_unit 0 0 1); try apply (ipt_unit 1 0 0); try lia; try exact F0; try exact N2; try apply O.
    + rewrite V2'. lra.
    + rewrite PC, cos_PI2, sin_PI2. rewrite (proj2 (ipt_val 1 4 3 ltac:(lia) ltac:(lia) ltac:(lia))). split; [|split]; cbn [x3 y3 z3]; apply Rabs_le; lra.
  - cbv zeta. apply (C74_cylinder_round_trip64 TS TA 8 tube (V3 0 0 1) (V3 1 0 0) (ipt 1 4 8) 5 (PI / 2) 0); try exact scale_8; cbn [tube cy_origin cy_axis cy_ref_dir cy_radius]; try apply ipt_within; try lia; try apply (ipt_unit 0 0 1); try apply (ipt_unit 1 0 0); try lia; try exact F0; try exact N2; try apply O.
    + rewrite V2'. lra.
    + rewrite PY, cos_PI2, sin_PI2. rewrite (proj2 (ipt_val 1 4 8 ltac:(lia) ltac:(lia) ltac:(lia))). split; [|split]; cbn [x3 y3 z3]; apply Rabs_le; lra.
  - rewrite <- PC, <- V7. apply (C74_circle64 TS 8 ring (V3 0 0 1) (V3 1 0 0) (f64_of_Z 7)); try exact scale_8; cbn [ring ci_center ci_axis ci_ref_dir ci_radius]; try apply ipt_within; try lia; try apply (ipt_unit 0 0 1); try apply (ipt_unit 1 0 0); try lia; try exact F0; try exact N2; try exact N7.
    + rewrite V2', Rabs_pos_eq; lra.
    + rewrite V7, Rabs_pos_eq; lra.
Qed.
(** the round trip along a line is not exact: 0.2 comes back as 0.20000000000000004 *)
Theorem C74_exact_refuted : exists (l : Line f64) (u : f64), near_unit (l_direction l) (V3 1 0 0) /\ num64 u /\ finite3 (l_origin l) /\ feqb (line_project l (line_get_point l u)) u = false.
Proof.
  exists {| l_origin := V3 (tenth 1) f0 f0; l_direction := ipt 1 0 0 |}, (tenth 2). split; [apply (ipt_unit 1 0 0); lia|]. split; [split; reflexivity|]. split; [split; [|split]; split; reflexivity|]. vm_compute. reflexivity.
Qed.
