(** Rounding errors of binary64 operations, and of sums of products. *)
From Coq Require Import ZArith Reals Lra Lia List Bool Floats.SpecFloat Psatz.
From Verif Require Import Prelude Num M_vec M_utils M_curve M_surface L_base L_vec L_bezier L_surface L_float L_grid.
Open Scope R_scope.

(** unit roundoff 2^-53 and half of the smallest positive double, 2^-1075 *)
Definition eps : R := / 9007199254740992.
Definition eta : R := pow2 (-1075).
Lemma eps_pow2 : pow2 (-53) = eps.
Proof.
  assert (E : pow2 53 * pow2 (-53) = 1) by (rewrite <- pow2_add; apply pow2_0).
  rewrite <- (pow2_Z 53) in E by lia. change (2 ^ 53)%Z with 9007199254740992%Z in E. unfold eps. lra.
Qed.
Lemma eta_pos : 0 < eta. Proof. apply pow2_pos. Qed.
Lemma eta_small : eta <= eps * eps.
Proof. rewrite <- eps_pow2, <- pow2_add. apply pow2_le. lia. Qed.
Lemma big_pow2 : 1 < pow2 1000.
Proof. rewrite <- pow2_0. apply pow2_lt. lia. Qed.
Lemma big_pow2_max : pow2 1000 * 8388608 = pow2 1023.
Proof. change 1023%Z with (1000 + 23)%Z. rewrite pow2_add, <- (pow2_Z 23) by lia. reflexivity. Qed.

(** [z] is [x] rounded: relative error [eps], absolute error [eta], no change of sign *)
Definition near64 (z x : R) : Prop := Rabs (z - x) <= eps * Rabs x + eta /\ 0 <= z * x.
Lemma rounded64 res x : rounded p64 e64 res x -> Rabs x < pow2 1023 -> num64 res /\ near64 (val res) x.
Proof.
  intros H Hx. destruct (rounded_number p64 e64 res x H Hx) as (N & E & S). split; [exact N|]. split; [|exact S].
  change (pow2 (- p64)) with (pow2 (-53)) in E. rewrite eps_pow2 in E. change (pow2 (SpecFloat.emin p64 e64 - 1)) with eta in E.
  pose proof eta_pos. pose proof (Rabs_pos x). eapply Rle_trans; [exact E|]. unfold eps in *. apply Rmax_lub; lra.
Qed.
Lemma add64 (x y : f64) : num64 x -> num64 y -> Rabs (val x + val y) < pow2 1023 -> num64 (fadd x y) /\ near64 (val (fadd x y)) (val x + val y).
Proof. intros. apply rounded64; [apply SFadd_rounded; auto; reflexivity|assumption]. Qed.
Lemma sub64 (x y : f64) : num64 x -> num64 y -> Rabs (val x - val y) < pow2 1023 -> num64 (fsub x y) /\ near64 (val (fsub x y)) (val x - val y).
Proof. intros. apply rounded64; [apply SFsub_rounded; auto; reflexivity|assumption]. Qed.
Lemma mul64 (x y : f64) : num64 x -> num64 y -> Rabs (val x * val y) < pow2 1023 -> num64 (fmul x y) /\ near64 (val (fmul x y)) (val x * val y).
Proof. intros. apply rounded64; [apply SFmul_rounded; auto; reflexivity|assumption]. Qed.
Lemma div64 (x y : f64) : num64 x -> num64 y -> val y <> 0 -> Rabs (val x / val y) < pow2 1023 -> num64 (fdiv x y) /\ near64 (val (fdiv x y)) (val x / val y).
Proof. intros. apply rounded64; [apply SFdiv_rounded; auto; reflexivity|assumption]. Qed.
Lemma f0_num : num64 f0. Proof. split; reflexivity. Qed.
Lemma f1_num : num64 f1. Proof. split; reflexivity. Qed.
Lemma f1_val : val (f1 : f64) = 1.
Proof.
  assert (E : (f1 : f64) = S754_finite false 4503599627370496 (-52)) by (vm_compute; reflexivity). rewrite E. cbn [B2R].
  assert (K : pow2 52 * pow2 (-52) = 1) by (rewrite <- pow2_add; apply pow2_0). rewrite <- (pow2_Z 52) in K by lia. exact K.
Qed.
Lemma near64_nonneg z x : near64 z x -> 0 <= x -> x = 0 \/ 0 <= z.
Proof. intros [_ S] H. destruct (Req_dec x 0); [auto|right]. assert (0 < x) by lra. destruct (Rle_dec 0 z); [assumption|]. nra. Qed.
(** a rounded non-negative result is non-negative, also when the exact one is zero *)
Lemma rounded_nonneg res x : rounded p64 e64 res x -> Rabs x < pow2 1023 -> 0 <= x -> num64 res /\ Rabs (val res - x) <= eps * x + eta /\ 0 <= val res.
Proof.
  intros H Hx P. destruct (rounded64 res x H Hx) as [N NR]. split; [exact N|]. split; [destruct NR as [E _]; now rewrite (Rabs_right x) in E by lra|].
  destruct (near64_nonneg _ _ NR P) as [Z|Z]; [|exact Z]. subst x.
  destruct (rounded_exact p64 e64 res 0 0 0 H) as [_ E]; [reflexivity|cbn; lia|ring|]. rewrite E. lra.
Qed.
Lemma small_bound x b : Rabs x <= b -> b <= 4 -> Rabs x < pow2 1023.
Proof.
  intros H B. assert (8 < pow2 1023); [|lra]. replace 8 with (pow2 3) by (rewrite <- pow2_Z by lia; reflexivity). apply pow2_lt. lia.
Qed.
Ltac absd := repeat match goal with
  | H : context [Rabs ?a] |- _ => revert H; unfold Rabs at 1; destruct (Rcase_abs a); intros H
  | |- context [Rabs ?a] => unfold Rabs at 1; destruct (Rcase_abs a)
  end.
(** ** Bernstein basis *)
Section Bernstein.
Variable u : f64.
Hypothesis Hu : num64 u.
Hypothesis Hr : 0 <= val u <= 1.
Local Notation v := (val u).
Lemma one_minus : num64 (fsub f1 u) /\ 0 <= val (fsub f1 u) /\ Rabs (val (fsub f1 u) - (1 - v)) <= eps * (1 - v) + eta.
Proof.
  destruct (rounded_nonneg (fsub f1 u) (1 - v)) as (N & E & P); [rewrite <- f1_val; apply SFsub_rounded; auto using f1_num; reflexivity| |lra|auto].
  apply (small_bound _ 1); [|lra]. apply Rabs_le. lra.
Qed.
(** the product with the parameter, and with one minus the parameter *)
Lemma times_u (b : f64) : num64 b -> 0 <= val b <= 2 -> num64 (fmul u b) /\ 0 <= val (fmul u b) /\ Rabs (val (fmul u b) - v * val b) <= eps * (v * val b) + eta.
Proof.
  intros Nb Hb. assert (P : 0 <= v * val b <= 2) by nra.
  destruct (rounded_nonneg (fmul u b) (v * val b)) as (N & E & Q); [apply SFmul_rounded; auto; reflexivity| |lra|auto].
  apply (small_bound _ 2); [|lra]. apply Rabs_le. lra.
Qed.
Lemma times_u1 (b : f64) : num64 b -> 0 <= val b <= 2 ->
  num64 (fmul (fsub f1 u) b) /\ 0 <= val (fmul (fsub f1 u) b) /\
  Rabs (val (fmul (fsub f1 u) b) - (1 - v) * val b) <= (5 / 2) * eps * ((1 - v) * val b) + 4 * eta.
Proof.
  intros Nb Hb. destruct one_minus as (N1 & P1 & E1). pose proof eta_pos as H0. pose proof eta_small as H1.
  assert (W : val (fsub f1 u) <= (1 - v) * (1 + eps) + eta) by (unfold eps in *; absd; lra).
  assert (B : 0 <= val (fsub f1 u) <= 9 / 8) by (unfold eps in *; lra).
  assert (P : 0 <= val (fsub f1 u) * val b <= 9 / 4) by nra.
  destruct (rounded_nonneg (fmul (fsub f1 u) b) (val (fsub f1 u) * val b)) as (N & E & Q); [apply SFmul_rounded; auto; reflexivity| |lra|].
  { apply (small_bound _ (9 / 4)); [|lra]. apply Rabs_le. lra. }
  split; [exact N|]. split; [exact Q|].
  assert (D : Rabs (val (fsub f1 u) * val b - (1 - v) * val b) <= eps * ((1 - v) * val b) + 2 * eta).
  { replace (val (fsub f1 u) * val b - (1 - v) * val b) with ((val (fsub f1 u) - (1 - v)) * val b) by ring. rewrite Rabs_mult, (Rabs_right (val b)) by lra.
    apply Rle_trans with ((eps * (1 - v) + eta) * val b); [apply Rmult_le_compat_r; lra|]. nra. }
  assert (X : val (fsub f1 u) * val b <= (1 + eps) * ((1 - v) * val b) + 2 * eta) by (absd; lra).
  assert (Y : 0 <= (1 - v) * val b) by nra.
  replace (val (fmul (fsub f1 u) b) - (1 - v) * val b) with ((val (fmul (fsub f1 u) b) - val (fsub f1 u) * val b) + (val (fsub f1 u) * val b - (1 - v) * val b)) by ring.
  eapply Rle_trans; [apply Rabs_triang|]. unfold eps in *. lra.
Qed.
(** one step of the recurrence *)
Lemma bern_step (s t : f64) a b : num64 s -> num64 t -> 0 <= val s -> 0 <= val t -> 0 <= a <= 2 -> 0 <= b <= 2 -> a + b <= 5 / 2 ->
  Rabs (val s - a) <= eps * a + eta -> Rabs (val t - b) <= (5 / 2) * eps * b + 4 * eta ->
  num64 (fadd s t) /\ 0 <= val (fadd s t) /\ Rabs (val (fadd s t) - (a + b)) <= 4 * eps * (a + b) + 8 * eta.
Proof.
  intros Ns Nt Ps Pt Ha Hb Hab Es Et. pose proof eta_pos as H0. pose proof eta_small as H1.
  assert (D : Rabs (val s + val t - (a + b)) <= 5 / 2 * eps * (a + b) + 5 * eta) by (unfold eps in *; absd; lra).
  assert (U : val s + val t <= (1 + 5 / 2 * eps) * (a + b) + 5 * eta) by (absd; lra).
  destruct (rounded_nonneg (fadd s t) (val s + val t)) as (N & E & Q); [apply SFadd_rounded; auto; reflexivity| |lra|].
  { apply (small_bound _ 4); [|lra]. apply Rabs_le. unfold eps in *. lra. }
  split; [exact N|]. split; [exact Q|].
  replace (val (fadd s t) - (a + b)) with ((val (fadd s t) - (val s + val t)) + (val s + val t - (a + b))) by ring.
  eapply Rle_trans; [apply Rabs_triang|]. unfold eps in *. lra.
Qed.
Local Notation bt j k := (val (bernF j k u)).
Local Notation ex j k := (Bern j k v).
(** the exact step applied to computed values *)
Definition stepT (j k : nat) : R := match k with O => (1 - v) * bt j 0 | S k' => v * bt j k' + (1 - v) * bt j k end.
Lemma stepT_sum j : sumf (stepT j) (S (S j)) = sumf (fun k => bt j k) (S j).
Proof.
  rewrite sumf_S_first. cbn [stepT]. rewrite sumf_plus, !sumf_scal.
  assert (E : sumf (fun i => bt j (S i)) (S j) = sumf (fun i => bt j i) (S j) - bt j 0).
  { rewrite sumf_S, bernF_above by lia. rewrite f0_val, (sumf_S_first (fun i => bt j i) j). lra. }
  rewrite E. ring.
Qed.
Definition small_n (j : nat) : Prop := (Z.of_nat j <= 2 ^ 40)%Z.
Lemma small_INR j : small_n j -> INR j <= 1099511627776.
Proof. unfold small_n. intros H. rewrite INR_IZR_INZ. apply IZR_le. exact H. Qed.
Lemma bern_error j : small_n j ->
  (forall k, num64 (bernF j k u) /\ 0 <= bt j k) /\
  sumf (fun k => Rabs (bt j k - ex j k)) (S j) <= 8 * eps * INR j.
Proof.
  pose proof eta_pos as H0. pose proof eta_small as H1.
  induction j as [|j IH]; intros Hj.
  - split.
    + intros [|k]; cbn [bernF Nat.eqb]; [split; [exact f1_num|rewrite f1_val; lra]|split; [exact f0_num|rewrite f0_val; lra]].
    + rewrite sumf_S, sumf_0. cbn [bernF Nat.eqb INR]. rewrite f1_val, Bern_00. replace (1 - 1) with 0 by ring. rewrite Rabs_R0. lra.
  - assert (Hj' : small_n j) by (unfold small_n in *; lia). destruct (IH Hj') as [N L]. clear IH. pose proof (small_INR j Hj') as Bj. pose proof (pos_INR j) as Pj.
    assert (Half : sumf (fun k => Rabs (bt j k - ex j k)) (S j) <= 1 / 8) by (unfold eps in *; lra).
    assert (Top : forall k, bt j k <= 9 / 8 /\ forall i, (i < k)%nat -> bt j i + bt j k <= 9 / 8).
    { assert (Tot : sumf (fun k => bt j k) (S j) <= 9 / 8).
      { apply Rle_trans with (sumf (fun k => ex j k + Rabs (bt j k - ex j k)) (S j)); [apply sumf_le; intros; pose proof (Rle_abs (bt j i - ex j i)); lra|].
        rewrite sumf_plus, Bern_sum. lra. }
      assert (Pre : forall n, (n <= S j)%nat -> sumf (fun k => bt j k) n <= 9 / 8).
      { intros n Hn. eapply Rle_trans; [|exact Tot]. replace (S j) with (n + (S j - n))%nat by lia. rewrite sumf_app.
        assert (0 <= sumf (fun i => bt j (n + i)) (S j - n)) by (apply sumf_nonneg; intros; apply N). lra. }
      intros k. destruct (Nat.leb_spec k j) as [Hk|Hk].
      - pose proof (Pre (S k) ltac:(lia)) as K. rewrite sumf_S in K.
        assert (0 <= sumf (fun k => bt j k) k) by (apply sumf_nonneg; intros; apply N). split; [lra|].
        intros i Hi. replace k with (S i + (k - S i))%nat in K at 1 by lia. rewrite sumf_app, sumf_S in K.
        assert (0 <= sumf (fun k => bt j k) i) by (apply sumf_nonneg; intros; apply N).
        assert (0 <= sumf (fun x => bt j (S i + x)) (k - S i)) by (apply sumf_nonneg; intros; apply N). lra.
      - rewrite (bernF_above j k) by lia. rewrite f0_val. split; [lra|]. intros i Hi. destruct (Nat.leb_spec i j) as [Hi'|Hi'].
        + pose proof (Pre (S i) ltac:(lia)) as K. rewrite sumf_S in K. assert (0 <= sumf (fun k => bt j k) i) by (apply sumf_nonneg; intros; apply N). lra.
        + rewrite (bernF_above j i) by lia. rewrite f0_val. lra. }
    assert (St : forall k, num64 (bernF (S j) k u) /\ 0 <= bt (S j) k /\ ((k < S (S j))%nat -> Rabs (bt (S j) k - stepT j k) <= 4 * eps * stepT j k + 8 * eta)).
    { assert (HB : forall k, 0 <= bt j k <= 2) by (intros k; destruct (N k); destruct (Top k); lra).
      intros k. destruct k as [|k].
      - destruct (N 0%nat) as [N0 P0]. destruct (times_u1 _ N0 (HB 0%nat)) as (Nt & Pt & Et).
        assert (Y : 0 <= (1 - v) * bt j 0 <= 2) by (specialize (HB 0%nat); nra).
        destruct (bern_step f0 (fmul (fsub f1 u) (bernF j 0 u)) 0 ((1 - v) * bt j 0)) as (A & B & D); rewrite ?f0_val; auto using f0_num; try lra.
        { replace (0 - 0) with 0 by ring. rewrite Rabs_R0. lra. }
        change (bernF (S j) 0 u) with (fadd f0 (fmul (fsub f1 u) (bernF j 0 u))). split; [exact A|]. split; [exact B|]. intros _. cbn [stepT]. rewrite Rplus_0_l in D. exact D.
      - destruct (Nat.ltb_spec (S k) (S j)) as [Hk|Hk]; [|destruct (Nat.eqb_spec (S k) (S j)) as [Ek|Ek]].
        + destruct (N k) as [Nk Pk]. destruct (N (S k)) as [Nk' Pk']. destruct (times_u _ Nk (HB k)) as (Ns & Ps & Es). destruct (times_u1 _ Nk' (HB (S k))) as (Nt & Pt & Et).
          destruct (Top (S k)) as [_ T2]. specialize (T2 k ltac:(lia)).
          assert (Y1 : 0 <= v * bt j k <= 2) by (specialize (HB k); nra). assert (Y2 : 0 <= (1 - v) * bt j (S k) <= 2) by (specialize (HB (S k)); nra).
          assert (Y3 : v * bt j k + (1 - v) * bt j (S k) <= 5 / 2) by nra.
          destruct (bern_step _ _ _ _ Ns Nt Ps Pt Y1 Y2 Y3 Es Et) as (A & B & D).
          cbn [bernF]. rewrite (proj2 (Nat.ltb_lt _ _) Hk). split; [exact A|]. split; [exact B|]. intros _. exact D.
        + injection Ek as ->. destruct (N j) as [Nk Pk]. destruct (times_u _ Nk (HB j)) as (Ns & Ps & Es).
          cbn [bernF]. rewrite Nat.ltb_irrefl, Nat.eqb_refl. split; [exact Ns|]. split; [exact Ps|]. intros _. cbn [stepT]. rewrite (bernF_above j (S j)) by lia. rewrite f0_val, Rmult_0_r, Rplus_0_r.
          assert (Y1 : 0 <= v * bt j j) by nra. unfold eps in *. lra.
        + rewrite bernF_above by lia. split; [exact f0_num|]. rewrite f0_val. split; [lra|]. intros; lia. }
    split; [intros k; destruct (St k) as (A & B & _); auto|].
    apply Rle_trans with (sumf (fun k => (4 * eps * stepT j k + 8 * eta) + match k with O => (1 - v) * Rabs (bt j 0 - ex j 0) | S k' => v * Rabs (bt j k' - ex j k') + (1 - v) * Rabs (bt j k - ex j k) end) (S (S j))).
    { apply sumf_le. intros k Hk. destruct (St k) as (_ & _ & E). specialize (E Hk).
      replace (bt (S j) k - ex (S j) k) with ((bt (S j) k - stepT j k) + (stepT j k - ex (S j) k)) by ring. eapply Rle_trans; [apply Rabs_triang|]. apply Rplus_le_compat; [exact E|].
      destruct k as [|k]; cbn [stepT].
      - rewrite Bern_S0. replace ((1 - v) * bt j 0 - (1 - v) * ex j 0) with ((1 - v) * (bt j 0 - ex j 0)) by ring. rewrite Rabs_mult, (Rabs_right (1 - v)) by lra. lra.
      - rewrite Bern_SS. replace (v * bt j k + (1 - v) * bt j (S k) - (v * ex j k + (1 - v) * ex j (S k))) with (v * (bt j k - ex j k) + (1 - v) * (bt j (S k) - ex j (S k))) by ring.
        eapply Rle_trans; [apply Rabs_triang|]. rewrite !Rabs_mult, (Rabs_right v), (Rabs_right (1 - v)) by lra. lra. }
    rewrite sumf_plus, sumf_plus, sumf_scal, stepT_sum.
    assert (C8 : sumf (fun _ => 8 * eta) (S (S j)) = INR (S (S j)) * (8 * eta)).
    { clear. induction (S (S j)) as [|n IH]; [cbn; lra|]. rewrite sumf_S, IH, S_INR. lra. }
    assert (Sh : sumf (fun k => match k with O => (1 - v) * Rabs (bt j 0 - ex j 0) | S k' => v * Rabs (bt j k' - ex j k') + (1 - v) * Rabs (bt j k - ex j k) end) (S (S j)) = sumf (fun k => Rabs (bt j k - ex j k)) (S j)).
    { rewrite sumf_S_first, sumf_plus, !sumf_scal.
      assert (E : sumf (fun i => Rabs (bt j (S i) - ex j (S i))) (S j) = sumf (fun i => Rabs (bt j i - ex j i)) (S j) - Rabs (bt j 0 - ex j 0)).
      { rewrite sumf_S, bernF_above, Bern_above by lia. rewrite f0_val. replace (0 - 0) with 0 by ring. rewrite Rabs_R0, (sumf_S_first (fun i => Rabs (bt j i - ex j i)) j). lra. }
      rewrite E. ring. }
    assert (Tot : sumf (fun k => bt j k) (S j) <= 9 / 8).
    { apply Rle_trans with (sumf (fun k => ex j k + Rabs (bt j k - ex j k)) (S j)); [apply sumf_le; intros; pose proof (Rle_abs (bt j i - ex j i)); lra|].
      rewrite sumf_plus, Bern_sum. lra. }
    rewrite C8, Sh, !S_INR. unfold eps in *. nra.
Qed.
End Bernstein.

(** ** The accumulation loop, coordinate by coordinate *)
Definition acc64 (bs cs : list f64) : f64 := fold_left (fun a '(b, c) => fadd a (fmul b c)) (combine bs cs) f0.
Section Acc.
Variable M : R.
Hypothesis HM : 0 <= M <= pow2 1000.
Lemma acc_fold (bs cs : list f64) : length bs = length cs ->
  (forall b, In b bs -> num64 b) -> (forall c, In c cs -> num64 c /\ Rabs (val c) <= M) ->
  forall (a : f64) (e S0 W : R) (n : nat), num64 a -> Rabs (val a - S0) <= INR n * (4 * eps * M + 3 * eta) -> Rabs S0 <= W * M -> 0 <= W ->
    W + fold_right Rplus 0 (map (fun b => Rabs (val b)) bs) <= 3 / 2 -> small_n (n + length bs) ->
  num64 (fold_left (fun a '(b, c) => fadd a (fmul b c)) (combine bs cs) a) /\
  Rabs (val (fold_left (fun a '(b, c) => fadd a (fmul b c)) (combine bs cs) a) - (S0 + fold_right Rplus 0 (map (fun '(b, c) => val b * val c) (combine bs cs))))
  <= INR (n + length bs) * (4 * eps * M + 3 * eta).
Proof.
  pose proof eta_pos as H0. pose proof eta_small as H1. pose proof big_pow2 as Big1. pose proof big_pow2_max as Big2.
  revert cs. induction bs as [|b bs IH]; intros [|c cs] HL Hb Hc a e S0 W n Na Ea ES HW HT Hn; try discriminate HL.
  - cbn. rewrite Rplus_0_r, Nat.add_0_r. auto.
  - cbn [combine fold_left map fold_right length] in *. pose proof (Hb b (or_introl eq_refl)) as Nb. pose proof (Rabs_pos (val b)) as Pb. destruct (Hc c (or_introl eq_refl)) as [Nc Bc].
    assert (Pt : 0 <= fold_right Rplus 0 (map (fun b => Rabs (val b)) bs)).
    { clear. induction bs as [|x bs IH]; cbn [map fold_right]; [lra|]. pose proof (Rabs_pos (val x)). lra. }
    assert (Pr : Rabs (val b * val c) <= Rabs (val b) * M).
    { rewrite Rabs_mult. apply Rmult_le_compat_l; lra. }
    assert (BM : Rabs (val b) * M <= 3 / 2 * M) by (apply Rmult_le_compat_r; lra).
    destruct (mul64 b c Nb Nc) as [Np [Ep _]]; [lra|].
    assert (Ep' : Rabs (val (fmul b c) - val b * val c) <= 3 / 2 * eps * M + eta) by (unfold eps in *; lra).
    assert (Nn : small_n n) by (unfold small_n in *; lia). pose proof (small_INR n Nn) as Bn. pose proof (pos_INR n) as Pn.
    assert (Err : INR n * (4 * eps * M + 3 * eta) <= 1 / 1000 * M + 3 * INR n * eta).
    { assert (INR n * (4 * eps) <= 1 / 1000) by (unfold eps; lra). assert (INR n * (4 * eps) * M <= 1 / 1000 * M) by (apply Rmult_le_compat_r; lra). lra. }
    assert (En : 3 * INR n * eta <= 3298534883328 * eta) by (apply Rmult_le_compat_r; lra).
    assert (WM : (W + Rabs (val b)) * M <= 3 / 2 * M) by (apply Rmult_le_compat_r; lra).
    assert (S1 : Rabs (S0 + val b * val c) <= (W + Rabs (val b)) * M) by (eapply Rle_trans; [apply Rabs_triang|]; lra).
    assert (Sum : Rabs (val a + val (fmul b c) - (S0 + val b * val c)) <= INR n * (4 * eps * M + 3 * eta) + (3 / 2 * eps * M + eta)).
    { replace (val a + val (fmul b c) - (S0 + val b * val c)) with ((val a - S0) + (val (fmul b c) - val b * val c)) by ring. eapply Rle_trans; [apply Rabs_triang|]. lra. }
    assert (Mag : Rabs (val a + val (fmul b c)) <= 2 * M + 3298534883330 * eta).
    { replace (val a + val (fmul b c)) with ((val a + val (fmul b c) - (S0 + val b * val c)) + (S0 + val b * val c)) by ring. eapply Rle_trans; [apply Rabs_triang|]. unfold eps in *. lra. }
    destruct (add64 a (fmul b c) Na Np) as [Ns [Es _]]; [unfold eps in *; lra|].
    destruct (IH cs ltac:(lia) ltac:(intros; apply Hb; now right) ltac:(intros; apply Hc; now right) (fadd a (fmul b c)) e (S0 + val b * val c) (W + Rabs (val b)) (S n)) as [R1 R2].
    + exact Ns.
    + replace (val (fadd a (fmul b c)) - (S0 + val b * val c)) with ((val (fadd a (fmul b c)) - (val a + val (fmul b c))) + (val a + val (fmul b c) - (S0 + val b * val c))) by ring.
      eapply Rle_trans; [apply Rabs_triang|]. rewrite S_INR. unfold eps in *. lra.
    + exact S1.
    + lra.
    + lra.
    + unfold small_n in *. lia.
    + split; [exact R1|]. rewrite Nat.add_succ_r. rewrite Nat.add_succ_l in R2. replace (S0 + (val b * val c + fold_right Rplus 0 (map (fun '(b, c) => val b * val c) (combine bs cs))))
        with (S0 + val b * val c + fold_right Rplus 0 (map (fun '(b, c) => val b * val c) (combine bs cs))) by ring. exact R2.
Qed.
End Acc.
(** against the exact weights: [w i] with [sumf |b i - w i| <= L] *)
Lemma acc_error M (bs cs : list f64) (w : nat -> R) (L : R) : 0 <= M <= pow2 1000 -> length bs = length cs -> small_n (length cs) ->
  (forall b, In b bs -> num64 b) -> (forall c, In c cs -> num64 c /\ Rabs (val c) <= M) ->
  sumf (fun i => Rabs (w i)) (length cs) <= 1 -> sumf (fun i => Rabs (val (nth i bs f0) - w i)) (length cs) <= L -> L <= 1 / 2 ->
  num64 (acc64 bs cs) /\
  Rabs (val (acc64 bs cs) - sumf (fun i => w i * val (nth i cs f0)) (length cs)) <= INR (length cs) * (4 * eps * M + 3 * eta) + L * M.
Proof.
  intros HM HL Hn Hb Hc Hw HD HL2. pose proof eta_pos as H0.
  assert (Tot : fold_right Rplus 0 (map (fun b => Rabs (val b)) bs) <= 1 + L).
  { pose proof (sum_map_nth (A := f64) (fun b => Rabs (val b)) bs f0) as K; rewrite HL in K. eapply Rle_trans; [right; exact K|].
    apply Rle_trans with (sumf (fun k => Rabs (w k) + Rabs (val (nth k bs f0) - w k)) (length cs)); [apply sumf_le; intros; replace (val (nth i bs f0)) with (w i + (val (nth i bs f0) - w i)) at 1 by ring; apply Rabs_triang|].
    rewrite sumf_plus. lra. }
  destruct (acc_fold M HM bs cs HL Hb Hc f0 0 0 0 0%nat) as [R1 R2]; [exact f0_num|cbn [INR]; rewrite f0_val, Rminus_0_r, Rabs_R0; lra|rewrite Rabs_R0; lra|lra|lra|cbn [Nat.add]; now rewrite HL|].
  split; [exact R1|]. fold (acc64 bs cs) in R2. cbn [Nat.add] in R2. rewrite Rplus_0_l, HL in R2.
  assert (E : fold_right Rplus 0 (map (fun '(b, c) => val b * val c) (combine bs cs)) = sumf (fun i => val (nth i bs f0) * val (nth i cs f0)) (length cs)).
  { rewrite (sum_map_nth _ _ (f0, f0)), combine_length, HL, Nat.min_id. apply sumf_ext. intros i Hi. rewrite combine_nth by exact HL. reflexivity. }
  rewrite E in R2.
  assert (D : Rabs (sumf (fun i => val (nth i bs f0) * val (nth i cs f0)) (length cs) - sumf (fun i => w i * val (nth i cs f0)) (length cs)) <= L * M).
  { rewrite <- sumf_minus. apply Rle_trans with (sumf (fun i => Rabs (val (nth i bs f0) - w i) * M) (length cs)).
    - clear - Hc. assert (G : forall n, (n <= length cs)%nat -> Rabs (sumf (fun i => val (nth i bs f0) * val (nth i cs f0) - w i * val (nth i cs f0)) n) <= sumf (fun i => Rabs (val (nth i bs f0) - w i) * M) n).
      { induction n as [|n IH]; intros Hn; [cbn; rewrite Rabs_R0; lra|]. rewrite !sumf_S. eapply Rle_trans; [apply Rabs_triang|]. apply Rplus_le_compat; [apply IH; lia|].
        rewrite <- Rmult_minus_distr_r, Rabs_mult. apply Rmult_le_compat_l; [apply Rabs_pos|]. apply Hc. apply nth_In. lia. }
      now apply G.
    - rewrite sumf_scal_r. apply Rmult_le_compat_r; lra. }
  match goal with |- Rabs (?x - ?y) <= _ => match type of D with Rabs (?z - _) <= _ => replace (x - y) with ((x - z) + (z - y)) by ring end end.
  eapply Rle_trans; [apply Rabs_triang|]. lra.
Qed.
(** the loop on points is the loop on each coordinate *)
Lemma ws_fold_3 (l : list (f64 * vec3 f64)) (a : vec3 f64) :
  fold_left (fun point '(b, p) => vadd point (vmull b p)) l a =
  V3 (fold_left (fun a '(b, c) => fadd a (fmul b c)) (map (fun '(b, p) => (b, x3 p)) l) (x3 a))
     (fold_left (fun a '(b, c) => fadd a (fmul b c)) (map (fun '(b, p) => (b, y3 p)) l) (y3 a))
     (fold_left (fun a '(b, c) => fadd a (fmul b c)) (map (fun '(b, p) => (b, z3 p)) l) (z3 a)).
Proof. revert a. induction l as [|[b p] l IH]; intros a; [destruct a; reflexivity|]. cbn [fold_left map]. rewrite IH. reflexivity. Qed.
Lemma combine_map_r {A B B'} (f : B -> B') (l : list A) (m : list B) : combine l (map f m) = map (fun '(a, b) => (a, f b)) (combine l m).
Proof. revert m. induction l as [|a l IH]; intros [|b m]; cbn; [reflexivity..|]. now rewrite IH. Qed.
Lemma weighted_sum_64 (bs : list f64) (ps : list (vec3 f64)) :
  weighted_sum bs ps = V3 (acc64 bs (map x3 ps)) (acc64 bs (map y3 ps)) (acc64 bs (map z3 ps)).
Proof. unfold weighted_sum, acc64. rewrite ws_fold_3, !combine_map_r. reflexivity. Qed.

(** ** The double loop of tensor products is one accumulation over the cells, row by row *)
Section Tensor.
Context {F : Type} {NF : Num F} {P : Type} {VP : VecOps F P}.
Definition cell_weights (bu bv : list F) (r c : nat) : list F := flat_map (fun i => map (fun j => fmul (nth i bu f0) (nth j bv f0)) (seq 0 c)) (seq 0 r).
Lemma weighted_sum_snoc (ws : list F) w (ps : list P) : (length ws < length ps)%nat ->
  weighted_sum (ws ++ [w]) ps = vadd (weighted_sum ws ps) (vmull w (nth (length ws) ps vzero)).
Proof.
  intros H. unfold weighted_sum.
  assert (E : combine (ws ++ [w]) ps = combine ws ps ++ [(w, nth (length ws) ps vzero)]).
  { revert ps H. induction ws as [|x ws IH]; intros [|p ps] H; cbn in *; try lia; [now destruct ps|]. now rewrite IH by lia. }
  rewrite E, fold_left_app. reflexivity.
Qed.
Lemma cell_weights_length bu bv r c : length (cell_weights bu bv r c) = (r * c)%nat.
Proof.
  unfold cell_weights. induction r as [|r IH]; [reflexivity|]. rewrite seq_S, flat_map_app, app_length, IH. cbn [flat_map]. rewrite app_nil_r, map_length, seq_length. lia.
Qed.
Lemma cell_weights_nth bu bv r c i j : (i < r)%nat -> (j < c)%nat -> nth (i * c + j) (cell_weights bu bv r c) f0 = fmul (nth i bu f0) (nth j bv f0).
Proof.
  induction r as [|r IH]; intros Hi Hj; [lia|]. unfold cell_weights. rewrite seq_S, flat_map_app. fold (cell_weights bu bv r c). cbn [flat_map Nat.add]. rewrite app_nil_r.
  destruct (Nat.eq_dec i r) as [->|NE].
  - rewrite app_nth2; rewrite cell_weights_length; [|lia]. replace (r * c + j - r * c)%nat with j by lia. rewrite (nth_map_default _ _ _ 0%nat) by now rewrite seq_length. now rewrite seq_nth.
  - rewrite app_nth1; [apply IH; lia|]. rewrite cell_weights_length. nia.
Qed.
Lemma tensor_sum_cells (g : Grid P) (bu bv : list F) r c : wf_grid g r c -> (r <= length bu)%nat -> (c <= length bv)%nat ->
  tensor_sum g bu bv = Ok (weighted_sum (cell_weights bu bv r c) (g_data g)).
Proof.
  intros Hw Hr Hc. unfold tensor_sum. rewrite (wf_rows g r c Hw). pose proof Hw as (Ec & HL & H1). rewrite Ec.
  destruct (foldM_range (fun k q => q = weighted_sum (cell_weights bu bv k c) (g_data g))
    (fun point i => foldM (fun point j => p <- grid_idx g i j ;; bu <- idx bu i ;; bv <- idx bv j ;; Ok (vadd point (vmull (fmul bu bv) p))) point (Prelude.range 0 c)) 0 r vzero) as (q & E & Q).
  - lia.
  - reflexivity.
  - intros i q Hi ->.
    destruct (foldM_range (fun m q => q = weighted_sum (cell_weights bu bv i c ++ map (fun j => fmul (nth i bu f0) (nth j bv f0)) (seq 0 m)) (g_data g))
      (fun point j => p <- grid_idx g i j ;; bu <- idx bu i ;; bv <- idx bv j ;; Ok (vadd point (vmull (fmul bu bv) p))) 0 c (weighted_sum (cell_weights bu bv i c) (g_data g))) as (q' & E & Q).
    + lia.
    + cbn [seq map]. now rewrite app_nil_r.
    + intros j q Hj ->. unfold grid_idx. rewrite (wf_rows g r c Hw), Ec, (proj2 (Nat.ltb_lt i r)), (proj2 (Nat.ltb_lt j c)) by lia. cbn [andb].
      rewrite (idx_nth _ _ vzero) by nia. cbn [obind]. rewrite (idx_nth bu i f0), (idx_nth bv j f0) by lia. cbn [obind]. eexists. split; [reflexivity|].
      rewrite Nat.add_1_r, seq_S, map_app, app_assoc. cbn [map Nat.add]. rewrite weighted_sum_snoc; rewrite app_length, cell_weights_length, map_length, seq_length; [reflexivity|nia].
    + exists q'. split; [exact E|]. rewrite Q. f_equal. rewrite Nat.add_1_r. unfold cell_weights. rewrite seq_S, flat_map_app. cbn [flat_map Nat.add]. now rewrite app_nil_r.
  - subst q. exact E.
Qed.
End Tensor.
Lemma sumf_cells (f : nat -> R) r c : sumf f (r * c) = sumf (fun i => sumf (fun j => f (i * c + j)%nat) c) r.
Proof. induction r as [|r IH]; [reflexivity|]. rewrite sumf_S, <- IH. replace (S r * c)%nat with (r * c + c)%nat by lia. apply sumf_app. Qed.
Lemma sumf_const a n : sumf (fun _ => a) n = INR n * a.
Proof. induction n as [|n IH]; [cbn; lra|]. rewrite sumf_S, IH, S_INR. lra. Qed.
Lemma sumf_prod (f g : nat -> R) r c : sumf (fun i => sumf (fun j => f i * g j) c) r = sumf f r * sumf g c.
Proof. rewrite <- sumf_scal_r. apply sumf_ext. intros i _. now rewrite sumf_scal. Qed.
(** product weights in double arithmetic *)
Lemma product_weights (bu bv : list f64) (wu wv : nat -> R) r c Lu Lv :
  (forall i, num64 (nth i bu f0)) -> (forall j, num64 (nth j bv f0)) ->
  sumf (fun i => Rabs (wu i)) r <= 1 -> sumf (fun j => Rabs (wv j)) c <= 1 ->
  sumf (fun i => Rabs (val (nth i bu f0) - wu i)) r <= Lu -> sumf (fun j => Rabs (val (nth j bv f0) - wv j)) c <= Lv -> Lu <= 1 / 8 -> Lv <= 1 / 8 ->
  (forall i j, (i < r)%nat -> (j < c)%nat -> num64 (fmul (nth i bu f0) (nth j bv f0))) /\
  sumf (fun i => sumf (fun j => Rabs (val (fmul (nth i bu f0) (nth j bv f0)) - wu i * wv j)) c) r <= Lu + 9 / 8 * Lv + 2 * eps + INR (r * c) * eta.
Proof.
  intros Nu Nv Wu Wv Eu Ev Bu Bv.
  assert (T : forall (b : nat -> R) (w : nat -> R) n L, sumf (fun i => Rabs (w i)) n <= 1 -> sumf (fun i => Rabs (b i - w i)) n <= L -> sumf (fun i => Rabs (b i)) n <= 1 + L).
  { intros b w n L H1 H2. apply Rle_trans with (sumf (fun i => Rabs (w i) + Rabs (b i - w i)) n); [|rewrite sumf_plus; lra]. apply sumf_le. intros i _. replace (b i) with (w i + (b i - w i)) at 1 by ring. apply Rabs_triang. }
  pose proof (T (fun i => val (nth i bu f0)) wu r Lu Wu Eu) as Su. pose proof (T (fun i => val (nth i bv f0)) wv c Lv Wv Ev) as Sv. cbv beta in Su, Sv.
  assert (One : forall (b : nat -> R) n L i, (i < n)%nat -> sumf (fun i => Rabs (b i)) n <= L -> Rabs (b i) <= L).
  { intros b n L i Hi H. eapply Rle_trans; [|exact H]. clear H. induction n as [|n IH]; [lia|]. rewrite sumf_S. pose proof (Rabs_pos (b n)).
    destruct (Nat.eq_dec i n) as [->|]; [|specialize (IH ltac:(lia)); lra]. assert (0 <= sumf (fun i => Rabs (b i)) n) by (apply sumf_nonneg; intros; apply Rabs_pos). lra. }
  assert (Pr : forall i j, (i < r)%nat -> (j < c)%nat -> num64 (fmul (nth i bu f0) (nth j bv f0)) /\ Rabs (val (fmul (nth i bu f0) (nth j bv f0)) - val (nth i bu f0) * val (nth j bv f0)) <= eps * (Rabs (val (nth i bu f0)) * Rabs (val (nth j bv f0))) + eta).
  { intros i j Hi Hj. pose proof (One _ _ _ _ Hi Su) as B1. pose proof (One _ _ _ _ Hj Sv) as B2. cbv beta in B1, B2.
    pose proof (Rabs_pos (val (nth i bu f0))). pose proof (Rabs_pos (val (nth j bv f0))).
    destruct (mul64 (nth i bu f0) (nth j bv f0) (Nu i) (Nv j)) as [N [E _]]; [|rewrite Rabs_mult in E; auto].
    apply (small_bound _ 4); [|lra]. rewrite Rabs_mult. apply Rle_trans with (2 * 2); [|lra]. apply Rmult_le_compat; lra. }
  split; [intros i j Hi Hj; now apply Pr|].
  apply Rle_trans with (sumf (fun i => sumf (fun j => (eps * (Rabs (val (nth i bu f0)) * Rabs (val (nth j bv f0))) + eta) + (Rabs (val (nth i bu f0)) * Rabs (val (nth j bv f0) - wv j) + Rabs (val (nth i bu f0) - wu i) * Rabs (wv j))) c) r).
  { apply sumf_le. intros i Hi. apply sumf_le. intros j Hj. destruct (Pr i j Hi Hj) as [_ E].
    match goal with |- Rabs (?x - _) <= _ => replace (x - wu i * wv j) with ((x - val (nth i bu f0) * val (nth j bv f0)) + (val (nth i bu f0) * (val (nth j bv f0) - wv j) + (val (nth i bu f0) - wu i) * wv j)) by ring end.
    eapply Rle_trans; [apply Rabs_triang|]. apply Rplus_le_compat; [exact E|]. eapply Rle_trans; [apply Rabs_triang|]. rewrite !Rabs_mult. lra. }
  assert (Ex : sumf (fun i => sumf (fun j => (eps * (Rabs (val (nth i bu f0)) * Rabs (val (nth j bv f0))) + eta) + (Rabs (val (nth i bu f0)) * Rabs (val (nth j bv f0) - wv j) + Rabs (val (nth i bu f0) - wu i) * Rabs (wv j))) c) r
    = eps * (sumf (fun i => Rabs (val (nth i bu f0))) r * sumf (fun j => Rabs (val (nth j bv f0))) c) + INR (r * c) * eta
      + (sumf (fun i => Rabs (val (nth i bu f0))) r * sumf (fun j => Rabs (val (nth j bv f0) - wv j)) c + sumf (fun i => Rabs (val (nth i bu f0) - wu i)) r * sumf (fun j => Rabs (wv j)) c)).
  { rewrite <- !sumf_prod. rewrite <- (sumf_const eta (r * c)), (sumf_cells (fun _ => eta) r c). rewrite <- sumf_scal, <- !sumf_plus. apply sumf_ext. intros i _. rewrite <- sumf_scal, <- !sumf_plus. reflexivity. }
  rewrite Ex.
  assert (N1 : 0 <= sumf (fun i => Rabs (val (nth i bu f0))) r) by (apply sumf_nonneg; intros; apply Rabs_pos). assert (N2 : 0 <= sumf (fun i => Rabs (val (nth i bv f0))) c) by (apply sumf_nonneg; intros; apply Rabs_pos).
  assert (N3 : 0 <= sumf (fun j => Rabs (val (nth j bv f0) - wv j)) c) by (apply sumf_nonneg; intros; apply Rabs_pos). assert (N4 : 0 <= sumf (fun i => Rabs (val (nth i bu f0) - wu i)) r) by (apply sumf_nonneg; intros; apply Rabs_pos).
  assert (N5 : 0 <= sumf (fun j => Rabs (wv j)) c) by (apply sumf_nonneg; intros; apply Rabs_pos).
  assert (G1 : sumf (fun i => Rabs (val (nth i bu f0))) r * sumf (fun j => Rabs (val (nth j bv f0))) c <= 2) by (apply Rle_trans with (9 / 8 * (9 / 8)); [apply Rmult_le_compat; lra|lra]).
  assert (G2 : sumf (fun i => Rabs (val (nth i bu f0))) r * sumf (fun j => Rabs (val (nth j bv f0) - wv j)) c <= 9 / 8 * Lv) by (apply Rmult_le_compat; lra).
  assert (G3 : sumf (fun i => Rabs (val (nth i bu f0) - wu i)) r * sumf (fun j => Rabs (wv j)) c <= Lu * 1) by (apply Rmult_le_compat; lra).
  unfold eps in *. lra.
Qed.
