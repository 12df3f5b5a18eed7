(** Property C84: when the sampling of curve segments returns. *)
From Coq Require Import Reals Lra Psatz Lia Arith ZArith List SpecFloat.
From Verif Require Import Prelude Num M_vec M_utils M_curve L_base L_vec L_geom L_bezier L_cdb L_insert L_knot L_bspline L_split Props_knot Props_bspline Props_split Props_bezier Props_utils Props_surface Props_sampling Props_variation Props_rational.
Import ListNotations.
Open Scope R_scope.

(** ** Specification *)
(** some depth of recursion suffices, whatever the random numbers *)
Definition always_returns (seg : CurveSegment R) : Prop := exists depth, forall rnd, (forall path, 0 <= rnd path < 1) -> exists pts, segment_get_points depth rnd seg = Ok pts.
(** no depth suffices, whatever the random numbers *)
Definition never_returns (seg : CurveSegment R) : Prop := forall depth rnd, (forall path, 0 <= rnd path < 1) -> segment_get_points depth rnd seg = OutOfFuel.
(** no knot strictly inside occurs more than [p] times *)
Definition joined (ks : list R) (p : nat) : Prop := forall i, (i + p < length ks)%nat -> nth p ks 0 < nth i ks 0 < last_knot ks -> nth i ks 0 < nth (i + p) ks 0.

(** ** Lipschitz functions on an interval *)
Definition lip (f : R -> R) (lo hi : R) : Prop := exists L, 0 <= L /\ forall x y, lo <= x <= hi -> lo <= y <= hi -> Rabs (f x - f y) <= L * Rabs (x - y).
Lemma lip_const k lo hi : lip (fun _ => k) lo hi.
Proof. exists 0. split; [lra|]. intros. rewrite Rminus_eq_0, Rabs_R0. lra. Qed.
Lemma lip_id lo hi : lip (fun x => x) lo hi.
Proof. exists 1. split; [lra|]. intros. lra. Qed.
Lemma lip_plus f g lo hi : lip f lo hi -> lip g lo hi -> lip (fun x => f x + g x) lo hi.
Proof.
  intros (A & HA & Hf) (B & HB & Hg). exists (A + B). split; [lra|]. intros x y Hx Hy. replace (f x + g x - (f y + g y)) with (f x - f y + (g x - g y)) by ring. eapply Rle_trans; [apply Rabs_triang|]. specialize (Hf x y Hx Hy). specialize (Hg x y Hx Hy). lra.
Qed.
Lemma lip_bounded f lo hi : lip f lo hi -> exists M, 0 <= M /\ forall x, lo <= x <= hi -> Rabs (f x) <= M.
Proof.
  intros (A & HA & Hf). destruct (Rle_dec lo hi) as [L|L]; [|exists 0; split; [lra|intros; lra]]. exists (Rabs (f lo) + A * (hi - lo)). split; [pose proof (Rabs_pos (f lo)); assert (0 <= A * (hi - lo)) by (apply Rmult_le_pos; lra); lra|].
  intros x Hx. replace (f x) with (f lo + (f x - f lo)) by ring. eapply Rle_trans; [apply Rabs_triang|]. specialize (Hf x lo Hx ltac:(lra)). rewrite (Rabs_right (x - lo)) in Hf by lra. assert (A * (x - lo) <= A * (hi - lo)) by (apply Rmult_le_compat_l; lra). lra.
Qed.
Lemma lip_mult f g lo hi : lip f lo hi -> lip g lo hi -> lip (fun x => f x * g x) lo hi.
Proof.
  intros Lf Lg. destruct (lip_bounded f lo hi Lf) as (M & HM & Bf). destruct (lip_bounded g lo hi Lg) as (N & HN & Bg). destruct Lf as (A & HA & Hf). destruct Lg as (B & HB & Hg).
  exists (M * B + A * N). split; [pose proof (Rmult_le_pos _ _ HM HB); pose proof (Rmult_le_pos _ _ HA HN); lra|]. intros x y Hx Hy.
  replace (f x * g x - f y * g y) with (f x * (g x - g y) + (f x - f y) * g y) by ring. eapply Rle_trans; [apply Rabs_triang|]. rewrite !Rabs_mult.
  assert (Rabs (f x) * Rabs (g x - g y) <= M * (B * Rabs (x - y))) by (apply Rmult_le_compat; auto using Rabs_pos). assert (Rabs (f x - f y) * Rabs (g y) <= A * Rabs (x - y) * N) by (apply Rmult_le_compat; auto using Rabs_pos). lra.
Qed.
Lemma lip_ext f g lo hi : (forall x, lo <= x <= hi -> f x = g x) -> lip f lo hi -> lip g lo hi.
Proof. intros E (A & HA & Hf). exists A. split; [exact HA|]. intros x y Hx Hy. rewrite <- !E by assumption. now apply Hf. Qed.
Lemma lip_pow f n lo hi : lip f lo hi -> lip (fun x => f x ^ n) lo hi.
Proof. intros H. induction n as [|n IH]; cbn [pow]; [apply lip_const|now apply lip_mult]. Qed.
Lemma lip_sum (f : nat -> R -> R) n lo hi : (forall i, lip (f i) lo hi) -> lip (fun x => sumf (fun i => f i x) n) lo hi.
Proof. intros H. induction n as [|n IH]; [apply (lip_ext (fun _ => 0)); [intros; now rewrite sumf_0|apply lip_const]|]. apply (lip_ext (fun x => sumf (fun i => f i x) n + f n x)); [intros; now rewrite sumf_S|now apply lip_plus]. Qed.
Lemma lip_quotient f g m lo hi : 0 < m -> (forall x, lo <= x <= hi -> m <= g x) -> lip f lo hi -> lip g lo hi -> lip (fun x => f x / g x) lo hi.
Proof.
  intros Hm Hg Lf Lg. unfold Rdiv. apply (lip_mult f (fun x => / g x)); [exact Lf|]. destruct Lg as (B & HB & LB). exists (B / (m * m)). split; [apply Rmult_le_pos; [exact HB|left; apply Rinv_0_lt_compat; now apply Rmult_lt_0_compat]|].
  intros x y Hx Hy. pose proof (Hg x Hx) as Gx. pose proof (Hg y Hy) as Gy. replace (/ g x - / g y) with ((g y - g x) / (g x * g y)) by (field; lra). unfold Rdiv. rewrite Rabs_mult, (Rabs_right (/ (g x * g y))) by (apply Rle_ge; left; apply Rinv_0_lt_compat; apply Rmult_lt_0_compat; lra).
  replace (B * / (m * m) * Rabs (x - y)) with (B * Rabs (x - y) * / (m * m)) by ring. apply Rmult_le_compat; [apply Rabs_pos|left; apply Rinv_0_lt_compat; apply Rmult_lt_0_compat; lra| |].
  - rewrite (Rabs_minus_sym x y). now apply LB.
  - apply Rinv_le_contravar; [now apply Rmult_lt_0_compat|]. apply Rmult_le_compat; lra.
Qed.
Lemma lip_linear a b lo hi : lip (fun x => a * x + b) lo hi.
Proof. apply (lip_plus (fun x => a * x) (fun _ => b)); [apply (lip_mult (fun _ => a) (fun x => x)); [apply lip_const|apply lip_id]|apply lip_const]. Qed.
Lemma lip_cdb t s k lo hi : forall i, lip (cdb t s k i) lo hi.
Proof.
  induction k as [|k IH]; intros i; [apply lip_const|]. cbn [cdb]. unfold ratio.
  apply (lip_plus (fun u => (if Req_EM_T (t (i + S k)%nat - t i) 0 then 0 else (u - t i) / (t (i + S k)%nat - t i)) * cdb t s k i u) (fun u => (if Req_EM_T (t (i + S k + 1)%nat - t (i + 1)%nat) 0 then 0 else (t (i + S k + 1)%nat - u) / (t (i + S k + 1)%nat - t (i + 1)%nat)) * cdb t s k (i + 1) u)).
  - apply lip_mult; [|apply IH]. destruct (Req_EM_T _ 0); [apply lip_const|]. apply (lip_ext (fun u => / (t (i + S k)%nat - t i) * u + - t i / (t (i + S k)%nat - t i))); [intros; field; assumption|apply lip_linear].
  - apply lip_mult; [|apply IH]. destruct (Req_EM_T _ 0); [apply lip_const|]. apply (lip_ext (fun u => - / (t (i + S k + 1)%nat - t (i + 1)%nat) * u + t (i + S k + 1)%nat / (t (i + S k + 1)%nat - t (i + 1)%nat))); [intros; field; assumption|apply lip_linear].
Qed.
Lemma lip_Bern d i lo hi : lip (Bern d i) lo hi.
Proof.
  unfold Bern. destruct (i <=? d)%nat; [|apply lip_const]. apply (lip_mult (fun u => C d i * u ^ i) (fun u => (1 - u) ^ (d - i))).
  - apply (lip_mult (fun _ => C d i) (fun u => u ^ i)); [apply lip_const|apply lip_pow, lip_id].
  - apply (lip_pow (fun u => 1 - u)). apply (lip_ext (fun u => (-1) * u + 1)); [intros; ring|apply lip_linear].
Qed.

(** ** Returning *)
Lemma division_inside (rnd : list bool -> R) gp tol : forall fuel path a b l, parameter_division fuel rnd path gp (a, b) tol = Ok l -> Forall (fun t => Rmin a b <= t <= Rmax a b) l.
Proof.
  induction fuel as [|fuel IH]; intros path a b l E; cbn [parameter_division fst snd] in E; [discriminate|]. obind_inv E. obind_inv E. obind_inv E.
  match type of E with context [fltb ?x tol] => destruct (fltb x tol) end.
  - apply Ok_inj in E. subst l. constructor; [split; [apply Rmin_l|apply Rmax_l]|]. constructor; [split; [apply Rmin_r|apply Rmax_r]|constructor].
  - obind_inv E. obind_inv E. apply Ok_inj in E. subst l. set (m := fdiv (fadd a b) f2) in *. assert (Em : m = (a + b) / 2) by (unfold m, f2; rnum; field).
    match goal with H1 : parameter_division _ _ (false :: _) _ _ _ = Ok ?r1, H2 : parameter_division _ _ (true :: _) _ _ _ = Ok ?r2 |- _ => apply IH in H1; apply IH in H2; rename H1 into F1; rename H2 into F2; set (l1 := r1) in *; set (l2 := r2) in * end.
    apply Forall_app. split.
    + apply Forall_forall. intros t Ht. assert (In t l1). { destruct l1 as [|x l1]; [destruct Ht|]. rewrite (app_removelast_last x) by discriminate. apply in_or_app. now left. }
      rewrite Forall_forall in F1. specialize (F1 t H). rewrite Em in F1. revert F1. unfold Rmin, Rmax. repeat destruct Rle_dec; lra.
    + eapply Forall_impl; [|exact F2]. cbn beta. intros t. rewrite Em. unfold Rmin, Rmax. repeat destruct Rle_dec; lra.
Qed.
Lemma mapM_total {A B} (f : A -> outcome B) l : Forall (fun a => exists b, f a = Ok b) l -> exists bs, mapM f l = Ok bs.
Proof. induction 1 as [|a l (b & E) _ (bs & IH)]; [now exists []|]. cbn [mapM]. rewrite E. cbn [obind]. rewrite IH. cbn [obind]. eauto. Qed.
Lemma returns_of_lip (seg : CurveSegment R) (f g h : R -> R) lo hi : 0 < s_tolerance seg -> lo <= fst (s_range seg) <= hi -> lo <= snd (s_range seg) <= hi ->
  (forall u, lo <= u <= hi -> c_get_point (s_curve seg) u = Ok (V3 (f u) (g u) (h u))) -> lip f lo hi -> lip g lo hi -> lip h lo hi -> always_returns seg.
Proof.
  intros Ht Ha Hb E (A & HA & Lf) (B & HB & Lg) (D & HD & Lh). destruct (s_range seg) as [a b] eqn:Er. cbn [fst snd] in *.
  assert (I : forall u, Rmin a b <= u <= Rmax a b -> lo <= u <= hi) by (intros u; unfold Rmin, Rmax; repeat destruct Rle_dec; lra).
  assert (Q : Props_utils.lipschitz (c_get_point (s_curve seg)) (A + B + D) a b).
  { intros u v Hu Hv. apply I in Hu, Hv. do 2 eexists. split; [now apply E|]. split; [now apply E|]. specialize (Lf u v Hu Hv). specialize (Lg u v Hu Hv). specialize (Lh u v Hu Hv).
    apply length3_le_sq; [apply Rmult_le_pos; [lra|apply Rabs_pos]|]. unfold dot3. vsimp. rnum. set (x := f u - f v) in *. set (y := g u - g v) in *. set (z := h u - h v) in *. set (d := Rabs (u - v)) in *. pose proof (Rabs_pos x) as X. pose proof (Rabs_pos y) as Y. pose proof (Rabs_pos z) as Z.
    replace (x * x) with (Rabs x * Rabs x) by (unfold Rabs; destruct (Rcase_abs x); ring). replace (y * y) with (Rabs y * Rabs y) by (unfold Rabs; destruct (Rcase_abs y); ring). replace (z * z) with (Rabs z * Rabs z) by (unfold Rabs; destruct (Rcase_abs z); ring).
    apply Rle_trans with ((Rabs x + Rabs y + Rabs z) * (Rabs x + Rabs y + Rabs z)); [|apply Rmult_le_compat; lra].
    assert (0 <= Rabs x * Rabs y) by now apply Rmult_le_pos. assert (0 <= Rabs x * Rabs z) by now apply Rmult_le_pos. assert (0 <= Rabs y * Rabs z) by now apply Rmult_le_pos. lra. }
  destruct (C23_division_terminates_exists (c_get_point (s_curve seg)) (s_tolerance seg) (A + B + D) a b Ht ltac:(lra) Q) as (fuel & F). exists fuel. intros rnd Hr. destruct (F rnd Hr []) as (l & El).
  unfold segment_get_points. rewrite Er, El. cbn [obind]. apply mapM_total. eapply Forall_impl; [|exact (division_inside rnd _ _ fuel [] a b l El)]. cbn beta. intros u Hu. eexists. apply E. now apply I.
Qed.
Theorem C84_line (l : Line R) (seg : CurveSegment R) : c_get_point (s_curve seg) = (fun u => Ok (line_get_point l u)) -> 0 < s_tolerance seg -> always_returns seg.
Proof.
  intros Ec Ht. set (a := fst (s_range seg)). set (b := snd (s_range seg)).
  apply (returns_of_lip seg (fun u => x3 (l_direction l) * u + x3 (l_origin l)) (fun u => y3 (l_direction l) * u + y3 (l_origin l)) (fun u => z3 (l_direction l) * u + z3 (l_origin l)) (Rmin a b) (Rmax a b) Ht); try apply lip_linear.
  - split; [apply Rmin_l|apply Rmax_l].
  - split; [apply Rmin_r|apply Rmax_r].
  - intros u _. rewrite Ec. f_equal. unfold line_get_point. apply vec3_ext; vsimp; rnum; ring.
Qed.
Theorem C84_bezier cps (seg : CurveSegment R) : cps <> [] -> s_curve seg = bezier3_curve cps -> 0 < s_tolerance seg -> always_returns seg.
Proof.
  intros Hc Ec Ht. set (a := fst (s_range seg)). set (b := snd (s_range seg)). assert (H : (1 <= length cps)%nat) by (destruct cps; [now destruct Hc|cbn; lia]).
  assert (G : forall f : vec3 R -> R, lip (fun u => sumf (fun i => Bern (length cps - 1) i u * f (nth i cps vzero)) (length cps)) (Rmin a b) (Rmax a b)).
  { intros f. apply (lip_sum (fun i u => Bern (length cps - 1) i u * f (nth i cps vzero))). intros i. apply (lip_mult (Bern (length cps - 1) i) (fun _ => f (nth i cps vzero))); [apply lip_Bern|apply lip_const]. }
  eapply (returns_of_lip seg _ _ _ (Rmin a b) (Rmax a b) Ht); [split; [apply Rmin_l|apply Rmax_l]|split; [apply Rmin_r|apply Rmax_r]| |apply (G x3)|apply (G y3)|apply (G z3)].
  intros u _. rewrite Ec. cbn [bezier3_curve c_get_point]. now rewrite bezier_eval_Bern by lia.
Qed.
Theorem C84_rational_bezier (cps : list (vec4 R)) (seg : CurveSegment R) : cps <> [] -> (forall q, In q cps -> 0 < w4 q) -> s_curve seg = bezier4_curve cps -> 0 < s_tolerance seg -> 0 <= fst (s_range seg) <= 1 -> 0 <= snd (s_range seg) <= 1 -> always_returns seg.
Proof.
  intros Hc Hw Ec Ht Ha Hb. assert (H : (1 <= length cps)%nat) by (destruct cps; [now destruct Hc|cbn; lia]). destruct (least_weight cps H Hw) as (m & Hm & Hl).
  assert (G : forall f : vec4 R -> R, lip (fun u => bern_dot (length cps - 1) u f cps) 0 1).
  { intros f. unfold bern_dot. apply (lip_sum (fun i u => Bern (length cps - 1) i u * f (nth i cps vzero))). intros i. apply (lip_mult (Bern (length cps - 1) i) (fun _ => f (nth i cps vzero))); [apply lip_Bern|apply lip_const]. }
  assert (D : forall u, 0 <= u <= 1 -> m <= bern_dot (length cps - 1) u w4 cps).
  { intros u Hu. unfold bern_dot. apply Rle_trans with (sumf (fun i => Bern (length cps - 1) i u * m) (length cps)); [rewrite sumf_scal_r, Bern_sum_len by lia; lra|]. apply sumf_le. intros i Hi. apply Rmult_le_compat_l; [now apply Bern_nonneg|]. apply Hl. now apply nth_In. }
  eapply (returns_of_lip seg _ _ _ 0 1 Ht Ha Hb); [intros u Hu; rewrite Ec; cbn [bezier4_curve c_get_point]; exact (proj2 (C05_rational_bezier cps u H Hw Hu))| | |].
  - apply (lip_quotient (fun u => bern_dot (length cps - 1) u x4 cps) (fun u => bern_dot (length cps - 1) u w4 cps) m); auto.
  - apply (lip_quotient (fun u => bern_dot (length cps - 1) u y4 cps) (fun u => bern_dot (length cps - 1) u w4 cps) m); auto.
  - apply (lip_quotient (fun u => bern_dot (length cps - 1) u z4 cps) (fun u => bern_dot (length cps - 1) u w4 cps) m); auto.
Qed.

(** ** B-splines *)
Lemma cdb_left_knot t s u k : (forall j, (1 <= j <= k)%nat -> t (s + j)%nat = u) -> t s < u -> forall i, cdb t s k i u = if (i =? s)%nat then 1 else 0.
Proof.
  intros H Hs. induction k as [|k IH]; intros i; [reflexivity|]. cbn [cdb]. rewrite !IH by (intros; apply H; lia). destruct (Nat.eqb_spec i s) as [->|N].
  - rewrite (proj2 (Nat.eqb_neq _ _)) by lia. rewrite (H (S k)) by lia. unfold ratio at 1. destruct (Req_EM_T (u - t s) 0); [lra|]. field. lra.
  - destruct (Nat.eqb_spec (i + 1) s) as [E|]; [|ring]. replace (i + S k + 1)%nat with (s + S k)%nat by lia. rewrite (H (S k)) by lia. rewrite Rminus_eq_0, ratio_0_l. ring.
Qed.
(** at a knot that occurs at most as often as the degree the functions of the spans before and after agree *)
Lemma cdb_joint t s s' u k : (s < s')%nat -> (s' - s <= k)%nat -> (forall j, (s < j <= s')%nat -> t j = u) -> t s < u -> u < t (s' + 1)%nat -> forall i, cdb t s k i u = cdb t s' k i u.
Proof.
  intros Hs Hk Hu H1 H2. replace k with ((s' - s) + (k - (s' - s)))%nat by lia. generalize (k - (s' - s))%nat as d. clear Hk k. induction d as [|d IH]; intros i.
  - rewrite Nat.add_0_r. rewrite cdb_left_knot by (try exact H1; intros; apply Hu; lia). rewrite cdb_at_knot by (try exact H2; try lia; intros; apply Hu; lia). now replace (s' - (s' - s))%nat with s by lia.
  - rewrite Nat.add_succ_r. cbn [cdb]. now rewrite !IH.
Qed.
Definition fits (ks : list R) (p n : nat) : Prop := sorted ks /\ separated ks /\ length ks = (n + p + 1)%nat /\ (1 <= n)%nat /\ nth n ks 0 = last_knot ks /\ nth p ks 0 < last_knot ks.
Lemma fits_span ks p n u : fits ks p n -> nth p ks 0 <= u <= last_knot ks -> exists s, is_span ks u s /\ (p <= s < n)%nat /\ nth s ks 0 <= u <= nth (s + 1) ks 0.
Proof.
  intros (A1 & A2 & A3 & A4 & A5 & A6) Hu. set (c := mkBSpline (repeat vzero n) ks p : BSpline R (vec4 R)).
  assert (V : valid_rational c) by (unfold valid_rational, c; cbn [bs_knots bs_cps bs_degree]; rewrite repeat_length; auto). assert (I : inside c u) by (unfold inside, c; cbn [bs_knots bs_cps bs_degree]; rewrite repeat_length; auto).
  destruct (rational_span c u V I) as (s & H). exists s. unfold c in H. cbn [bs_knots bs_cps bs_degree] in H. now rewrite repeat_length in H.
Qed.
Lemma one_constant (F : nat -> R -> R) lo hi N : (forall s, lip (F s) lo hi) -> exists L, 0 <= L /\ forall s x y, (s < N)%nat -> lo <= x <= hi -> lo <= y <= hi -> Rabs (F s x - F s y) <= L * Rabs (x - y).
Proof.
  intros H. induction N as [|N (L & HL & IH)]; [exists 0; split; [lra|intros; lia]|]. destruct (H N) as (M & HM & HN). exists (L + M). split; [lra|]. intros s x y Hs Hx Hy. pose proof (Rabs_pos (x - y)) as P.
  pose proof (Rmult_le_pos _ _ HL P). pose proof (Rmult_le_pos _ _ HM P). destruct (Nat.eq_dec s N) as [->|Ne]; [specialize (HN x y Hx Hy); lra|specialize (IH s x y ltac:(lia) Hx Hy); lra].
Qed.
Lemma spline_lip ks p n (c : nat -> R) (f : R -> R) : fits ks p n -> joined ks p -> (forall u s, nth p ks 0 <= u <= last_knot ks -> is_span ks u s -> f u = sumf (fun i => cdb (fun i => nth i ks 0) s p i u * c i) n) -> lip f (nth p ks 0) (last_knot ks).
Proof.
  intros Hf J E. set (t := fun i => nth i ks 0) in *. set (F := fun s u => sumf (fun i => cdb t s p i u * c i) n). pose proof Hf as (A1 & A2 & A3 & A4 & A5 & A6). change (nth p ks 0) with (t p) in *. set (hi := last_knot ks) in *.
  destruct (one_constant F (t p) hi n) as (L & HL & B). { intros s. apply (lip_sum (fun i u => cdb t s p i u * c i)). intros i. apply (lip_mult (cdb t s p i) (fun _ => c i)); [apply lip_cdb|apply lip_const]. }
  assert (M : forall i j, (i <= j < length ks)%nat -> t i <= t j) by (intros i j H; apply A1; lia).
  assert (G : forall d u v s s', (s' - s <= d)%nat -> t p <= u -> u <= v -> v <= hi -> is_span ks u s -> is_span ks v s' -> (s < n)%nat -> (s' < n)%nat -> (p <= s)%nat -> (s <= s')%nat -> Rabs (F s u - F s' v) <= L * (v - u)).
  { induction d as [|d IH]; intros u v s s' Hd Hu Huv Hv S1 S2 Hs Hs' Hps Hss.
    - replace s' with s by lia. pose proof (B s u v Hs ltac:(lra) ltac:(lra)) as Q. rewrite (Rabs_minus_sym u v), (Rabs_right (v - u)) in Q by lra. exact Q.
    - destruct (Nat.eq_dec s s') as [<-|Ne]; [pose proof (B s u v Hs ltac:(lra) ltac:(lra)) as Q; rewrite (Rabs_minus_sym u v), (Rabs_right (v - u)) in Q by lra; exact Q|].
      pose proof S1 as (P1 & P2 & P3 & P4). pose proof S2 as (Q1 & Q2 & Q3 & Q4). fold (t s) (t (s + 1)%nat) in P2, P3, P4. fold (t s') (t (s' + 1)%nat) in Q2, Q3, Q4. set (x := t (s + 1)%nat) in *.
      assert (Hx1 : x <= t s') by (apply M; lia). assert (Hx2 : t (s' + 1)%nat <= hi) by (apply M; lia). assert (Hp : t p <= t s) by (apply M; lia). change (nth (length ks - 1) ks 0) with hi in P4. assert (Hux : u < x) by (destruct P4 as [|(P4 & _)]; [assumption|lra]).
      destruct (fits_span ks p n x Hf ltac:(fold (t p) hi; lra)) as (r & S3 & Br & Xr). pose proof S3 as (R1 & R2 & R3 & R4). fold (t r) (t (r + 1)%nat) in R2, R3, R4, Xr. change (nth (length ks - 1) ks 0) with hi in R4.
      assert (Hr1 : x < t (r + 1)%nat) by (destruct R4 as [|(R4 & R5)]; [assumption|lra]).
      assert (Hsr : (s < r)%nat). { destruct (le_lt_dec r s) as [N|]; [exfalso|assumption]. assert (t (r + 1)%nat <= x) by (apply M; lia). lra. }
      assert (Hrs : (r <= s')%nat). { destruct (le_lt_dec r s') as [|N]; [assumption|exfalso]. assert (t (s' + 1)%nat <= t r) by (apply M; lia). lra. }
      assert (Hall : forall j, (s < j <= r)%nat -> t j = x) by (intros j Hj; apply Rle_antisym; [apply Rle_trans with (t r); [apply M; lia|exact R3]|apply M; lia]).
      assert (Hm : (r - s <= p)%nat). { destruct (le_lt_dec (r - s) p) as [|N]; [assumption|exfalso]. specialize (J (s + 1)%nat ltac:(lia)). fold (t (s + 1)%nat) (t (s + 1 + p)%nat) (t p) hi in J. fold x in J. rewrite (Hall (s + 1 + p)%nat ltac:(lia)) in J. lra. }
      assert (EJ : F s x = F r x) by (apply sumf_ext; intros i _; f_equal; now apply cdb_joint; try assumption).
      pose proof (B s u x Hs ltac:(lra) ltac:(lra)) as K1. rewrite (Rabs_minus_sym u x), (Rabs_right (x - u)) in K1 by lra. specialize (IH x v r s' ltac:(lia) ltac:(lra) ltac:(lra) Hv S3 S2 ltac:(lia) Hs' ltac:(lia) Hrs).
      replace (F s u - F s' v) with (F s u - F s x + (F r x - F s' v)) by (rewrite EJ; ring). eapply Rle_trans; [apply Rabs_triang|]. lra. }
  exists L. split; [exact HL|].
  assert (W : forall u v, t p <= u -> u <= v -> v <= hi -> Rabs (f u - f v) <= L * (v - u)).
  { intros u v H1 H2 H3. destruct (fits_span ks p n u Hf ltac:(fold (t p) hi; lra)) as (s & S1 & B1 & X1). destruct (fits_span ks p n v Hf ltac:(fold (t p) hi; lra)) as (s' & S2 & B2 & X2).
    rewrite (E u s), (E v s') by (assumption || lra). apply (G (s' - s)%nat); try assumption; try lia. destruct (le_lt_dec s s') as [|N]; [assumption|exfalso].
    pose proof S1 as (_ & P2 & P3 & _). pose proof S2 as (Q1 & Q2 & _ & Q4). fold (t s) (t (s + 1)%nat) in *. fold (t s') (t (s' + 1)%nat) in *. change (nth (length ks - 1) ks 0) with hi in Q4. assert (t (s' + 1)%nat <= t s) by (apply M; lia). assert (t (s + 1)%nat <= hi) by (apply M; lia). destruct Q4 as [Q4|(Q4 & Q5)]; lra. }
  intros x y Hx Hy. destruct (Rle_dec x y) as [Hxy|Hxy].
  - rewrite (Rabs_minus_sym x y), (Rabs_right (y - x)) by lra. apply W; lra.
  - rewrite (Rabs_minus_sym (f x)), (Rabs_right (x - y)) by lra. apply W; lra.
Qed.
Theorem C84_bspline (c : BSpline R (vec3 R)) (seg : CurveSegment R) : valid_bspline c -> fits (bs_knots c) (bs_degree c) (length (bs_cps c)) -> joined (bs_knots c) (bs_degree c) -> s_curve seg = bspline3_curve c -> 0 < s_tolerance seg ->
  nth (bs_degree c) (bs_knots c) 0 <= fst (s_range seg) <= last_knot (bs_knots c) -> nth (bs_degree c) (bs_knots c) 0 <= snd (s_range seg) <= last_knot (bs_knots c) -> always_returns seg.
Proof.
  intros V Hf J Ec Ht Ha Hb. set (ks := bs_knots c) in *. set (p := bs_degree c) in *. set (n := length (bs_cps c)) in *.
  set (g := fun (l : vec3 R -> R) u => match bspline3_get_point c u with Ok q => l q | _ => 0 end).
  assert (E : forall u s, nth p ks 0 <= u <= last_knot ks -> is_span ks u s -> bspline3_get_point c u = Ok (comb3 (fun i => cdb (fun i => nth i ks 0) s p i u) (bs_cps c))) by (intros u s _ Hs; exact (bspline_eval c u s V Hs)).
  assert (G : forall l, l = x3 \/ l = y3 \/ l = z3 -> lip (g l) (nth p ks 0) (last_knot ks)).
  { intros l Hl. apply (spline_lip ks p n (fun i => l (nth i (bs_cps c) vzero)) _ Hf J). intros u s Hu Hs. unfold g. rewrite (E u s Hu Hs). now destruct Hl as [-> | [-> | ->]]. }
  apply (returns_of_lip seg (g x3) (g y3) (g z3) (nth p ks 0) (last_knot ks) Ht Ha Hb); [|auto|auto|auto].
  intros u Hu. rewrite Ec. cbn [bspline3_curve c_get_point]. destruct (fits_span ks p n u Hf Hu) as (s & Hs & _). unfold g. rewrite (E u s Hu Hs). reflexivity.
Qed.
Theorem C84_rational_bspline (c : BSpline R (vec4 R)) (seg : CurveSegment R) : fits (bs_knots c) (bs_degree c) (length (bs_cps c)) -> weighted c -> joined (bs_knots c) (bs_degree c) -> s_curve seg = bspline4_curve c -> 0 < s_tolerance seg ->
  nth (bs_degree c) (bs_knots c) 0 <= fst (s_range seg) <= last_knot (bs_knots c) -> nth (bs_degree c) (bs_knots c) 0 <= snd (s_range seg) <= last_knot (bs_knots c) -> always_returns seg.
Proof.
  intros Hf Hw J Ec Ht Ha Hb. pose proof Hf as (A1 & A2 & A3 & A4 & A5 & A6). assert (V : valid_rational c) by (repeat split; assumption).
  assert (I : forall u, nth (bs_degree c) (bs_knots c) 0 <= u <= last_knot (bs_knots c) -> inside c u) by (intros u Hu; repeat split; try assumption; lra).
  set (ks := bs_knots c) in *. set (p := bs_degree c) in *. set (n := length (bs_cps c)) in *.
  set (g := fun (l : vec4 R -> R) u => match span_index ks u with Ok s => cox_sum c s u l | _ => 0 end).
  assert (E : forall l u s, is_span ks u s -> g l u = cox_sum c s u l) by (intros l u s Hs; unfold g; now rewrite (span_index_spec ks u s A1 A2 Hs)).
  assert (G : forall l, lip (g l) (nth p ks 0) (last_knot ks)) by (intros l; apply (spline_lip ks p n (fun i => l (nth i (bs_cps c) vzero)) _ Hf J); intros u s Hu Hs; exact (E l u s Hs)).
  destruct (least_weight (bs_cps c) A4 Hw) as (m & Hm & Hl).
  assert (D : forall u, nth p ks 0 <= u <= last_knot ks -> m <= g w4 u).
  { intros u Hu. destruct (fits_span ks p n u Hf Hu) as (s & Hs & Bs & Bu). rewrite (E w4 u s Hs). destruct (cox_weights c u s V Hs Bs Bu) as (N & S1). apply Rle_trans with (sumf (fun i => cdb (fun i => nth i ks 0) s p i u * m) n).
    - rewrite sumf_scal_r. fold ks p n in S1. rewrite S1. lra.
    - apply sumf_le. intros i Hi. apply Rmult_le_compat_l; [now apply N|]. apply Hl. now apply nth_In. }
  apply (returns_of_lip seg (fun u => g x4 u / g w4 u) (fun u => g y4 u / g w4 u) (fun u => g z4 u / g w4 u) (nth p ks 0) (last_knot ks) Ht Ha Hb); try (apply (lip_quotient _ (g w4) m); auto).
  intros u Hu. rewrite Ec. cbn [bspline4_curve c_get_point]. destruct (C80_rational_bspline c u V Hw (I u Hu)) as (s & Hs & _ & Ep). rewrite Ep, !(E _ u s Hs). reflexivity.
Qed.

(** ** Jumps *)
(** the curve stays within [r] of [A] before the parameter [x] and within [r] of [B] from there on *)
Definition jumps (gp : R -> outcome (vec3 R)) (lo hi x r : R) (A B : vec3 R) : Prop := forall u, lo <= u <= hi -> exists p, gp u = Ok p /\ dist3 p (if Rlt_dec u x then A else B) <= r.
Lemma jump_far (A B a b q : vec3 R) r k (left : bool) : 2 / 5 <= k < 3 / 5 -> dist3 a A <= r -> dist3 b B <= r -> dist3 q (if left then A else B) <= r -> 2 / 5 * dist3 A B - 2 * r <= distance3 q (vadd a (vmulr (vsub b a) k)).
Proof.
  intros Hk Ha Hb Hq. assert (Er : forall p q : vec3 R, dist3 p q = length3 (vsub p q)) by (intros; rewrite <- Props_polyline.dist3_distance; reflexivity).
  assert (Sy : forall p q : vec3 R, length3 (vsub p q) = length3 (vsub q p)) by (intros p0 q0; unfold length3, dot3; f_equal; vsimp; rnum; ring).
  rewrite !Er in *. unfold distance3. set (m := vadd a (vmulr (vsub b a) k)). set (M := vadd A (vmulr (vsub B A) k)).
  assert (HmM : length3 (vsub m M) <= r).
  { replace (vsub m M) with (vadd (vmulr (vsub a A) (1 - k)) (vmulr (vsub b B) k)) by (unfold m, M; apply vec3_ext; vsimp; rnum; ring). eapply Rle_trans; [apply triangle3|]. rewrite !length3_scale_pos by lra.
    pose proof (length3_nonneg (vsub a A)). assert ((1 - k) * length3 (vsub a A) <= (1 - k) * r) by (apply Rmult_le_compat_l; lra). assert (k * length3 (vsub b B) <= k * r) by (apply Rmult_le_compat_l; lra). lra. }
  set (Q := if left then A else B) in *. assert (HQM : 2 / 5 * length3 (vsub A B) <= length3 (vsub Q M)).
  { pose proof (length3_nonneg (vsub A B)) as P. destruct left; unfold Q.
    - replace (vsub A M) with (vmulr (vsub A B) k) by (unfold M; apply vec3_ext; vsimp; rnum; ring). rewrite length3_scale_pos by lra. apply Rmult_le_compat_r; lra.
    - replace (vsub B M) with (vmulr (vsub B A) (1 - k)) by (unfold M; apply vec3_ext; vsimp; rnum; ring). rewrite length3_scale_pos by lra. rewrite (Sy B A). apply Rmult_le_compat_r; lra. }
  assert (T : length3 (vsub Q M) <= length3 (vsub q Q) + (length3 (vsub q m) + length3 (vsub m M))).
  { replace (vsub Q M) with (vadd (vsub Q q) (vadd (vsub q m) (vsub m M))) by (apply vec3_ext; vsimp; rnum; ring). eapply Rle_trans; [apply triangle3|]. rewrite (Sy Q q). pose proof (triangle3 (vsub q m) (vsub m M)). lra. }
  lra.
Qed.
Lemma no_panic (rnd : list bool -> R) gp tol lo hi : (forall path, 0 <= rnd path < 1) -> (forall u, lo <= u <= hi -> exists p, gp u = Ok p) -> forall fuel path a b, lo <= a -> a <= b -> b <= hi -> parameter_division fuel rnd path gp (a, b) tol <> Panic.
Proof.
  intros Hr G. induction fuel as [|fuel IH]; intros path a b Ha Hab Hb; [discriminate|]. cbn [parameter_division fst snd]. pose proof (C22_probe_range _ (Hr path)) as Hp. set (k := probe (rnd path)) in *. set (t := range_at (a, b) k). assert (Et : t = a + (b - a) * k) by reflexivity.
  assert (It : lo <= t <= hi) by (rewrite Et; nra). destruct (G a ltac:(lra)) as (pa & Ea). destruct (G b ltac:(lra)) as (pb & Eb). destruct (G t It) as (q & Eq). rewrite Ea, Eb, Eq. cbn [obind].
  match goal with |- context [fltb ?x tol] => destruct (fltb x tol) end; [discriminate|]. match goal with |- context [parameter_division fuel rnd (false :: path) gp (a, ?m') tol] => set (m := m') end. assert (Em : m = (a + b) / 2) by (unfold m, f2; rnum; field).
  pose proof (IH (false :: path) a m ltac:(lra) ltac:(lra) ltac:(lra)) as N1. pose proof (IH (true :: path) m b ltac:(lra) ltac:(lra) ltac:(lra)) as N2.
  destruct (parameter_division fuel rnd (false :: path) gp (a, m) tol); cbn [obind]; [|now destruct N1|discriminate]. destruct (parameter_division fuel rnd (true :: path) gp (m, b) tol); cbn [obind]; [discriminate|now destruct N2|discriminate].
Qed.
Lemma jump_endless (rnd : list bool -> R) gp tol lo hi x r A B : (forall path, 0 <= rnd path < 1) -> jumps gp lo hi x r A B -> tol <= 2 / 5 * dist3 A B - 2 * r ->
  forall fuel path a b, lo <= a -> a < x -> x <= b -> b <= hi -> parameter_division fuel rnd path gp (a, b) tol = OutOfFuel.
Proof.
  intros Hr J Ht. induction fuel as [|fuel IH]; intros path a b Ha Hax Hxb Hb; [reflexivity|]. cbn [parameter_division fst snd]. pose proof (C22_probe_range _ (Hr path)) as Hp. set (k := probe (rnd path)) in *. set (t := range_at (a, b) k). assert (Et : t = a + (b - a) * k) by reflexivity.
  assert (It : lo <= t <= hi) by (rewrite Et; nra). destruct (J a ltac:(lra)) as (pa & Ea & Da). destruct (J b ltac:(lra)) as (pb & Eb & Db). destruct (J t It) as (q & Eq & Dq).
  destruct (Rlt_dec a x) as [_|]; [|lra]. destruct (Rlt_dec b x) as [|_]; [lra|]. rewrite Ea, Eb, Eq. cbn [obind].
  assert (Far : tol <= distance3 q (vadd pa (vmulr (vsub pb pa) k))). { eapply Rle_trans; [exact Ht|]. destruct (Rlt_dec t x); [apply (jump_far A B pa pb q r k true)|apply (jump_far A B pa pb q r k false)]; assumption. }
  rnum. rewrite (proj2 (Rltb_false _ _)) by lra. match goal with |- context [parameter_division fuel rnd (false :: path) gp (a, ?m') tol] => set (m := m') end. assert (Em : m = (a + b) / 2) by (unfold m, f2; rnum; field).
  destruct (Rlt_dec m x) as [Hm|Hm].
  - destruct (parameter_division fuel rnd (false :: path) gp (a, m) tol) as [l| |] eqn:E1; cbn [obind]; [|exfalso|reflexivity].
    + rewrite (IH (true :: path) m b) by lra. reflexivity.
    + apply (no_panic rnd gp tol lo hi Hr) in E1; [exact E1|intros u Hu; destruct (J u Hu) as (p & Ep & _); eauto|lra|lra|lra].
  - rewrite (IH (false :: path) a m) by lra. reflexivity.
Qed.
Theorem C84_jump (seg : CurveSegment R) x r A B : jumps (c_get_point (s_curve seg)) (fst (s_range seg)) (snd (s_range seg)) x r A B -> fst (s_range seg) < x <= snd (s_range seg) -> s_tolerance seg <= 2 / 5 * dist3 A B - 2 * r -> never_returns seg.
Proof. intros J Hx Ht depth rnd Hr. unfold segment_get_points. destruct (s_range seg) as [a b]. cbn [fst snd] in *. rewrite (jump_endless rnd _ _ a b x r A B Hr J Ht) by lra. reflexivity. Qed.

Lemma lip3 (f g h : R -> R) lo hi : lip f lo hi -> lip g lo hi -> lip h lo hi -> exists L, 0 <= L /\ forall u v, lo <= u <= hi -> lo <= v <= hi -> dist3 (V3 (f u) (g u) (h u)) (V3 (f v) (g v) (h v)) <= L * Rabs (u - v).
Proof.
  intros (A & HA & Lf) (B & HB & Lg) (D & HD & Lh). exists (A + B + D). split; [lra|]. intros u v Hu Hv. specialize (Lf u v Hu Hv). specialize (Lg u v Hu Hv). specialize (Lh u v Hu Hv). rewrite <- Props_polyline.dist3_distance. unfold distance3.
  apply length3_le_sq; [apply Rmult_le_pos; [lra|apply Rabs_pos]|]. unfold dot3. vsimp. rnum. set (x := f u - f v) in *. set (y := g u - g v) in *. set (z := h u - h v) in *. set (d := Rabs (u - v)) in *. pose proof (Rabs_pos x) as X. pose proof (Rabs_pos y) as Y. pose proof (Rabs_pos z) as Z.
  replace (x * x) with (Rabs x * Rabs x) by (unfold Rabs; destruct (Rcase_abs x); ring). replace (y * y) with (Rabs y * Rabs y) by (unfold Rabs; destruct (Rcase_abs y); ring). replace (z * z) with (Rabs z * Rabs z) by (unfold Rabs; destruct (Rcase_abs z); ring).
  apply Rle_trans with ((Rabs x + Rabs y + Rabs z) * (Rabs x + Rabs y + Rabs z)); [nra|]. apply Rmult_le_compat; lra.
Qed.
Lemma comb3_single s (l : list (vec3 R)) w : (s < length l)%nat -> (forall i, w i = if (i =? s)%nat then 1 else 0) -> comb3 w l = nth s l vzero.
Proof.
  intros Hs Hw. assert (E : forall f : vec3 R -> R, sumf (fun i => w i * f (nth i l vzero)) (length l) = f (nth s l vzero)).
  { intros f. rewrite (sumf_single _ _ s Hs); [rewrite Hw, Nat.eqb_refl; ring|]. intros i _ N. rewrite Hw, (proj2 (Nat.eqb_neq _ _) N). ring. }
  unfold comb3. rewrite !E. now destruct (nth s l vzero).
Qed.
Lemma sq3 a b c : a * a + b * b + c * c = 0 -> a = 0 /\ b = 0 /\ c = 0.
Proof. intros H. pose proof (Rle_0_sqr a). pose proof (Rle_0_sqr b). pose proof (Rle_0_sqr c). unfold Rsqr in *. repeat split; apply Rsqr_0_uniq; unfold Rsqr; lra. Qed.
(** a knot that occurs more often than the degree, between two different control points *)
Theorem C84_bspline_jump (c : BSpline R (vec3 R)) s x : valid_bspline c -> (s + bs_degree c + 2 < length (bs_knots c))%nat -> nth s (bs_knots c) 0 < x -> (forall j, (1 <= j <= bs_degree c + 1)%nat -> nth (s + j) (bs_knots c) 0 = x) -> x < nth (s + bs_degree c + 2) (bs_knots c) 0 ->
  nth s (bs_cps c) vzero <> nth (s + 1) (bs_cps c) vzero -> exists delta tol, 0 < delta /\ 0 < tol /\
  forall seg, s_curve seg = bspline3_curve c -> x - delta <= fst (s_range seg) < x -> x <= snd (s_range seg) <= x + delta -> s_tolerance seg <= tol -> never_returns seg.
Proof.
  intros V HL H1 Hx H2 Hd. pose proof V as [_ _ VL _]. set (ks := bs_knots c) in *. set (p := bs_degree c) in *. set (n := length (bs_cps c)) in *. set (A := nth s (bs_cps c) vzero) in *. set (B := nth (s + 1) (bs_cps c) vzero) in *. set (t := fun i => nth i ks 0).
  assert (D : 0 < dist3 A B). { destruct (Props_polyline.dist3_nonneg A B) as [|E]; [assumption|exfalso]. apply Hd. symmetry in E. rewrite <- Props_polyline.dist3_distance in E. unfold distance3 in E. assert (Q : dot3 (vsub A B) (vsub A B) = 0) by (rewrite <- (length3_sq (vsub A B)); rewrite E; ring). unfold dot3 in Q. revert Q. vsimp. rnum. intros Q. apply sq3 in Q. apply vec3_ext; lra. }
  set (s' := (s + p + 1)%nat).
  assert (L : forall m, exists L, 0 <= L /\ forall u v, t s <= u <= t (s' + 1)%nat -> t s <= v <= t (s' + 1)%nat -> dist3 (comb3 (fun i => cdb t m p i u) (bs_cps c)) (comb3 (fun i => cdb t m p i v) (bs_cps c)) <= L * Rabs (u - v)).
  { intros m. assert (G : forall f : vec3 R -> R, lip (fun u => sumf (fun i => cdb t m p i u * f (nth i (bs_cps c) vzero)) n) (t s) (t (s' + 1)%nat)) by (intros f; apply (lip_sum (fun i u => cdb t m p i u * f (nth i (bs_cps c) vzero))); intros i; apply (lip_mult (cdb t m p i) (fun _ => f (nth i (bs_cps c) vzero))); [apply lip_cdb|apply lip_const]).
    exact (lip3 _ _ _ _ _ (G x3) (G y3) (G z3)). }
  assert (Eh : t (s' + 1)%nat = nth (s + p + 2) ks 0) by (unfold t, s'; f_equal; lia). assert (El : t s = nth s ks 0) by reflexivity.
  assert (Ea : comb3 (fun i => cdb t s p i x) (bs_cps c) = A). { apply (comb3_single s); [lia|]. intros i. apply cdb_left_knot; [intros j Hj; apply Hx; lia|exact H1]. }
  assert (Eb : comb3 (fun i => cdb t s' p i x) (bs_cps c) = B). { apply (comb3_single (s + 1)); [lia|]. intros i. rewrite cdb_at_knot; [now replace (s' - p)%nat with (s + 1)%nat by (unfold s'; lia)|unfold s'; lia| |rewrite Eh; exact H2]. intros j Hj. unfold t. replace (s' - j)%nat with (s + (p + 1 - j))%nat by (unfold s'; lia). apply Hx. lia. }
  destruct (L s) as (K1 & HK1 & B1). destruct (L s') as (K2 & HK2 & B2). set (K := K1 + K2 + 1). set (r := dist3 A B / 20). set (delta := Rmin (r / K) (Rmin (x - t s) ((t (s' + 1)%nat - x) / 2))).
  assert (HK : 0 < K) by (unfold K; lra). assert (Hr : 0 < r) by (unfold r; lra). assert (Hrk : 0 < r / K) by (apply Rdiv_lt_0_compat; assumption). assert (D0 : 0 < delta) by (unfold delta; repeat apply Rmin_glb_lt; lra).
  assert (D1 : delta <= r / K) by apply Rmin_l. assert (D2 : delta <= x - t s) by (unfold delta; eapply Rle_trans; [apply Rmin_r|apply Rmin_l]). assert (D3 : delta <= (t (s' + 1)%nat - x) / 2) by (unfold delta; eapply Rle_trans; [apply Rmin_r|apply Rmin_r]).
  assert (Dk : K * delta <= r). { apply Rle_trans with (K * (r / K)); [apply Rmult_le_compat_l; lra|]. right. field. lra. }
  exists delta, (3 / 10 * dist3 A B). split; [exact D0|]. split; [lra|]. intros seg Ec Ha Hb Ht. apply (C84_jump seg x r A B); [|lra|unfold r; lra].
  intros u Hu. rewrite Ec. cbn [bspline3_curve c_get_point]. assert (Du : Rabs (u - x) <= delta) by (unfold Rabs; destruct Rcase_abs; lra). pose proof (Rabs_pos (u - x)) as Pu. destruct (Rlt_dec u x) as [Hl|Hl].
  - rewrite (bspline_eval c u s V); [|split; [fold ks; lia|]; fold ks; rewrite (Hx 1%nat) by lia; split; [lra|]; split; [lra|left; lra]]. fold ks p t. eexists. split; [reflexivity|]. rewrite <- Ea at 1. eapply Rle_trans; [apply B1; lra|]. apply Rle_trans with (K * delta); [|exact Dk]. apply Rmult_le_compat; unfold K; lra.
  - rewrite (bspline_eval c u s' V); [|split; [fold ks; unfold s'; lia|]; fold ks; change (nth s' ks 0) with (t s'); change (nth (s' + 1) ks 0) with (t (s' + 1)%nat); assert (Es : t s' = x) by (unfold t, s'; rewrite <- (Hx (p + 1)%nat) by lia; f_equal; lia); split; [lra|]; split; [lra|left; lra]]. fold ks p t. eexists. split; [reflexivity|]. rewrite <- Eb at 1. eapply Rle_trans; [apply B2; lra|]. apply Rle_trans with (K * delta); [|exact Dk]. apply Rmult_le_compat; unfold K; lra.
Qed.

(** ** Concrete cases *)
Definition broken : BSpline R (vec3 R) := mkBSpline [V3 0 0 0; V3 0 0 0; V3 10 0 0; V3 10 0 0] [0; 0; 1; 1; 2; 2] 1.
Definition broken_seg (tol : R) : CurveSegment R := {| s_curve := bspline3_curve broken; s_range := (0, 2); s_tolerance := tol; s_division := 0 |}.
Lemma broken_valid : valid_bspline broken.
Proof.
  split; cbn [bs_knots bs_cps bs_degree broken].
  - apply sorted_by_pairs. intros i Hi. cbn [length] in Hi. do 5 (destruct i as [|i]; [cbn; lra|]). lia.
  - apply separated_ints. intros a Ha. cbn in Ha. repeat (destruct Ha as [<-|Ha]; [eexists; split; [reflexivity|lia]|]). destruct Ha.
  - reflexivity.
  - cbn; lia.
Qed.
(** a valid B-spline whose sampling at the tolerance 4 or below never returns *)
Theorem C84_broken tol : tol <= 4 -> never_returns (broken_seg tol).
Proof.
  intros Ht. apply (C84_jump _ 1 0 (V3 0 0 0) (V3 10 0 0)); cbn [broken_seg s_curve s_range s_tolerance fst snd bspline3_curve c_get_point]; [|lra|].
  - intros u Hu. destruct (Rlt_dec u 1) as [Hl|Hl].
    + rewrite (bspline_eval broken u 1 broken_valid) by (cbv [is_span broken bs_knots length nth Nat.add]; repeat split; try lia; try lra). eexists. split; [reflexivity|]. right. unfold dist3. transitivity (sqrt 0); [f_equal|exact sqrt_0]. unfold comb3. cbn [broken bs_cps bs_knots bs_degree length x3 y3 z3]. rewrite !sumf_S, !sumf_0. cbn [nth cdb Nat.eqb Nat.add x3 y3 z3]. ring.
    + assert (S : is_span (bs_knots broken) u 3) by (cbv [is_span broken bs_knots length nth Nat.add Nat.sub]; repeat split; try lia; try lra).
      rewrite (bspline_eval broken u 3 broken_valid S). eexists. split; [reflexivity|]. right. unfold dist3. transitivity (sqrt 0); [f_equal|exact sqrt_0]. unfold comb3. cbn [broken bs_cps bs_knots bs_degree length x3 y3 z3]. rewrite !sumf_S, !sumf_0. cbn [nth cdb Nat.eqb Nat.add x3 y3 z3].
      unfold ratio. repeat destruct Req_EM_T; try lra; field.
  - replace (dist3 (V3 0 0 0) (V3 10 0 0)) with 10; [lra|]. unfold dist3. cbn [x3 y3 z3]. replace ((0 - 10) ^ 2 + (0 - 0) ^ 2 + (0 - 0) ^ 2) with (10 * 10) by ring. rewrite sqrt_square; lra.
Qed.
Example C84_nonvacuous : (forall tol, 0 < tol -> always_returns {| s_curve := bspline3_curve c_ex; s_range := (0, 2); s_tolerance := tol; s_division := 0 |}) /\
  (forall tol, 0 < tol -> always_returns {| s_curve := bspline4_curve r_ex; s_range := (2, 1 / 2); s_tolerance := tol; s_division := 0 |}) /\ joined (bs_knots c_ex) 2 /\ ~ joined (bs_knots broken) 1 /\
  exists delta tol, 0 < delta /\ 0 < tol /\ forall seg, s_curve seg = bspline3_curve broken -> 1 - delta <= fst (s_range seg) < 1 -> 1 <= snd (s_range seg) <= 1 + delta -> s_tolerance seg <= tol -> never_returns seg.
Proof.
  assert (J : joined (bs_knots c_ex) 2). { intros i Hi. cbn [c_ex bs_knots length] in *. unfold last_knot. do 5 (destruct i as [|i]; [cbn; lra|]). lia. }
  pose proof c_ex_valid as [A1 A2 A3 A4]. destruct C80_nonvacuous as (V & W & _).
  assert (Fx : fits (bs_knots c_ex) 2 4) by (split; [exact A1|]; split; [exact A2|]; split; [exact A3|]; split; [lia|]; cbn; lra).
  split; [|split; [|split; [exact J|split]]].
  - intros tol Ht. apply (C84_bspline c_ex _ c_ex_valid Fx J); [reflexivity|cbn; lra..].
  - intros tol Ht. apply (C84_rational_bspline r_ex _ Fx W J); [reflexivity|cbn; lra..].
  - intros H. specialize (H 2%nat). cbn in H. assert (1 < 1); [apply H; [lia|lra]|lra].
  - apply (C84_bspline_jump broken 1 1 broken_valid); cbn; try lia; try lra.
    + intros j Hj. destruct j as [|[|[|j]]]; try lia; reflexivity.
    + intros E. injection E. lra.
Qed.
