(** Property C85: how many points the sampling of a curve segment returns. *)
From Coq Require Import Reals Lra Psatz Lia Arith ZArith List SpecFloat.
From Verif Require Import Prelude Num M_vec M_utils M_curve L_base L_vec L_geom L_bezier L_cdb L_insert L_knot L_bspline L_split Props_knot Props_bspline Props_split Props_bezier Props_utils Props_surface Props_sampling Props_variation Props_rational Props_length Props_returns.
Import ListNotations.
Open Scope R_scope.

(** ** Specification *)
(** with the depth [d + 1] of recursion sampling returns, and returns at most [2 + 3/5 d len / tolerance] points *)
Definition effort (seg : CurveSegment R) (d : nat) (len : R) : Prop := forall rnd, (forall path, 0 <= rnd path < 1) -> exists pts, segment_get_points (S d) rnd seg = Ok pts /\ s_tolerance seg * (INR (length pts) - 2) <= 3 / 5 * INR d * len.

(** ** The length of a curve between two parameters *)
Definition lens (gp : R -> outcome (vec3 R)) (lo hi : R) (r : R) : Prop := exists ts ps, Forall (fun t => lo <= t <= hi) ts /\ consecutive Rle ts /\ Forall2 (fun t p => gp t = Ok p) ts ps /\ r = path_length ps.
Lemma consecutive_join {A} (P : A -> A -> Prop) l1 l2 : consecutive P l1 -> consecutive P l2 -> (forall a b, In a l1 -> In b l2 -> P a b) -> consecutive P (l1 ++ l2).
Proof.
  intros H1 H2 H i a b Ha Hb. destruct (le_lt_dec (length l1) i) as [L|L].
  - rewrite nth_error_app2 in Ha, Hb by lia. apply (H2 (i - length l1)%nat); [exact Ha|]. now replace (i - length l1 + 1)%nat with (i + 1 - length l1)%nat by lia.
  - rewrite nth_error_app1 in Ha by lia. destruct (le_lt_dec (length l1) (i + 1)) as [L'|L'].
    + rewrite nth_error_app2 in Hb by lia. apply H; eapply nth_error_In; eassumption.
    + rewrite nth_error_app1 in Hb by lia. exact (H1 i a b Ha Hb).
Qed.
Lemma path_length_nonneg ps : 0 <= path_length ps.
Proof. rewrite path_length_sum. apply sumf_nonneg. intros. apply Props_polyline.dist3_nonneg. Qed.
Lemma path_length_app p q : path_length p + path_length q <= path_length (p ++ q).
Proof.
  induction p as [|a p IH]; [cbn; lra|]. cbn [app path_length]. destruct p as [|b p].
  - cbn [app path_length] in *. destruct q; [cbn; lra|]. pose proof (Props_polyline.dist3_nonneg a v). lra.
  - cbn [app] in *. lra.
Qed.
Lemma lens_lub gp cps lo hi a b : not_longer gp cps lo hi -> lo <= a -> b <= hi -> exists v, is_lub (lens gp a b) v /\ 0 <= v <= path_length cps.
Proof.
  intros N Ha Hb. assert (B : is_upper_bound (lens gp a b) (path_length cps)).
  { intros r (ts & ps & F & C & E & ->). apply (N ts ps); auto. eapply Forall_impl; [|exact F]. cbn beta. intros. lra. }
  assert (Z : lens gp a b 0) by (exists [], []; split; [constructor|]; split; [intros i x y Hx; destruct i; discriminate Hx|]; split; [constructor|reflexivity]).
  destruct (completeness (lens gp a b)) as (v & Hv); [now exists (path_length cps)|now exists 0|]. exists v. split; [exact Hv|]. split; [now apply (proj1 Hv)|now apply (proj2 Hv)].
Qed.
Lemma lens_add gp a m b v1 v2 v : a <= m -> m <= b -> is_lub (lens gp a m) v1 -> is_lub (lens gp m b) v2 -> is_lub (lens gp a b) v -> v1 + v2 <= v.
Proof.
  intros H1 H2 L1 L2 (U & _). assert (Q : v1 <= v - v2); [|lra]. apply (proj2 L1). intros r1 (ts & ps & F & C & E & ->). assert (Q : v2 <= v - path_length ps); [|lra]. apply (proj2 L2). intros r2 (ts' & ps' & F' & C' & E' & ->).
  assert (Q : path_length (ps ++ ps') <= v); [|pose proof (path_length_app ps ps'); lra]. apply U. rewrite Forall_forall in F, F'. exists (ts ++ ts'), (ps ++ ps'). split; [|split; [|split; [now apply Forall2_app|reflexivity]]].
  - apply Forall_app. split; apply Forall_forall; intros t Ht; [specialize (F t Ht)|specialize (F' t Ht)]; lra.
  - apply consecutive_join; auto. intros x y Hx Hy. specialize (F x Hx). specialize (F' y Hy). lra.
Qed.
Lemma lens_three gp a t b p q r v : a <= t -> t <= b -> gp a = Ok p -> gp t = Ok q -> gp b = Ok r -> is_lub (lens gp a b) v -> dist3 p q + dist3 q r <= v.
Proof.
  intros H1 H2 Ep Eq Er (U & _). apply U. exists [a; t; b], [p; q; r]. split; [|split; [|split]].
  - constructor; [lra|]. constructor; [lra|]. constructor; [lra|constructor].
  - intros i x y Hx Hy. destruct i as [|[|[|i]]]; cbn in Hx, Hy; try discriminate; try (destruct i; discriminate); injection Hx as <-; injection Hy as <-; lra.
  - repeat constructor; assumption.
  - cbn [path_length]. ring.
Qed.
(** a piece that is divided has at least 5/3 of the tolerance in length *)
Lemma dist3_swap p q : dist3 p q = dist3 q p.
Proof. unfold dist3. f_equal. ring. Qed.
Lemma divided_long (a b q : vec3 R) k : 2 / 5 <= k < 3 / 5 -> distance3 q (vadd a (vmulr (vsub b a) k)) <= 3 / 5 * (dist3 a q + dist3 q b).
Proof.
  intros Hk. unfold distance3. rewrite !dist3_length. replace (vsub q (vadd a (vmulr (vsub b a) k))) with (vadd (vmulr (vsub q a) (1 - k)) (vmulr (vsub q b) k)) by (apply vec3_ext; vsimp; rnum; ring).
  eapply Rle_trans; [apply triangle3|]. rewrite !length3_scale_pos by lra. rewrite <- (dist3_length q a), (dist3_swap q a), dist3_length. pose proof (length3_nonneg (vsub a q)). pose proof (length3_nonneg (vsub q b)).
  assert ((1 - k) * length3 (vsub a q) <= 3 / 5 * length3 (vsub a q)) by (apply Rmult_le_compat_r; lra). assert (k * length3 (vsub q b) <= 3 / 5 * length3 (vsub q b)) by (apply Rmult_le_compat_r; lra). lra.
Qed.
Lemma removelast_length {A} (l : list A) : length (removelast l) = (length l - 1)%nat.
Proof. induction l as [|x l IH]; [reflexivity|]. cbn [removelast]. destruct l; [reflexivity|]. cbn [length] in *. lia. Qed.
Lemma count_bound (rnd : list bool -> R) gp tol cps lo hi : (forall path, 0 <= rnd path < 1) -> 0 <= tol -> not_longer gp cps lo hi -> forall d path a b l v, lo <= a <= hi -> lo <= b <= hi -> parameter_division (S d) rnd path gp (a, b) tol = Ok l -> is_lub (lens gp (Rmin a b) (Rmax a b)) v -> tol * (INR (length l) - 2) <= 3 / 5 * INR d * v.
Proof.
  intros Hr Ht N. induction d as [|d IH]; intros path a b l v Ha Hb E L.
  - cbn [parameter_division fst snd] in E. obind_inv E. obind_inv E. obind_inv E. match type of E with context [fltb ?x tol] => destruct (fltb x tol) end; [apply Ok_inj in E; subst l; cbn [length INR]; lra|discriminate].
  - remember (S d) as d1 eqn:Ed. cbn [parameter_division fst snd] in E. subst d1. pose proof (C22_probe_range _ (Hr path)) as Hp. set (k := probe (rnd path)) in *. set (t := range_at (a, b) k) in *. assert (Et : t = a + (b - a) * k) by reflexivity.
    destruct (gp a) as [pa| |] eqn:Ea; try discriminate. destruct (gp b) as [pb| |] eqn:Eb; try discriminate. destruct (gp t) as [q| |] eqn:Eq; try discriminate. cbn [obind] in E.
    assert (I : Rmin a b <= t <= Rmax a b) by (unfold Rmin, Rmax; destruct Rle_dec; rewrite Et; nra).
    assert (V3' : dist3 pa q + dist3 q pb <= v).
    { destruct (Rle_dec a b) as [O|O].
      - rewrite Rmin_left, Rmax_right in L, I by lra. now apply (lens_three gp a t b pa q pb v).
      - rewrite Rmin_right, Rmax_left in L, I by lra. rewrite (dist3_swap pa q), (dist3_swap q pb), Rplus_comm. now apply (lens_three gp b t a pb q pa v). }
    pose proof (divided_long pa pb q k Hp) as Dl. set (m := fdiv (fadd a b) f2) in *. assert (Em : m = (a + b) / 2) by (unfold m, f2; rnum; field).
    assert (Vn : 0 <= v) by (pose proof (Props_polyline.dist3_nonneg pa q); pose proof (Props_polyline.dist3_nonneg q pb); lra). assert (Dn : 0 <= INR (S d)) by apply pos_INR.
    match type of E with context [fltb ?x tol] => destruct (fltb x tol) eqn:T end.
    + apply Ok_inj in E. subst l. cbn [length]. replace (tol * (INR 2 - 2)) with 0 by (cbn [INR]; ring). apply Rmult_le_pos; [lra|exact Vn].
    + revert T. rnum. intros T. apply Rltb_false in T. obind_inv E. obind_inv E. apply Ok_inj in E. subst l.
      match goal with H1 : parameter_division _ _ (false :: _) _ _ _ = Ok ?r1, H2 : parameter_division _ _ (true :: _) _ _ _ = Ok ?r2 |- _ => rename H1 into F1; rename H2 into F2; set (l1 := r1) in *; set (l2 := r2) in * end.
      assert (B1 : lo <= Rmin a m /\ Rmax a m <= hi) by (rewrite Em; unfold Rmin, Rmax; destruct Rle_dec; lra). assert (B2 : lo <= Rmin m b /\ Rmax m b <= hi) by (rewrite Em; unfold Rmin, Rmax; destruct Rle_dec; lra).
      destruct (lens_lub gp cps lo hi (Rmin a m) (Rmax a m) N (proj1 B1) (proj2 B1)) as (v1 & L1 & _). destruct (lens_lub gp cps lo hi (Rmin m b) (Rmax m b) N (proj1 B2) (proj2 B2)) as (v2 & L2 & _).
      assert (Add : v1 + v2 <= v).
      { destruct (Rle_dec a b) as [O|O].
        - rewrite Rmin_left, Rmax_right in L, L1, L2 by lra. apply (lens_add gp a m b); auto; lra.
        - rewrite Rmin_right, Rmax_left in L, L1, L2 by lra. rewrite Rplus_comm. apply (lens_add gp b m a); auto; lra. }
      assert (Hm : lo <= m <= hi) by lra. pose proof (IH _ _ _ _ _ Ha Hm F1 L1) as Q1. pose proof (IH _ _ _ _ _ Hm Hb F2 L2) as Q2.
      destruct (C22_division_shape _ _ _ (S d) _ a m l1 F1) as ((mid & Sh) & _).
      assert (Ln : INR (length (removelast l1 ++ l2)) = INR (length l1) + INR (length l2) - 1). { rewrite app_length, removelast_length, plus_INR, minus_INR; [cbn [INR]; ring|]. rewrite Sh. cbn [length]. lia. }
      rewrite Ln, S_INR. pose proof (pos_INR d) as Pd. assert (INR d * (v1 + v2) <= INR d * v) by (apply Rmult_le_compat_l; assumption). lra.
Qed.
Lemma F2_len {A B} (Q : A -> B -> Prop) l l' : Forall2 Q l l' -> length l = length l'.
Proof. induction 1; cbn; congruence. Qed.
(** for every curve that is no longer than its control polygon *)
Theorem C85_points (seg : CurveSegment R) cps lo hi d rnd pts : (forall path, 0 <= rnd path < 1) -> 0 <= s_tolerance seg -> not_longer (c_get_point (s_curve seg)) cps lo hi -> lo <= fst (s_range seg) <= hi -> lo <= snd (s_range seg) <= hi ->
  segment_get_points (S d) rnd seg = Ok pts -> s_tolerance seg * (INR (length pts) - 2) <= 3 / 5 * INR d * path_length cps.
Proof.
  intros Hr Ht N Ha Hb E. destruct (C55_samples_on_curve (S d) rnd seg pts E) as (us & Eu & F). destruct (s_range seg) as [a b]. cbn [fst snd] in *. rewrite <- (F2_len _ _ _ F).
  assert (B : lo <= Rmin a b /\ Rmax a b <= hi) by (unfold Rmin, Rmax; destruct Rle_dec; lra). destruct (lens_lub _ cps lo hi (Rmin a b) (Rmax a b) N (proj1 B) (proj2 B)) as (v & L & Hv).
  eapply Rle_trans; [exact (count_bound rnd _ _ cps lo hi Hr Ht N d [] a b us v Ha Hb Eu L)|]. apply Rmult_le_compat_l; [|lra]. pose proof (pos_INR d). lra.
Qed.

(** ** Bezier curves: an explicit depth *)
(** [D] bounds the sides of the control polygon *)
Definition sides_within (cps : list (vec3 R)) (D : R) : Prop := 0 <= D /\ forall i, (S i < length cps)%nat -> dist3 (nth i cps vzero) (nth (S i) cps vzero) <= D.
Lemma dot3_abs (a b : vec3 R) : Rabs (dot3 a b) <= length3 a * length3 b.
Proof.
  pose proof (length3_nonneg a). pose proof (length3_nonneg b). rewrite <- (Rabs_right (length3 a * length3 b)) by (apply Rle_ge; now apply Rmult_le_pos). apply Rsqr_le_abs_0. unfold Rsqr. replace (length3 a * length3 b * (length3 a * length3 b)) with ((length3 a * length3 a) * (length3 b * length3 b)) by ring. rewrite !length3_sq. apply cauchy3.
Qed.
(** a point of the curve moves no faster than the degree times the longest side *)
Theorem C85_bezier_speed cps D u v p q : sides_within cps D -> 0 <= u <= 1 -> 0 <= v <= 1 -> bezier3_get_point cps u = Ok p -> bezier3_get_point cps v = Ok q -> dist3 p q <= INR (length cps - 1) * D * Rabs (u - v).
Proof.
  intros (HD & Hs) Hu Hv Ep Eq. destruct cps as [|c0 l]; [discriminate|]. set (cps := c0 :: l) in *. assert (H : (1 <= length cps)%nat) by (cbn; lia). clearbody cps. clear c0 l.
  rewrite bezier_eval_Bern in Ep, Eq by lia. apply Ok_inj in Ep, Eq. set (n := length cps) in *. set (d := (n - 1)%nat). set (w := vsub p q). set (wt := fun i => dot3 w (nth i cps vzero)).
  set (g := fun t => sumf (fun i => Bern d i t * wt i) (S d)). set (g' := fun t => sumf (fun i => Bern (d - 1) i t * (INR d * (wt (S i) - wt i))) (S (d - 1))).
  assert (Eg : forall t, g t = dot3 w (comb3 (fun i => Bern (n - 1) i t) cps)).
  { intros t. unfold g, dot3, comb3, wt. cbn [x3 y3 z3]. rnum. fold n. replace (S d) with n by (unfold d; lia). fold d. rewrite <- !sumf_scal, <- !sumf_plus. apply sumf_ext. intros i _. unfold dot3. rnum. ring. }
  assert (Lw : dot3 w w = g u - g v) by (rewrite !Eg; rewrite Ep, Eq; unfold w, dot3; vsimp; rnum; ring).
  assert (Q : Rabs (g u - g v) <= (INR d * (length3 w * D)) * Rabs (u - v)).
  { apply (Props_meshdist.lipschitz g g'). intros t Ht. split; [apply Props_meshdist.Bern_comb_deriv|]. assert (It : 0 <= t <= 1) by (revert Ht; unfold Rmin, Rmax; destruct Rle_dec; lra).
    destruct (Nat.eq_dec d 0) as [Z|Z].
    { unfold g'. rewrite Z. rewrite sumf_zero by (intros; cbn [INR]; ring). cbn [INR]. rewrite Rabs_R0. lra. }
    assert (Sd : forall i, (i < S (d - 1))%nat -> Rabs (wt (S i) - wt i) <= length3 w * D).
    { intros i Hi. replace (wt (S i) - wt i) with (dot3 w (vsub (nth (S i) cps vzero) (nth i cps vzero))) by (unfold wt, dot3; vsimp; rnum; ring). eapply Rle_trans; [apply dot3_abs|]. apply Rmult_le_compat_l; [apply length3_nonneg|]. rewrite <- dist3_length, dist3_swap. apply Hs. fold n. unfold d in *. lia. }
    assert (B : forall s : R, s = 1 \/ s = -1 -> s * g' t <= INR d * (length3 w * D)).
    { intros s Es. unfold g'. rewrite <- sumf_scal. apply Rle_trans with (sumf (fun i => Bern (d - 1) i t * (INR d * (length3 w * D))) (S (d - 1))); [|rewrite sumf_scal_r, Bern_sum; lra].
      apply sumf_le. intros i Hi. replace (s * (Bern (d - 1) i t * (INR d * (wt (S i) - wt i)))) with (Bern (d - 1) i t * (INR d * (s * (wt (S i) - wt i)))) by ring. apply Rmult_le_compat_l; [now apply Bern_nonneg|]. apply Rmult_le_compat_l; [apply pos_INR|].
      specialize (Sd i Hi). revert Sd. unfold Rabs. destruct Rcase_abs; destruct Es; subst s; lra. }
    pose proof (B 1 ltac:(now left)). pose proof (B (-1) ltac:(now right)). unfold Rabs. destruct Rcase_abs; lra. }
  assert (Ew : dist3 p q = length3 w) by (unfold w; apply dist3_length). rewrite Ew. pose proof (length3_nonneg w) as Pw. destruct (Rle_lt_or_eq_dec 0 _ Pw) as [Pw'|Z].
  - rewrite <- Lw, <- length3_sq in Q. rewrite Rabs_right in Q by nra. apply (Rmult_le_reg_l (length3 w)); [exact Pw'|]. lra.
  - rewrite <- Z. apply Rmult_le_pos; [apply Rmult_le_pos; [apply pos_INR|exact HD]|apply Rabs_pos].
Qed.
Theorem C85_bezier cps (seg : CurveSegment R) D d : cps <> [] -> s_curve seg = bezier3_curve cps -> sides_within cps D -> 0 < s_tolerance seg -> 0 <= fst (s_range seg) <= 1 -> 0 <= snd (s_range seg) <= 1 ->
  2 * (INR (length cps - 1) * D) * Rabs (snd (s_range seg) - fst (s_range seg)) < s_tolerance seg * 2 ^ d -> effort seg d (path_length cps).
Proof.
  intros Hc Ec Hs Ht Ha Hb Hd rnd Hr. assert (H : (1 <= length cps)%nat) by (destruct cps; [now destruct Hc|cbn; lia]). destruct (s_range seg) as [a b] eqn:Er. cbn [fst snd] in *.
  assert (Eb : c_get_point (s_curve seg) = bezier3_get_point cps) by (now rewrite Ec).
  assert (L : Props_utils.lipschitz (c_get_point (s_curve seg)) (INR (length cps - 1) * D) a b).
  { intros u v Hu Hv. assert (Iu : 0 <= u <= 1) by (revert Hu; unfold Rmin, Rmax; destruct Rle_dec; lra). assert (Iv : 0 <= v <= 1) by (revert Hv; unfold Rmin, Rmax; destruct Rle_dec; lra). rewrite Eb. do 2 eexists. split; [apply bezier_eval_Bern; lia|]. split; [apply bezier_eval_Bern; lia|].
    rewrite <- dist3_length. apply (C85_bezier_speed cps D); auto; apply bezier_eval_Bern; lia. }
  destruct (C23_division_terminates rnd (c_get_point (s_curve seg)) (s_tolerance seg) (INR (length cps - 1) * D) a b d [] Hr) as (l & El); [apply Rmult_le_pos; [apply pos_INR|apply Hs]|exact L|exact Hd|].
  assert (Ex : exists pts, segment_get_points (S d) rnd seg = Ok pts). { unfold segment_get_points. rewrite Er, El. cbn [obind]. apply mapM_total. apply Forall_forall. intros t _. rewrite Eb. eexists. apply bezier_eval_Bern. lia. }
  destruct Ex as (pts & Ex). exists pts. split; [exact Ex|]. apply (C85_points seg cps 0 1 d rnd pts Hr); auto; try lra.
  - rewrite Eb. apply C83_bezier.
  - rewrite Er. exact Ha.
  - rewrite Er. exact Hb.
Qed.

(** ** The other curves: some depth (C84) *)
Lemma effort_exists (seg : CurveSegment R) cps lo hi : always_returns seg -> 0 < s_tolerance seg -> not_longer (c_get_point (s_curve seg)) cps lo hi -> lo <= fst (s_range seg) <= hi -> lo <= snd (s_range seg) <= hi -> exists d, effort seg d (path_length cps).
Proof.
  intros (depth & A) Ht N Ha Hb. destruct depth as [|d]; [destruct (A (fun _ => 0)) as (pts & E); [intros; lra|discriminate E]|]. exists d. intros rnd Hr. destruct (A rnd Hr) as (pts & E). exists pts. split; [exact E|]. apply (C85_points seg cps lo hi d rnd pts Hr); auto; lra.
Qed.
Theorem C85_bspline (c : BSpline R (vec3 R)) (seg : CurveSegment R) : valid_bspline c -> fits (bs_knots c) (bs_degree c) (length (bs_cps c)) -> joined (bs_knots c) (bs_degree c) -> s_curve seg = bspline3_curve c -> 0 < s_tolerance seg ->
  nth (bs_degree c) (bs_knots c) 0 <= fst (s_range seg) <= last_knot (bs_knots c) -> nth (bs_degree c) (bs_knots c) 0 <= snd (s_range seg) <= last_knot (bs_knots c) -> exists d, effort seg d (path_length (bs_cps c)).
Proof.
  intros V Hf J Ec Ht Ha Hb. apply (effort_exists seg (bs_cps c) (nth (bs_degree c) (bs_knots c) 0) (last_knot (bs_knots c))); auto; [now apply (C84_bspline c)|]. rewrite Ec. cbn [bspline3_curve c_get_point]. destruct Hf as (_ & _ & _ & _ & He & Hl). now apply C83_bspline.
Qed.
Theorem C85_rational_bezier (cps : list (vec4 R)) (seg : CurveSegment R) : cps <> [] -> (forall q, In q cps -> 0 < w4 q) -> s_curve seg = bezier4_curve cps -> 0 < s_tolerance seg -> 0 <= fst (s_range seg) <= 1 -> 0 <= snd (s_range seg) <= 1 -> exists d, effort seg d (path_length (map place cps)).
Proof.
  intros Hc Hw Ec Ht Ha Hb. apply (effort_exists seg (map place cps) 0 1); auto; [now apply (C84_rational_bezier cps)|]. rewrite Ec. cbn [bezier4_curve c_get_point]. now apply C83_rational_bezier.
Qed.
Theorem C85_rational_bspline (c : BSpline R (vec4 R)) (seg : CurveSegment R) : fits (bs_knots c) (bs_degree c) (length (bs_cps c)) -> weighted c -> joined (bs_knots c) (bs_degree c) -> s_curve seg = bspline4_curve c -> 0 < s_tolerance seg ->
  nth (bs_degree c) (bs_knots c) 0 <= fst (s_range seg) <= last_knot (bs_knots c) -> nth (bs_degree c) (bs_knots c) 0 <= snd (s_range seg) <= last_knot (bs_knots c) -> exists d, effort seg d (path_length (map place (bs_cps c))).
Proof.
  intros Hf Hw J Ec Ht Ha Hb. apply (effort_exists seg (map place (bs_cps c)) (nth (bs_degree c) (bs_knots c) 0) (last_knot (bs_knots c))); auto; [now apply (C84_rational_bspline c)|]. rewrite Ec. cbn [bspline4_curve c_get_point]. pose proof Hf as (A1 & A2 & A3 & A4 & He & Hl).
  apply C83_rational_bspline; auto; [now repeat split|]. repeat split; auto; lra.
Qed.
(** an arch sampled at the tolerance 1/5: at most 2 + 210 points, for all random numbers *)
Definition arch : list (vec3 R) := [V3 0 0 0; V3 3 4 0; V3 6 0 0].
Definition arch_seg : CurveSegment R := {| s_curve := bezier3_curve arch; s_range := (0, 1); s_tolerance := 1 / 5; s_division := 0 |}.
Example C85_nonvacuous : sides_within arch 5 /\ effort arch_seg 7 10 /\ exists d, effort {| s_curve := bspline3_curve c_ex; s_range := (0, 2); s_tolerance := 1 / 10; s_division := 0 |} d (path_length (bs_cps c_ex)).
Proof.
  assert (S5 : forall a b : R, a * a + b * b = 25 -> sqrt (a * a + b * b) = 5) by (intros a b E; rewrite E; replace 25 with (5 * 5) by ring; apply sqrt_square; lra).
  assert (E1 : dist3 (V3 0 0 0) (V3 3 4 0) = 5) by (unfold dist3; cbn [x3 y3 z3]; rewrite <- (S5 3 4) by ring; f_equal; ring). assert (E2 : dist3 (V3 3 4 0) (V3 6 0 0) = 5) by (unfold dist3; cbn [x3 y3 z3]; rewrite <- (S5 3 4) by ring; f_equal; ring).
  assert (S : sides_within arch 5). { split; [lra|]. intros i Hi. cbn [arch length] in Hi. destruct i as [|[|i]]; [|  |lia]; cbn [arch nth]; lra. }
  split; [exact S|]. split.
  - replace 10 with (path_length arch) by (cbn [arch path_length]; rewrite E1, E2; ring). apply (C85_bezier arch arch_seg 5 7); [discriminate|reflexivity|exact S|cbn; lra|cbn; lra|cbn; lra|]. cbn [arch_seg s_range s_tolerance fst snd arch length Nat.sub INR]. rewrite Rabs_right by lra. lra.
  - destruct C84_nonvacuous as (_ & _ & J & _). pose proof c_ex_valid as [A1 A2 A3 A4]. apply (C85_bspline c_ex _ c_ex_valid); [|exact J|reflexivity|cbn; lra|cbn; lra|cbn; lra]. split; [exact A1|]. split; [exact A2|]. split; [exact A3|]. split; [cbn; lia|]. cbn. lra.
Qed.
