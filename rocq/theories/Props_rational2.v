(** Property C81: rational surfaces; surfaces of revolution, spheres and tori as rational patches. *)
From Coq Require Import Reals Lra Psatz Lia Arith ZArith List SpecFloat.
From Verif Require Import Prelude Num M_vec M_utils M_curve M_surface L_base L_vec L_bezier L_cdb L_insert L_knot L_bspline L_split L_surface Props_knot Props_bspline Props_split Props_bezier Props_utils Props_surface Props_sampling Props_variation Props_rational.
Import ListNotations.
Open Scope R_scope.

(** ** Specification *)
Definition convex_weights (w : nat -> R) (n : nat) : Prop := (forall i, (i < n)%nat -> 0 <= w i) /\ sumf w n = 1.
(** the control net has positive weights *)
Definition weighted_net (g : Grid (vec4 R)) : Prop := forall q, In q (g_data g) -> 0 < w4 q.
(** knots, degree and number of points fit, the end is clamped, and the parameter is in the range *)
Definition covers (ks : list R) (p n : nat) (u : R) : Prop := sorted ks /\ separated ks /\ length ks = (n + p + 1)%nat /\ (1 <= n)%nat /\ nth n ks 0 = last_knot ks /\ nth p ks 0 < last_knot ks /\ nth p ks 0 <= u <= last_knot ks.
(** every half space that contains the projected control points contains [p] *)
Definition in_hull (p : vec3 R) (g : Grid (vec4 R)) : Prop := forall normal bound, (forall q, In q (g_data g) -> dot3 normal (place q) <= bound) -> dot3 normal p <= bound.

(** ** Sums over a net *)
Lemma entry_In (g : Grid (vec4 R)) r c i j : wf_grid g r c -> (i < r)%nat -> (j < c)%nat -> In (entry g i j) (g_data g).
Proof. intros (Hc & HL & H1) Hi Hj. unfold entry. apply nth_In. rewrite HL, Hc. nia. Qed.
Lemma tsum_le wu wv (g : Grid (vec4 R)) r c f h : wf_grid g r c -> convex_weights wu r -> convex_weights wv c -> (forall q, In q (g_data g) -> f q <= h q) -> tsum wu wv g r c f <= tsum wu wv g r c h.
Proof.
  intros Hw (Nu & _) (Nv & _) H. unfold tsum. apply sumf_le. intros i Hi. apply sumf_le. intros j Hj. apply Rmult_le_compat_l; [apply Rmult_le_pos; [now apply Nu|now apply Nv]|]. apply H. now apply (entry_In g r c).
Qed.
Lemma tsum_const wu wv (g : Grid (vec4 R)) r c k : convex_weights wu r -> convex_weights wv c -> tsum wu wv g r c (fun _ => k) = k.
Proof.
  intros (_ & Su) (_ & Sv). unfold tsum. transitivity (sumf (fun i => wu i * k) r).
  - apply sumf_ext. intros i _. transitivity (sumf (fun j => wv j * (wu i * k)) c); [apply sumf_ext; intros; ring|]. rewrite sumf_scal_r, Sv. ring.
  - rewrite sumf_scal_r, Su. ring.
Qed.
Lemma tsum_positive wu wv (g : Grid (vec4 R)) r c : wf_grid g r c -> (1 <= r)%nat -> convex_weights wu r -> convex_weights wv c -> weighted_net g -> 0 < tsum wu wv g r c w4.
Proof.
  intros Hg Hr Hu Hv Hw. pose proof Hg as (Hc & HL & H1). destruct (least_weight (g_data g)) as (m & Hm & Hl); [rewrite HL; nia|exact Hw|].
  apply Rlt_le_trans with m; [exact Hm|]. rewrite <- (tsum_const wu wv g r c m Hu Hv) at 1. now apply tsum_le.
Qed.
Lemma tensor4_hull wu wv (g : Grid (vec4 R)) r c : wf_grid g r c -> (1 <= r)%nat -> convex_weights wu r -> convex_weights wv c -> weighted_net g -> in_hull (tensor4 wu wv g r c) g.
Proof.
  intros Hg Hr Hu Hv Hw normal bound Hb. pose proof (tsum_positive wu wv g r c Hg Hr Hu Hv Hw) as W. set (D := tsum wu wv g r c w4) in *.
  assert (K : tsum wu wv g r c (fun q => x3 normal * x4 q + y3 normal * y4 q + z3 normal * z4 q) <= tsum wu wv g r c (fun q => bound * w4 q)).
  { apply tsum_le; [assumption..|]. intros q Hq. specialize (Hb q Hq). specialize (Hw q Hq). revert Hb. unfold dot3, place. cbn [x3 y3 z3]. rnum. intros Hb.
    replace (x3 normal * x4 q + y3 normal * y4 q + z3 normal * z4 q) with ((x3 normal * (x4 q / w4 q) + y3 normal * (y4 q / w4 q) + z3 normal * (z4 q / w4 q)) * w4 q) by (field; lra). apply Rmult_le_compat_r; lra. }
  assert (L : tsum wu wv g r c (fun q => x3 normal * x4 q + y3 normal * y4 q + z3 normal * z4 q) = x3 normal * tsum wu wv g r c x4 + y3 normal * tsum wu wv g r c y4 + z3 normal * tsum wu wv g r c z4).
  { unfold tsum. rewrite <- !sumf_scal, <- !sumf_plus. apply sumf_ext. intros i _. rewrite <- !sumf_scal, <- !sumf_plus. apply sumf_ext. intros j _. ring. }
  assert (B : tsum wu wv g r c (fun q => bound * w4 q) = bound * D). { unfold D, tsum. rewrite <- !sumf_scal. apply sumf_ext. intros i _. rewrite <- !sumf_scal. apply sumf_ext. intros j _. ring. }
  rewrite L, B in K. unfold tensor4, dot3. cbn [x3 y3 z3]. fold D. rnum. apply Rmult_le_reg_r with D; [exact W|].
  match goal with |- ?X * D <= _ => replace (X * D) with (x3 normal * tsum wu wv g r c x4 + y3 normal * tsum wu wv g r c y4 + z3 normal * tsum wu wv g r c z4) by (field; lra) end. exact K.
Qed.
Lemma bern_weights n u : (1 <= n)%nat -> 0 <= u <= 1 -> convex_weights (fun i => bern_poly n i u) n.
Proof.
  intros Hn Hu. split.
  - intros i Hi. rewrite bern_poly_Bern by exact Hi. now apply Bern_nonneg.
  - rewrite (sumf_ext _ (fun i => Bern (n - 1) i u)) by (intros; now apply bern_poly_Bern). destruct n as [|m]; [lia|]. replace (S m - 1)%nat with m by lia. apply Bern_sum.
Qed.
Lemma covers_weights ks p n u : covers ks p n u -> exists s, is_span ks u s /\ convex_weights (fun i => cdb (fun i => nth i ks 0) s p i u) n.
Proof.
  intros (A1 & A2 & A3 & A4 & A5 & A6 & A7). set (c := mkBSpline (repeat vzero n) ks p : BSpline R (vec4 R)).
  assert (V : valid_rational c) by (unfold valid_rational, c; cbn [bs_knots bs_cps bs_degree]; rewrite repeat_length; auto).
  assert (I : inside c u) by (unfold inside, c; cbn [bs_knots bs_cps bs_degree]; rewrite repeat_length; auto).
  destruct (rational_span c u V I) as (s & Hs & Bs & Bu). exists s. split; [exact Hs|]. pose proof (cox_weights c u s V Hs Bs Bu) as H. unfold c in H. cbn [bs_knots bs_cps bs_degree] in H. rewrite repeat_length in H. exact H.
Qed.
Lemma covers_from ks p n u : covers ks p n u -> first_of ks < last_of ks /\ first_of ks <= u.
Proof. intros (A1 & A2 & A3 & A4 & A5 & A6 & A7). assert (F : nth 0 ks 0 <= nth p ks 0) by (apply A1; lia). unfold first_of, last_of. fold (last_knot ks). lra. Qed.

(** ** Hulls *)
Theorem C81_bezier_patch_hull (g : Grid (vec4 R)) r c u v : wf_grid g r c -> (1 <= r)%nat -> weighted_net g -> 0 <= u <= 1 -> 0 <= v <= 1 ->
  exists p, bezier_surface4_get_point g u v = Ok p /\ in_hull p g.
Proof.
  intros Hg Hr Hw Hu Hv. eexists. split; [now apply (C20_rational_bezier_surface g r c)|]. pose proof Hg as (_ & _ & H1). now apply tensor4_hull; [assumption|assumption|apply bern_weights|apply bern_weights|].
Qed.
Theorem C81_bspline_patch_hull (s : BSplineSurface R (vec4 R)) r c u v : wf_grid (bss_cps s) r c -> weighted_net (bss_cps s) ->
  covers (fst (bss_knots s)) (fst (bss_degree s)) r u -> covers (snd (bss_knots s)) (snd (bss_degree s)) c v -> exists p, bss4_get_point s u v = Ok p /\ in_hull p (bss_cps s).
Proof.
  intros Hg Hw Hu Hv. destruct (covers_weights _ _ _ _ Hu) as (su & Su & Wu). destruct (covers_weights _ _ _ _ Hv) as (sv & Sv & Wv). destruct (covers_from _ _ _ _ Hu) as (F1 & F2). destruct (covers_from _ _ _ _ Hv) as (F3 & F4).
  pose proof Hu as (A1 & A2 & A3 & A4 & _). pose proof Hv as (B1 & B2 & B3 & B4 & _).
  destruct (C18_get_point_rational s r c u v) as (su' & sv' & Su' & Sv' & E); [split; assumption|assumption..|].
  pose proof (C06_span_unique _ _ _ _ A1 Su Su') as <-. pose proof (C06_span_unique _ _ _ _ B1 Sv Sv') as <-. eexists. split; [exact E|]. now apply tensor4_hull.
Qed.

(** ** Surfaces of revolution *)
(** the profile point (x, 0, z) with weight, turned to the direction (x, y) of a point of the guide *)
Definition turned_to (q e : vec4 R) : vec4 R := V4 (x4 q * x4 e) (x4 q * y4 e) (z4 q * w4 e) (w4 q * w4 e).
Definition revolved (prof guide : list (vec4 R)) : Grid (vec4 R) := mkGrid (length guide) (flat_map (fun q => map (turned_to q) guide) prof).
Definition turned_point (q e : vec3 R) : vec3 R := V3 (x3 q * x3 e) (x3 q * y3 e) (z3 q).

Lemma revolved_length (prof guide : list (vec4 R)) : length (flat_map (fun q => map (turned_to q) guide) prof) = (length prof * length guide)%nat.
Proof. induction prof as [|q l IH]; [reflexivity|]. cbn [flat_map length Nat.mul]. rewrite app_length, map_length, IH. reflexivity. Qed.
Lemma revolved_wf prof guide : (1 <= length guide)%nat -> wf_grid (revolved prof guide) (length prof) (length guide).
Proof. intros H. split; [reflexivity|]. split; [apply revolved_length|exact H]. Qed.
Lemma revolved_entry prof guide i j : (i < length prof)%nat -> (j < length guide)%nat -> entry (revolved prof guide) i j = turned_to (nth i prof vzero) (nth j guide vzero).
Proof.
  intros Hi Hj. unfold entry, revolved. cbn [g_cols g_data]. revert i Hi. induction prof as [|q l IH]; intros i Hi; [cbn in Hi; lia|]. cbn [flat_map]. destruct i as [|i].
  - cbn [Nat.mul Nat.add nth]. rewrite app_nth1 by (now rewrite map_length). now rewrite (nth_map_default _ _ _ vzero) by exact Hj.
  - cbn [length] in Hi. rewrite app_nth2 by (rewrite map_length; cbn; lia). rewrite map_length. replace (S i * length guide + j - length guide)%nat with (i * length guide + j)%nat by (cbn; lia). cbn [nth]. apply IH. lia.
Qed.
Lemma revolved_weighted prof guide : (forall q, In q prof -> 0 < w4 q) -> (forall e, In e guide -> 0 < w4 e) -> weighted_net (revolved prof guide).
Proof. intros H1 H2 q Hq. unfold revolved in Hq. cbn [g_data] in Hq. apply in_flat_map in Hq as (a & Ha & Hq). apply in_map_iff in Hq as (e & <- & He). cbn [turned_to w4]. apply Rmult_lt_0_compat; auto. Qed.
Lemma tsum_product wu wv prof guide (f a b : vec4 R -> R) : (forall q e, f (turned_to q e) = a q * b e) ->
  tsum wu wv (revolved prof guide) (length prof) (length guide) f = sumf (fun i => wu i * a (nth i prof vzero)) (length prof) * sumf (fun j => wv j * b (nth j guide vzero)) (length guide).
Proof.
  intros H. unfold tsum. rewrite <- sumf_scal_r. apply sumf_ext. intros i Hi. rewrite <- sumf_scal. apply sumf_ext. intros j Hj. rewrite revolved_entry, H by assumption. ring.
Qed.
Lemma tensor4_revolved wu wv prof guide (q e : vec3 R) (A B : (vec4 R -> R) -> R) :
  (forall f, A f = sumf (fun i => wu i * f (nth i prof vzero)) (length prof)) -> (forall f, B f = sumf (fun j => wv j * f (nth j guide vzero)) (length guide)) -> 0 < A w4 -> 0 < B w4 ->
  q = V3 (A x4 / A w4) (A y4 / A w4) (A z4 / A w4) -> e = V3 (B x4 / B w4) (B y4 / B w4) (B z4 / B w4) -> tensor4 wu wv (revolved prof guide) (length prof) (length guide) = turned_point q e.
Proof.
  intros HA HB PA PB -> ->. unfold tensor4, turned_point. cbn [x3 y3 z3].
  rewrite (tsum_product wu wv prof guide x4 x4 x4), (tsum_product wu wv prof guide y4 x4 y4), (tsum_product wu wv prof guide z4 z4 w4), (tsum_product wu wv prof guide w4 w4 w4) by reflexivity.
  rewrite <- !HA, <- !HB. f_equal; field; lra.
Qed.
(** the patch of a profile and a guide is made of the points of the profile turned to the points of the guide *)
Theorem C81_revolution prof guide u v : (1 <= length prof)%nat -> (1 <= length guide)%nat -> (forall q, In q prof -> 0 < w4 q) -> (forall e, In e guide -> 0 < w4 e) -> 0 <= u <= 1 -> 0 <= v <= 1 ->
  exists q e, bezier4_get_point prof u = Ok q /\ bezier4_get_point guide v = Ok e /\ bezier_surface4_get_point (revolved prof guide) u v = Ok (turned_point q e).
Proof.
  intros L1 L2 W1 W2 Hu Hv. destruct (C05_rational_bezier prof u L1 W1 Hu) as (P1 & E1). destruct (C05_rational_bezier guide v L2 W2 Hv) as (P2 & E2). do 2 eexists. split; [exact E1|]. split; [exact E2|].
  rewrite (C20_rational_bezier_surface _ (length prof) (length guide)) by (auto using revolved_wf). f_equal.
  apply (tensor4_revolved _ _ prof guide _ _ (fun f => bern_dot (length prof - 1) u f prof) (fun f => bern_dot (length guide - 1) v f guide)); try assumption; try reflexivity;
    intros f; unfold bern_dot; apply sumf_ext; intros i Hi; now rewrite bern_poly_Bern by exact Hi.
Qed.
Theorem C81_nurbs_revolution (prof guide : BSpline R (vec4 R)) u v : valid_rational prof -> weighted prof -> inside prof u -> valid_rational guide -> weighted guide -> inside guide v ->
  exists q e, bspline4_get_point prof u = Ok q /\ bspline4_get_point guide v = Ok e /\
    bss4_get_point (mkBSS (revolved (bs_cps prof) (bs_cps guide)) (bs_knots prof, bs_knots guide) (bs_degree prof, bs_degree guide)) u v = Ok (turned_point q e).
Proof.
  intros V1 W1 I1 V2 W2 I2. destruct (C80_rational_bspline prof u V1 W1 I1) as (s1 & S1 & P1 & E1). destruct (C80_rational_bspline guide v V2 W2 I2) as (s2 & S2 & P2 & E2). do 2 eexists. split; [exact E1|]. split; [exact E2|].
  pose proof V1 as (A1 & A2 & A3 & A4). pose proof V2 as (B1 & B2 & B3 & B4).
  assert (C1 : covers (bs_knots prof) (bs_degree prof) (length (bs_cps prof)) u) by (unfold covers; destruct I1 as (? & ? & ?); auto 8). assert (C2 : covers (bs_knots guide) (bs_degree guide) (length (bs_cps guide)) v) by (unfold covers; destruct I2 as (? & ? & ?); auto 8).
  destruct (covers_from _ _ _ _ C1) as (F1 & F2). destruct (covers_from _ _ _ _ C2) as (F3 & F4).
  destruct (C18_get_point_rational (mkBSS (revolved (bs_cps prof) (bs_cps guide)) (bs_knots prof, bs_knots guide) (bs_degree prof, bs_degree guide)) (length (bs_cps prof)) (length (bs_cps guide)) u v) as (su & sv & Su & Sv & E); cbn [bss_knots bss_degree bss_cps fst snd] in *; try assumption.
  { split; cbn [bss_knots bss_degree bss_cps fst snd]; auto using revolved_wf. }
  pose proof (C06_span_unique _ _ _ _ A1 S1 Su) as <-. pose proof (C06_span_unique _ _ _ _ B1 S2 Sv) as <-. rewrite E. f_equal.
  now apply (tensor4_revolved _ _ (bs_cps prof) (bs_cps guide) _ _ (cox_sum prof s1 u) (cox_sum guide s2 v)).
Qed.

(** ** Spheres and tori *)
(** an arc as a profile: standing in the plane y = 0, at distance [far] from the axis, of radius [rad] *)
Definition upright (far rad : R) (q : vec4 R) : vec4 R := V4 (far * w4 q + rad * x4 q) 0 (rad * y4 q) (w4 q).
Definition on_torus (far rad : R) (p : vec3 R) : Prop := exists rho, x3 p ^ 2 + y3 p ^ 2 = rho ^ 2 /\ (rho - far) ^ 2 + z3 p ^ 2 = rad ^ 2.
Lemma turned_torus far rad (a q e : vec3 R) : x3 q = far + rad * x3 a -> z3 q = rad * y3 a -> x3 a ^ 2 + y3 a ^ 2 = 1 -> x3 e ^ 2 + y3 e ^ 2 = 1 -> on_torus far rad (turned_point q e).
Proof.
  intros E1 E2 A E. exists (x3 q). unfold turned_point. cbn [x3 y3 z3]. split.
  - transitivity (x3 q ^ 2 * (x3 e ^ 2 + y3 e ^ 2)); [ring|rewrite E; ring].
  - rewrite E1, E2. transitivity (rad ^ 2 * (x3 a ^ 2 + y3 a ^ 2)); [ring|rewrite A; ring].
Qed.
Lemma upright_weights far rad l : (forall q, In q l -> 0 < w4 q) -> forall q, In q (map (upright far rad) l) -> 0 < w4 q.
Proof. intros H q Hq. apply in_map_iff in Hq as (a & <- & Ha). cbn [upright w4]. now apply H. Qed.
Lemma sum_upright (w : nat -> R) l far rad f (a b : R) : (forall q, f (upright far rad q) = a * w4 q + rad * b * x4 q + rad * (1 - b) * y4 q) ->
  sumf (fun i => w i * f (nth i (map (upright far rad) l) vzero)) (length l) = a * sumf (fun i => w i * w4 (nth i l vzero)) (length l) + rad * b * sumf (fun i => w i * x4 (nth i l vzero)) (length l) + rad * (1 - b) * sumf (fun i => w i * y4 (nth i l vzero)) (length l).
Proof. intros H. rewrite <- !sumf_scal, <- !sumf_plus. apply sumf_ext. intros i Hi. rewrite (nth_map_default _ _ _ vzero) by exact Hi. rewrite H. ring. Qed.
Lemma sum_upright_w (w : nat -> R) l far rad : sumf (fun i => w i * w4 (nth i (map (upright far rad) l) vzero)) (length l) = sumf (fun i => w i * w4 (nth i l vzero)) (length l).
Proof. apply sumf_ext. intros i Hi. now rewrite (nth_map_default _ _ _ vzero) by exact Hi. Qed.
Lemma arc_weights th : - PI / 2 < th < PI / 2 -> forall q, In q (arc_points th) -> 0 < w4 q.
Proof. intros H. assert (C0 : 0 < cos th) by (apply cos_gt_0; lra). intros q [<-|[<-|[<-|[]]]]; cbn [w4]; lra. Qed.
(** rational biquadratic patches lie on the torus, and on the sphere when the distance from the axis is 0 *)
Theorem C81_torus_patch far rad th ph u v p : - PI / 2 < th < PI / 2 -> - PI / 2 < ph < PI / 2 -> 0 <= u <= 1 -> 0 <= v <= 1 ->
  bezier_surface4_get_point (revolved (map (upright far rad) (arc_points th)) (arc_points ph)) u v = Ok p -> on_torus far rad p.
Proof.
  intros Ht Hp Hu Hv E. set (prof := map (upright far rad) (arc_points th)) in *.
  destruct (C81_revolution prof (arc_points ph) u v) as (q & e & E1 & E2 & E3); [cbn; lia|cbn; lia|apply upright_weights; now apply arc_weights|now apply arc_weights|assumption..|]. rewrite E3 in E. injection E as <-.
  destruct (C05_rational_bezier (arc_points th) u ltac:(cbn; lia) (arc_weights th Ht) Hu) as (P & Ea). destruct (C05_rational_bezier prof u ltac:(cbn; lia) (upright_weights far rad _ (arc_weights th Ht)) Hu) as (P' & Eq). rewrite Eq in E1. apply Ok_inj in E1. subst q.
  destruct (C80_arc ph v e Hp Hv E2) as (Ce & _). destruct (C80_arc th u _ Ht Hu Ea) as (Ca & _).
  assert (Lw : bern_dot (length prof - 1) u w4 prof = bern_dot (length (arc_points th) - 1) u w4 (arc_points th)) by (unfold bern_dot; unfold prof; rewrite map_length; apply sum_upright_w).
  eapply turned_torus; [| |exact Ca|exact Ce]; cbn [x3 y3 z3]; rewrite Lw.
  - replace (bern_dot (length prof - 1) u x4 prof) with (far * bern_dot (length (arc_points th) - 1) u w4 (arc_points th) + rad * 1 * bern_dot (length (arc_points th) - 1) u x4 (arc_points th) + rad * (1 - 1) * bern_dot (length (arc_points th) - 1) u y4 (arc_points th)); [field; lra|].
    symmetry. unfold bern_dot, prof. rewrite map_length. apply sum_upright. intros a. cbn [upright x4]. ring.
  - replace (bern_dot (length prof - 1) u z4 prof) with (0 * bern_dot (length (arc_points th) - 1) u w4 (arc_points th) + rad * 0 * bern_dot (length (arc_points th) - 1) u x4 (arc_points th) + rad * (1 - 0) * bern_dot (length (arc_points th) - 1) u y4 (arc_points th)); [field; lra|].
    symmetry. unfold bern_dot, prof. rewrite map_length. apply sum_upright. intros a. cbn [upright z4]. ring.
Qed.
Theorem C81_sphere_patch rad th ph u v p : - PI / 2 < th < PI / 2 -> - PI / 2 < ph < PI / 2 -> 0 <= u <= 1 -> 0 <= v <= 1 ->
  bezier_surface4_get_point (revolved (map (upright 0 rad) (arc_points th)) (arc_points ph)) u v = Ok p -> x3 p ^ 2 + y3 p ^ 2 + z3 p ^ 2 = rad ^ 2.
Proof. intros Ht Hp Hu Hv E. destruct (C81_torus_patch 0 rad th ph u v p Ht Hp Hu Hv E) as (rho & E1 & E2). rewrite E1, <- E2. ring. Qed.
(** the whole torus as one rational B-spline surface *)
Definition circle_weight : R := sqrt 2 / 2.
Definition full_torus (far rad : R) : BSplineSurface R (vec4 R) :=
  mkBSS (revolved (map (upright far rad) (bs_cps (full_circle circle_weight))) (bs_cps (full_circle circle_weight))) (circle_knots, circle_knots) (2%nat, 2%nat).
Lemma full_circle_weighted : weighted (full_circle circle_weight).
Proof. assert (Q0 : 0 < sqrt 2) by (apply sqrt_lt_R0; lra). assert (0 < circle_weight) by (unfold circle_weight; lra). intros q Hq; cbn in Hq; repeat (destruct Hq as [<-|Hq]; [cbn [w4]; lra|]); destruct Hq. Qed.
Lemma full_circle_inside r u : 0 <= u <= 4 -> inside (full_circle r) u.
Proof. intros H. unfold inside; cbn; lra. Qed.
Theorem C81_full_torus far rad u v : 0 <= u <= 4 -> 0 <= v <= 4 -> exists p, bss4_get_point (full_torus far rad) u v = Ok p /\ on_torus far rad p.
Proof.
  intros Hu Hv. set (c := full_circle circle_weight). set (prof := mkBSpline (map (upright far rad) (bs_cps c)) circle_knots 2 : BSpline R (vec4 R)).
  pose proof (full_circle_valid circle_weight) as Vc. pose proof full_circle_weighted as Wc. fold c in Vc, Wc.
  assert (Vp : valid_rational prof) by exact Vc. assert (Wp : weighted prof) by exact (upright_weights _ _ (bs_cps c) Wc). assert (Ip : inside prof u) by exact (full_circle_inside circle_weight u Hu). assert (Ic : inside c v) by exact (full_circle_inside circle_weight v Hv).
  destruct (C81_nurbs_revolution prof c u v Vp Wp Ip Vc Wc Ic) as (q & e & E1 & E2 & E3). exists (turned_point q e). split; [exact E3|].
  destruct (C80_full_circle v Hv) as (e' & Ee & Ce & _). fold circle_weight in Ee. fold c in Ee. rewrite Ee in E2. injection E2 as ->.
  destruct (C80_full_circle u Hu) as (a & Ea & Ca & _). fold circle_weight in Ea. fold c in Ea.
  destruct (C80_rational_bspline prof u Vp Wp Ip) as (s & Hs & P & Eq). destruct (C80_rational_bspline c u Vc Wc (full_circle_inside _ u Hu)) as (s' & Hs' & P' & Ea'). pose proof (C06_span_unique circle_knots u s s' (proj1 Vc) Hs Hs') as <-.
  rewrite Eq in E1. apply Ok_inj in E1. subst q. rewrite Ea' in Ea. apply Ok_inj in Ea. subst a. assert (Lw : cox_sum prof s u w4 = cox_sum c s u w4) by exact (sum_upright_w _ (bs_cps c) far rad).
  eapply turned_torus; [| |exact Ca|exact Ce]; cbn [x3 y3 z3]; rewrite Lw.
  - replace (cox_sum prof s u x4) with (far * cox_sum c s u w4 + rad * 1 * cox_sum c s u x4 + rad * (1 - 1) * cox_sum c s u y4); [field; lra|].
    symmetry. apply (sum_upright _ (bs_cps c)). intros b. cbn [upright x4]. ring.
  - replace (cox_sum prof s u z4) with (0 * cox_sum c s u w4 + rad * 0 * cox_sum c s u x4 + rad * (1 - 0) * cox_sum c s u y4); [field; lra|].
    symmetry. apply (sum_upright _ (bs_cps c)). intros b. cbn [upright z4]. ring.
Qed.
(** a patch of the unit sphere, the tip of the torus of radii 3 and 1, and a cone as a surface of revolution *)
Example C81_nonvacuous : (exists p, bezier_surface4_get_point (revolved (map (upright 0 1) (arc_points (PI / 4))) (arc_points (PI / 3))) (1 / 3) (1 / 2) = Ok p) /\
  bss4_get_point (full_torus 3 1) 0 0 = Ok (V3 4 0 0) /\ weighted_net (revolved [V4 0 0 0 1; V4 1 0 1 1] (arc_points (PI / 4))).
Proof.
  pose proof PI_RGT_0. split; [|split].
  - destruct (C81_revolution (map (upright 0 1) (arc_points (PI / 4))) (arc_points (PI / 3)) (1 / 3) (1 / 2)) as (q & e & _ & _ & E); [cbn; lia|cbn; lia|apply upright_weights; apply arc_weights; lra|apply arc_weights; lra|lra|lra|eexists; exact E].
  - set (c := full_circle circle_weight). set (prof := mkBSpline (map (upright 3 1) (bs_cps c)) circle_knots 2 : BSpline R (vec4 R)).
    pose proof (full_circle_valid circle_weight) as Vc. pose proof full_circle_weighted as Wc. fold c in Vc, Wc. assert (Vp : valid_rational prof) by exact Vc. assert (Wp : weighted prof) by exact (upright_weights _ _ (bs_cps c) Wc).
    assert (Hu : 0 <= 0 <= 4) by lra. assert (Ip : inside prof 0) by exact (full_circle_inside circle_weight 0 Hu). assert (Ic : inside c 0) by exact (full_circle_inside circle_weight 0 Hu).
    destruct (C81_nurbs_revolution prof c 0 0 Vp Wp Ip Vc Wc Ic) as (q & e & E1 & E2 & E3). etransitivity; [exact E3|]. f_equal.
    destruct (C80_rational_bspline c 0 Vc Wc Ic) as (s & Hs & P & E). destruct (C80_rational_bspline prof 0 Vp Wp Ip) as (s' & Hs' & P' & E'). pose proof (C06_span_unique circle_knots 0 s s' (proj1 Vc) Hs Hs') as <-. rewrite E in E2. rewrite E' in E1. apply Ok_inj in E1. apply Ok_inj in E2. subst q e. clear E E' E3.
    assert (G : forall f, cox_sum c s 0 f = f (V4 1 0 0 1)).
    { intros f. destruct (full_circle_sum circle_weight s 0 f (proj2 Hu) Hs) as (j & Hj & Es & Bj & Ef). fold c in Ef. rewrite Ef. assert (j = 0)%nat as -> by (destruct j; [reflexivity|]; pose proof (S_INR j); pose proof (pos_INR j); lra). cbn [INR Nat.mul Nat.add bs_cps c full_circle nth]. ring. }
    assert (Gp : forall f a b, (forall q, f (upright 3 1 q) = a * w4 q + 1 * b * x4 q + 1 * (1 - b) * y4 q) -> cox_sum prof s 0 f = a + b).
    { intros f a b Hf. etransitivity; [apply (sum_upright _ (bs_cps c) 3 1 f a b Hf)|]. pose proof (G w4) as Gw. pose proof (G x4) as Gx. pose proof (G y4) as Gy. unfold cox_sum in Gw, Gx, Gy. cbn [c bs_knots bs_degree full_circle] in Gw, Gx, Gy |- *. cbn [bs_knots bs_degree prof]. rewrite Gw, Gx, Gy. cbn [w4 x4 y4]. ring. }
    assert (Lw : cox_sum prof s 0 w4 = 1) by (etransitivity; [exact (sum_upright_w _ (bs_cps c) 3 1)|apply (G w4)]).
    rewrite Lw, !G, (Gp x4 3 1), (Gp z4 0 0) by (intros; cbn [upright x4 z4]; ring). unfold turned_point. cbn [x3 y3 z3 x4 y4 w4]. f_equal; field.
  - apply revolved_weighted; [intros q [<-|[<-|[]]]; cbn [w4]; lra|apply arc_weights; lra].
Qed.
