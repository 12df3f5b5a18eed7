(** Property C80: rational B-spline curves; rational arcs are circle arcs. *)
From Coq Require Import Reals Lra Psatz Lia Arith ZArith List SpecFloat.
From Verif Require Import Prelude Num M_vec M_utils M_curve L_base L_vec L_bezier L_cdb L_insert L_knot L_bspline L_split Props_knot Props_bspline Props_split Props_bezier Props_utils Props_sampling Props_variation.
Import ListNotations.
Open Scope R_scope.

(** ** Specification *)
(** the knots and counts fit, as for polynomial curves *)
Definition valid_rational (c : BSpline R (vec4 R)) : Prop := sorted (bs_knots c) /\ separated (bs_knots c) /\ length (bs_knots c) = (length (bs_cps c) + bs_degree c + 1)%nat /\ (1 <= length (bs_cps c))%nat.
Definition inside (c : BSpline R (vec4 R)) (u : R) : Prop := nth (length (bs_cps c)) (bs_knots c) 0 = last_knot (bs_knots c) /\ nth (bs_degree c) (bs_knots c) 0 < last_knot (bs_knots c) /\ nth (bs_degree c) (bs_knots c) 0 <= u <= last_knot (bs_knots c).
(** the sum of the values [f] of the control points with the Cox-de Boor functions of the span [s] *)
Definition cox_sum (c : BSpline R (vec4 R)) (s : nat) (u : R) (f : vec4 R -> R) : R := sumf (fun i => cdb (fun i => nth i (bs_knots c) 0) s (bs_degree c) i u * f (nth i (bs_cps c) vzero)) (length (bs_cps c)).
Definition weighted (c : BSpline R (vec4 R)) : Prop := forall q, In q (bs_cps c) -> 0 < w4 q.

Lemma rational_span c u : valid_rational c -> inside c u -> exists s, is_span (bs_knots c) u s /\ (bs_degree c <= s < length (bs_cps c))%nat /\ nth s (bs_knots c) 0 <= u <= nth (s + 1) (bs_knots c) 0.
Proof.
  intros (Hso & Hsep & HL & Hne) (He & Hl & Hu). set (ks := bs_knots c) in *. set (p := bs_degree c) in *. set (n := length (bs_cps c)) in *.
  assert (F0 : nth 0 ks 0 <= nth p ks 0) by (apply Hso; lia). destruct (span_exists ks u Hso ltac:(lia)) as [s Hs]; [fold (last_knot ks); lra|lra|]. exists s. split; [exact Hs|].
  destruct Hs as (S1 & S2 & S3 & S4). fold (last_knot ks) in S4. pose proof (Hso (s + 1)%nat (length ks - 1)%nat ltac:(lia)) as Q'. fold (last_knot ks) in Q'. split; [split|lra].
  - destruct (le_lt_dec p s) as [|N]; [assumption|exfalso]. pose proof (Hso (s + 1)%nat p ltac:(lia)). lra.
  - destruct (le_lt_dec n s) as [N|]; [exfalso|assumption]. pose proof (Hso n s ltac:(lia)) as Q. rewrite He in Q. lra.
Qed.
Lemma cox_weights c u s : valid_rational c -> is_span (bs_knots c) u s -> (bs_degree c <= s < length (bs_cps c))%nat -> nth s (bs_knots c) 0 <= u <= nth (s + 1) (bs_knots c) 0 ->
  (forall i, (i < length (bs_cps c))%nat -> 0 <= cdb (fun i => nth i (bs_knots c) 0) s (bs_degree c) i u) /\ sumf (fun i => cdb (fun i => nth i (bs_knots c) 0) s (bs_degree c) i u) (length (bs_cps c)) = 1.
Proof.
  intros (Hso & Hsep & HL & Hne) (S1 & S2 & _) Hs Hu. set (ks := bs_knots c) in *. set (p := bs_degree c) in *. set (n := length (bs_cps c)) in *.
  assert (E : forall i, (i < n)%nat -> cdb (fun i => nth i ks 0) s p i u = cdb (onward ks) s p i u). { intros i Hi. apply cdb_ext. intros k Hk. symmetry. apply onward_in. lia. }
  split.
  - intros i Hi. rewrite E by exact Hi. apply cdb_nonneg; [now apply onward_mono|rewrite !onward_in by lia; exact Hu].
  - rewrite (sumf_ext _ _ n E). apply cdb_sum; [now apply onward_mono|rewrite !onward_in by lia; exact S2|lia|lia].
Qed.
Lemma least_weight (l : list (vec4 R)) : (1 <= length l)%nat -> (forall q, In q l -> 0 < w4 q) -> exists m, 0 < m /\ forall q, In q l -> m <= w4 q.
Proof.
  intros HL Hw. induction l as [|q l IH]; [cbn in HL; lia|]. destruct l as [|q' l].
  - exists (w4 q). split; [apply Hw; now left|]. intros ? [<-|[]]. lra.
  - destruct IH as [m [Hm Hl]]; [cbn; lia|intros; apply Hw; now right|].
    exists (Rmin m (w4 q)). split; [apply Rmin_glb_lt; [assumption|apply Hw; now left]|]. intros ? [<-|Hin]; [apply Rmin_r|]. eapply Rle_trans; [apply Rmin_l|]. now apply Hl.
Qed.
Lemma cox_sum_eval c u s f basis : valid_rational c -> is_span (bs_knots c) u s -> bspline_basis (bs_knots c) (bs_degree c) u = Ok basis -> linear f -> f (weighted_sum basis (bs_cps c)) = cox_sum c s u f.
Proof.
  intros (Hso & Hsep & HL & Hne) Hs Eb Hf. rewrite (basis_cdb _ _ _ s) in Eb by (auto; lia). apply Ok_inj in Eb. subst basis.
  rewrite weighted_sum_coord by assumption. rewrite map_length, seq_length. replace (length (bs_knots c) - 1 - bs_degree c)%nat with (length (bs_cps c)) by lia. rewrite Nat.min_id. unfold cox_sum.
  apply sumf_ext. intros i Hi. rewrite (nth_map_default _ _ _ 0%nat) by (rewrite seq_length; lia). now rewrite seq_nth by lia.
Qed.
(** evaluation is the quotient of two polynomial curves, and the denominator is positive *)
Theorem C80_rational_bspline (c : BSpline R (vec4 R)) u : valid_rational c -> weighted c -> inside c u ->
  exists s, is_span (bs_knots c) u s /\ 0 < cox_sum c s u w4 /\ bspline4_get_point c u = Ok (V3 (cox_sum c s u x4 / cox_sum c s u w4) (cox_sum c s u y4 / cox_sum c s u w4) (cox_sum c s u z4 / cox_sum c s u w4)).
Proof.
  intros Hv Hw Hu. destruct (rational_span c u Hv Hu) as (s & Hs & Bs & Bu). destruct (cox_weights c u s Hv Hs Bs Bu) as (N & S1). pose proof Hv as (Hso & Hsep & HL & Hne). exists s. split; [exact Hs|].
  assert (Hpos : 0 < cox_sum c s u w4).
  { destruct (least_weight (bs_cps c) Hne Hw) as (m & Hm & Hl). apply Rlt_le_trans with (sumf (fun i => cdb (fun i => nth i (bs_knots c) 0) s (bs_degree c) i u * m) (length (bs_cps c))).
    - rewrite sumf_scal_r, S1. lra.
    - apply sumf_le. intros i Hi. apply Rmult_le_compat_l; [now apply N|]. apply Hl. now apply nth_In. }
  split; [exact Hpos|]. unfold bspline4_get_point. destruct (bspline_basis (bs_knots c) (bs_degree c) u) as [basis| |] eqn:Eb; [|exfalso; rewrite (basis_cdb _ _ _ s) in Eb by (auto; lia); discriminate Eb ..]. cbn [obind]. f_equal. unfold project_w.
  apply vec3_ext; vsimp; rewrite !(cox_sum_eval c u s _ basis Hv Hs Eb) by auto with linear; field; lra.
Qed.
(** the curve keeps to the half spaces of its projected control points *)
Theorem C80_rational_hull (c : BSpline R (vec4 R)) u p : valid_rational c -> weighted c -> inside c u -> bspline4_get_point c u = Ok p ->
  forall normal bound, (forall q, In q (bs_cps c) -> dot3 normal (place q) <= bound) -> dot3 normal p <= bound.
Proof.
  intros Hv Hw Hu E normal bound Hb. destruct (rational_span c u Hv Hu) as (s' & Hs' & Bs & Bu). destruct (C80_rational_bspline c u Hv Hw Hu) as (s & Hs & Hpos & E'). rewrite (C06_span_unique _ _ _ _ (proj1 Hv) Hs' Hs) in Bs, Bu.
  destruct (cox_weights c u s Hv Hs Bs Bu) as (N & _). rewrite E' in E. injection E as <-. set (W := cox_sum c s u w4) in *.
  assert (K : x3 normal * cox_sum c s u x4 + y3 normal * cox_sum c s u y4 + z3 normal * cox_sum c s u z4 <= bound * W).
  { unfold W, cox_sum. rewrite <- !sumf_scal, <- !sumf_plus. apply sumf_le. intros i Hi. assert (Hin : In (nth i (bs_cps c) vzero) (bs_cps c)) by now apply nth_In.
    specialize (Hw _ Hin). specialize (Hb _ Hin). unfold place, dot3 in Hb. cbn [x3 y3 z3] in Hb. revert Hb. rnum. intros Hb. specialize (N i Hi). set (q := nth i (bs_cps c) vzero) in *. set (w := cdb _ _ _ _ _) in *. clearbody w q.
    assert (K1 : x3 normal * x4 q + y3 normal * y4 q + z3 normal * z4 q <= bound * w4 q).
    { replace (x3 normal * x4 q + y3 normal * y4 q + z3 normal * z4 q) with ((x3 normal * (x4 q / w4 q) + y3 normal * (y4 q / w4 q) + z3 normal * (z4 q / w4 q)) * w4 q) by (field; lra). apply Rmult_le_compat_r; lra. }
    replace (x3 normal * (w * x4 q) + y3 normal * (w * y4 q) + z3 normal * (w * z4 q)) with (w * (x3 normal * x4 q + y3 normal * y4 q + z3 normal * z4 q)) by ring. replace (bound * (w * w4 q)) with (w * (bound * w4 q)) by ring. now apply Rmult_le_compat_l. }
  unfold dot3. cbn [x3 y3 z3]. rnum. apply Rmult_le_reg_r with W; [assumption|].
  match goal with |- ?X * W <= _ => replace (X * W) with (x3 normal * cox_sum c s u x4 + y3 normal * cox_sum c s u y4 + z3 normal * cox_sum c s u z4) by (field; lra) end. lra.
Qed.
(** with all weights one it is the polynomial curve; a common factor of the weighted points changes nothing *)
Theorem C80_unit_weights (cps : list (vec3 R)) ks degree u : let c := mkBSpline (map (fun q => V4 (x3 q) (y3 q) (z3 q) 1) cps) ks degree in valid_rational c -> inside c u ->
  bspline4_get_point c u = bspline3_get_point (mkBSpline cps ks degree) u.
Proof.
  intros c Hv Hu. assert (Hw : weighted c) by (intros q Hq; apply in_map_iff in Hq as (q' & <- & _); cbn [w4]; lra).
  destruct (rational_span c u Hv Hu) as (s' & Hs' & Bs & Bu). destruct (C80_rational_bspline c u Hv Hw Hu) as (s & Hs & Hpos & E). rewrite (C06_span_unique _ _ _ _ (proj1 Hv) Hs' Hs) in Bs, Bu.
  destruct (cox_weights c u s Hv Hs Bs Bu) as (N & S1). rewrite E.
  assert (V3' : valid_bspline (mkBSpline cps ks degree)). { destruct Hv as (A1 & A2 & A3 & A4). cbn [c bs_knots bs_cps bs_degree] in A1, A2, A3, A4. rewrite map_length in A3, A4. now split. }
  rewrite (bspline_eval (mkBSpline cps ks degree) u s V3' Hs). cbn [bs_knots bs_degree bs_cps c] in *. rewrite map_length in S1.
  assert (G : forall (f : vec4 R -> R) (g : vec3 R -> R), (forall q, f (V4 (x3 q) (y3 q) (z3 q) 1) = g q) -> cox_sum c s u f = sumf (fun i => cdb (fun i => nth i ks 0) s degree i u * g (nth i cps vzero)) (length cps)).
  { intros f g H. unfold cox_sum. cbn [c bs_knots bs_degree bs_cps]. rewrite map_length. apply sumf_ext. intros i Hi. rewrite (nth_map_default _ _ _ vzero) by exact Hi. now rewrite H. }
  rewrite (G w4 (fun _ => 1)), (G x4 x3), (G y4 y3), (G z4 z3) by reflexivity.
  replace (sumf (fun i => cdb (fun i => nth i ks 0) s degree i u * 1) (length cps)) with 1 by (symmetry; etransitivity; [|exact S1]; apply sumf_ext; intros; ring). unfold comb3. f_equal. f_equal; field.
Qed.
Theorem C80_scale_invariant (c : BSpline R (vec4 R)) u k : valid_rational c -> weighted c -> inside c u -> 0 < k ->
  bspline4_get_point (mkBSpline (map (vmull k) (bs_cps c)) (bs_knots c) (bs_degree c)) u = bspline4_get_point c u.
Proof.
  intros Hv Hw Hu Hk. set (c' := mkBSpline _ _ _).
  assert (Hv' : valid_rational c') by (unfold valid_rational, c'; cbn [bs_knots bs_cps bs_degree]; rewrite map_length; exact Hv). assert (Hu' : inside c' u) by (unfold inside, c'; cbn [bs_knots bs_cps bs_degree]; rewrite map_length; exact Hu).
  assert (Hw' : weighted c'). { intros q Hq. apply in_map_iff in Hq as (q' & <- & Hq'). specialize (Hw _ Hq'). vsimp. rnum. now apply Rmult_lt_0_compat. }
  destruct (C80_rational_bspline c u Hv Hw Hu) as (s & Hs & Hpos & E). destruct (C80_rational_bspline c' u Hv' Hw' Hu') as (s' & Hs' & Hpos' & E'). rewrite E, E'.
  pose proof (C06_span_unique (bs_knots c) u s s' (proj1 Hv) Hs Hs') as <-.
  assert (G : forall f : vec4 R -> R, linear f -> cox_sum c' s u f = k * cox_sum c s u f).
  { intros f Hf. unfold cox_sum, c'. cbn [bs_knots bs_degree bs_cps]. rewrite map_length, <- sumf_scal. apply sumf_ext. intros i Hi. rewrite (nth_map_default _ _ _ vzero) by exact Hi. rewrite (lin_mull Hf). ring. }
  rewrite !G in * by auto with linear. f_equal. f_equal; field; split; lra.
Qed.
(** crossings of planes, as in C79 *)
Theorem C80_rational_crossings (c : BSpline R (vec4 R)) : valid_rational c -> weighted c -> inside c (last_knot (bs_knots c)) ->
  crossings_bounded (bspline4_get_point c) (map place (bs_cps c)) (nth (bs_degree c) (bs_knots c) 0) (last_knot (bs_knots c)).
Proof.
  intros Hv Hw (He & Hl & _) a d s ts F Z. set (h := fun q : vec4 R => x3 a * x4 q + y3 a * y4 q + z3 a * z4 q - d * w4 q).
  set (c1 := mkBSpline (map (fun q => V3 (h q) 0 0) (bs_cps c)) (bs_knots c) (bs_degree c) : BSpline R (vec3 R)).
  assert (V1 : valid_bspline c1). { destruct Hv as (A1 & A2 & A3 & A4). split; unfold c1; cbn [bs_knots bs_cps bs_degree]; rewrite ?map_length; assumption. }
  assert (He1 : nth (length (bs_cps c1)) (bs_knots c1) 0 = last_knot (bs_knots c1)) by (unfold c1; cbn [bs_knots bs_cps]; rewrite map_length; exact He).
  destruct (C79_bspline_crossings c1 V1 He1 Hl (V3 1 0 0) 0 s ts F) as (is & E & Fi & Zi).
  - apply (zigzag_ext Rlt (side (bspline4_get_point c) a d) _ (fun t => nth (bs_degree c) (bs_knots c) 0 <= t <= last_knot (bs_knots c))); [|exact F|exact Z]. intros t w Ht P.
    destruct (C80_rational_bspline c t Hv Hw (conj He (conj Hl Ht))) as (k & Hk & W & Ep). unfold side in P. rewrite Ep in P. unfold side. rewrite (bspline_eval c1 t k V1 Hk).
    replace (dot3 (V3 1 0 0) (comb3 (fun i => cdb (fun i => nth i (bs_knots c1) 0) k (bs_degree c1) i t) (bs_cps c1)) - 0) with (cox_sum c k t w4 * (dot3 a (V3 (cox_sum c k t x4 / cox_sum c k t w4) (cox_sum c k t y4 / cox_sum c k t w4) (cox_sum c k t z4 / cox_sum c k t w4)) - d)).
    + match goal with |- 0 < w * (?W * ?X) => replace (w * (W * X)) with (W * (w * X)) by ring end. now apply Rmult_lt_0_compat.
    + unfold dot3, comb3. cbn [x3 y3 z3]. rnum. transitivity (x3 a * cox_sum c k t x4 + y3 a * cox_sum c k t y4 + z3 a * cox_sum c k t z4 - d * cox_sum c k t w4); [field; lra|].
      transitivity (sumf (fun i => cdb (fun i => nth i (bs_knots c) 0) k (bs_degree c) i t * h (nth i (bs_cps c) vzero)) (length (bs_cps c))).
      * unfold cox_sum, h. rewrite <- !sumf_scal, <- !sumf_plus, <- sumf_minus. apply sumf_ext. intros i _. ring.
      * unfold c1. cbn [bs_knots bs_cps bs_degree]. rewrite map_length.
        match goal with |- ?X = 1 * ?A + 0 * ?B + 0 * ?D - 0 => replace (1 * A + 0 * B + 0 * D - 0) with A by ring end. apply sumf_ext. intros i Hi. rewrite (nth_map_default _ _ _ vzero) by exact Hi. reflexivity.
  - unfold c1 in Fi. cbn [bs_cps] in Fi. rewrite map_length in *. exists is. split; [exact E|]. split; [exact Fi|]. eapply (zigzag_ext lt _ _ (fun i => (i < length (bs_cps c))%nat)); [|exact Fi|exact Zi]. intros i w Hi P. cbn beta in P.
    unfold c1 in P. cbn [bs_cps] in P. rewrite (nth_map_default _ _ _ vzero) in P by exact Hi. rewrite (nth_map_default _ _ _ vzero) by exact Hi. pose proof (Hw _ (nth_In (bs_cps c) vzero Hi)) as W. set (q := nth i (bs_cps c) vzero) in *.
    apply Rmult_lt_reg_l with (w4 q); [exact W|]. rewrite Rmult_0_r. replace (w4 q * (w * (dot3 a (place q) - d))) with (w * h q); [|unfold h, place, dot3; cbn [x3 y3 z3]; rnum; field; lra].
    revert P. unfold dot3. cbn [x3 y3 z3]. rnum. intros P. match type of P with 0 < w * ?X => replace X with (h q) in P by ring end. exact P.
Qed.

(** ** Arcs *)
(** the three weighted points of an arc of the unit circle from angle [- th] to [th] *)
Definition arc_points (th : R) : list (vec4 R) := [V4 (cos th) (- sin th) 0 1; V4 1 0 0 (cos th); V4 (cos th) (sin th) 0 1].
Theorem C80_arc th t p : - PI / 2 < th < PI / 2 -> 0 <= t <= 1 -> bezier4_get_point (arc_points th) t = Ok p -> x3 p ^ 2 + y3 p ^ 2 = 1 /\ z3 p = 0 /\ cos th <= x3 p.
Proof.
  intros Hth Ht E. assert (C0 : 0 < cos th) by (apply cos_gt_0; lra). pose proof (COS_bound th) as CB.
  assert (Hw : forall q, In q (arc_points th) -> 0 < w4 q) by (intros q [<-|[<-|[<-|[]]]]; cbn [w4]; lra).
  destruct (C05_rational_bezier (arc_points th) t ltac:(cbn; lia) Hw Ht) as [W E']. rewrite E' in E. injection E as <-. cbn [x3 y3 z3].
  assert (G : forall f : vec4 R -> R, bern_dot (length (arc_points th) - 1) t f (arc_points th) = (1 - t) ^ 2 * f (V4 (cos th) (- sin th) 0 1) + 2 * t * (1 - t) * f (V4 1 0 0 (cos th)) + t ^ 2 * f (V4 (cos th) (sin th) 0 1)).
  { intros f. unfold bern_dot, arc_points. cbn [length Nat.sub]. rewrite !sumf_S, sumf_0. unfold Bern, C. cbn [Nat.leb nth Nat.sub pow fact Nat.mul Nat.add INR]. field. }
  rewrite !G in *. cbn [x4 y4 z4 w4] in *. pose proof (sin2_cos2 th) as T. unfold Rsqr in T. set (k := cos th) in *. set (m := sin th) in *.
  set (D := (1 - t) ^ 2 * 1 + 2 * t * (1 - t) * k + t ^ 2 * 1) in *. split; [|split].
  - match goal with |- (?X / D) ^ 2 + (?Y / D) ^ 2 = 1 => assert (Q : X ^ 2 + Y ^ 2 = D ^ 2) end.
    { assert (M : m * m = 1 - k * k) by lra. unfold D. ring [M]. }
    match goal with |- (?X / D) ^ 2 + (?Y / D) ^ 2 = 1 => replace ((X / D) ^ 2 + (Y / D) ^ 2) with ((X ^ 2 + Y ^ 2) / D ^ 2) by (field; lra) end. rewrite Q. field. lra.
  - field. lra.
  - apply Rmult_le_reg_r with D; [exact W|]. match goal with |- _ <= ?X / D * D => replace (X / D * D) with X by (field; lra) end. unfold D.
    assert (0 <= 2 * t * (1 - t) * (1 - k * k)); [|nra]. apply Rmult_le_pos; [nra|]. nra.
Qed.
(** the full circle as one rational curve of degree 2 with nine control points; [r] is the weight of the corners *)
Definition circle_knots : list R := [0; 0; 0; 1; 1; 2; 2; 3; 3; 4; 4; 4].
Definition full_circle (r : R) : BSpline R (vec4 R) :=
  mkBSpline [V4 1 0 0 1; V4 r r 0 r; V4 0 1 0 1; V4 (- r) r 0 r; V4 (- 1) 0 0 1; V4 (- r) (- r) 0 r; V4 0 (- 1) 0 1; V4 r (- r) 0 r; V4 1 0 0 1] circle_knots 2.
Lemma ratio_0 a b : b = 0 -> ratio a b = 0.
Proof. intros ->. unfold ratio. destruct (Req_EM_T 0 0); [reflexivity|lra]. Qed.
Lemma ratio_1 a b : b = 1 -> ratio a b = a.
Proof. intros ->. unfold ratio. destruct (Req_EM_T 1 0); [lra|field]. Qed.
Lemma full_circle_valid r : valid_rational (full_circle r).
Proof.
  unfold full_circle. split; [|split; [|split]]; cbn [bs_knots bs_cps bs_degree].
  - apply sorted_by_pairs. intros i Hi. cbn [circle_knots length] in Hi. do 11 (destruct i as [|i]; [cbn; lra|]). lia.
  - apply separated_ints. intros a Ha. cbn in Ha. repeat (destruct Ha as [<-|Ha]; [eexists; split; [reflexivity|lia]|]). destruct Ha.
  - reflexivity.
  - cbn; lia.
Qed.
Ltac ratios := repeat match goal with |- context [ratio ?a ?b] => (rewrite (ratio_0 a b) by lra) || (rewrite (ratio_1 a b) by lra) end.
Lemma full_circle_sum r s u f : u <= 4 -> is_span circle_knots u s -> exists j, (j < 4)%nat /\ s = (2 * j + 2)%nat /\ INR j <= u <= INR j + 1 /\
  cox_sum (full_circle r) s u f = (1 - (u - INR j)) ^ 2 * f (nth (2 * j) (bs_cps (full_circle r)) vzero) + 2 * (u - INR j) * (1 - (u - INR j)) * f (nth (2 * j + 1) (bs_cps (full_circle r)) vzero) + (u - INR j) ^ 2 * f (nth (2 * j + 2) (bs_cps (full_circle r)) vzero).
Proof.
  intros H4 (S1 & S2 & S3 & S4). cbn [circle_knots length] in S1. destruct s as [|[|[|[|[|[|[|[|[|[|[|s]]]]]]]]]]]; try lia; try (exfalso; cbn in S2; lra); [exists 0%nat|exists 1%nat|exists 2%nat|exists 3%nat];
    (split; [lia|]); (split; [reflexivity|]); (split; [cbn in S3, S4 |- *; lra|]); unfold cox_sum, full_circle; cbn [bs_knots bs_degree bs_cps length Nat.mul Nat.add nth]; rewrite !sumf_S, sumf_0; cbn [circle_knots cdb Nat.eqb Nat.add nth INR]; ratios; ring.
Qed.
Theorem C80_full_circle u : 0 <= u <= 4 -> exists p, bspline4_get_point (full_circle (sqrt 2 / 2)) u = Ok p /\ x3 p ^ 2 + y3 p ^ 2 = 1 /\ z3 p = 0.
Proof.
  intros Hu. assert (Q2 : sqrt 2 * sqrt 2 = 2) by (apply sqrt_sqrt; lra). assert (Q0 : 0 < sqrt 2) by (apply sqrt_lt_R0; lra). set (r := sqrt 2 / 2). assert (R2 : r * r = 1 / 2) by (unfold r; nra). assert (R0 : 0 < r) by (unfold r; lra). clearbody r.
  assert (Hw : weighted (full_circle r)) by (intros q Hq; cbn in Hq; repeat (destruct Hq as [<-|Hq]; [cbn [w4]; lra|]); destruct Hq).
  destruct (C80_rational_bspline (full_circle r) u (full_circle_valid r) Hw) as (s & Hs & Hpos & E); [unfold inside; cbn; lra|]. eexists. split; [exact E|]. cbn [x3 y3 z3].
  destruct (full_circle_sum r s u x4 (proj2 Hu) Hs) as (j & Hj & Es & Bu & Ex).
  assert (G : forall f, cox_sum (full_circle r) s u f = (1 - (u - INR j)) ^ 2 * f (nth (2 * j) (bs_cps (full_circle r)) vzero) + 2 * (u - INR j) * (1 - (u - INR j)) * f (nth (2 * j + 1) (bs_cps (full_circle r)) vzero) + (u - INR j) ^ 2 * f (nth (2 * j + 2) (bs_cps (full_circle r)) vzero)).
  { intros f. destruct (full_circle_sum r s u f (proj2 Hu) Hs) as (j' & _ & Es' & _ & Ef). replace j' with j in Ef by lia. exact Ef. }
  set (W := cox_sum (full_circle r) s u w4) in *. assert (EW := G w4). fold W in EW. rewrite !G. set (v := u - INR j) in *. clearbody W v. clear Ex G Hs E Hw.
  assert (K : forall X Y, X ^ 2 + Y ^ 2 = W ^ 2 -> (X / W) ^ 2 + (Y / W) ^ 2 = 1) by (intros X Y Q; replace ((X / W) ^ 2 + (Y / W) ^ 2) with ((X ^ 2 + Y ^ 2) / W ^ 2) by (field; lra); rewrite Q; field; lra).
  split.
  - apply K. rewrite EW. apply Rminus_diag_uniq. transitivity (2 * v ^ 2 * (1 - v) ^ 2 * (2 * (r * r) - 1)); [|rewrite R2; field].
    do 4 (destruct j as [|j]; [cbn [Nat.mul Nat.add bs_cps full_circle nth x4 y4 z4 w4]; ring|]). lia.
  - do 4 (destruct j as [|j]; [cbn [Nat.mul Nat.add bs_cps full_circle nth x4 y4 z4 w4]; field; lra|]). lia.
Qed.
(** a curve with weights 1, 2, 1, 3 *)
Definition r_ex : BSpline R (vec4 R) := mkBSpline [V4 0 0 0 1; V4 2 4 0 2; V4 3 2 1 1; V4 12 0 0 3] [0; 0; 0; 1; 2; 2; 2] 2.
Example C80_nonvacuous : valid_rational r_ex /\ weighted r_ex /\ inside r_ex 1 /\ crossings_bounded (bspline4_get_point r_ex) (map place (bs_cps r_ex)) 0 2 /\
  exists p, bezier4_get_point (arc_points (PI / 4)) (1 / 3) = Ok p.
Proof.
  assert (V : valid_rational r_ex) by (destruct c_ex_valid as [A1 A2 A3 A4]; exact (conj A1 (conj A2 (conj eq_refl (le_S _ _ (le_S _ _ (le_S _ _ (le_n 1)))))))).
  assert (W : weighted r_ex) by (intros q [<-|[<-|[<-|[<-|[]]]]]; cbn [w4]; lra).
  split; [exact V|]. split; [exact W|]. split; [unfold inside; cbn; lra|]. split.
  - apply (C80_rational_crossings r_ex V W). unfold inside; cbn; lra.
  - eexists. apply C05_rational_bezier; [cbn; lia| |lra]. pose proof PI_RGT_0. intros q [<-|[<-|[<-|[]]]]; cbn [w4]; try lra. apply cos_gt_0; lra.
Qed.
