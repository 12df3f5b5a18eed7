(** Property C83: curves are no longer than their control polygons. *)
From Coq Require Import Reals Lra Psatz Lia Arith ZArith List SpecFloat.
From Verif Require Import Prelude Num M_vec M_utils M_curve L_base L_vec L_geom L_bezier L_cdb L_insert L_knot L_bspline L_split Props_knot Props_bspline Props_split Props_bezier Props_utils Props_surface Props_sampling Props_variation Props_rational.
Import ListNotations.
Open Scope R_scope.

(** ** Specification *)
(** the length of the broken line through the points *)
Fixpoint path_length (ps : list (vec3 R)) : R := match ps with p :: l => match l with q :: _ => dist3 p q | [] => 0 end + path_length l | [] => 0 end.
(** the points at increasing (not necessarily distinct) parameters of the range make a broken line that is no longer than the control polygon *)
Definition not_longer (gp : R -> outcome (vec3 R)) (cps : list (vec3 R)) (lo hi : R) : Prop :=
  forall ts ps, Forall (fun t => lo <= t <= hi) ts -> consecutive Rle ts -> Forall2 (fun t p => gp t = Ok p) ts ps -> path_length ps <= path_length cps.

(** ** Sums *)
Lemma dist3_length p q : dist3 p q = length3 (vsub p q).
Proof. rewrite <- (Props_polyline.dist3_distance p q). reflexivity. Qed.
Definition vec_sum (k : nat -> R) (v : nat -> vec3 R) (n : nat) : vec3 R := V3 (sumf (fun i => k i * x3 (v i)) n) (sumf (fun i => k i * y3 (v i)) n) (sumf (fun i => k i * z3 (v i)) n).
Lemma length_sum k v n : (forall i, (i < n)%nat -> 0 <= k i) -> length3 (vec_sum k v n) <= sumf (fun i => k i * length3 (v i)) n.
Proof.
  intros H. induction n as [|n IH].
  - unfold vec_sum. rewrite !sumf_0. change (V3 0 0 0) with (vzero : vec3 R). rewrite length3_of_vzero. lra.
  - rewrite sumf_S. replace (vec_sum k v (S n)) with (vadd (vec_sum k v n) (vmulr (v n) (k n))).
    + eapply Rle_trans; [apply triangle3|]. rewrite length3_scale_pos by (apply H; lia). specialize (IH ltac:(intros; apply H; lia)). lra.
    + unfold vec_sum. apply vec3_ext; vsimp; rewrite sumf_S; rnum; ring.
Qed.
(** summation by parts *)
Lemma step_sum (x : nat -> R) n j : (j < n)%nat -> x j = x 0%nat + sumf (fun i => (if (i <? j)%nat then 1 else 0) * (x (i + 1)%nat - x i)) (n - 1).
Proof.
  intros Hj. assert (G : forall m, (j <= m)%nat -> sumf (fun i => (if (i <? j)%nat then 1 else 0) * (x (i + 1)%nat - x i)) m = sumf (fun i => x (i + 1)%nat - x i) j).
  { intros m Hm. replace m with (j + (m - j))%nat by lia. rewrite sumf_app. rewrite (sumf_zero _ (m - j)) by (intros i Hi; destruct (Nat.ltb_spec (j + i) j); [lia|ring]).
    rewrite Rplus_0_r. apply sumf_ext. intros i Hi. destruct (Nat.ltb_spec i j); [ring|lia]. }
  rewrite G by lia. clear G Hj. induction j as [|j IH]; [rewrite sumf_0; ring|]. rewrite sumf_S. rewrite Nat.add_1_r. lra.
Qed.
Lemma by_parts (b x : nat -> R) n : sumf b n = 0 -> sumf (fun j => b j * x j) n = sumf (fun i => sumf (fun j => b j * (if (i <? j)%nat then 1 else 0)) n * (x (i + 1)%nat - x i)) (n - 1).
Proof.
  intros H. transitivity (sumf (fun j => b j * x 0%nat + sumf (fun i => b j * (if (i <? j)%nat then 1 else 0) * (x (i + 1)%nat - x i)) (n - 1)) n).
  - apply sumf_ext. intros j Hj. rewrite (step_sum x n j Hj) at 1. rewrite Rmult_plus_distr_l, <- sumf_scal. f_equal. apply sumf_ext. intros i _. ring.
  - rewrite sumf_plus, sumf_scal_r, H, Rmult_0_l, Rplus_0_l, sumf_swap. apply sumf_ext. intros i _. now rewrite <- sumf_scal_r.
Qed.
Lemma path_length_sum (ps : list (vec3 R)) : path_length ps = sumf (fun i => dist3 (nth i ps vzero) (nth (i + 1) ps vzero)) (length ps - 1).
Proof.
  induction ps as [|p l IH]; [reflexivity|]. destruct l as [|q l]; [cbn; lra|]. cbn [path_length] in *. rewrite IH. cbn [length]. replace (S (S (length l)) - 1)%nat with (S (S (length l) - 1)) by lia. rewrite sumf_S_first. reflexivity.
Qed.

Lemma F2_cons {A B} (Q : A -> B -> Prop) x l ps : Forall2 Q (x :: l) ps -> exists p l', ps = p :: l' /\ Q x p /\ Forall2 Q l l'.
Proof. intros H. inversion H; subst. eauto. Qed.

(** ** Families of curves that depend linearly on the control points and cross planes no more often than their polygons *)
Section Family.
Variables (n : nat) (K : list (vec3 R) -> R -> outcome (vec3 R)) (lo hi : R) (beta : nat -> R -> R).
Hypothesis lin : forall cps t, length cps = n -> lo <= t <= hi -> K cps t = Ok (comb3 (fun i => beta i t) cps).
Hypothesis few : forall cps, length cps = n -> crossings_bounded (K cps) cps lo hi.
Let flight (x : nat -> R) : list (vec3 R) := map (fun j => V3 (x j) 0 0) (seq 0 n).
Let value (x : nat -> R) (t : R) : R := sumf (fun j => beta j t * x j) n.
Lemma flight_length x : length (flight x) = n.
Proof. unfold flight. now rewrite map_length, seq_length. Qed.
Lemma flight_nth x j : (j < n)%nat -> nth j (flight x) vzero = V3 (x j) 0 0.
Proof. intros H. unfold flight. rewrite (nth_map_default _ _ _ 0%nat) by now rewrite seq_length. now rewrite seq_nth. Qed.
Lemma flight_value x t : lo <= t <= hi -> exists p, K (flight x) t = Ok p /\ forall k, dot3 (V3 k 0 0) p = k * value x t.
Proof.
  intros Ht. eexists. split; [apply lin; [apply flight_length|exact Ht]|]. intros k. unfold dot3, comb3. cbn [x3 y3 z3]. rnum. rewrite flight_length.
  replace (sumf (fun i => beta i t * x3 (nth i (flight x) vzero)) n) with (value x t); [ring|]. apply sumf_ext. intros j Hj. now rewrite flight_nth.
Qed.
Lemma value_mono x s t : (forall i j, (i < j < n)%nat -> x i <= x j) -> lo <= s -> s <= t -> t <= hi -> value x s <= value x t.
Proof.
  intros M H1 H2 H3. destruct (Rle_lt_or_eq_dec s t H2) as [L|<-]; [|lra]. destruct (flight_value x s ltac:(lra)) as (p & Ep & Vp). destruct (flight_value x t ltac:(lra)) as (q & Eq & Vq).
  pose proof (C79_monotone (K (flight x)) (flight x) lo hi (V3 1 0 0) (few _ (flight_length x))) as Q. rewrite flight_length in Q.
  specialize (Q ltac:(intros i j H; rewrite !flight_nth by lia; unfold dot3; cbn [x3 y3 z3]; rnum; specialize (M i j H); lra) s t p q H1 L H3 Ep Eq). rewrite Vp, Vq in Q. lra.
Qed.
Lemma value_bound x t m : (forall i, (i < n)%nat -> x i <= m) -> 0 <= m -> lo <= t <= hi -> value x t <= m.
Proof.
  intros M Hm Ht. destruct (Rle_dec (value x t) m) as [|N]; [assumption|exfalso]. apply Rnot_le_lt in N. destruct (flight_value x t Ht) as (p & Ep & Vp).
  destruct (few (flight x) (flight_length x) (V3 1 0 0) ((value x t + m) / 2) 1 [t]) as (is & L & F & Z).
  - constructor; [exact Ht|constructor].
  - cbn [zigzag]. unfold side. rewrite Ep, Vp. repeat split. lra.
  - destruct is as [|i [|? ?]]; try discriminate L. rewrite flight_length in F. assert (Hi : (i < n)%nat) by now inversion F. cbn [zigzag] in Z. destruct Z as (Z & _). rewrite flight_nth in Z by exact Hi. revert Z. unfold dot3. cbn [x3 y3 z3]. rnum. specialize (M i Hi). lra.
Qed.
Let ind (i j : nat) : R := if (i <? j)%nat then 1 else 0.
Lemma value_neg x t : value (fun j => - x j) t = - value x t.
Proof. unfold value. replace (- sumf (fun j => beta j t * x j) n) with (-1 * sumf (fun j => beta j t * x j) n) by ring. rewrite <- sumf_scal. apply sumf_ext. intros. ring. Qed.
Lemma tail_mono i s t : lo <= s -> s <= t -> t <= hi -> value (ind i) s <= value (ind i) t.
Proof. intros. apply value_mono; auto. intros a b (Hab & _). unfold ind. destruct (Nat.ltb_spec i a), (Nat.ltb_spec i b); lra || lia. Qed.
Lemma tail_range i t : lo <= t <= hi -> 0 <= value (ind i) t <= 1.
Proof.
  intros Ht. split; [|apply value_bound; [|lra|exact Ht]; intros j _; unfold ind; destruct (i <? j)%nat; lra].
  assert (Q : value (fun j => - ind i j) t <= 0) by (apply value_bound; [|lra|exact Ht]; intros j _; unfold ind; destruct (i <? j)%nat; lra). rewrite value_neg in Q. lra.
Qed.
Lemma total_const s t : lo <= s -> s <= t -> t <= hi -> sumf (fun j => beta j t) n = sumf (fun j => beta j s) n.
Proof.
  intros H1 H2 H3. assert (A : value (fun _ => 1) s <= value (fun _ => 1) t) by (apply value_mono; auto; intros; lra). assert (B : value (fun _ => - (1)) s <= value (fun _ => - (1)) t) by (apply value_mono; auto; intros; lra). rewrite !value_neg in B.
  assert (E : forall u, value (fun _ => 1) u = sumf (fun j => beta j u) n) by (intros u; apply sumf_ext; intros; ring). rewrite !E in A, B. lra.
Qed.
Lemma chord cps s t : length cps = n -> lo <= s -> s <= t -> t <= hi ->
  dist3 (comb3 (fun i => beta i s) cps) (comb3 (fun i => beta i t) cps) <= sumf (fun i => (value (ind i) t - value (ind i) s) * dist3 (nth i cps vzero) (nth (i + 1) cps vzero)) (n - 1).
Proof.
  intros HL H1 H2 H3. set (v := fun i => vsub (nth (i + 1) cps vzero) (nth i cps vzero)). set (k := fun i => value (ind i) t - value (ind i) s).
  assert (G : forall f : vec3 R -> R, sumf (fun i => beta i t * f (nth i cps vzero)) n - sumf (fun i => beta i s * f (nth i cps vzero)) n = sumf (fun i => k i * (f (nth (i + 1) cps vzero) - f (nth i cps vzero))) (n - 1)).
  { intros f. rewrite <- sumf_minus. transitivity (sumf (fun j => (beta j t - beta j s) * f (nth j cps vzero)) n); [apply sumf_ext; intros; ring|]. rewrite (by_parts _ (fun j => f (nth j cps vzero))) by (rewrite sumf_minus, (total_const s t H1 H2 H3); ring).
    apply sumf_ext. intros i _. f_equal. unfold k, value. rewrite <- sumf_minus. apply sumf_ext. intros j _. unfold ind. ring. }
  rewrite dist3_length. replace (length3 (vsub (comb3 (fun i => beta i s) cps) (comb3 (fun i => beta i t) cps))) with (length3 (vec_sum k v (n - 1))).
  - eapply Rle_trans; [apply length_sum|].
    + intros i _. unfold k. pose proof (tail_mono i s t H1 H2 H3). lra.
    + apply Req_le. apply sumf_ext. intros i _. f_equal. rewrite dist3_length. unfold v, length3, dot3. f_equal. vsimp. rnum. ring.
  - pose proof (G x3) as Gx. pose proof (G y3) as Gy. pose proof (G z3) as Gz. rewrite <- dist3_length. unfold dist3, length3, dot3, vec_sum, comb3. cbn [x3 y3 z3]. rewrite HL.
    change (sumf (fun i => k i * x3 (v i)) (n - 1)) with (sumf (fun i => k i * (x3 (nth (i + 1) cps vzero) - x3 (nth i cps vzero))) (n - 1)). change (sumf (fun i => k i * y3 (v i)) (n - 1)) with (sumf (fun i => k i * (y3 (nth (i + 1) cps vzero) - y3 (nth i cps vzero))) (n - 1)). change (sumf (fun i => k i * z3 (v i)) (n - 1)) with (sumf (fun i => k i * (z3 (nth (i + 1) cps vzero) - z3 (nth i cps vzero))) (n - 1)).
    rewrite <- Gx, <- Gy, <- Gz. rnum. f_equal. ring.
Qed.
Theorem family_length cps : length cps = n -> not_longer (K cps) cps lo hi.
Proof.
  intros HL ts ps F C E. destruct ts as [|t ts].
  { replace (path_length ps) with 0 by (now inversion E). rewrite path_length_sum. apply sumf_nonneg. intros. apply Props_polyline.dist3_nonneg. }
  set (D := fun i => dist3 (nth i cps vzero) (nth (i + 1) cps vzero)). assert (D0 : forall i, 0 <= D i) by (intros; apply Props_polyline.dist3_nonneg).
  assert (G : forall ts t ps, Forall (fun t => lo <= t <= hi) (t :: ts) -> consecutive Rle (t :: ts) -> Forall2 (fun t p => K cps t = Ok p) (t :: ts) ps -> path_length ps <= sumf (fun i => (1 - value (ind i) t) * D i) (n - 1)).
  { clear ts t ps F C E. induction ts as [|u ts IH]; intros t ps F C E.
    - destruct (F2_cons _ _ _ _ E) as (p & l & -> & _ & El). replace (path_length (p :: l)) with 0 by (inversion El; cbn; ring). apply sumf_nonneg. intros i _. apply Rmult_le_pos; [|apply D0]. pose proof (tail_range i t (Forall_inv F)). lra.
    - destruct (F2_cons _ _ _ _ E) as (p & l & -> & Ep & El). destruct (F2_cons _ _ _ _ El) as (q & l' & -> & Eq & El'). pose proof (Forall_inv F) as Ft. pose proof (Forall_inv_tail F) as Fu. pose proof (C 0%nat t u eq_refl eq_refl) as Htu. pose proof (Forall_inv Fu) as Fu1. cbn beta in Ft, Fu1.
      specialize (IH u (q :: l') Fu (consecutive_tail _ _ _ C) El). rewrite (lin cps t HL Ft) in Ep. apply Ok_inj in Ep. subst p. rewrite (lin cps u HL Fu1) in Eq. apply Ok_inj in Eq. subst q.
      pose proof (chord cps t u HL ltac:(lra) Htu ltac:(lra)) as Q. fold (D : nat -> R) in Q. change (path_length (comb3 (fun j => beta j t) cps :: comb3 (fun k => beta k u) cps :: l')) with (dist3 (comb3 (fun j => beta j t) cps) (comb3 (fun k => beta k u) cps) + path_length (comb3 (fun k => beta k u) cps :: l')).
      eapply Rle_trans; [apply Rplus_le_compat; [exact Q|exact IH]|]. apply Req_le. rewrite <- sumf_plus. apply sumf_ext. intros i _. unfold D. ring. }
  eapply Rle_trans; [exact (G ts t ps F C E)|]. rewrite path_length_sum, HL. apply sumf_le. intros i _. fold (D i). pose proof (tail_range i t (Forall_inv F)). specialize (D0 i). assert (0 <= value (ind i) t * D i) by (apply Rmult_le_pos; lra). lra.
Qed.
End Family.

(** ** Polynomial curves *)
Lemma no_points (gp : R -> outcome (vec3 R)) cps lo hi : (forall t p, gp t <> Ok p) -> not_longer gp cps lo hi.
Proof.
  intros H ts ps F C E. destruct ts as [|t ts]; [|destruct (F2_cons _ _ _ _ E) as (p & l & _ & Ep & _); now destruct (H t p)].
  replace (path_length ps) with 0 by (now inversion E). rewrite path_length_sum. apply sumf_nonneg. intros. apply Props_polyline.dist3_nonneg.
Qed.
Theorem C83_bezier cps : not_longer (bezier3_get_point cps) cps 0 1.
Proof.
  destruct cps as [|p0 l]; [apply no_points; intros t p; discriminate|]. set (cps := p0 :: l). assert (H : (1 <= length cps)%nat) by (cbn; lia). clearbody cps.
  apply (family_length (length cps) bezier3_get_point 0 1 (fun i t => Bern (length cps - 1) i t)); [|intros; apply C79_bezier_crossings|reflexivity].
  intros l' t HL _. unfold bezier3_get_point. rewrite bernstein_R by lia. cbn [obind]. f_equal. rewrite weighted_sum_comb3 by (now rewrite map_length, seq_length). apply comb3_ext. intros i Hi.
  rewrite (nth_map_default _ _ _ 0%nat) by (now rewrite seq_length). rewrite seq_nth by exact Hi. now rewrite HL.
Qed.
Theorem C83_bspline (c : BSpline R (vec3 R)) : valid_bspline c -> nth (length (bs_cps c)) (bs_knots c) 0 = last_knot (bs_knots c) -> nth (bs_degree c) (bs_knots c) 0 < last_knot (bs_knots c) ->
  not_longer (bspline3_get_point c) (bs_cps c) (nth (bs_degree c) (bs_knots c) 0) (last_knot (bs_knots c)).
Proof.
  intros [A1 A2 A3 A4] He Hl. destruct c as [cps ks p]. cbn [bs_cps bs_knots bs_degree] in *.
  apply (family_length (length cps) (fun l => bspline3_get_point (mkBSpline l ks p)) _ _ (fun i t => match bspline_basis ks p t with Ok b => nth i b 0 | _ => 0 end)); [| |reflexivity].
  - intros l t HL Ht. destruct (basis_total ks p (length cps) t) as (s & b & _ & Eb & Lb & _); auto.
    + assert (nth 0 ks 0 <= nth p ks 0) by (apply A1; lia). unfold first_of, last_of. fold (last_knot ks). lra.
    + assert (nth 0 ks 0 <= nth p ks 0) by (apply A1; lia). unfold first_of. lra.
    + unfold bspline3_get_point. cbn [bs_cps bs_knots bs_degree]. rewrite Eb. cbn [obind]. now rewrite weighted_sum_comb3 by lia.
  - intros l HL. apply (C79_bspline_crossings (mkBSpline l ks p)); cbn [bs_cps bs_knots bs_degree]; rewrite ?HL; auto. split; cbn [bs_cps bs_knots bs_degree]; rewrite ?HL; auto.
Qed.

(** ** Rational curves *)
(** the weighted points with the weights of [cps] and the places [ps] *)
Definition reweigh (cps : list (vec4 R)) (ps : list (vec3 R)) : list (vec4 R) := map (fun qp => V4 (w4 (fst qp) * x3 (snd qp)) (w4 (fst qp) * y3 (snd qp)) (w4 (fst qp) * z3 (snd qp)) (w4 (fst qp))) (combine cps ps).
Lemma reweigh_length cps ps : length ps = length cps -> length (reweigh cps ps) = length cps.
Proof. intros H. unfold reweigh. rewrite map_length, combine_length. lia. Qed.
Lemma reweigh_nth cps ps i : length ps = length cps -> (i < length cps)%nat -> nth i (reweigh cps ps) vzero = V4 (w4 (nth i cps vzero) * x3 (nth i ps vzero)) (w4 (nth i cps vzero) * y3 (nth i ps vzero)) (w4 (nth i cps vzero) * z3 (nth i ps vzero)) (w4 (nth i cps vzero)).
Proof. intros H Hi. unfold reweigh. rewrite (nth_map_default _ _ _ (vzero, vzero)) by (rewrite combine_length; lia). now rewrite combine_nth by lia. Qed.
Lemma reweigh_place cps ps : length ps = length cps -> (forall q, In q cps -> 0 < w4 q) -> map place (reweigh cps ps) = ps.
Proof.
  revert ps. induction cps as [|q cps IH]; intros [|p ps] HL Hw; try discriminate HL; [reflexivity|]. cbn [reweigh combine map]. f_equal; [|apply IH; [now injection HL|intros; apply Hw; now right]].
  specialize (Hw q ltac:(now left)). apply vec3_ext; cbn [place x3 y3 z3 x4 y4 z4 w4 fst snd]; field; lra.
Qed.
Lemma reweigh_self cps : (forall q, In q cps -> 0 < w4 q) -> reweigh cps (map place cps) = cps.
Proof.
  intros Hw. induction cps as [|q cps IH]; [reflexivity|]. cbn [map reweigh combine]. unfold reweigh in IH. rewrite IH by (intros; apply Hw; now right). f_equal. specialize (Hw q ltac:(now left)). destruct q as [x y z w]. cbn [place x3 y3 z3 x4 y4 z4 w4 fst snd] in *. f_equal; field; lra.
Qed.
Lemma reweigh_weights cps ps : length ps = length cps -> (forall q, In q cps -> 0 < w4 q) -> forall q, In q (reweigh cps ps) -> 0 < w4 q.
Proof. intros HL Hw q Hq. apply in_map_iff in Hq as ((a & b) & <- & Hab). cbn [w4 fst snd]. apply Hw. now apply in_combine_l in Hab. Qed.
Lemma quotient_comb (b : nat -> R) cps ps (S : (vec4 R -> R) -> R) : length ps = length cps -> (forall f, S f = sumf (fun i => b i * f (nth i (reweigh cps ps) vzero)) (length cps)) ->
  V3 (S x4 / S w4) (S y4 / S w4) (S z4 / S w4) = comb3 (fun i => b i * w4 (nth i cps vzero) / sumf (fun j => b j * w4 (nth j cps vzero)) (length cps)) ps.
Proof.
  intros HL HS. assert (W : S w4 = sumf (fun j => b j * w4 (nth j cps vzero)) (length cps)). { rewrite HS. apply sumf_ext. intros i Hi. now rewrite reweigh_nth. }
  rewrite W. set (D := sumf _ _). unfold comb3. rewrite HL. f_equal; rewrite HS; unfold Rdiv; rewrite <- sumf_scal_r; apply sumf_ext; intros i Hi; rewrite reweigh_nth by assumption; cbn [x4 y4 z4]; ring.
Qed.
Theorem C83_rational_bezier (cps : list (vec4 R)) : (forall q, In q cps -> 0 < w4 q) -> not_longer (bezier4_get_point cps) (map place cps) 0 1.
Proof.
  intros Hw. destruct cps as [|p0 l]; [apply no_points; intros t p; discriminate|]. set (cps := p0 :: l) in *. assert (H : (1 <= length cps)%nat) by (cbn; lia). clearbody cps.
  rewrite <- (reweigh_self cps Hw) at 1.
  apply (family_length (length cps) (fun ps => bezier4_get_point (reweigh cps ps)) 0 1 (fun i t => Bern (length cps - 1) i t * w4 (nth i cps vzero) / sumf (fun j => Bern (length cps - 1) j t * w4 (nth j cps vzero)) (length cps))); [| |apply map_length].
  - intros ps t HL Ht. destruct (C05_rational_bezier (reweigh cps ps) t ltac:(rewrite reweigh_length; lia) (reweigh_weights cps ps HL Hw) Ht) as (_ & E). rewrite E. f_equal.
    apply (quotient_comb (fun i => Bern (length cps - 1) i t) cps ps (fun f => bern_dot (length (reweigh cps ps) - 1) t f (reweigh cps ps)) HL). intros f. unfold bern_dot. now rewrite reweigh_length by exact HL.
  - intros ps HL. pose proof (C79_rational_bezier_crossings (reweigh cps ps) (reweigh_weights cps ps HL Hw)) as Q. now rewrite reweigh_place in Q.
Qed.
Theorem C83_rational_bspline (c : BSpline R (vec4 R)) : valid_rational c -> weighted c -> inside c (last_knot (bs_knots c)) ->
  not_longer (bspline4_get_point c) (map place (bs_cps c)) (nth (bs_degree c) (bs_knots c) 0) (last_knot (bs_knots c)).
Proof.
  intros V Hw (He & Hl & _). destruct c as [cps ks p]. unfold weighted in Hw. cbn [bs_cps bs_knots bs_degree] in *. rewrite <- (reweigh_self cps Hw) at 1.
  set (B := fun i t => match bspline_basis ks p t with Ok b => nth i b 0 | _ => 0 end).
  assert (V' : forall ps, length ps = length cps -> valid_rational (mkBSpline (reweigh cps ps) ks p)) by (intros ps HL; unfold valid_rational; cbn [bs_cps bs_knots bs_degree]; rewrite reweigh_length by exact HL; exact V).
  assert (I' : forall ps t, length ps = length cps -> nth p ks 0 <= t <= last_knot ks -> inside (mkBSpline (reweigh cps ps) ks p) t) by (intros ps t HL Ht; unfold inside; cbn [bs_cps bs_knots bs_degree]; rewrite reweigh_length by exact HL; auto).
  apply (family_length (length cps) (fun ps => bspline4_get_point (mkBSpline (reweigh cps ps) ks p)) _ _ (fun i t => B i t * w4 (nth i cps vzero) / sumf (fun j => B j t * w4 (nth j cps vzero)) (length cps))); [| |apply map_length].
  - intros ps t HL Ht. destruct (C80_rational_bspline (mkBSpline (reweigh cps ps) ks p) t (V' ps HL) (reweigh_weights cps ps HL Hw) (I' ps t HL Ht)) as (s & Hs & _ & E). rewrite E. f_equal.
    apply (quotient_comb (fun i => B i t) cps ps (cox_sum (mkBSpline (reweigh cps ps) ks p) s t) HL). intros f. unfold cox_sum. cbn [bs_cps bs_knots bs_degree]. rewrite reweigh_length by exact HL. apply sumf_ext. intros i Hi. f_equal.
    destruct V as (A1 & A2 & A3 & A4). cbn [bs_cps bs_knots bs_degree] in *. unfold B. rewrite (basis_cdb ks p t s) by (auto; lia). rewrite (nth_map_default _ _ _ 0%nat) by (rewrite seq_length; lia). now rewrite seq_nth by lia.
  - intros ps HL. pose proof (C80_rational_crossings _ (V' ps HL) (reweigh_weights cps ps HL Hw)) as Q. cbn [bs_cps bs_knots bs_degree] in Q. rewrite reweigh_place in Q by auto. apply Q. apply I'; [exact HL|lra].
Qed.

(** ** The samples of a curve segment *)
Lemma consecutive_weaken {A} (P Q : A -> A -> Prop) l : (forall a b, P a b -> Q a b) -> consecutive P l -> consecutive Q l.
Proof. intros H C i a b Ha Hb. apply H. exact (C i a b Ha Hb). Qed.
Lemma consecutive_between l : forall a b mid, l = a :: mid ++ [b] -> consecutive Rlt l -> Forall (fun t => a <= t <= b) l.
Proof.
  induction l as [|x l IH]; intros a b mid E C; [discriminate|]. injection E as -> ->. destruct mid as [|m mid].
  - pose proof (C 0%nat a b eq_refl eq_refl). repeat constructor; lra.
  - cbn [app] in *. pose proof (C 0%nat a m eq_refl eq_refl) as H0. specialize (IH m b mid eq_refl (consecutive_tail _ _ _ C)). assert (m <= b) by (rewrite Forall_forall in IH; specialize (IH b ltac:(right; apply in_or_app; right; now left)); lra).
    constructor; [lra|]. eapply Forall_impl; [|exact IH]. cbn beta. intros t Ht. lra.
Qed.
(** whatever the random numbers and the tolerance, the points returned by get_points make a line no longer than the control polygon *)
Theorem C83_segment (rnd : list bool -> R) fuel (seg : CurveSegment R) cps lo hi pts : not_longer (c_get_point (s_curve seg)) cps lo hi -> lo <= fst (s_range seg) -> fst (s_range seg) < snd (s_range seg) -> snd (s_range seg) <= hi ->
  segment_get_points fuel rnd seg = Ok pts -> path_length pts <= path_length cps.
Proof.
  intros H H1 H2 H3 E. destruct (C55_samples_on_curve fuel rnd seg pts E) as (us & Eu & F). destruct (s_range seg) as [a b]. cbn [fst snd] in *.
  destruct (C22_division_shape _ _ _ fuel [] a b us Eu) as ((mid & Em) & _). destruct (C22_division_strictly_monotone rnd _ _ fuel [] a b us Eu) as (C & _). specialize (C H2).
  apply (H us pts); [|apply (consecutive_weaken Rlt); [intros; lra|exact C]|exact F]. pose proof (consecutive_between us a b mid Em C) as G. eapply Forall_impl; [|exact G]. cbn beta. intros t Ht. lra.
Qed.
(** the curve c_ex of C10 and the curve r_ex of C80; the polygon of the square with side 1, open at one side, has length 3 *)
Example C83_nonvacuous : not_longer (bspline3_get_point c_ex) (bs_cps c_ex) 0 2 /\ not_longer (bspline4_get_point r_ex) (map place (bs_cps r_ex)) 0 2 /\ path_length [V3 0 0 0; V3 1 0 0; V3 1 1 0; V3 0 1 0] = 3.
Proof.
  destruct C80_nonvacuous as (V & W & I & _). split; [|split].
  - apply (C83_bspline c_ex c_ex_valid); cbn; lra.
  - apply (C83_rational_bspline r_ex V W). unfold inside; cbn; lra.
  - cbn [path_length]. unfold dist3. cbn [x3 y3 z3]. replace ((0 - 1) ^ 2 + (0 - 0) ^ 2 + (0 - 0) ^ 2) with 1 by ring. replace ((1 - 1) ^ 2 + (0 - 1) ^ 2 + (0 - 0) ^ 2) with 1 by ring. replace ((1 - 0) ^ 2 + (1 - 1) ^ 2 + (0 - 0) ^ 2) with 1 by ring. rewrite sqrt_1. ring.
Qed.
