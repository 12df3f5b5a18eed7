(** Properties C01-C05: Bezier curves. *)
From Coq Require Import Reals Lra Psatz SpecFloat.
From Verif Require Import Prelude Num M_vec M_utils M_curve L_base L_vec L_bezier.
Open Scope R_scope.

(** C01: evaluation is the Bernstein sum in binomial form; no control points = panic. *)
Theorem C01_bezier_eval (cps : list (vec3 R)) (u : R) :
  (length cps >= 1)%nat ->
  bezier3_get_point cps u =
  Ok (comb3 (fun i => C (length cps - 1) i * u ^ i * (1 - u) ^ (length cps - 1 - i)) cps).
Proof.
  intros H. unfold bezier3_get_point. rewrite bernstein_R by lia. cbn [obind]. f_equal.
  rewrite weighted_sum_comb3 by now rewrite map_length, seq_length.
  apply comb3_ext. intros i Hi.
  rewrite (nth_map_default _ _ _ 0%nat) by now rewrite seq_length.
  rewrite seq_nth by assumption. unfold Bern. cbn [Nat.add].
  now rewrite (proj2 (Nat.leb_le _ _)) by lia.
Qed.
Theorem C01_bezier_panics_iff_empty (cps : list (vec3 R)) (u : R) :
  bezier3_get_point cps u = Panic <-> cps = [].
Proof.
  split; intros H; [|now subst].
  destruct cps as [|p cps]; [reflexivity|]. rewrite C01_bezier_eval in H by (cbn; lia). discriminate.
Qed.
Example C01_nonvacuous : bezier3_get_point [V3 0 0 0; V3 1 2 0; V3 2 0 4] (1/2) = Ok (V3 1 1 1).
Proof.
  rewrite C01_bezier_eval by (cbn; lia). f_equal. unfold comb3, C, sumf. cbn.
  f_equal; field.
Qed.

(** a form convenient below *)
Lemma bezier_eval_Bern (cps : list (vec3 R)) (u : R) : (length cps >= 1)%nat ->
  bezier3_get_point cps u = Ok (comb3 (fun i => Bern (length cps - 1) i u) cps).
Proof.
  intros H. rewrite C01_bezier_eval by assumption. f_equal. apply comb3_ext. intros i Hi.
  unfold Bern. now rewrite (proj2 (Nat.leb_le _ _)) by lia.
Qed.

Lemma Bern_sum_len n u : (n >= 1)%nat -> sumf (fun i => Bern (n - 1) i u) n = 1.
Proof. intros H. pose proof (Bern_sum (n - 1) u) as Hs. now replace (S (n - 1)) with n in Hs by lia. Qed.

(** C02: end point interpolation, and exact basis values at the ends in any arithmetic in
    which 0 and 1 behave as in IEEE-754 (instance: binary64). *)
Lemma Bern_at_0 d i : Bern d i 0 = if (i =? 0)%nat then 1 else 0.
Proof.
  revert i. induction d; intros i.
  - destruct i; [now rewrite Bern_00|now rewrite Bern_above by lia].
  - destruct i; [rewrite Bern_S0, IHd|rewrite Bern_SS, !IHd]; cbn [Nat.eqb]; lra.
Qed.
Lemma Bern_at_1 d i : Bern d i 1 = if (i =? d)%nat then 1 else 0.
Proof.
  revert i. induction d; intros i.
  - destruct i; [now rewrite Bern_00|now rewrite Bern_above by lia].
  - destruct i; [rewrite Bern_S0, IHd|rewrite Bern_SS, !IHd]; cbn [Nat.eqb]; lra.
Qed.
Lemma comb3_single w cps k : (k < length cps)%nat -> (forall i, (i < length cps)%nat -> w i = if (i =? k)%nat then 1 else 0) ->
  comb3 w cps = nth k cps vzero.
Proof.
  intros Hk Hw. apply vec3_ext; unfold comb3; cbn [x3 y3 z3];
    (rewrite (sumf_single _ _ k Hk); [rewrite Hw, Nat.eqb_refl by assumption; lra|]);
    intros i Hi NE; rewrite Hw by assumption; rewrite (proj2 (Nat.eqb_neq _ _) NE); lra.
Qed.

Theorem C02_bezier_endpoints (first : vec3 R) (rest : list (vec3 R)) :
  bezier3_get_point (first :: rest) 0 = Ok first /\
  bezier3_get_point (first :: rest) 1 = Ok (List.last rest first).
Proof.
  split; rewrite bezier_eval_Bern by (cbn; lia); f_equal.
  - rewrite (comb3_single _ _ 0); [reflexivity|cbn; lia|]. intros. apply Bern_at_0.
  - rewrite (comb3_single _ _ (length rest)); [|cbn; lia|].
    + clear. revert first. induction rest as [|a l IH]; intros first; [reflexivity|].
      cbn [length]. change (nth (S (length l)) (first :: a :: l) vzero) with (nth (length l) (a :: l) vzero).
      rewrite IH. destruct l; [reflexivity|]. clear IH. revert v. induction l; intros v; cbn in *; auto.
    + intros i Hi. rewrite Bern_at_1. cbn [length]. now rewrite Nat.sub_succ, Nat.sub_0_r.
Qed.
Example C02_nonvacuous : bezier3_get_point [V3 0 0 0; V3 1 2 0; V3 2 0 4] 1 = Ok (V3 2 0 4).
Proof. apply (C02_bezier_endpoints (V3 0 0 0) [V3 1 2 0; V3 2 0 4]). Qed.

(** The binary64 version: bernstein(n, 0.0) and bernstein(n, 1.0) are unit vectors, bit for bit. *)
Section F64.
Local Open Scope num_scope.
Notation z := (@f0 f64 F64Num).
Notation o := (@f1 f64 F64Num).
Lemma f64_bern_0 j k : bernF j k z = if (k =? 0)%nat then o else z.
Proof.
  revert k. induction j as [|j IH]; intros k; [reflexivity|].
  cbn [bernF]. destruct k as [|k].
  - rewrite IH. reflexivity.
  - rewrite !IH. cbn [Nat.eqb].
    destruct (S k <? S j)%nat; [destruct (k =? 0)%nat; reflexivity|].
    destruct (k =? j)%nat; [|reflexivity]. destruct (k =? 0)%nat; reflexivity.
Qed.
Lemma f64_bern_1 j k : bernF j k o = if (k =? j)%nat then o else z.
Proof.
  revert k. induction j as [|j IH]; intros k; [reflexivity|].
  cbn [bernF]. destruct k as [|k].
  - rewrite IH. destruct j; reflexivity.
  - rewrite !IH. cbn [Nat.eqb]. destruct (Nat.ltb_spec (S k) (S j)).
    + rewrite (proj2 (Nat.eqb_neq k j)) by lia. destruct (match j with O => false | S m' => (k =? m')%nat end); reflexivity.
    + destruct (k =? j)%nat; reflexivity.
Qed.
Theorem C02_bernstein_endpoints_f64 (n : nat) : (n >= 1)%nat ->
  bernstein n (S754_zero false : f64) = Ok (o :: repeat z (n - 1)) /\
  bernstein n (f64_of_Z 1) = Ok (repeat z (n - 1) ++ [o]).
Proof.
  intros H. change (S754_zero false : f64) with z. change (f64_of_Z 1) with o.
  rewrite !bernstein_rec by assumption. split; f_equal.
  - destruct n as [|n]; [lia|]. cbn [seq map]. rewrite f64_bern_0. cbn [Nat.eqb Nat.sub]. rewrite Nat.sub_0_r. f_equal.
    rewrite <- seq_shift, map_map.
    rewrite (map_ext _ (fun _ => z)) by (intros; rewrite f64_bern_0; reflexivity).
    clear. generalize 0%nat. induction n; intros s; cbn; [reflexivity|]. now rewrite IHn.
  - destruct n as [|n]; [lia|]. rewrite seq_S, map_app. cbn [map Nat.add Nat.sub]. rewrite Nat.sub_0_r.
    f_equal; [|now rewrite f64_bern_1, Nat.eqb_refl].
    assert (E : map (fun k => bernF n k o) (seq 0 n) = map (fun _ => z) (seq 0 n)).
    { apply map_ext_in. intros k Hk. apply in_seq in Hk. rewrite f64_bern_1. now rewrite (proj2 (Nat.eqb_neq k n)) by lia. }
    rewrite E. clear. generalize 0%nat. induction n; intros s; cbn; [reflexivity|]. now rewrite IHn.
Qed.
Example C02_f64_nonvacuous : bernstein 4 (f64_of_Z 1) = Ok [z; z; z; o].
Proof. vm_compute. reflexivity. Qed.
End F64.

(** C03: convex hull (every closed half space containing the control points contains the curve)
    and translation invariance. *)
Theorem C03_bezier_convex_hull (cps : list (vec3 R)) (u : R) (p : vec3 R) :
  0 <= u <= 1 -> bezier3_get_point cps u = Ok p ->
  forall (normal : vec3 R) (bound : R),
    (forall q, In q cps -> dot3 normal q <= bound) -> dot3 normal p <= bound.
Proof.
  intros Hu E normal bound Hb.
  destruct cps as [|q0 cps]; [discriminate|]. remember (q0 :: cps) as l.
  assert (HL : (length l >= 1)%nat) by (subst; cbn; lia).
  rewrite bezier_eval_Bern in E by assumption. injection E as <-.
  rewrite (comb3_coord _ (linear_dot3 normal)).
  apply sumf_convex_le.
  - intros. now apply Bern_nonneg.
  - now apply Bern_sum_len.
  - intros i Hi. apply Hb. now apply nth_In.
Qed.
Theorem C03_bezier_weights (n : nat) (u : R) (ws : list R) :
  0 <= u <= 1 -> bernstein n u = Ok ws ->
  length ws = n /\ (forall w, In w ws -> 0 <= w) /\ fold_right Rplus 0 ws = 1.
Proof.
  intros Hu E. destruct n as [|n]; [discriminate|].
  rewrite bernstein_R in E by lia. apply Ok_inj in E. subst ws.
  split; [now rewrite map_length, seq_length|]. split.
  - intros w Hw. apply in_map_iff in Hw. destruct Hw as [k [<- _]]. now apply Bern_nonneg.
  - change (sumf (fun k => Bern (S n - 1) k u) (S n) = 1). rewrite Nat.sub_succ, Nat.sub_0_r. apply Bern_sum.
Qed.
Theorem C03_bezier_translation (cps : list (vec3 R)) (u : R) (p t : vec3 R) :
  bezier3_get_point cps u = Ok p ->
  bezier3_get_point (map (fun q => vadd q t) cps) u = Ok (vadd p t).
Proof.
  intros E. destruct cps as [|q0 cps]; [discriminate|]. remember (q0 :: cps) as l.
  assert (HL : (length l >= 1)%nat) by (subst; cbn; lia).
  rewrite bezier_eval_Bern in E by assumption. injection E as <-.
  rewrite bezier_eval_Bern by now rewrite map_length.
  assert (S1 : sumf (fun i => Bern (length l - 1) i u) (length l) = 1).
  { now apply Bern_sum_len. }
  rewrite map_length. f_equal. unfold comb3. rewrite map_length.
  assert (G : forall c : vec3 R -> R, linear c ->
    sumf (fun i => Bern (length l - 1) i u * c (nth i (map (fun q => vadd q t) l) vzero)) (length l)
    = sumf (fun i => Bern (length l - 1) i u * c (nth i l vzero)) (length l) + c t).
  { intros c Hc. replace (c t) with (sumf (fun i => Bern (length l - 1) i u) (length l) * c t) by (rewrite S1; lra). rewrite <- sumf_scal_r, <- sumf_plus.
    apply sumf_ext. intros i Hi. rewrite (nth_map_default _ _ _ vzero) by assumption.
    rewrite (lin_add Hc). ring. }
  apply vec3_ext; cbn [x3 y3 z3 vadd VecOps3 fadd RNum]; apply G; auto with linear.
Qed.
Example C03_nonvacuous : exists p, bezier3_get_point [V3 0 0 0; V3 1 2 0; V3 2 0 4] (1/3) = Ok p /\
  0 <= 1/3 <= 1 /\ (forall q, In q [V3 0 0 0; V3 1 2 0; V3 2 0 4] -> dot3 (V3 1 0 0) q <= 2).
Proof.
  eexists. split; [apply bezier_eval_Bern; cbn; lia|]. split; [lra|].
  intros q [<-|[<-|[<-|[]]]]; unfold dot3; rnum; cbn; lra.
Qed.

(** C04: derivative. *)
Lemma derivable_sumf (f : nat -> R -> R) (l : nat -> R) n u :
  (forall i, (i < n)%nat -> derivable_pt_lim (f i) u (l i)) ->
  derivable_pt_lim (fun x => sumf (fun i => f i x) n) u (sumf l n).
Proof.
  induction n; intros H.
  - apply derivable_pt_lim_const.
  - rewrite sumf_S. apply (derivable_pt_lim_ext (fun x => sumf (fun i => f i x) n + f n x)).
    + intros x. now rewrite sumf_S.
    + apply derivable_pt_lim_plus; [apply IHn; intros; apply H; lia|apply H; lia].
Qed.

(** coordinate [c] of the point at parameter x, as a function of x *)
Definition curve_coord (get : R -> outcome (vec3 R)) (c : vec3 R -> R) (x : R) : R :=
  match get x with Ok p => c p | _ => 0 end.

Theorem C04_bezier_derivative (cps ders : list (vec3 R)) :
  (length cps >= 2)%nat -> bezier_derivative cps = Ok ders ->
  length ders = (length cps - 1)%nat /\
  forall u, exists q, bezier3_get_point ders u = Ok q /\
    derivable_pt_lim (curve_coord (bezier3_get_point cps) x3) u (x3 q) /\
    derivable_pt_lim (curve_coord (bezier3_get_point cps) y3) u (y3 q) /\
    derivable_pt_lim (curve_coord (bezier3_get_point cps) z3) u (z3 q).
Proof.
  intros H E. unfold bezier_derivative, bezier_degree in E. rewrite usub_Ok in E by lia. cbn [obind] in E.
  apply Ok_inj in E. subst ders. split; [now rewrite map_length, pairs_length|].
  intros u. remember (map _ (pairs cps)) as ders.
  assert (HLd : length ders = (length cps - 1)%nat) by (subst; now rewrite map_length, pairs_length).
  exists (comb3 (fun i => Bern (length ders - 1) i u) ders).
  split; [apply bezier_eval_Bern; lia|].
  destruct (length cps) as [|[|d]] eqn:HL; [lia|lia|]. cbn [Nat.sub] in HLd.
  assert (G : forall c : vec3 R -> R, linear c ->
    derivable_pt_lim (curve_coord (bezier3_get_point cps) c) u (c (comb3 (fun i => Bern (length ders - 1) i u) ders))).
  { intros c Hc.
    apply (derivable_pt_lim_ext (fun x => sumf (fun i => Bern (S d) i x * c (nth i cps vzero)) (S (S d)))).
    - intros x. unfold curve_coord. rewrite bezier_eval_Bern by lia. rewrite comb3_coord by assumption.
      rewrite HL. cbn [Nat.sub]. reflexivity.
    - rewrite comb3_coord by assumption. rewrite HLd. rewrite Nat.sub_succ, Nat.sub_0_r.
      replace (sumf _ (S d)) with
        (sumf (fun i => INR (S d) * ((match i with O => 0 | S i' => Bern d i' u end) - Bern d i u) * c (nth i cps vzero)) (S (S d))).
      + apply derivable_sumf. intros i Hi.
        replace (INR (S d) * _ * _) with
          (INR (S d) * ((match i with O => 0 | S i' => Bern d i' u end) - Bern d i u) * c (nth i cps vzero) + Bern (S d) i u * 0) by ring.
        apply (derivable_pt_lim_mult (Bern (S d) i) (fun _ => c (nth i cps vzero))).
        * apply Bern_deriv.
        * apply derivable_pt_lim_const.
      + assert (Hn : forall i, (i < S d)%nat -> c (nth i ders vzero) = (c (nth (S i) cps vzero) - c (nth i cps vzero)) * INR (S d)).
        { intros i Hi. subst ders. rewrite (nth_map_default _ _ _ (vzero, vzero)) by (rewrite pairs_length; lia).
          rewrite pairs_nth by lia. cbn beta iota. rewrite (lin_mulr Hc), (lin_sub Hc), Nat.add_1_r. reflexivity. }
        rewrite (sumf_ext (fun i => Bern d i u * c (nth i ders vzero))
                          (fun i => INR (S d) * (Bern d i u * c (nth (S i) cps vzero)) - INR (S d) * (Bern d i u * c (nth i cps vzero)))).
        2:{ intros i Hi. rewrite Hn by assumption. ring. }
        rewrite sumf_minus.
        rewrite (sumf_ext _ (fun i => INR (S d) * ((match i with O => 0 | S i' => Bern d i' u end) * c (nth i cps vzero))
                                      - INR (S d) * (Bern d i u * c (nth i cps vzero)))) by (intros; ring).
        rewrite sumf_minus. f_equal.
        * rewrite sumf_S_first. ring.
        * rewrite sumf_S, (Bern_above d (S d)) by lia. ring. }
  auto with linear.
Qed.
Example C04_nonvacuous : exists ders, bezier_derivative [V3 0 0 0; V3 1 2 0; V3 2 0 4] = Ok ders /\ length ders = 2%nat.
Proof. eexists. split; reflexivity. Qed.

(** C05: rational Bezier curves. A weighted control point is (wx, wy, wz, w). *)
Definition bern_dot (d : nat) (u : R) (c : vec4 R -> R) (cps : list (vec4 R)) : R :=
  sumf (fun i => Bern d i u * c (nth i cps vzero)) (length cps).

Theorem C05_rational_bezier (cps : list (vec4 R)) (u : R) :
  (length cps >= 1)%nat -> (forall q, In q cps -> 0 < w4 q) -> 0 <= u <= 1 ->
  let S c := bern_dot (length cps - 1) u c cps in
  0 < S w4 /\ bezier4_get_point cps u = Ok (V3 (S x4 / S w4) (S y4 / S w4) (S z4 / S w4)).
Proof.
  intros HL Hw Hu S.
  assert (Hpos : 0 < S w4).
  { assert (S1 : sumf (fun i => Bern (length cps - 1) i u) (length cps) = 1).
    { now apply Bern_sum_len. }
    assert (Hmin : exists m, 0 < m /\ forall q, In q cps -> m <= w4 q).
    { clear - Hw HL. induction cps as [|q l IH]; [cbn in HL; lia|]. destruct l as [|q' l].
      - exists (w4 q). split; [apply Hw; now left|]. intros ? [<-|[]]. lra.
      - destruct IH as [m [Hm Hl]]; [cbn; lia|intros; apply Hw; now right|].
        exists (Rmin m (w4 q)). split; [apply Rmin_glb_lt; [assumption|apply Hw; now left]|].
        intros ? [<-|Hin]; [apply Rmin_r|]. eapply Rle_trans; [apply Rmin_l|]. now apply Hl. }
    destruct Hmin as [m [Hm Hl]]. unfold S, bern_dot.
    apply Rlt_le_trans with (sumf (fun i => Bern (length cps - 1) i u * m) (length cps)).
    - rewrite sumf_scal_r, S1. lra.
    - apply sumf_le. intros i Hi. apply Rmult_le_compat_l; [now apply Bern_nonneg|]. apply Hl. now apply nth_In. }
  split; [assumption|].
  unfold bezier4_get_point. rewrite bernstein_R by lia. cbn [obind]. f_equal. unfold project_w.
  assert (G : forall c : vec4 R -> R, linear c -> c (weighted_sum (map (fun k => Bern (length cps - 1) k u) (seq 0 (length cps))) cps) = S c).
  { intros c Hc. rewrite weighted_sum_coord by assumption. rewrite map_length, seq_length, Nat.min_id.
    apply sumf_ext. intros i Hi. rewrite (nth_map_default _ _ _ 0%nat) by now rewrite seq_length.
    now rewrite seq_nth by assumption. }
  apply vec3_ext; vsimp; rewrite !G by auto with linear; field; lra.
Qed.

(** the projected control points lie in a half space => so does the curve *)
Theorem C05_rational_convex_hull (cps : list (vec4 R)) (u : R) (p : vec3 R) :
  (forall q, In q cps -> 0 < w4 q) -> 0 <= u <= 1 -> bezier4_get_point cps u = Ok p ->
  forall (normal : vec3 R) (bound : R),
    (forall q, In q cps -> dot3 normal (V3 (x4 q / w4 q) (y4 q / w4 q) (z4 q / w4 q)) <= bound) ->
    dot3 normal p <= bound.
Proof.
  intros Hw Hu E normal bound Hb.
  destruct cps as [|q0 l0]; [discriminate|]. remember (q0 :: l0) as cps.
  assert (HL : (length cps >= 1)%nat) by (subst; cbn; lia).
  destruct (C05_rational_bezier cps u HL Hw Hu) as [Hpos E']. rewrite E' in E. injection E as <-.
  set (W := bern_dot (length cps - 1) u w4 cps) in *.
  assert (K : x3 normal * bern_dot (length cps - 1) u x4 cps + y3 normal * bern_dot (length cps - 1) u y4 cps
    + z3 normal * bern_dot (length cps - 1) u z4 cps <= bound * W).
  { unfold W, bern_dot. rewrite <- !sumf_scal, <- !sumf_plus. apply sumf_le. intros i Hi.
    assert (Hin : In (nth i cps vzero) cps) by now apply nth_In.
    specialize (Hw _ Hin). specialize (Hb _ Hin). unfold dot3 in Hb. cbn [x3 y3 z3] in Hb. rnum.
    pose proof (Bern_nonneg (length cps - 1) i u Hu) as HB.
    set (q := nth i cps vzero) in *.
    assert (K1 : x3 normal * x4 q + y3 normal * y4 q + z3 normal * z4 q <= bound * w4 q).
    { replace (x3 normal * x4 q + y3 normal * y4 q + z3 normal * z4 q) with
        ((x3 normal * (x4 q / w4 q) + y3 normal * (y4 q / w4 q) + z3 normal * (z4 q / w4 q)) * w4 q) by (field; lra).
      apply Rmult_le_compat_r; lra. }
    replace (x3 normal * (Bern (length cps - 1) i u * x4 q) + y3 normal * (Bern (length cps - 1) i u * y4 q) +
      z3 normal * (Bern (length cps - 1) i u * z4 q)) with
      (Bern (length cps - 1) i u * (x3 normal * x4 q + y3 normal * y4 q + z3 normal * z4 q)) by ring.
    replace (bound * (Bern (length cps - 1) i u * w4 q)) with (Bern (length cps - 1) i u * (bound * w4 q)) by ring.
    now apply Rmult_le_compat_l. }
  unfold dot3. cbn [x3 y3 z3]. rnum.
  apply Rmult_le_reg_r with W; [assumption|].
  replace ((x3 normal * (bern_dot (length cps - 1) u x4 cps / W) + y3 normal * (bern_dot (length cps - 1) u y4 cps / W)
    + z3 normal * (bern_dot (length cps - 1) u z4 cps / W)) * W) with
    (x3 normal * bern_dot (length cps - 1) u x4 cps + y3 normal * bern_dot (length cps - 1) u y4 cps
    + z3 normal * bern_dot (length cps - 1) u z4 cps) by (field; lra).
  lra.
Qed.

Theorem C05_rational_scale_invariant (cps : list (vec4 R)) (u s : R) :
  (forall q, In q cps -> 0 < w4 q) -> 0 <= u <= 1 -> 0 < s ->
  bezier4_get_point (map (vmull s) cps) u = bezier4_get_point cps u.
Proof.
  intros Hw Hu Hs. destruct cps as [|q0 l0]; [reflexivity|]. remember (q0 :: l0) as cps.
  assert (HL : (length cps >= 1)%nat) by (subst; cbn; lia).
  destruct (C05_rational_bezier cps u HL Hw Hu) as [Hpos E].
  destruct (C05_rational_bezier (map (vmull s) cps) u) as [Hpos' E'].
  - now rewrite map_length.
  - intros q Hq. apply in_map_iff in Hq. destruct Hq as [q' [<- Hq']]. specialize (Hw _ Hq'). vsimp. nra.
  - assumption.
  - rewrite E, E'.
    assert (G : forall c : vec4 R -> R, linear c ->
      bern_dot (length (map (vmull s) cps) - 1) u c (map (vmull s) cps) = s * bern_dot (length cps - 1) u c cps).
    { intros c Hc. unfold bern_dot. rewrite map_length, <- sumf_scal. apply sumf_ext. intros i Hi.
      rewrite (nth_map_default _ _ _ vzero) by assumption. rewrite (lin_mull Hc). ring. }
    rewrite !G in * by auto with linear.
    f_equal. f_equal; field; split; lra.
Qed.
Example C05_nonvacuous : exists p, bezier4_get_point [V4 0 0 0 1; V4 2 0 0 2; V4 3 3 0 3] (1/2) = Ok p.
Proof.
  eexists. apply C05_rational_bezier; [cbn; lia| |lra].
  intros q [<-|[<-|[<-|[]]]]; cbn; lra.
Qed.
