(** B-spline curves over R: evaluation, knot insertion. *)
From Coq Require Import Reals Lra Psatz Lia Arith.
From Verif Require Import Prelude Num M_vec M_utils M_curve L_base L_vec L_cdb L_insert L_knot.
Open Scope R_scope.

(** A usable B-spline: sorted distinguishable knots, as many as control points + degree + 1. *)
Record valid_bspline (c : BSpline R (vec3 R)) : Prop := {
  vb_sorted : sorted (bs_knots c);
  vb_sep : separated (bs_knots c);
  vb_len : length (bs_knots c) = (length (bs_cps c) + bs_degree c + 1)%nat;
  vb_ne : (1 <= length (bs_cps c))%nat;
}.

Lemma bspline_eval c u s : valid_bspline c -> is_span (bs_knots c) u s ->
  bspline3_get_point c u = Ok (comb3 (fun i => cdb (fun i => nth i (bs_knots c) 0) s (bs_degree c) i u) (bs_cps c)).
Proof.
  intros [Hs Hsep HL Hne] Hspan. unfold bspline3_get_point.
  rewrite (basis_cdb _ _ _ s) by (auto; lia). cbn [obind]. f_equal.
  assert (El : length (map (fun i => cdb (fun i => nth i (bs_knots c) 0) s (bs_degree c) i u) (seq 0 (length (bs_knots c) - 1 - bs_degree c))) = length (bs_cps c))
    by (rewrite map_length, seq_length; lia).
  rewrite weighted_sum_comb3 by assumption. apply comb3_ext. intros i Hi.
  rewrite (nth_map_default _ _ _ 0%nat) by (rewrite seq_length; lia). now rewrite seq_nth by lia.
Qed.

Lemma separated_incl ks ks' : separated ks -> (forall a, In a ks' -> In a ks) -> separated ks'.
Proof. intros H Hi a b Ha Hb NE. apply H; auto. Qed.

(** ** Knot insertion *)
Section AddKnot.
Variables (c : BSpline R (vec3 R)) (x : R) (j : nat).
Hypothesis Hv : valid_bspline c.
Let ks := bs_knots c.
Let cps := bs_cps c.
Let p := bs_degree c.
Let n := length cps.
Hypothesis Hj : (j <= length ks)%nat.
Hypothesis Hlo : forall i, (i < j)%nat -> nth i ks 0 <= x.
Hypothesis Hhi : forall i, (j <= i < length ks)%nat -> x < nth i ks 0.
Let ks' := firstn j ks ++ x :: skipn j ks.
Hypothesis Hsep' : separated ks'.
Hypothesis Hsort' : sorted ks'.

Definition ak_D : R := Rmax (nth (length ks - 1) ks 0) x + 1.
Definition ak_T (i : nat) : R := nth i ks ak_D.
Definition ak_w (i : nat) : R := omega ak_T j x p i.
Definition ak_prev (i : nat) : vec3 R := match i with O => vzero | S m => nth m cps vzero end.
(** control point number i of the refined curve *)
Definition ak_Q (i : nat) : vec3 R := vadd (vmulr (ak_prev i) (1 - ak_w i)) (vmulr (nth i cps vzero) (ak_w i)).

Let Hlen : length ks = (n + p + 1)%nat. Proof. apply (vb_len _ Hv). Qed.
Let Hn : (1 <= n)%nat. Proof. apply (vb_ne _ Hv). Qed.
Let Hsort : sorted ks. Proof. apply (vb_sorted _ Hv). Qed.

Lemma ak_mono : mono ak_T.
Proof.
  apply sorted_mono; [exact Hsort|]. intros a Ha. unfold ak_D.
  pose proof (sorted_le_last ks a Hsort Ha). pose proof (Rmax_l (nth (length ks - 1) ks 0) x). lra.
Qed.
Lemma ak_T_in i : (i < length ks)%nat -> ak_T i = nth i ks 0.
Proof. intros H. now apply nth_indep. Qed.
Lemma ak_lo i : (i < j)%nat -> ak_T i <= x.
Proof. intros H. rewrite ak_T_in by lia. now apply Hlo. Qed.
Lemma ak_hi i : (j <= i)%nat -> x < ak_T i.
Proof.
  intros H. destruct (le_lt_dec (length ks) i) as [H1|H1].
  - unfold ak_T. rewrite nth_overflow by assumption. unfold ak_D. pose proof (Rmax_r (nth (length ks - 1) ks 0) x). lra.
  - rewrite ak_T_in by assumption. apply Hhi. lia.
Qed.
Lemma ak_ins i : (i < length ks')%nat -> nth i ks' 0 = ins ak_T j x i.
Proof.
  unfold ks'. rewrite insert_length. intros Hi. rewrite nth_insert by exact Hj. unfold ins.
  destruct (Nat.ltb_spec i j); [symmetry; apply ak_T_in; lia|].
  destruct (Nat.eqb_spec i j); [reflexivity|]. symmetry. apply ak_T_in. lia.
Qed.

Lemma ak_knot_add : knot_add ks x = Ok (ks', j).
Proof.
  unfold knot_add. rnum. destruct j as [|j'] eqn:Ej.
  - assert (E : rposition (fun t => Rleb t x) ks = None).
    { apply rposition_None. intros a Ha. apply (In_nth _ _ 0) in Ha. destruct Ha as [i [Hi <-]].
      apply Rleb_false. apply Hhi. lia. }
    rewrite E. rewrite insert_at_Ok by lia. reflexivity.
  - rewrite (rposition_sorted ks x j'); [|exact Hsort|lia|apply Hlo; lia|].
    + rewrite Nat.add_1_r. rewrite insert_at_Ok by lia. reflexivity.
    + intros H. rewrite Nat.add_1_r in *. apply Hhi. lia.
Qed.

Hypothesis Hjp : j = 0%nat \/ (p < j)%nat.

Lemma ak_result : exists cps', bspline_add_knot c x = Ok (mkBSpline cps' ks' p) /\
  length cps' = S n /\ forall i, (i <= n)%nat -> nth i cps' vzero = ak_Q i.
Proof.
  unfold bspline_add_knot. fold ks cps p. rewrite ak_knot_add. cbn [obind]. cbn zeta. fold n.
  destruct (Nat.eqb_spec j 0) as [Ej|Ej].
  - rewrite insert_at_Ok by lia. cbn [obind firstn skipn app]. eexists. split; [reflexivity|]. split; [reflexivity|].
    intros i Hi. unfold ak_Q, ak_w. rewrite omega_0 by lia. destruct i as [|i].
    + cbn [nth ak_prev]. apply vec3_ext; vsimp; ring.
    + cbn [nth ak_prev]. apply vec3_ext; vsimp; ring.
  - destruct Hjp as [?|Hpj]; [contradiction|].
    rewrite (proj2 (Nat.ltb_lt p j) Hpj).
    set (B := fun i => if (i <? j)%nat then nth i cps vzero else ak_prev i).
    set (en := if (n <? j)%nat then (n + 1)%nat else j).
    assert (Hinit : exists cps0, (if (n <? j)%nat then Ok (cps ++ [vzero], (n + 1)%nat)
       else x0 <- idx cps (j - 1) ;; cps1 <- insert_at cps (j - 1) x0 ;; Ok (cps1, j)) = Ok (cps0, en)
       /\ length cps0 = S n /\ forall i, (i <= n)%nat -> nth i cps0 vzero = B i).
    { unfold en. destruct (Nat.ltb_spec n j) as [H|H].
      - eexists. split; [reflexivity|]. split; [rewrite app_length; cbn; fold n; lia|].
        intros i Hi. unfold B. rewrite (proj2 (Nat.ltb_lt i j)) by lia.
        destruct (Nat.eq_dec i n) as [->|NE].
        + unfold n. rewrite app_nth2, Nat.sub_diag by lia. now rewrite (nth_overflow cps) by lia.
        + rewrite app_nth1 by (fold n; lia). reflexivity.
      - rewrite (idx_nth _ _ vzero) by (fold n; lia). cbn [obind]. rewrite insert_at_Ok by (fold n; lia). cbn [obind].
        eexists. split; [reflexivity|]. split; [rewrite insert_length; reflexivity|].
        intros i Hi. rewrite nth_insert by (fold n; lia). unfold B.
        destruct (Nat.ltb_spec i (j - 1)), (Nat.eqb_spec i (j - 1)), (Nat.ltb_spec i j); try lia; try reflexivity.
        + now subst.
        + unfold ak_prev. destruct i; [lia|]. f_equal. lia. }
    destruct Hinit as [cps0 (E0 & HL0 & HB0)].
    match goal with |- context [obind ?e _] => replace e with (Ok (cps0, en)) by (symmetry; exact E0) end.
    cbn [obind].
    set (P := fun (i : nat) (l : list (vec3 R)) =>
      length l = S n /\ forall m, (m <= n)%nat -> nth m l vzero = if (m <? i)%nat then B m else ak_Q m).
    assert (HQ1 : forall m, (m + p < j)%nat -> ak_Q m = B m).
    { intros m Hm. unfold ak_Q, ak_w, B. rewrite omega_1 by lia. rewrite (proj2 (Nat.ltb_lt m j)) by lia.
      apply vec3_ext; vsimp; ring. }
    assert (HQ0 : forall m, (j <= m)%nat -> ak_Q m = B m).
    { intros m Hm. unfold ak_Q, ak_w, B. rewrite omega_0 by lia. rewrite (proj2 (Nat.ltb_ge m j)) by lia.
      apply vec3_ext; vsimp; ring. }
    assert (Hen : (en <= S n)%nat /\ (en <= j)%nat /\ (forall m, (en <= m)%nat -> (m <= n)%nat -> (j <= m)%nat)).
    { unfold en. destruct (Nat.ltb_spec n j); repeat split; try lia; intros; lia. }
    destruct Hen as (Hen1 & Hen2 & Hen3).
    destruct (le_lt_dec (j - p) en) as [Hse|Hse].
    + match goal with |- context [foldM ?f ?s (rev (Prelude.range ?lo ?hi))] =>
        destruct (foldM_rev_range P f lo hi s) as [cps' [E [HL' HP']]] end.
      * assumption.
      * split; [assumption|]. intros m Hm. rewrite HB0 by assumption. destruct (Nat.ltb_spec m en); [reflexivity|].
        symmetry. apply HQ0. now apply Hen3.
      * intros i l Hi [HL1 HP1].
        assert (Hks' : length ks' = S (length ks)) by (unfold ks'; apply insert_length).
        rewrite !(idx_nth ks' _ 0) by lia. cbn [obind]. rewrite usub_Ok by lia. cbn [obind].
        rewrite !(idx_nth l _ vzero) by lia. cbn [obind]. rewrite upd_Ok by lia.
        eexists. split; [reflexivity|]. split; [now rewrite set_nth_length|].
        intros m Hm. rewrite nth_set_nth, HL1. rewrite (proj2 (Nat.ltb_lt i (S n))) by lia. rewrite andb_true_r.
        destruct (Nat.eqb_spec i m) as [<-|NE].
        -- rewrite Nat.ltb_irrefl. rewrite !HP1 by lia.
           rewrite (proj2 (Nat.ltb_lt (i - 1) (i + 1))), (proj2 (Nat.ltb_lt i (i + 1))) by lia.
           unfold B. rewrite (proj2 (Nat.ltb_lt (i - 1) j)), (proj2 (Nat.ltb_lt i j)) by lia.
           rewrite (inv_or_zero_sep ks') by (try exact Hsep'; apply nth_In; lia).
           rewrite !ak_ins by lia. rewrite (ins_lt _ _ _ i) by lia. rewrite (ins_gt _ _ _ (i + p + 1)) by lia.
           replace (i + p + 1 - 1)%nat with (i + p)%nat by lia.
           unfold ak_Q, ak_w. rewrite omega_mid by lia.
           pose proof (ak_lo i ltac:(lia)). pose proof (ak_hi (i + p) ltac:(lia)).
           rewrite ratio_nz by lra. replace (ak_prev i) with (nth (i - 1) cps vzero).
           2:{ unfold ak_prev. destruct i; [lia|]. f_equal. lia. }
           rnum. replace ((x - ak_T i) * (1 / (ak_T (i + p)%nat - ak_T i))) with ((x - ak_T i) / (ak_T (i + p)%nat - ak_T i)) by (unfold Rdiv; ring).
           reflexivity.
        -- rewrite HP1 by lia. destruct (Nat.ltb_spec m (i + 1)), (Nat.ltb_spec m i); try lia; reflexivity.
      * rewrite E. cbn [obind]. exists cps'. split; [reflexivity|]. split; [assumption|].
        intros i Hi. rewrite HP' by assumption. destruct (Nat.ltb_spec i (j - p)); [|reflexivity]. symmetry. apply HQ1. lia.
    + rewrite range_nil by lia. cbn [rev foldM obind]. exists cps0. split; [reflexivity|]. split; [assumption|].
      intros i Hi. rewrite HB0 by assumption. symmetry.
      destruct (le_lt_dec j (i + p)) as [H|H]; [|now apply HQ1].
      (* j - p > en: then every i <= n has i + p < j *)
      exfalso. unfold en in Hse. destruct (Nat.ltb_spec n j); lia.
Qed.

(** span of u among the refined knots *)
Definition ak_span (u : R) (s : nat) : nat :=
  if (j <=? s)%nat then S s else if (j =? S s)%nat then (if Rle_dec x u then S s else s) else s.

Lemma ak_is_span u s : is_span ks u s -> (nth (length ks - 1) ks 0 < x -> u < nth (length ks - 1) ks 0) ->
  is_span ks' u (ak_span u s).
Proof.
  intros (H1 & H2 & H3 & H4) Hx. unfold is_span.
  assert (Hks' : length ks' = S (length ks)) by (unfold ks'; apply insert_length).
  rewrite Hks'. rewrite Nat.sub_succ, Nat.sub_0_r.
  assert (HT : forall i, (i <= length ks)%nat -> nth i ks' 0 = if (i <? j)%nat then nth i ks 0 else if (i =? j)%nat then x else nth (i - 1) ks 0).
  { intros i Hi. unfold ks'. now apply nth_insert. }
  unfold ak_span. destruct (Nat.leb_spec j s) as [C1|C1]; [|destruct (Nat.eqb_spec j (S s)) as [C2|C2]; [destruct (Rle_dec x u) as [C3|C3]|]].
  - rewrite !HT by lia.
    rewrite (proj2 (Nat.ltb_ge (S s) j)), (proj2 (Nat.ltb_ge (S s + 1) j)), (proj2 (Nat.ltb_ge (length ks) j)) by lia.
    rewrite (proj2 (Nat.eqb_neq (S s) j)), (proj2 (Nat.eqb_neq (S s + 1) j)), (proj2 (Nat.eqb_neq (length ks) j)) by lia.
    replace (S s - 1)%nat with s by lia. replace (S s + 1 - 1)%nat with (s + 1)%nat by lia.
    repeat split; [lia|assumption..].
  - assert (Hxs : x < nth (s + 1) ks 0) by (apply Hhi; lia).
    rewrite !HT by lia. rewrite (proj2 (Nat.ltb_ge (S s) j)), (proj2 (Nat.ltb_ge (S s + 1) j)), (proj2 (Nat.ltb_ge (length ks) j)) by lia.
    rewrite (proj2 (Nat.eqb_eq (S s) j)), (proj2 (Nat.eqb_neq (S s + 1) j)), (proj2 (Nat.eqb_neq (length ks) j)) by lia.
    replace (S s + 1 - 1)%nat with (s + 1)%nat by lia.
    repeat split; [lia|assumption..].
  - rewrite !HT by lia. rewrite (proj2 (Nat.ltb_lt s j)), (proj2 (Nat.ltb_ge (s + 1) j)), (proj2 (Nat.ltb_ge (length ks) j)) by lia.
    rewrite (proj2 (Nat.eqb_eq (s + 1) j)), (proj2 (Nat.eqb_neq (length ks) j)) by lia.
    repeat split; [lia|lra|assumption|left; lra].
  - rewrite !HT by lia. rewrite (proj2 (Nat.ltb_lt s j)), (proj2 (Nat.ltb_lt (s + 1) j)) by lia.
    repeat split; [lia|assumption..|].
    destruct H4 as [H4|[H4 H5]]; [left; assumption|right].
    destruct (Nat.ltb_spec (length ks) j) as [H6|H6]; [lia|].
    destruct (Nat.eqb_spec (length ks) j) as [H7|H7].
    + assert (nth (length ks - 1) ks 0 <= x) by (apply Hlo; lia).
      destruct (Rlt_dec (nth (length ks - 1) ks 0) x) as [H8|H8]; [specialize (Hx H8); lra|]. split; lra.
    + split; assumption.
Qed.

Lemma ak_valid cps' : length cps' = S n -> valid_bspline (mkBSpline cps' ks' p).
Proof.
  intros H. split; cbn [bs_knots bs_cps bs_degree]; auto; [|lia].
  unfold ks'. rewrite insert_length. lia.
Qed.

Theorem ak_same_curve c' u s : bspline_add_knot c x = Ok c' -> is_span ks u s ->
  (nth (length ks - 1) ks 0 < x -> u < nth (length ks - 1) ks 0) ->
  bspline3_get_point c' u = bspline3_get_point c u.
Proof.
  intros E Hspan Hx. destruct ak_result as [cps' (E' & HL' & HQ)]. rewrite E' in E. apply Ok_inj in E. subst c'.
  pose proof (ak_is_span u s Hspan Hx) as Hspan'.
  rewrite (bspline_eval c u s Hv Hspan).
  rewrite (bspline_eval _ u (ak_span u s) (ak_valid cps' HL')) by exact Hspan'. cbn [bs_knots bs_cps bs_degree].
  fold ks cps p. f_equal.
  set (N' := fun i => cdb (ins ak_T j x) (ak_span u s) p i u).
  assert (HN' : forall i, (i <= n)%nat -> cdb (fun i => nth i ks' 0) (ak_span u s) p i u = N' i).
  { intros i Hi. apply cdb_ext. intros m Hm. apply ak_ins. unfold ks'. rewrite insert_length. lia. }
  assert (HN : forall i, (i < n)%nat -> cdb (fun i => nth i ks 0) s p i u = ak_w i * N' i + (1 - ak_w (S i)) * N' (S i)).
  { intros i Hi. rewrite (cdb_ext _ ak_T).
    2:{ intros m Hm. symmetry. apply ak_T_in. lia. }
    unfold N', ak_w. rewrite <- (Nat.add_1_r i). apply cdb_insert.
    - exact ak_mono.
    - exact ak_lo.
    - exact ak_hi.
    - intros H. unfold ak_span. now rewrite (proj2 (Nat.leb_le _ _) H).
    - intros H. unfold ak_span. rewrite (proj2 (Nat.leb_gt _ _)) by lia. now rewrite (proj2 (Nat.eqb_neq _ _)) by lia.
    - intros H. unfold ak_span. rewrite (proj2 (Nat.leb_gt _ _)) by lia. rewrite (proj2 (Nat.eqb_eq _ _)) by lia. destruct (Rle_dec x u); auto.
    - destruct Hspan' as (G1 & G2 & _). rewrite <- !ak_ins by lia. exact G2. }
  assert (G : forall cc : vec3 R -> R, linear cc ->
    cc (comb3 (fun i => cdb (fun i => nth i ks' 0) (ak_span u s) p i u) cps')
    = cc (comb3 (fun i => cdb (fun i => nth i ks 0) s p i u) cps)).
  { intros cc Hc. rewrite !comb3_coord by assumption. rewrite HL'. fold n.
    rewrite (sumf_ext _ (fun i => N' i * (1 - ak_w i) * cc (ak_prev i) + N' i * ak_w i * cc (nth i cps vzero))).
    2:{ intros i Hi. rewrite HN', HQ by lia. unfold ak_Q. rewrite (lin_add Hc), !(lin_mulr Hc). ring. }
    rewrite (sumf_ext _ (fun i => N' (S i) * (1 - ak_w (S i)) * cc (nth i cps vzero) + N' i * ak_w i * cc (nth i cps vzero)) n).
    2:{ intros i Hi. rewrite HN by assumption. ring. }
    rewrite !sumf_plus. rewrite sumf_S_first. cbn [ak_prev]. rewrite (lin_zero Hc), sumf_S.
    rewrite (nth_overflow cps) by (fold n; lia). rewrite (lin_zero Hc). ring. }
  apply vec3_ext; apply G; auto with linear.
Qed.
End AddKnot.

(** ** Differentiation *)
Lemma sumf_by_parts (A a : nat -> R) N :
  sumf (fun i => (A i - A (S i)) * a i) (S N)
  = sumf (fun i => A (S i) * (a (S i) - a i)) N + A 0%nat * a 0%nat - A (S N) * a N.
Proof.
  induction N as [|N IH]; [cbn; ring|].
  rewrite sumf_S, IH, (sumf_S _ N). ring.
Qed.

Lemma derivable_sumf' (f : nat -> R -> R) (f' : nat -> R) u n :
  (forall i, (i < n)%nat -> derivable_pt_lim (f i) u (f' i)) ->
  derivable_pt_lim (fun x => sumf (fun i => f i x) n) u (sumf f' n).
Proof.
  induction n as [|n IH]; intros H.
  - cbn. apply derivable_pt_lim_const.
  - apply (derivable_pt_lim_ext (fun x => sumf (fun i => f i x) n + f n x)); [intros; now rewrite sumf_S|].
    rewrite sumf_S. apply (derivable_pt_lim_plus (fun x => sumf (fun i => f i x) n) (f n)); [apply IH; auto|apply H; lia].
Qed.

(** derivative of a combination of basis functions, on a span inside the domain *)
Lemma cdb_deriv_sum (T : nat -> R) s k n (a : nat -> R) u : mono T -> T s < T (s + 1)%nat -> (k < s < n)%nat ->
  derivable_pt_lim (fun x => sumf (fun i => cdb T s (S k) i x * a i) n) u
    (sumf (fun i => cdb T s k (S i) u * (INR (S k) * ratio 1 (T (S i + S k)%nat - T (S i)) * (a (S i) - a i))) (n - 1)).
Proof.
  intros HT Hs Hk.
  set (A := fun i => ratio 1 (T (i + S k)%nat - T i) * cdb T s k i u).
  replace (sumf _ (n - 1)) with (sumf (fun i => INR (S k) * (A i - A (S i)) * a i) n).
  - apply (derivable_sumf' (fun i x => cdb T s (S k) i x * a i)). intros i Hi.
    replace (INR (S k) * (A i - A (S i)) * a i) with (INR (S k) * (A i - A (S i)) * a i + cdb T s (S k) i u * 0) by ring.
    apply (derivable_pt_lim_mult (cdb T s (S k) i) (fun _ => a i)); [|apply derivable_pt_lim_const].
    unfold A. pose proof (cdb_deriv T s HT Hs k i u) as H.
    replace (i + S k + 1)%nat with (S i + S k)%nat in H by lia. replace (i + 1)%nat with (S i) in H by lia. exact H.
  - destruct n as [|N]; [lia|]. rewrite Nat.sub_succ, Nat.sub_0_r.
    rewrite (sumf_ext _ (fun i => INR (S k) * ((A i - A (S i)) * a i))) by (intros; ring).
    rewrite sumf_scal, sumf_by_parts.
    unfold A at 2 3. rewrite !(cdb_support T s k) by lia. rewrite !Rmult_0_r, !Rmult_0_l, Rplus_0_r, Rminus_0_r.
    rewrite <- sumf_scal. apply sumf_ext. intros i _. unfold A. ring.
Qed.

(** the knots of the derivative *)
Lemma shrink_nth (ks : list R) : (2 <= length ks)%nat ->
  exists ks', shrink ks = Ok ks' /\ length ks' = (length ks - 2)%nat /\
    forall i, (i + 2 < length ks)%nat -> nth i ks' 0 = nth (i + 1) ks 0.
Proof.
  intros H. unfold shrink. rewrite usub_Ok by lia. cbn [obind]. rewrite slice_Ok by lia.
  eexists. split; [reflexivity|]. split.
  - rewrite firstn_length, skipn_length. lia.
  - intros i Hi. rewrite nth_firstn by lia. rewrite nth_skipn. f_equal. lia.
Qed.
