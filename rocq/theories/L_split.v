(** Repeated knot insertion and splitting of B-spline curves. *)
From Coq Require Import Reals Lra Psatz Lia Arith Permutation.
From Verif Require Import Prelude Num M_vec M_utils M_curve L_base L_vec L_cdb L_insert L_knot L_bspline.
Open Scope R_scope.

(** ** counting *)
Lemma filter_true {A} (f : A -> bool) l : (forall a, In a l -> f a = true) -> filter f l = l.
Proof. induction l as [|a l IH]; intros H; cbn; [reflexivity|]. rewrite H by now left. f_equal. apply IH. intros; apply H; now right. Qed.
Lemma filter_false {A} (f : A -> bool) l : (forall a, In a l -> f a = false) -> filter f l = [].
Proof. induction l as [|a l IH]; intros H; cbn; [reflexivity|]. rewrite H by now left. apply IH. intros; apply H; now right. Qed.
Lemma filter_count_mid {A} (f : A -> bool) (l : list A) a b d : (a <= b <= length l)%nat ->
  (forall i, (i < a)%nat -> f (nth i l d) = false) ->
  (forall i, (a <= i < b)%nat -> f (nth i l d) = true) ->
  (forall i, (b <= i < length l)%nat -> f (nth i l d) = false) ->
  length (filter f l) = (b - a)%nat.
Proof.
  intros Hab H1 H2 H3. rewrite <- (firstn_skipn b l), filter_app, app_length.
  rewrite (filter_false f (skipn b l)).
  - cbn [length]. rewrite Nat.add_0_r.
    rewrite (filter_count f (firstn b l) a d); rewrite ?firstn_length; try lia.
    + intros i Hi. rewrite nth_firstn by lia. now apply H1.
    + intros i Hi. rewrite nth_firstn by lia. apply H2. lia.
  - intros x Hx. apply (In_nth _ _ d) in Hx. destruct Hx as [i [Hi <-]]. rewrite skipn_length in Hi.
    rewrite nth_skipn. apply H3. lia.
Qed.

(** the block of knots equal to x just below position j *)
Lemma block_exists (ks : list R) x j : sorted ks -> (j <= length ks)%nat ->
  (forall i, (i < j)%nat -> nth i ks 0 <= x) ->
  exists s, (s <= j)%nat /\ (forall i, (i < j - s)%nat -> nth i ks 0 < x) /\
    (forall i, (j - s <= i < j)%nat -> nth i ks 0 = x).
Proof.
  intros Hs. induction j as [|j IH]; intros Hj Hlo.
  - exists 0%nat. repeat split; intros; lia.
  - destruct IH as [s (H1 & H2 & H3)]; [lia|intros; apply Hlo; lia|].
    destruct (Req_EM_T (nth j ks 0) x) as [E|E].
    + exists (S s). split; [lia|]. split.
      * intros i Hi. apply H2. lia.
      * intros i Hi. destruct (Nat.eq_dec i j) as [->|]; [assumption|]. apply H3. lia.
    + exists 0%nat. split; [lia|]. split; [|intros; lia]. intros i Hi.
      assert (nth j ks 0 <= x) by (apply Hlo; lia). assert (nth i ks 0 <= nth j ks 0) by (apply Hs; lia). lra.
Qed.
Lemma multiplicity_block ks x j s i0 : sorted ks -> separated ks -> (j <= length ks)%nat -> (s <= j)%nat ->
  (forall i, (i < j - s)%nat -> nth i ks 0 < x) -> (forall i, (j - s <= i < j)%nat -> nth i ks 0 = x) ->
  (forall i, (j <= i < length ks)%nat -> x < nth i ks 0) ->
  (i0 < length ks)%nat -> nth i0 ks 0 = x ->
  multiplicity ks i0 = Ok s.
Proof.
  intros Hs Hsep Hj Hsj H1 H2 H3 Hi0 E0. unfold multiplicity.
  destruct ks as [|k0 ks'] eqn:Eks; [cbn in Hi0; lia|]. rewrite <- Eks in *. clear Eks k0 ks'.
  rewrite (idx_nth _ _ 0) by assumption. cbn [obind]. f_equal.
  assert (Hx : In x ks) by (rewrite <- E0; now apply nth_In). rewrite E0.
  rewrite (filter_count_mid _ ks (j - s) j 0); [lia|lia| | |];
    intros i Hi; rewrite (separated_eq ks) by (auto; apply nth_In; lia).
  - specialize (H1 i Hi). destruct (Req_EM_T _ _); [lra|reflexivity].
  - specialize (H2 i Hi). destruct (Req_EM_T _ _); [reflexivity|lra].
  - specialize (H3 i Hi). destruct (Req_EM_T _ _); [lra|reflexivity].
Qed.

(** ** repeated insertion of one knot *)
Definition ins_rep (ks : list R) (j m : nat) (x : R) : list R := firstn j ks ++ repeat x m ++ skipn j ks.
Lemma ins_rep_length ks j m x : (j <= length ks)%nat -> length (ins_rep ks j m x) = (length ks + m)%nat.
Proof. intros H. unfold ins_rep. rewrite !app_length, repeat_length, firstn_length, skipn_length. lia. Qed.
Lemma nth_ins_rep ks j m x i : (j <= length ks)%nat ->
  nth i (ins_rep ks j m x) 0 = if (i <? j)%nat then nth i ks 0 else if (i <? j + m)%nat then x else nth (i - m) ks 0.
Proof.
  intros H. unfold ins_rep. assert (L : length (firstn j ks) = j) by (rewrite firstn_length; lia).
  destruct (Nat.ltb_spec i j).
  - rewrite app_nth1 by lia. now apply nth_firstn.
  - rewrite app_nth2 by lia. rewrite L. destruct (Nat.ltb_spec i (j + m)).
    + rewrite app_nth1 by (rewrite repeat_length; lia). rewrite (nth_indep _ 0 x) by (rewrite repeat_length; lia). apply nth_repeat.
    + rewrite app_nth2 by (rewrite repeat_length; lia). rewrite repeat_length, nth_skipn. f_equal. lia.
Qed.
Lemma ins_rep_In ks j m x a : In a (ins_rep ks j m x) -> a = x \/ In a ks.
Proof.
  unfold ins_rep. rewrite !in_app_iff. intros [H|[H|H]].
  - right. rewrite <- (firstn_skipn j ks). apply in_or_app. now left.
  - left. now apply repeat_spec in H.
  - right. rewrite <- (firstn_skipn j ks). apply in_or_app. now right.
Qed.
Lemma ins_rep_S ks j m x : (j <= length ks)%nat ->
  firstn (j + m) (ins_rep ks j m x) ++ x :: skipn (j + m) (ins_rep ks j m x) = ins_rep ks j (S m) x.
Proof.
  intros H. unfold ins_rep. assert (L : length (firstn j ks) = j) by (rewrite firstn_length; lia).
  assert (L2 : length (firstn j ks ++ repeat x m) = (j + m)%nat) by (rewrite app_length, repeat_length; lia).
  rewrite !app_assoc. rewrite firstn_app, skipn_app, L2, Nat.sub_diag. cbn [firstn skipn].
  rewrite <- L2 at 1. rewrite firstn_all, app_nil_r. rewrite <- L2 at 1. rewrite skipn_all. cbn [app].
  rewrite <- !app_assoc. f_equal. change (repeat x m ++ [x] ++ skipn j ks = repeat x (S m) ++ skipn j ks).
  rewrite app_assoc. f_equal. symmetry. apply repeat_cons.
Qed.
Lemma ins_rep_sorted ks j m x : sorted ks -> (j <= length ks)%nat ->
  (forall i, (i < j)%nat -> nth i ks 0 <= x) -> (forall i, (j <= i < length ks)%nat -> x < nth i ks 0) ->
  sorted (ins_rep ks j m x).
Proof.
  intros Hs Hj Hlo Hhi a b Hab. rewrite ins_rep_length in Hab by assumption. rewrite !nth_ins_rep by assumption.
  destruct (Nat.ltb_spec a j), (Nat.ltb_spec b j), (Nat.ltb_spec a (j + m)), (Nat.ltb_spec b (j + m)); try lia; try lra;
    first [ apply Hs; lia | now apply Hlo | left; apply Hhi; lia | apply Rle_trans with x; [now apply Hlo|]; left; apply Hhi; lia ].
Qed.

Lemma bspline_add_knots_snoc m (c : BSpline R (vec3 R)) t :
  bspline_add_knots (S m) c t = (c' <- bspline_add_knots m c t ;; bspline_add_knot c' t).
Proof.
  revert c. induction m as [|m IH]; intros c.
  - cbn. destruct (bspline_add_knot c t); reflexivity.
  - change (bspline_add_knots (S (S m)) c t) with (c' <- bspline_add_knot c t ;; bspline_add_knots (S m) c' t).
    change (bspline_add_knots (S m) c t) with (c' <- bspline_add_knot c t ;; bspline_add_knots m c' t).
    destruct (bspline_add_knot c t); cbn [obind]; [apply IH|reflexivity|reflexivity].
Qed.

Section Rep.
Variables (c : BSpline R (vec3 R)) (x : R) (j : nat).
Hypothesis Hv : valid_bspline c.
Let ks := bs_knots c.
Let p := bs_degree c.
Let n := length (bs_cps c).
Hypothesis Hj : (j <= length ks)%nat.
Hypothesis Hlo : forall i, (i < j)%nat -> nth i ks 0 <= x.
Hypothesis Hhi : forall i, (j <= i < length ks)%nat -> x < nth i ks 0.
Hypothesis Hsep : separated (x :: ks).
Hypothesis Hp : (p < j)%nat.

Let HL : length ks = (n + p + 1)%nat. Proof. apply (vb_len _ Hv). Qed.

Lemma rep_sep m : separated (ins_rep ks j m x).
Proof. apply (separated_incl (x :: ks)); [assumption|]. intros a Ha. apply ins_rep_In in Ha. destruct Ha as [->|Ha]; [now left|now right]. Qed.

Lemma rep_result m : exists c', bspline_add_knots m c x = Ok c' /\ valid_bspline c' /\ bs_degree c' = p /\
  bs_knots c' = ins_rep ks j m x /\ length (bs_cps c') = (n + m)%nat /\
  (forall u s, is_span ks u s -> (j = length ks -> u < nth (length ks - 1) ks 0 \/ x = nth (length ks - 1) ks 0) ->
     bspline3_get_point c' u = bspline3_get_point c u) /\
  (forall m', m = S m' -> (j < length ks)%nat ->
     (p = 0%nat \/ nth (j + m' - p) (ins_rep ks j m' x) 0 = x) ->
     nth (j + m' - p) (bs_cps c') vzero = nth (j + m' - p - 1) (bs_cps c') vzero \/ (j + m' = p)%nat).
Proof.
  induction m as [|m IH].
  - exists c. cbn [bspline_add_knots]. split; [reflexivity|]. split; [exact Hv|]. split; [reflexivity|].
    split; [unfold ins_rep; cbn; now rewrite firstn_skipn|]. split; [fold n; lia|]. split; [reflexivity|]. intros; discriminate.
  - destruct IH as [c1 (E1 & Hv1 & Hd1 & Hk1 & HL1 & Hc1 & _)].
    rewrite bspline_add_knots_snoc, E1. cbn [obind].
    assert (Hj1 : (j + m <= length (bs_knots c1))%nat) by (rewrite Hk1, ins_rep_length by assumption; lia).
    assert (Hlo1 : forall i, (i < j + m)%nat -> nth i (bs_knots c1) 0 <= x).
    { intros i Hi. rewrite Hk1, nth_ins_rep by assumption. destruct (Nat.ltb_spec i j); [now apply Hlo|].
      rewrite (proj2 (Nat.ltb_lt i (j + m))) by assumption. lra. }
    assert (Hhi1 : forall i, (j + m <= i < length (bs_knots c1))%nat -> x < nth i (bs_knots c1) 0).
    { intros i Hi. rewrite Hk1, ins_rep_length in Hi by assumption. rewrite Hk1, nth_ins_rep by assumption.
      rewrite (proj2 (Nat.ltb_ge i j)), (proj2 (Nat.ltb_ge i (j + m))) by lia. apply Hhi. lia. }
    assert (EQ : firstn (j + m) (bs_knots c1) ++ x :: skipn (j + m) (bs_knots c1) = ins_rep ks j (S m) x).
    { rewrite Hk1. now apply ins_rep_S. }
    assert (Hsep1 : separated (firstn (j + m) (bs_knots c1) ++ x :: skipn (j + m) (bs_knots c1))) by (rewrite EQ; apply rep_sep).
    assert (Hsort1 : sorted (firstn (j + m) (bs_knots c1) ++ x :: skipn (j + m) (bs_knots c1))).
    { rewrite EQ. apply ins_rep_sorted; auto. apply (vb_sorted _ Hv). }
    assert (Hjp1 : (j + m = 0)%nat \/ (bs_degree c1 < j + m)%nat) by (right; rewrite Hd1; lia).
    destruct (ak_result c1 x (j + m) Hv1 Hj1 Hlo1 Hhi1 Hsep1 Hsort1 Hjp1) as [cps' (E' & HL' & HQ)].
    eexists. split; [exact E'|]. split; [now apply (ak_valid c1 x (j + m) Hv1 Hj1 Hsep1 Hsort1 Hjp1)|].
    cbn [bs_degree bs_knots bs_cps]. split; [assumption|]. split; [exact EQ|]. split; [rewrite HL'; lia|]. split.
    + intros u s Hspan Hu. rewrite <- (Hc1 u s Hspan Hu).
      (* span of u in the knots of c1 *)
      assert (HLc : (2 <= length (bs_knots c1))%nat) by (rewrite Hk1, ins_rep_length by assumption; unfold is_span in Hspan; lia).
      assert (Hs0 : sorted ks) by apply (vb_sorted _ Hv).
      assert (Hs1 : sorted (bs_knots c1)) by apply (vb_sorted _ Hv1).
      assert (Hfirst : nth 0 (bs_knots c1) 0 = nth 0 ks 0).
      { rewrite Hk1, nth_ins_rep by assumption. now rewrite (proj2 (Nat.ltb_lt 0 j)) by lia. }
      assert (Hlast : (j < length ks)%nat -> nth (length (bs_knots c1) - 1) (bs_knots c1) 0 = nth (length ks - 1) ks 0).
      { intros H. rewrite Hk1, ins_rep_length, nth_ins_rep by assumption.
        rewrite (proj2 (Nat.ltb_ge _ j)), (proj2 (Nat.ltb_ge _ (j + m))) by lia. f_equal. lia. }
      assert (Hlast2 : j = length ks -> x = nth (length ks - 1) ks 0 -> nth (length (bs_knots c1) - 1) (bs_knots c1) 0 = nth (length ks - 1) ks 0).
      { intros H Hx. rewrite Hk1, ins_rep_length, nth_ins_rep by assumption.
        destruct (Nat.ltb_spec (length ks + m - 1) j).
        - f_equal. lia.
        - rewrite (proj2 (Nat.ltb_lt _ (j + m))) by lia. exact Hx. }
      assert (Hlast3 : nth (length ks - 1) ks 0 <= nth (length (bs_knots c1) - 1) (bs_knots c1) 0).
      { destruct (Nat.eq_dec j (length ks)) as [Ej|Ej]; [|rewrite Hlast by lia; lra].
        rewrite Hk1, ins_rep_length, nth_ins_rep by assumption.
        destruct (Nat.ltb_spec (length ks + m - 1) j).
        - replace (length ks + m - 1)%nat with (length ks - 1)%nat by lia. lra.
        - rewrite (proj2 (Nat.ltb_lt _ (j + m))) by lia. apply Hlo. unfold is_span in Hspan. lia. }
      assert (Hne : nth 0 ks 0 < nth (length ks - 1) ks 0).
      { destruct Hspan as (G1 & G2 & _). assert (nth 0 ks 0 <= nth s ks 0) by (apply Hs0; lia).
        assert (nth (s + 1) ks 0 <= nth (length ks - 1) ks 0) by (apply Hs0; lia). lra. }
      assert (Hu0 : nth 0 ks 0 <= u).
      { destruct Hspan as (G1 & _ & G3 & _). assert (nth 0 ks 0 <= nth s ks 0) by (apply Hs0; lia). lra. }
      destruct (span_exists (bs_knots c1) u Hs1 HLc) as [s1 Hs1'].
      { rewrite Hfirst. lra. }
      { now rewrite Hfirst. }
      eapply (ak_same_curve c1 x (j + m) Hv1 Hj1 Hlo1 Hhi1 Hsep1 Hsort1 Hjp1 _ u s1 E' Hs1').
      intros Hx. destruct (Nat.eq_dec j (length ks)) as [Ej|Ej].
      * destruct (Hu Ej) as [H|H]; [lra|]. rewrite (Hlast2 Ej H) in Hx. lra.
      * exfalso. rewrite Hlast in Hx by lia. specialize (Hhi (length ks - 1)%nat ltac:(lia)). lra.
    + intros m' Em Hjl Hm. injection Em as <-. rewrite <- Hk1 in Hm.
      destruct (Nat.eq_dec (j + m) p) as [|NE]; [now right|left].
      rewrite !HQ by lia. unfold ak_Q, ak_w. rewrite Hd1.
      rewrite (omega_1 _ _ _ _ (j + m - p - 1)) by lia.
      assert (W0 : omega (ak_T c1 x) (j + m) x p (j + m - p) = 0).
      { destruct (Nat.eq_dec p 0) as [->|Hp0]; [apply omega_0; lia|].
        rewrite omega_mid by lia. destruct Hm as [Hm|Hm]; [contradiction|].
        rewrite (ak_T_in c1 x (j + m - p)) by lia. rewrite Hm. unfold Rdiv. ring. }
      rewrite W0.
      assert (EP : ak_prev c1 (j + m - p) = nth (j + m - p - 1) (bs_cps c1) vzero).
      { destruct (j + m - p)%nat as [|q] eqn:Eq; [lia|]. cbn [ak_prev]. now rewrite Nat.sub_succ, Nat.sub_0_r. }
      rewrite EP. generalize (nth (j + m - p) (bs_cps c1) vzero) (nth (j + m - p - 1) (bs_cps c1) vzero) (ak_prev c1 (j + m - p - 1)).
      intros a b d. apply vec3_ext; vsimp; rnum; ring.
Qed.
End Rep.

(** ** values at repeated knots *)
Lemma cdb_at_left t s k i u : (k <= s)%nat -> (forall j, (s - k <= j <= s)%nat -> t j = u) -> u < t (s + 1)%nat ->
  cdb t s k i u = if (i =? s - k)%nat then 1 else 0.
Proof.
  intros Hk Ht Hu. revert i. induction k as [|k IH]; intros i; cbn [cdb].
  - now rewrite Nat.sub_0_r.
  - rewrite !IH by (try lia; intros; apply Ht; lia).
    destruct (Nat.eqb_spec i (s - k)), (Nat.eqb_spec (i + 1) (s - k)), (Nat.eqb_spec i (s - S k)); try lia; try ring.
    + rewrite (Ht i) by lia. rewrite Rminus_eq_0, ratio_0_l. ring.
    + replace (i + S k + 1)%nat with (s + 1)%nat by lia. rewrite (Ht (i + 1)%nat) by lia.
      rewrite Rmult_0_r, ratio_nz by (intro; lra). field. intro; lra.
Qed.
Lemma cdb_at_right t s k i u : (forall j, (s + 1 <= j <= s + k)%nat -> t j = u) -> t s < u ->
  cdb t s k i u = if (i =? s)%nat then 1 else 0.
Proof.
  intros Ht Hu. revert i. induction k as [|k IH]; intros i; cbn [cdb]; [reflexivity|].
  rewrite !IH by (intros; apply Ht; lia).
  destruct (Nat.eqb_spec i s), (Nat.eqb_spec (i + 1) s); try lia; try ring.
  - subst i. rewrite (Ht (s + S k)%nat) by lia. rewrite ratio_nz by (intro; lra). field. intro; lra.
  - replace (i + S k + 1)%nat with (s + S k)%nat by lia. rewrite (Ht (s + S k)%nat) by lia.
    rewrite Rminus_eq_0, ratio_0_l. ring.
Qed.
Lemma comb3_pick w cps i : (i < length cps)%nat -> (forall a, (a < length cps)%nat -> w a = if (a =? i)%nat then 1 else 0) ->
  comb3 w cps = nth i cps vzero.
Proof.
  intros Hi Hw. rewrite (comb3_ext w (fun a => if (a =? i)%nat then 1 else 0)) by assumption. apply vec3_ext;
  rewrite (comb3_coord _) by auto with linear; rewrite (sumf_single _ _ i) by (try assumption; intros a _ NE; now rewrite (proj2 (Nat.eqb_neq a i)), Rmult_0_l);
  rewrite Nat.eqb_refl; ring.
Qed.

Lemma comb3_firstn w cps q : (q <= length cps)%nat -> (forall i, (q <= i < length cps)%nat -> w i = 0) ->
  comb3 w cps = comb3 w (firstn q cps).
Proof.
  intros Hq H. apply vec3_ext; rewrite !(comb3_coord _) by auto with linear; rewrite firstn_length, Nat.min_l by lia;
  replace (length cps) with (q + (length cps - q))%nat by lia; rewrite sumf_app;
  (rewrite (sumf_zero (fun i => w (q + i)%nat * _)) by (intros i Hi; rewrite H by lia; ring));
  rewrite Rplus_0_r; apply sumf_ext; intros i Hi; now rewrite nth_firstn by lia.
Qed.
Lemma comb3_skipn w cps q : (q <= length cps)%nat -> (forall i, (i < q)%nat -> w i = 0) ->
  comb3 w cps = comb3 (fun i => w (i + q)%nat) (skipn q cps).
Proof.
  intros Hq H. apply vec3_ext; rewrite !(comb3_coord _) by auto with linear; rewrite skipn_length;
  replace (length cps) with (q + (length cps - q))%nat at 1 by lia; rewrite sumf_app;
  (rewrite (sumf_zero (fun i => w i * _)) by (intros i Hi; rewrite H by lia; ring));
  rewrite Rplus_0_l; apply sumf_ext; intros i Hi; rewrite nth_skipn; now rewrite (Nat.add_comm i q).
Qed.

Lemma near_refl_R (a : R) : near a a = true.
Proof. unfold near, abs_diff_eq, ftol; rnum. rewrite Rminus_eq_0, Rabs_R0. apply Rleb_true. lra. Qed.
Section Split.
Variables (c : BSpline R (vec3 R)) (t x : R) (i0 s : nat).
Hypothesis Hv : valid_bspline c.
Let ks := bs_knots c.
Let p := bs_degree c.
Let n := length (bs_cps c).
Hypothesis Hspan : is_span ks t i0.
Hypothesis Ht : t < nth (i0 + 1) ks 0.
Hypothesis Hx : x = if near t (nth i0 ks 0) then nth i0 ks 0 else t.
Hypothesis Hsep : separated (x :: ks).
Hypothesis Hx0 : nth 0 ks 0 < x.
Hypothesis Hxp : nth p ks 0 <= x.
(** s knots are equal to x *)
Hypothesis Hsj : (s <= S i0)%nat.
Hypothesis Hs1 : forall i, (i < S i0 - s)%nat -> nth i ks 0 < x.
Hypothesis Hs2 : forall i, (S i0 - s <= i < S i0)%nat -> nth i ks 0 = x.

Let j := S i0.
Let m := (S p - s)%nat.
Let k := (i0 + m)%nat.
Let HL : length ks = (n + p + 1)%nat. Proof. apply (vb_len _ Hv). Qed.
Let Hsort : sorted ks. Proof. apply (vb_sorted _ Hv). Qed.
Let Hi0 : (i0 + 1 < length ks)%nat. Proof. apply Hspan. Qed.
Let Hxt : nth i0 ks 0 <= x <= t.
Proof. rewrite Hx. destruct Hspan as (_ & _ & H & _). destruct (near _ _); lra. Qed.
Let Hlo : forall i, (i < j)%nat -> nth i ks 0 <= x.
Proof. intros i Hi. apply Rle_trans with (nth i0 ks 0); [|apply Hxt]. apply Hsort. unfold j in Hi. lia. Qed.
Let Hhi : forall i, (j <= i < length ks)%nat -> x < nth i ks 0.
Proof. intros i Hi. apply Rle_lt_trans with t; [apply Hxt|]. apply Rlt_le_trans with (nth (i0 + 1) ks 0); [exact Ht|]. apply Hsort. unfold j in Hi. lia. Qed.
Let Hpj : (p < j)%nat.
Proof. destruct (le_lt_dec j p) as [H|H]; [|assumption]. specialize (Hhi p ltac:(lia)). lra. Qed.

Lemma split_mult : (if near t (nth i0 ks 0) then mm <- multiplicity ks i0 ;; Ok (nth i0 ks 0, mm) else Ok (t, 0%nat)) = Ok (x, s).
Proof.
  destruct (near t (nth i0 ks 0)) eqn:En.
  - rewrite (multiplicity_block ks x j s i0); auto; [cbn [obind]; now rewrite Hx|apply (vb_sep _ Hv)|unfold j; lia|lia].
  - rewrite Hx. do 2 f_equal. destruct s as [|s'] eqn:Es; [reflexivity|exfalso].
    specialize (Hs2 i0 ltac:(lia)). rewrite Hx in Hs2. rewrite Hs2 in En. rewrite near_refl_R in En. discriminate.
Qed.

Theorem split_result : exists c0 c1, bspline_split c t = Ok (c0, c1) /\ valid_bspline c0 /\ valid_bspline c1 /\
  bs_degree c0 = p /\ bs_degree c1 = p /\
  bs_knots c0 = firstn j ks ++ repeat x m /\ bs_knots c1 = repeat x (p + 1) ++ skipn j ks /\
  (forall u, nth 0 ks 0 <= u < x -> bspline3_get_point c0 u = bspline3_get_point c u) /\
  (forall u, x <= u -> bspline3_get_point c1 u = bspline3_get_point c u) /\
  ((s <= p)%nat -> bspline3_get_point c0 x = bspline3_get_point c x).
Proof.
  destruct (rep_result c x j Hv ltac:(fold ks; unfold j; lia) Hlo Hhi Hsep Hpj m) as [c' (E1 & Hv' & Hd' & Hk' & HL' & Hc' & Hlast')].
  fold ks p n in E1, Hd', Hk', HL', Hc', Hlast'.
  assert (Hjl : (j < length ks)%nat) by (unfold j; lia).
  assert (LK : length (bs_knots c') = (length ks + m)%nat) by (rewrite Hk'; apply ins_rep_length; lia).
  assert (KN : forall i, nth i (bs_knots c') 0 = if (i <? j)%nat then nth i ks 0 else if (i <? j + m)%nat then x else nth (i - m) ks 0).
  { intros i. rewrite Hk'. apply nth_ins_rep. lia. }
  assert (Kx : forall i, (k - p <= i <= k)%nat -> nth i (bs_knots c') 0 = x).
  { intros i Hi. rewrite KN. destruct (Nat.ltb_spec i j).
    - apply Hs2. unfold k, m, j in *. lia.
    - rewrite (proj2 (Nat.ltb_lt i (j + m))); [reflexivity|]. unfold k, j in *. lia. }
  assert (Kk1 : x < nth (k + 1) (bs_knots c') 0).
  { rewrite KN. rewrite (proj2 (Nat.ltb_ge _ j)), (proj2 (Nat.ltb_ge _ (j + m))) by (unfold k, j; lia).
    apply Hhi. unfold k, j in *. lia. }
  assert (Hkp : (p <= k)%nat) by (unfold k, j in *; lia).
  assert (S' : sorted (bs_knots c')) by apply (vb_sorted _ Hv').
  assert (K0 : nth 0 (bs_knots c') 0 = nth 0 ks 0) by (rewrite KN; now rewrite (proj2 (Nat.ltb_lt 0 j)) by (unfold j; lia)).
  assert (KL : nth (length (bs_knots c') - 1) (bs_knots c') 0 = nth (length ks - 1) ks 0).
  { rewrite LK, KN. rewrite (proj2 (Nat.ltb_ge _ j)), (proj2 (Nat.ltb_ge _ (j + m))) by lia. f_equal. lia. }
  assert (XL : x < nth (length ks - 1) ks 0) by (apply Hhi; lia).
  assert (Hk1 : (1 <= k - p)%nat).
  { destruct (Nat.eq_dec (k - p) 0) as [E|]; [|lia]. specialize (Kx 0%nat ltac:(lia)). rewrite K0 in Kx. lra. }
  assert (HspanK : is_span (bs_knots c') x k).
  { split; [rewrite LK; unfold k; lia|]. rewrite (Kx k) by lia. split; [assumption|]. split; [lra|]. now left. }
  assert (Hkn : (k - p < length (bs_cps c'))%nat) by (rewrite HL'; unfold k; lia).
  set (c0 := mkBSpline (firstn (k - p) (bs_cps c')) (firstn (k + 1) (bs_knots c')) p).
  set (c1 := mkBSpline (skipn (k - p) (bs_cps c')) (skipn (k - p) (bs_knots c')) p).
  exists c0, c1.
  assert (V0 : valid_bspline c0).
  { unfold c0. split; cbn [bs_knots bs_cps bs_degree].
    - intros a b Hab. rewrite firstn_length in Hab. rewrite !nth_firstn by lia. apply S'. lia.
    - apply (separated_incl (bs_knots c')); [apply (vb_sep _ Hv')|]. intros a Ha. rewrite <- (firstn_skipn (k + 1)). apply in_or_app. now left.
    - rewrite !firstn_length. unfold k in *. lia.
    - rewrite firstn_length. lia. }
  assert (V1 : valid_bspline c1).
  { unfold c1. split; cbn [bs_knots bs_cps bs_degree].
    - intros a b Hab. rewrite skipn_length in Hab. rewrite !nth_skipn. apply S'. lia.
    - apply (separated_incl (bs_knots c')); [apply (vb_sep _ Hv')|]. intros a Ha. rewrite <- (firstn_skipn (k - p)). apply in_or_app. now right.
    - rewrite !skipn_length. unfold k in *. lia.
    - rewrite skipn_length. lia. }
  assert (EQ : bspline_split c t = Ok (c0, c1)).
  { unfold bspline_split. fold ks p. rewrite (span_index_spec ks t i0) by (auto; apply (vb_sep _ Hv)). cbn [obind].
    rewrite (idx_nth _ _ 0) by lia. cbn [obind]. rewrite split_mult. cbn [obind].
    replace (length (range_incl s p)) with m by (unfold range_incl; rewrite seq_length; reflexivity).
    rewrite E1. cbn [obind]. rewrite (span_index_spec (bs_knots c') x k) by (auto; apply (vb_sep _ Hv')). cbn [obind].
    rewrite slice_Ok by (rewrite ?LK; unfold k; lia). cbn [obind]. rewrite usub_Ok by lia. cbn [obind].
    rewrite !slice_Ok by (rewrite ?LK; unfold k in *; lia). cbn [obind]. unfold c0, c1. rewrite !Nat.sub_0_r. cbn [skipn].
    do 3 f_equal.
    - rewrite firstn_all2 by (rewrite skipn_length; lia). reflexivity.
    - rewrite firstn_all2 by (rewrite skipn_length; lia). reflexivity. }
  split; [exact EQ|]. split; [exact V0|]. split; [exact V1|]. split; [reflexivity|]. split; [reflexivity|].
  split.
  { unfold c0; cbn [bs_knots]. rewrite Hk'. unfold ins_rep. rewrite app_assoc, firstn_app.
    rewrite app_length, repeat_length, firstn_length. replace (k + 1 - (Nat.min j (length ks) + m))%nat with 0%nat by (unfold k, j; lia).
    cbn [firstn]. rewrite app_nil_r. apply firstn_all2. rewrite app_length, repeat_length, firstn_length. unfold k, j. lia. }
  split.
  { unfold c1; cbn [bs_knots]. apply (nth_ext_len _ _ 0).
    - rewrite skipn_length, LK, app_length, repeat_length, skipn_length. unfold k, j in *. lia.
    - intros i Hi. rewrite skipn_length, LK in Hi. rewrite nth_skipn. destruct (le_lt_dec (p + 1) i) as [H|H].
      + rewrite app_nth2 by (rewrite repeat_length; lia). rewrite repeat_length, nth_skipn, KN.
        rewrite (proj2 (Nat.ltb_ge _ j)), (proj2 (Nat.ltb_ge _ (j + m))) by (unfold k, j in *; lia). f_equal. unfold k, j in *. lia.
      + rewrite app_nth1 by (rewrite repeat_length; lia). rewrite (nth_indep (repeat x (p + 1)) 0 x) by (rewrite repeat_length; lia). rewrite nth_repeat.
        apply Kx. lia. }
  assert (CC : forall u, nth 0 ks 0 <= u -> bspline3_get_point c' u = bspline3_get_point c u).
  { intros u Hu. destruct (span_exists ks u Hsort ltac:(lia) ltac:(lra) Hu) as [su Hsu]. apply (Hc' u su Hsu). lia. }
  split; [|split].
  - intros u Hu. rewrite <- CC by lra.
    destruct (span_exists (bs_knots c') u S' ltac:(lia) ltac:(lra) ltac:(lra)) as [s' Hs'].
    assert (Hlt : (s' < k - p)%nat).
    { destruct (le_lt_dec (k - p) s') as [H|H]; [exfalso|assumption]. destruct Hs' as (G1 & _ & G3 & _).
      assert (nth (k - p) (bs_knots c') 0 <= nth s' (bs_knots c') 0) by (apply S'; lia). rewrite Kx in H0 by lia. lra. }
    rewrite (bspline_eval c' u s' Hv' Hs').
    assert (Hs0 : is_span (bs_knots c0) u s').
    { destruct Hs' as (G1 & G2 & G3 & G4). unfold c0; cbn [bs_knots]. unfold is_span. rewrite !nth_firstn by lia.
      rewrite firstn_length. split; [lia|]. split; [assumption|]. split; [assumption|]. left. destruct G4 as [G4|G4]; [assumption|]. lra. }
    rewrite (bspline_eval c0 u s' V0 Hs0). f_equal. unfold c0; cbn [bs_cps bs_degree bs_knots]. rewrite Hd'.
    symmetry. rewrite (comb3_firstn _ (bs_cps c') (k - p)) by (try lia; intros i Hi; apply cdb_support; lia).
    apply comb3_ext. intros i Hi. rewrite firstn_length in Hi. apply cdb_ext. intros a Ha. now rewrite nth_firstn by lia.
  - intros u Hu. rewrite <- CC by lra.
    destruct (span_exists (bs_knots c') u S' ltac:(lia) ltac:(lra) ltac:(lra)) as [s' Hs'].
    assert (Hge : (k <= s')%nat).
    { destruct (le_lt_dec k s') as [H|H]; [assumption|exfalso]. destruct Hs' as (G1 & G2 & G3 & G4).
      assert (nth (s' + 1) (bs_knots c') 0 <= nth k (bs_knots c') 0) by (apply S'; unfold k in *; lia). rewrite (Kx k) in H0 by lia. lra. }
    rewrite (bspline_eval c' u s' Hv' Hs').
    assert (Hs1' : is_span (bs_knots c1) u (s' - (k - p))).
    { destruct Hs' as (G1 & G2 & G3 & G4). unfold c1; cbn [bs_knots]. unfold is_span. rewrite !nth_skipn, skipn_length.
      replace (k - p + (s' - (k - p)))%nat with s' by lia. replace (k - p + (s' - (k - p) + 1))%nat with (s' + 1)%nat by lia.
      replace (k - p + (length (bs_knots c') - (k - p) - 1))%nat with (length (bs_knots c') - 1)%nat by (unfold k in *; lia).
      repeat split; try assumption. lia. }
    rewrite (bspline_eval c1 u _ V1 Hs1'). f_equal. unfold c1; cbn [bs_cps bs_degree bs_knots]. rewrite Hd'.
    symmetry. rewrite (comb3_skipn _ (bs_cps c') (k - p)) by (try lia; intros i Hi; apply cdb_support; lia).
    apply comb3_ext. intros i Hi. rewrite skipn_length in Hi.
    rewrite (cdb_ext (fun a => nth a (skipn (k - p) (bs_knots c')) 0) (fun a => (fun b => nth b (bs_knots c') 0) (a + (k - p))%nat))
      by (intros a _; rewrite nth_skipn; f_equal; lia).
    rewrite (cdb_shift (fun b => nth b (bs_knots c') 0)). f_equal. lia.
  - intros Hsp. rewrite <- CC by lra.
    assert (Hm1 : m = S (p - s)) by (unfold m; lia).
    destruct (Hlast' _ Hm1 Hjl) as [EE|EE]; [| |unfold k in Hk1; unfold j in EE; lia].
    { destruct (Nat.eq_dec p 0) as [|Np]; [now left|right]. rewrite nth_ins_rep by lia.
      destruct (Nat.ltb_spec (j + (p - s) - p) j); [apply Hs2; unfold j; lia|].
      rewrite (proj2 (Nat.ltb_lt _ (j + (p - s)))) by lia. reflexivity. }
    replace (j + (p - s))%nat with k in EE by (unfold j, k; lia).
    rewrite (bspline_eval c' x k Hv' HspanK).
    rewrite (comb3_pick _ (bs_cps c') (k - p) Hkn).
    2:{ intros a Ha. rewrite Hd'. apply cdb_at_left; [lia| |assumption]. intros b Hb. apply Kx. lia. }
    rewrite EE.
    assert (KB : nth (k - p - 1) (bs_knots c') 0 < x).
    { rewrite KN. rewrite (proj2 (Nat.ltb_lt _ j)) by (unfold k, j; lia). apply Hs1. unfold k, j, m in *. lia. }
    assert (HS0 : is_span (bs_knots c0) x (k - p - 1)).
    { unfold c0; cbn [bs_knots]. unfold is_span. rewrite firstn_length, LK. rewrite !nth_firstn by lia.
      replace (k - p - 1 + 1)%nat with (k - p)%nat by lia. rewrite (Kx (k - p)%nat) by lia.
      replace (Nat.min (k + 1) (length ks + m) - 1)%nat with k by (unfold k; lia). rewrite (Kx k) by lia.
      split; [unfold k in *; lia|]. split; [assumption|]. split; [lra|]. right. split; [reflexivity|lra]. }
    rewrite (bspline_eval c0 x _ V0 HS0). f_equal. unfold c0; cbn [bs_cps bs_degree bs_knots].
    rewrite (comb3_pick _ _ (k - p - 1)).
    + now rewrite nth_firstn by lia.
    + rewrite firstn_length. lia.
    + intros a Ha. apply cdb_at_right.
      * intros b Hb. rewrite nth_firstn by lia. apply Kx. lia.
      * rewrite nth_firstn by lia. assumption.
Qed.
End Split.
