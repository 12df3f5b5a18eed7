(** Properties C06-C09 (B-spline basis) and C15-C17 (knot vectors). *)
From Coq Require Import Reals Lra Psatz Lia Arith SpecFloat Permutation.
From Verif Require Import Prelude Num M_vec M_utils M_curve L_base L_vec L_cdb L_knot.
Open Scope R_scope.

Definition knots_of (ks : list R) (i : nat) : R := nth i ks 0.

(** ** C06: the basis values are the Cox-de Boor functions. *)
Theorem C06_basis_is_cox_de_boor (ks : list R) (degree : nat) (u : R) :
  sorted ks -> separated ks -> (degree + 1 < length ks)%nat ->
  nth 0 ks 0 < nth (length ks - 1) ks 0 -> nth 0 ks 0 <= u ->
  exists s, is_span ks u s /\
    bspline_basis ks degree u = Ok (map (fun i => cdb (knots_of ks) s degree i u) (seq 0 (length ks - 1 - degree))).
Proof.
  intros Hs Hsep Hp Hne Hu. destruct (span_exists ks u Hs ltac:(lia) Hne Hu) as [s Hspan].
  exists s. split; [assumption|]. now apply basis_cdb.
Qed.

(** the span is determined by the parameter: the functions above are well defined *)
Theorem C06_span_unique (ks : list R) (u : R) (s s' : nat) :
  sorted ks -> is_span ks u s -> is_span ks u s' -> s = s'.
Proof.
  assert (K : forall a b, sorted ks -> is_span ks u a -> is_span ks u b -> (a < b)%nat -> False).
  { intros a b Hs (Ha1 & Ha2 & Ha3 & Ha4) (Hb1 & Hb2 & Hb3 & Hb4) Hab.
    assert (nth (a + 1) ks 0 <= nth b ks 0) by (apply Hs; lia).
    assert (nth (b + 1) ks 0 <= nth (length ks - 1) ks 0) by (apply Hs; lia).
    destruct Ha4 as [Ha4|[Ha4 Ha5]]; lra. }
  intros Hs H1 H2. destruct (lt_eq_lt_dec s s') as [[H|H]|H]; [exfalso; eauto|assumption|exfalso; eauto].
Qed.

(** an unclamped knot vector with a double interior knot *)
Definition ks_ex : list R := [0; 1; 2; 2; 3; 5].
Lemma sorted_by_pairs ks : (forall i, (i + 1 < length ks)%nat -> nth i ks 0 <= nth (i + 1) ks 0) -> sorted ks.
Proof.
  intros H i j [Hij Hj]. induction Hij as [|m Hm IH]; [lra|].
  eapply Rle_trans; [apply IH; lia|]. replace (S m) with (m + 1)%nat by lia. apply H. lia.
Qed.
Lemma ks_ex_sorted : sorted ks_ex.
Proof. apply sorted_by_pairs. intros i Hi. do 5 (destruct i as [|i]; [cbn; lra|]). cbn in Hi. lia. Qed.
Lemma separated_ints ks : (forall a, In a ks -> exists z : Z, a = IZR z /\ (-1000 <= z <= 1000)%Z) -> separated ks.
Proof.
  intros H a b Ha Hb NE.
  destruct (H a Ha) as [za [-> Hza]]. destruct (H b Hb) as [zb [-> Hzb]].
  assert (Hz : (1 <= Z.abs (za - zb))%Z) by (assert (za <> zb) by congruence; lia).
  apply IZR_le in Hz. rewrite abs_IZR, minus_IZR in Hz.
  assert (Ba : Rabs (IZR za) <= 1000) by (rewrite <- abs_IZR; apply IZR_le; lia).
  assert (Bb : Rabs (IZR zb) <= 1000) by (rewrite <- abs_IZR; apply IZR_le; lia).
  assert (Rmax 1 (Rmax (Rabs (IZR za)) (Rabs (IZR zb))) <= 1000) by (repeat apply Rmax_lub; lra).
  lra.
Qed.
Lemma ks_ex_separated : separated ks_ex.
Proof.
  apply separated_ints. intros a Ha. cbn in Ha.
  repeat (destruct Ha as [<-|Ha]; [eexists; split; [reflexivity|lia]|]). destruct Ha.
Qed.
Example C06_nonvacuous :
  bspline_basis ks_ex 2 (3 / 2) = Ok [5/8; 1/4; 0] /\ is_span ks_ex (3/2) 1.
Proof.
  assert (Hsp : is_span ks_ex (3/2) 1).
  { unfold is_span, ks_ex. cbn. repeat split; try lia; try lra. }
  split; [|assumption].
  rewrite (basis_cdb ks_ex 2 (3/2) 1) by (auto using ks_ex_sorted, ks_ex_separated; cbn; lia).
  unfold ks_ex, ratio. cbn. f_equal. unfold ratio.
  repeat match goal with |- context [Req_EM_T ?a ?b] => destruct (Req_EM_T a b); try (exfalso; lra) end.
  repeat (apply f_equal2; [lra|]). reflexivity.
Qed.

(** ** C07: non-negativity, local support, partition of unity. *)
Theorem C07_basis_nonneg (ks : list R) (degree : nat) (u : R) (values : list R) :
  sorted ks -> separated ks -> (degree + 1 < length ks)%nat ->
  nth 0 ks 0 < nth (length ks - 1) ks 0 -> nth 0 ks 0 <= u <= nth (length ks - 1) ks 0 ->
  bspline_basis ks degree u = Ok values -> forall v, In v values -> 0 <= v.
Proof.
  intros Hs Hsep Hp Hne Hu E v Hv.
  destruct (C06_basis_is_cox_de_boor ks degree u Hs Hsep Hp Hne (proj1 Hu)) as [s [Hspan E']].
  rewrite E' in E. apply Ok_inj in E. subst values. apply in_map_iff in Hv. destruct Hv as [i [<- Hi]].
  apply in_seq in Hi. destruct Hspan as (H1 & H2 & H3 & H4).
  set (D := nth (length ks - 1) ks 0).
  assert (HT : mono (fun i => nth i ks D)) by (apply sorted_mono; [assumption|]; intros; now apply sorted_le_last).
  rewrite (cdb_ext _ (fun i => nth i ks D)) by (intros j Hj; apply nth_indep; lia).
  apply cdb_nonneg; [assumption|]. rewrite !(nth_indep ks D 0) by lia. split; [assumption|].
  destruct H4 as [H4|[H4 H5]]; [lra|]. rewrite H4. lra.
Qed.

Theorem C07_basis_local_support (ks : list R) (degree : nat) (u : R) (values : list R) (s : nat) :
  sorted ks -> separated ks -> (degree + 1 < length ks)%nat -> is_span ks u s ->
  bspline_basis ks degree u = Ok values ->
  length values = (length ks - 1 - degree)%nat /\
  forall i, (i < length values)%nat -> nth i values 0 <> 0 -> (i <= s <= i + degree)%nat.
Proof.
  intros Hs Hsep Hp Hspan E. rewrite (basis_cdb ks degree u s) in E by assumption. apply Ok_inj in E. subst values.
  split; [now rewrite map_length, seq_length|]. rewrite map_length, seq_length. intros i Hi.
  rewrite (nth_map_default _ _ _ 0%nat) by now rewrite seq_length. rewrite seq_nth by assumption. cbn [Nat.add].
  intros HN. destruct (le_lt_dec i s); [|exfalso; apply HN; apply cdb_support; lia].
  destruct (le_lt_dec s (i + degree)); [lia|exfalso; apply HN; apply cdb_support; lia].
Qed.

Lemma domain_span ks degree u s : sorted ks -> is_span ks u s ->
  let m := (length ks - 1 - degree)%nat in
  (degree + 1 < length ks)%nat ->
  nth degree ks 0 <= u ->
  (u < nth m ks 0 \/ (nth degree ks 0 < nth m ks 0 /\ nth m ks 0 = nth (length ks - 1) ks 0)) ->
  (degree <= s < m)%nat.
Proof.
  intros Hs (H1 & H2 & H3 & H4) m Hp Hlo Hhi.
  assert (Hm : (m < length ks)%nat) by lia.
  split.
  - destruct (le_lt_dec degree s) as [H|H]; [assumption|exfalso].
    assert (nth (s + 1) ks 0 <= nth degree ks 0) by (apply Hs; lia).
    destruct H4 as [H4|[H4 H5]]; [lra|]. destruct Hhi as [Hhi|[Hhi1 Hhi2]]; [|lra].
    assert (nth m ks 0 <= nth (length ks - 1) ks 0) by (apply Hs; lia). lra.
  - destruct (le_lt_dec m s) as [H|H]; [exfalso|assumption].
    assert (nth m ks 0 <= nth s ks 0) by (apply Hs; lia).
    destruct Hhi as [Hhi|[Hhi1 Hhi2]]; [lra|].
    assert (nth (s + 1) ks 0 <= nth (length ks - 1) ks 0) by (apply Hs; lia). lra.
Qed.

(** On the domain [t_p, t_m) (closed at the right end when t_m is the last knot), and beyond the
    last knot, the values sum to one.  m is the number of basis functions. *)
Theorem C07_partition_of_unity (ks : list R) (degree : nat) (u : R) (values : list R) :
  sorted ks -> separated ks -> (degree + 1 < length ks)%nat ->
  let m := (length ks - 1 - degree)%nat in
  nth degree ks 0 <= u ->
  (u < nth m ks 0 \/ (nth degree ks 0 < nth m ks 0 /\ nth m ks 0 = nth (length ks - 1) ks 0)) ->
  bspline_basis ks degree u = Ok values -> fold_right Rplus 0 values = 1.
Proof.
  intros Hs Hsep Hp m Hlo Hhi E.
  assert (H0 : nth 0 ks 0 <= nth degree ks 0) by (apply Hs; lia).
  assert (HL : nth m ks 0 <= nth (length ks - 1) ks 0) by (apply Hs; lia).
  assert (Hne : nth 0 ks 0 < nth (length ks - 1) ks 0) by (destruct Hhi as [Hhi|[Hhi1 Hhi2]]; lra).
  destruct (C06_basis_is_cox_de_boor ks degree u Hs Hsep Hp Hne ltac:(lra)) as [s [Hspan E']].
  rewrite E' in E. apply Ok_inj in E. subst values. fold m.
  pose proof (domain_span ks degree u s Hs Hspan Hp Hlo Hhi) as Hd. fold m in Hd.
  destruct Hspan as (H1 & H2 & H3 & H4).
  set (D := nth (length ks - 1) ks 0).
  assert (HT : mono (fun i => nth i ks D)) by (apply sorted_mono; [assumption|]; intros; now apply sorted_le_last).
  change (sumf (fun i => cdb (knots_of ks) s degree i u) m = 1).
  rewrite (sumf_ext _ (fun i => cdb (fun i => nth i ks D) s degree i u)).
  2:{ intros i Hi. apply cdb_ext. intros j Hj. apply nth_indep. lia. }
  apply cdb_sum; [assumption|rewrite !(nth_indep ks D 0) by lia; assumption|lia|lia].
Qed.
Example C07_nonvacuous : exists values, bspline_basis ks_ex 2 (5/2) = Ok values /\
  nth 2 ks_ex 0 <= 5/2 < nth 3 ks_ex 0 + 1 /\ length values = 3%nat.
Proof.
  destruct (C06_basis_is_cox_de_boor ks_ex 2 (5/2)) as [s [_ E]];
    [apply ks_ex_sorted|apply ks_ex_separated|cbn; lia|cbn; lra|cbn; lra|].
  eexists. split; [exact E|]. split; [cbn; lra|]. now rewrite map_length, seq_length.
Qed.
Example C07_partition_nonvacuous : nth 2 ks_ex 0 <= 2 /\ (2 < nth 4 ks_ex 0)%R. 
Proof. cbn. lra. Qed.

(** ** C08: span_index. *)
Theorem C08_span_index (ks : list R) (u : R) :
  sorted ks -> separated ks -> (length ks >= 2)%nat ->
  nth 0 ks 0 < nth (length ks - 1) ks 0 -> nth 0 ks 0 <= u ->
  exists s, span_index ks u = Ok s /\ (s < length ks - 1)%nat /\
    nth s ks 0 < nth (s + 1) ks 0 /\ nth s ks 0 <= u /\
    (u < nth (length ks - 1) ks 0 -> u < nth (s + 1) ks 0) /\
    (nth (length ks - 1) ks 0 <= u -> nth (s + 1) ks 0 = nth (length ks - 1) ks 0).
Proof.
  intros Hs Hsep HL Hne Hu. destruct (span_exists ks u Hs HL Hne Hu) as [s Hspan].
  exists s. split; [now apply span_index_spec|]. destruct Hspan as (H1 & H2 & H3 & H4).
  assert (nth (s + 1) ks 0 <= nth (length ks - 1) ks 0) by (apply Hs; lia).
  repeat split; try assumption; try lia; destruct H4 as [H4|[H4 H5]]; lra.
Qed.

Lemma filter_length_le {A} (p : A -> bool) l : (length (filter p l) <= length l)%nat.
Proof. induction l as [|a l IH]; cbn; [lia|]. destruct (p a); cbn; lia. Qed.
Lemma filter_length_lt {A} (p : A -> bool) l x : In x l -> p x = false -> (length (filter p l) < length l)%nat.
Proof.
  induction l as [|a l IH]; cbn; [tauto|]. intros [->|H] Hp.
  - rewrite Hp. pose proof (filter_length_le p l). lia.
  - specialize (IH H Hp). destruct (p a); cbn; lia.
Qed.
Lemma filter_length_pos {A} (p : A -> bool) l x : In x l -> p x = true -> (0 < length (filter p l))%nat.
Proof.
  induction l as [|a l IH]; cbn; [tauto|]. intros [->|H] Hp.
  - rewrite Hp. cbn. lia.
  - specialize (IH H Hp). destruct (p a); cbn; lia.
Qed.

(** in any arithmetic *)
Lemma span_index_total {F} {NF : Num F} (ks : list F) (u : F) (last x : F) :
  (forall t : F, fleb t u = true -> ulps_eq t t = true) ->
  ks <> [] -> List.last ks last = last -> In x ks -> ulps_eq last x = false ->
  exists s, span_index ks u = Ok s /\
    ((exists t, In t ks /\ fleb t u = true) -> (s < length ks - 1)%nat).
Proof.
  intros Hrefl Hne Hlast Hx Hulps.
  assert (HL : (0 < length ks)%nat) by (destruct ks; [congruence|cbn; lia]).
  assert (Hln : nth (length ks - 1) ks last = last).
  { rewrite <- Hlast at 2. clear - Hne. induction ks as [|a l IH]; [congruence|].
    destruct l as [|b l]; [reflexivity|]. cbn [length Nat.sub] in *. rewrite Nat.sub_0_r in IH.
    change (nth (S (length l)) (a :: b :: l) last) with (nth (length l) (b :: l) last). rewrite IH by congruence. reflexivity. }
  unfold span_index, multiplicity. destruct ks as [|k0 ks'] eqn:Eks; [congruence|]. rewrite <- Eks in *. clear Eks k0 ks'.
  destruct (rposition (fun t => fleb t u) ks) as [i|] eqn:E.
  - apply (rposition_Some _ _ _ last) in E. destruct E as [Hi [Hp Hr]].
    rewrite usub_Ok by lia. cbn [obind]. destruct (Nat.eqb_spec i (length ks - 1)) as [Ei|Ei].
    + subst i. rewrite (idx_nth _ _ last) by lia. cbn [obind]. rewrite Hln in *.
      pose proof (filter_length_lt (fun u => ulps_eq last u) ks x Hx Hulps).
      assert (Hin : In last ks) by (rewrite <- Hln; apply nth_In; lia).
      pose proof (filter_length_pos (fun u => ulps_eq last u) ks last Hin (Hrefl last Hp)).
      rewrite usub_Ok by lia. eexists. split; [reflexivity|]. intros _. lia.
    + eexists. split; [reflexivity|]. intros _. lia.
  - rewrite (idx_nth _ _ last) by lia. cbn [obind]. eexists. split; [reflexivity|].
    intros [t [Ht1 Ht2]]. rewrite rposition_None in E. rewrite E in Ht2 by assumption. discriminate.
Qed.

Theorem C08_span_index_never_panics_f64 (ks : list f64) (u last x : f64) :
  ks <> [] -> List.last ks last = last -> In x ks -> ulps_eq last x = false ->
  exists s, span_index ks u = Ok s /\
    ((exists t, In t ks /\ SFleb t u = true) -> (s < length ks - 1)%nat).
Proof.
  apply (span_index_total (NF := F64Num)). intros t Ht.
  unfold ulps_eq. apply orb_true_iff. right. cbn [fulps4 F64Num]. unfold f64_ulps4.
  rewrite Bool.eqb_reflx, Z.sub_diag. cbn [Z.abs Z.leb Z.compare]. rewrite !andb_true_r.
  destruct t; try reflexivity. discriminate.
Qed.
Theorem C08_span_index_never_panics (ks : list R) (u last x : R) :
  ks <> [] -> List.last ks last = last -> In x ks -> ulps_eq last x = false ->
  exists s, span_index ks u = Ok s /\
    ((exists t, In t ks /\ t <= u) -> (s < length ks - 1)%nat).
Proof.
  intros H1 H2 H3 H4. destruct (span_index_total ks u last x) as [s [E H]]; [intros; apply ulps_eq_refl_R|assumption..|].
  exists s. split; [assumption|]. intros [t [Ht1 Ht2]]. apply H. exists t. split; [assumption|]. rnum. now apply Rleb_true.
Qed.
(** NaN as a parameter *)
Example C08_f64_nonvacuous :
  let ks := map f64_of_Z [0; 0; 1; 2; 2]%Z in
  span_index ks S754_nan = Ok 2%nat /\ ulps_eq (f64_of_Z 2) (f64_of_Z 0) = false.
Proof. vm_compute. split; reflexivity. Qed.

(** ** C09: parameters outside the knot range. *)
Theorem C09_above_range (ks : list R) (degree : nat) (u : R) (values : list R) :
  sorted ks -> separated ks -> (degree + 1 < length ks)%nat ->
  nth degree ks 0 < nth (length ks - 1) ks 0 ->
  nth (length ks - 1 - degree) ks 0 = nth (length ks - 1) ks 0 ->
  nth (length ks - 1) ks 0 <= u ->
  bspline_basis ks degree u = Ok values -> fold_right Rplus 0 values = 1.
Proof.
  intros Hs Hsep Hp Hne Hcl Hu E.
  apply (C07_partition_of_unity ks degree u); auto; [lra|]. right. split; [|assumption]. rewrite Hcl. lra.
Qed.

Lemma nth_bezier_knot p i : nth i (bezier_knot p : list R) 0 = if ((p <? i) && (i <? 2 * p + 2))%nat then 1 else 0.
Proof.
  unfold bezier_knot. rnum. destruct (Nat.ltb_spec p i); cbn [andb].
  - rewrite app_nth2 by (rewrite repeat_length; lia). rewrite repeat_length.
    destruct (Nat.ltb_spec i (2 * p + 2)).
    + rewrite (nth_indep _ 0 1) by (rewrite repeat_length; lia). apply nth_repeat.
    + rewrite nth_overflow; [reflexivity|]. rewrite repeat_length. lia.
  - rewrite app_nth1 by (rewrite repeat_length; lia). apply nth_repeat.
Qed.
Lemma bezier_knot_length {F} {NF : Num F} p : length (bezier_knot p : list F) = (2 * p + 2)%nat.
Proof. unfold bezier_knot. rewrite app_length, !repeat_length. lia. Qed.
Lemma bezier_knot_sorted p : sorted (bezier_knot p).
Proof.
  intros i j [Hij Hj]. rewrite bezier_knot_length in Hj. rewrite !nth_bezier_knot.
  destruct (Nat.ltb_spec p i), (Nat.ltb_spec p j), (Nat.ltb_spec i (2 * p + 2)), (Nat.ltb_spec j (2 * p + 2)); cbn [andb]; lra || lia.
Qed.
Lemma bezier_knot_In p (a : R) : In a (bezier_knot p) -> a = 0 \/ a = 1.
Proof.
  unfold bezier_knot. rnum. intros H. apply in_app_or in H. destruct H as [H|H]; apply repeat_spec in H; auto.
Qed.
Lemma bezier_knot_separated p : separated (bezier_knot p).
Proof.
  apply separated_ints. intros a Ha. destruct (bezier_knot_In p a Ha) as [->| ->]; eexists; (split; [reflexivity|lia]).
Qed.

(** Below the range of a Bezier knot vector every weight is zero (the curve jumps to the origin):
    the expected symmetric behaviour fails for every degree; for degree 0 evaluation panics. *)
Theorem C09_below_range_all_zero (p : nat) (u : R) : (1 <= p)%nat -> u < 0 ->
  bspline_basis (bezier_knot p) p u = Ok (repeat 0 (p + 1)).
Proof.
  intros Hp Hu. set (ks := bezier_knot p : list R).
  assert (HL : length ks = (2 * p + 2)%nat) by apply bezier_knot_length.
  assert (Hk : forall i, nth i ks 0 = if ((p <? i) && (i <? 2 * p + 2))%nat then 1 else 0) by apply nth_bezier_knot.
  unfold bspline_basis. rewrite usub_Ok by lia. cbn [obind].
  assert (E : span_index ks u = Ok (p + 1)%nat).
  { unfold span_index.
    assert (Er : rposition (fun t => fleb t u) ks = None).
    { apply rposition_None. intros a Ha. rnum. apply Rleb_false. destruct (bezier_knot_In p a Ha); lra. }
    rewrite Er. unfold multiplicity. destruct ks as [|k0 ks'] eqn:Eks; [cbn in HL; lia|]. rewrite <- Eks in *. clear Er.
    rewrite (idx_nth _ _ 0) by lia. cbn [obind]. f_equal. apply (filter_count_prefix _ ks (p + 1) 0); [lia| |].
    - intros i Hi. rewrite !Hk. rewrite !(proj2 (Nat.ltb_ge p _)) by lia. cbn [andb]. apply ulps_eq_refl_R.
    - intros i Hi. rewrite !Hk. rewrite (proj2 (Nat.ltb_ge p _)) by lia. rewrite (proj2 (Nat.ltb_lt p i)) by lia.
      rewrite (proj2 (Nat.ltb_lt i _)) by lia. cbn [andb]. apply ulps_eq_false_R.
      rewrite Rabs_left by lra. rewrite Rabs_R0, Rabs_R1. rewrite !Rmax_right by (try apply Rmax_r; lra). lra. }
  rewrite E. cbn [obind]. rewrite upd_Ok by (rewrite repeat_length; lia). cbn [obind].
  set (P := fun (_ : nat) (v : list R) => length v = (2 * p + 1)%nat /\ forall i, (i <= p)%nat -> nth i v 0 = 0).
  match goal with |- context [foldM ?f ?st (range_incl 1 p)] =>
    assert (HF : exists values, foldM f st (range_incl 1 p) = Ok values /\ P (p + 1)%nat values) end.
  { rewrite range_incl_range. replace (S p) with (p + 1)%nat by lia. apply foldM_range; [lia| |].
    - split; [rewrite set_nth_length, repeat_length; lia|]. intros i Hi. rewrite nth_set_nth_neq by lia. apply nth_repeat.
    - intros k values Hkr [HLv HV]. cbn zeta. rewrite (proj2 (Nat.ltb_ge (p + 1) k)) by lia.
      rewrite !(idx_nth _ _ 0) by lia. cbn [obind].
      set (max := if (p + 1 + k <? length ks - 1)%nat then (p + 1)%nat else (length ks - 1 - k - 1)%nat).
      assert (Emax : (if (p + 1 + k <? length ks - 1)%nat then Ok (p + 1)%nat else (a <- usub (length ks - 1) k ;; usub a 1)) = Ok max).
      { unfold max. destruct (Nat.ltb_spec (p + 1 + k) (length ks - 1)); [reflexivity|].
        rewrite usub_Ok by lia. cbn [obind]. now rewrite usub_Ok by lia. }
      rewrite Emax. cbn [obind].
      assert (Hmax : (max + k < 2 * p + 1)%nat /\ (p + 1 - k <= max)%nat).
      { unfold max. destruct (Nat.ltb_spec (p + 1 + k) (length ks - 1)); lia. }
      match goal with |- context [foldM ?f ?st (range_incl ?b max)] =>
        assert (HG : exists st', foldM f st (range_incl b max) = Ok st' /\ P 0%nat (fst st')) end.
      { rewrite range_incl_range. replace (S max) with (max + 1)%nat by lia.
        apply (foldM_range (fun _ st => P 0%nat (fst st))); [lia|split; assumption|].
        intros i [vals a] Hi [HL1 HV1]. cbn [fst snd] in *.
        rewrite !(idx_nth ks _ 0) by lia. cbn [obind]. rewrite !(idx_nth vals _ 0) by lia. cbn [obind].
        rewrite upd_Ok by lia. cbn [obind]. eexists. split; [reflexivity|]. cbn [fst].
        split; [now rewrite set_nth_length|]. intros m Hm. destruct (Nat.eq_dec i m) as [<-|NE].
        - rewrite nth_set_nth_eq by lia. rewrite (HV1 i) by lia. rnum.
          destruct (Nat.eq_dec i p) as [->|NE'].
          + assert (Ed : nth (p + k + 1) ks 0 - nth (p + 1) ks 0 = 0).
            { rewrite !Hk. rewrite !(proj2 (Nat.ltb_lt _ _)) by lia. cbn [andb]. lra. }
            rewrite Ed, inv_or_zero_R, Rabs_R0. destruct (Rle_dec _ _) as [_|Hx]; [lra|exfalso; lra].
          + rewrite (HV1 (i + 1)%nat) by lia. lra.
        - rewrite nth_set_nth_neq by lia. apply HV1. lia. }
      destruct HG as [[vals a] [HG HPv]]. rewrite HG. cbn [obind fst] in *. exists vals. split; [reflexivity|exact HPv]. }
  destruct HF as [values [HF [HLv HV]]]. rewrite HF. cbn [obind]. rewrite usub_Ok by lia. cbn [obind]. f_equal.
  apply (nth_ext_len _ _ 0); [rewrite firstn_length, repeat_length; lia|].
  intros i Hi. rewrite firstn_length in Hi. rewrite nth_firstn by lia. rewrite nth_repeat. apply HV. lia.
Qed.
Theorem C09_below_range_degree0_panics (u : R) : u < 0 -> bspline_basis (bezier_knot 0) 0 u = Panic.
Proof.
  intros Hu. unfold bezier_knot. cbn. unfold bspline_basis, span_index, multiplicity. cbn.
  rewrite (proj2 (Rleb_false 1 u)), (proj2 (Rleb_false 0 u)) by lra. rewrite ulps_eq_refl_R.
  rewrite ulps_eq_false_R; [reflexivity|].
  rewrite Rabs_left by lra. rewrite Rabs_R0, Rabs_R1. rewrite !Rmax_right by (try apply Rmax_r; lra). lra.
Qed.
Theorem C09_symmetric_extrapolation_refuted :
  ~ (forall (ks : list R) (degree : nat) (u : R) (values : list R),
      sorted ks -> separated ks -> (degree + 1 < length ks)%nat ->
      (forall i, (i <= degree)%nat -> nth i ks 0 = nth 0 ks 0) ->
      nth degree ks 0 < nth (length ks - 1) ks 0 ->
      bspline_basis ks degree u = Ok values -> fold_right Rplus 0 values = 1).
Proof.
  intros H. specialize (H (bezier_knot 3) 3%nat (-1/10) (repeat 0 4)).
  cbn [repeat fold_right] in H.
  assert (0 + (0 + (0 + (0 + 0))) = 1); [apply H|lra].
  - apply bezier_knot_sorted.
  - apply bezier_knot_separated.
  - rewrite bezier_knot_length. lia.
  - intros i Hi. rewrite !nth_bezier_knot. destruct (Nat.ltb_spec 3 i); [lia|reflexivity].
  - rewrite bezier_knot_length, !nth_bezier_knot. cbn. lra.
  - apply (C09_below_range_all_zero 3); [lia|lra].
Qed.

(** What happens below the range in general.  Let m be the multiplicity of the first knot.  The
    span used is number m, the one after the first non-empty one; evaluation panics exactly when
    there is no such span.  If it is not empty the values are its Cox-de Boor polynomials: the
    second polynomial piece, not the first one, is extrapolated. *)
Lemma span_index_below ks u m : sorted ks -> separated ks -> (0 < m <= length ks)%nat ->
  (forall i, (i < m)%nat -> nth i ks 0 = nth 0 ks 0) -> ((m < length ks)%nat -> nth 0 ks 0 < nth m ks 0) ->
  u < nth 0 ks 0 -> span_index ks u = Ok m.
Proof.
  intros Hs Hsep Hm Heq Hgt Hu. unfold span_index. rnum.
  assert (Er : rposition (fun t => Rleb t u) ks = None).
  { apply rposition_None. intros a Ha. apply Rleb_false. destruct (In_nth _ _ 0 Ha) as [i [Hi <-]].
    assert (nth 0 ks 0 <= nth i ks 0) by (apply Hs; lia). lra. }
  rewrite Er. unfold multiplicity. destruct ks as [|k0 ks'] eqn:Eks; [cbn in Hm; lia|]. rewrite <- Eks in *. clear Er.
  rewrite (idx_nth _ _ 0) by lia. cbn [obind]. f_equal. apply (filter_count_prefix _ ks m 0); [lia| |].
  - intros i Hi. rewrite (Heq i Hi). apply ulps_eq_refl_R.
  - intros i Hi. rewrite (separated_eq ks) by (auto; apply nth_In; lia).
    destruct (Req_EM_T _ _) as [E|E]; [exfalso|reflexivity].
    assert (nth m ks 0 <= nth i ks 0) by (apply Hs; lia). specialize (Hgt ltac:(lia)). lra.
Qed.

(** Values sum to one whatever span is used (empty ones and unsorted knots included), provided
    it has enough spans on both sides. *)
Lemma basis_sum_any (ks : list R) (p : nat) (u : R) (s : nat) :
  span_index ks u = Ok s -> (s + 1 < length ks)%nat -> (p + 1 < length ks)%nat ->
  exists values, bspline_basis ks p u = Ok values /\ length values = (length ks - 1 - p)%nat /\
    ((p <= s < length ks - 1 - p)%nat -> fold_right Rplus 0 values = 1).
Proof.
  intros E Hs Hp. unfold bspline_basis. rewrite usub_Ok by lia. cbn [obind]. rewrite E. cbn [obind].
  remember (length ks - 1)%nat as n eqn:En.
  rewrite upd_Ok by (rewrite repeat_length; lia). cbn [obind].
  set (P := fun (k : nat) (v : list R) => length v = n /\
    ((p <= s < n - p)%nat -> (forall i, (i + (k - 1) < s \/ s < i)%nat -> nth i v 0 = 0) /\ sumf (fun i => nth i v 0) (s + 1) = 1)).
  match goal with |- context [foldM ?f ?st (range_incl 1 p)] =>
    assert (HF : exists values, foldM f st (range_incl 1 p) = Ok values /\ P (p + 1)%nat values) end.
  { rewrite range_incl_range. replace (S p) with (p + 1)%nat by lia. apply foldM_range; [lia| |].
    - split; [now rewrite set_nth_length, repeat_length|]. intros Hsp. split.
      + intros i Hi. rewrite nth_set_nth_neq by lia. destruct (le_lt_dec n i); [apply nth_overflow; rewrite repeat_length; lia|apply nth_repeat].
      + rewrite (sumf_single _ _ s); [now rewrite nth_set_nth_eq by (rewrite repeat_length; lia)|lia|].
        intros i Hi NE. rewrite nth_set_nth_neq by lia. apply nth_repeat.
    - intros k v Hk [HL HV]. cbn zeta.
      set (base := if (s <? k)%nat then 0%nat else (s - k)%nat).
      assert (Hb : (base + k <= n)%nat /\ (base <= s)%nat /\ ((k <= s)%nat -> base = (s - k)%nat) /\ ((s < k)%nat -> base = 0%nat)) by (unfold base; destruct (Nat.ltb_spec s k); lia). destruct Hb as (Hb1 & Hb2 & Hb3 & Hb4).
      rewrite !(idx_nth ks _ 0) by lia. cbn [obind].
      set (max := if (s + k <? n)%nat then s else (n - k - 1)%nat).
      assert (Emax : (if (s + k <? n)%nat then Ok s else (a <- usub n k ;; usub a 1)) = Ok max).
      { unfold max. destruct (Nat.ltb_spec (s + k) n); [reflexivity|].
        rewrite usub_Ok by lia. cbn [obind]. now rewrite usub_Ok by lia. }
      rewrite Emax. cbn [obind].
      assert (Hmax : (max + k < n)%nat /\ (base <= max)%nat /\ ((s + k < n)%nat -> max = s)).
      { unfold max. destruct (Nat.ltb_spec (s + k) n); lia. }
      set (Q := fun (i : nat) (st : list R * R) => length (fst st) = n /\
        ((p <= s < n - p)%nat -> (forall j, (i <= j \/ j < base)%nat -> nth j (fst st) 0 = nth j v 0) /\
          sumf (fun j => nth j (fst st) 0) i = sumf (fun j => nth j v 0) i + (1 - snd st) * nth i v 0)).
      match goal with |- context [foldM ?f ?st (range_incl base max)] =>
        assert (HG : exists st', foldM f st (range_incl base max) = Ok st' /\ Q (max + 1)%nat st') end.
      { rewrite range_incl_range. replace (S max) with (max + 1)%nat by lia. apply foldM_range; [lia| |].
        - split; [assumption|]. intros Hsp. cbn [fst snd]. split; [reflexivity|].
          rewrite (proj1 (HV Hsp) base) by lia. lra.
        - intros i [vals a] Hi [HL1 HQ]. cbn [fst snd] in *.
          rewrite !(idx_nth ks _ 0) by lia. cbn [obind]. rewrite !(idx_nth vals _ 0) by lia. cbn [obind].
          rewrite upd_Ok by lia. cbn [obind]. eexists. split; [reflexivity|]. split; cbn [fst snd]; [now rewrite set_nth_length|].
          intros Hsp. destruct (HQ Hsp) as [HQ1 HQ2]. split.
          + intros j Hj. rewrite nth_set_nth_neq by lia. apply HQ1. lia.
          + rewrite (HQ1 i), (HQ1 (i + 1)%nat) by lia. replace (i + 1)%nat with (S i) by lia. rewrite !sumf_S.
            rewrite (sumf_ext _ (fun j => nth j vals 0)) by (intros j Hj; now rewrite nth_set_nth_neq by lia).
            rewrite HQ2, nth_set_nth_eq by lia. rnum. ring. }
      destruct HG as [[vals a] [HG [HL1 HQ]]]. rewrite HG. cbn [obind fst snd] in *.
      exists vals. split; [reflexivity|]. split; [assumption|]. intros Hsp.
      destruct (HQ Hsp) as [HQ1 HQ2]. destruct (HV Hsp) as [HV1 HV2]. replace max with s in * by lia. split.
      + intros i Hi. rewrite HQ1 by lia. apply HV1. lia.
      + rewrite HQ2, HV2, (HV1 (s + 1)%nat) by lia. lra. }
  destruct HF as [v [HF [HL HV]]]. rewrite HF. cbn [obind]. rewrite usub_Ok by lia. cbn [obind].
  eexists. split; [reflexivity|]. split; [rewrite firstn_length; lia|].
  intros Hsp. destruct (HV Hsp) as [HV1 HV2].
  rewrite <- (map_id (firstn (n - p) v)), (sum_map_nth _ _ 0), firstn_length.
  replace (Nat.min (n - p) (length v)) with ((s + 1) + (n - p - (s + 1)))%nat by lia.
  rewrite sumf_app, (sumf_zero (fun i => nth (s + 1 + i)%nat (firstn (n - p) v) 0)).
  - rewrite (sumf_ext _ (fun i => nth i v 0)) by (intros i Hi; apply nth_firstn; lia). lra.
  - intros i Hi. rewrite nth_firstn by lia. apply HV1. lia.
Qed.

Theorem C09_below_range (ks : list R) (degree : nat) (u : R) (m : nat) :
  sorted ks -> separated ks -> (degree + 1 < length ks)%nat -> (0 < m <= length ks)%nat ->
  (forall i, (i < m)%nat -> nth i ks 0 = nth 0 ks 0) -> ((m < length ks)%nat -> nth 0 ks 0 < nth m ks 0) ->
  u < nth 0 ks 0 ->
  ((length ks <= m + 1)%nat -> bspline_basis ks degree u = Panic) /\
  ((m + 1 < length ks)%nat -> exists values, bspline_basis ks degree u = Ok values /\
     length values = (length ks - 1 - degree)%nat /\
     ((degree <= m < length values)%nat -> fold_right Rplus 0 values = 1) /\
     (nth m ks 0 < nth (m + 1) ks 0 ->
       forall i, (i < length values)%nat -> nth i values 0 = cdb (knots_of ks) m degree i u)).
Proof.
  intros Hs Hsep Hp Hm Heq Hgt Hu. pose proof (span_index_below ks u m Hs Hsep Hm Heq Hgt Hu) as E. split.
  - intros HL. unfold bspline_basis. rewrite usub_Ok by lia. cbn [obind]. rewrite E. cbn [obind].
    unfold upd. rewrite repeat_length, (proj2 (Nat.ltb_ge _ _)) by lia. reflexivity.
  - intros HL. destruct (basis_sum_any ks degree u m E HL Hp) as (values & Ev & Lv & Hsum).
    exists values. split; [assumption|]. split; [assumption|]. rewrite Lv. split; [assumption|].
    intros Hne. rewrite (basis_cdb_at ks degree u m) in Ev by assumption. apply Ok_inj in Ev. subst values.
    intros i Hi. rewrite (nth_map_default _ _ _ 0%nat) by now rewrite seq_length. now rewrite seq_nth by assumption.
Qed.
(** a clamped quadratic with a simple inner knot: at u = -1 the first weight is 0, as on the second
    piece; extrapolating the first piece it would be 4 *)
Definition ks_below : list R := [0; 0; 0; 1; 2; 2; 2].
Example C09_below_nonvacuous : exists values, bspline_basis ks_below 2 (-1) = Ok values /\
  fold_right Rplus 0 values = 1 /\ nth 0 values 0 = 0 /\ cdb (knots_of ks_below) 2 2 0 (-1) = 4.
Proof.
  assert (Hs : sorted ks_below).
  { apply sorted_by_pairs. intros i Hi. do 6 (destruct i as [|i]; [cbn; lra|]). cbn in Hi. lia. }
  assert (Hsep : separated ks_below).
  { apply separated_ints. intros a Ha. cbn in Ha.
    repeat (destruct Ha as [<-|Ha]; [eexists; split; [reflexivity|lia]|]). destruct Ha. }
  destruct (C09_below_range ks_below 2 (-1) 3 Hs Hsep) as [_ H].
  - cbn. lia.
  - cbn. lia.
  - intros i Hi. do 3 (destruct i as [|i]; [reflexivity|]). lia.
  - intros _. cbn. lra.
  - cbn. lra.
  - destruct H as (values & E & L & H1 & H2); [cbn; lia|]. exists values. split; [assumption|].
    split; [apply H1; rewrite L; cbn; lia|]. split.
    + rewrite H2; [apply cdb_support; lia|cbn; lra|rewrite L; cbn; lia].
    + unfold knots_of, ks_below, ratio. cbn. unfold ratio.
      repeat match goal with |- context [Req_EM_T ?a ?b] => destruct (Req_EM_T a b); try (exfalso; lra) end. lra.
Qed.

(** Above the range the last non-empty span is extrapolated. *)
Theorem C09_above_range_extrapolates (ks : list R) (degree : nat) (u : R) (s : nat) :
  sorted ks -> separated ks -> (degree + 1 < length ks)%nat -> (s + 1 < length ks)%nat ->
  nth s ks 0 < nth (s + 1) ks 0 -> nth (s + 1) ks 0 = nth (length ks - 1) ks 0 ->
  nth (length ks - 1) ks 0 <= u ->
  bspline_basis ks degree u = Ok (map (fun i => cdb (knots_of ks) s degree i u) (seq 0 (length ks - 1 - degree))).
Proof.
  intros Hs Hsep Hp H1 H2 H3 Hu. apply basis_cdb; auto. unfold is_span. repeat split; auto; lra.
Qed.
Example C09_above_nonvacuous : bspline_basis ks_ex 2 7 = Ok (map (fun i => cdb (knots_of ks_ex) 4 2 i 7) (seq 0 3)).
Proof.
  apply (C09_above_range_extrapolates ks_ex 2 7 4); [apply ks_ex_sorted|apply ks_ex_separated|..]; cbn; lia || lra.
Qed.

(** ** C15: constructors. *)
Theorem C15_bezier_knot (p : nat) :
  length (bezier_knot p : list R) = (2 * (p + 1))%nat /\ sorted (bezier_knot p) /\
  (forall i, (i <= p)%nat -> nth i (bezier_knot p) 0 = 0) /\
  (forall i, (p < i < 2 * (p + 1))%nat -> nth i (bezier_knot p) 0 = 1) /\
  knot_range (bezier_knot p) = Ok (0, 1).
Proof.
  split; [rewrite bezier_knot_length; lia|]. split; [apply bezier_knot_sorted|]. split; [|split].
  - intros i Hi. rewrite nth_bezier_knot. now rewrite (proj2 (Nat.ltb_ge p i)) by lia.
  - intros i Hi. rewrite nth_bezier_knot. rewrite (proj2 (Nat.ltb_lt p i)) by lia. now rewrite (proj2 (Nat.ltb_lt i _)) by lia.
  - unfold knot_range. rewrite (idx_nth _ _ 0) by (rewrite bezier_knot_length; lia). cbn [obind].
    rewrite bezier_knot_length, usub_Ok by lia. cbn [obind].
    rewrite (idx_nth _ _ 0) by (rewrite bezier_knot_length; lia). cbn [obind].
    rewrite !nth_bezier_knot. rewrite (proj2 (Nat.ltb_lt p (2 * p + 2 - 1))), (proj2 (Nat.ltb_lt (2 * p + 2 - 1) (2 * p + 2))) by lia.
    reflexivity.
Qed.

Lemma uniform_knot_length {F} {NF : Num F} p d : length (uniform_knot p d : list F) = (2 * (p + 1) + (d - 1))%nat.
Proof. unfold uniform_knot. rewrite !app_length, !repeat_length, map_length, range_length. lia. Qed.
Lemma nth_uniform_knot p d i : (1 <= d)%nat -> (i < 2 * (p + 1) + (d - 1))%nat ->
  nth i (uniform_knot p d : list R) 0 =
  if (i <=? p)%nat then 0 else if (i <? p + d)%nat then INR (i - p) / INR d else 1.
Proof.
  intros Hd Hi. unfold uniform_knot. rnum.
  destruct (Nat.leb_spec i p).
  - rewrite app_nth1 by (rewrite repeat_length; lia). apply nth_repeat.
  - rewrite app_nth2 by (rewrite repeat_length; lia). rewrite repeat_length.
    destruct (Nat.ltb_spec i (p + d)).
    + rewrite app_nth1 by (rewrite map_length, range_length; lia).
      rewrite (nth_map_default _ _ _ 0%nat) by (rewrite range_length; lia).
      rewrite nth_range by lia. replace (1 + (i - (p + 1)))%nat with (i - p)%nat by lia. unfold Rdiv. ring.
    + rewrite app_nth2 by (rewrite map_length, range_length; lia). rewrite map_length, range_length.
      rewrite (nth_indep _ 0 1) by (rewrite repeat_length; lia). apply nth_repeat.
Qed.
Theorem C15_uniform_knot (p d : nat) : (1 <= d)%nat ->
  length (uniform_knot p d : list R) = (2 * (p + 1) + (d - 1))%nat /\ sorted (uniform_knot p d) /\
  (forall i, (i <= p)%nat -> nth i (uniform_knot p d) 0 = 0) /\
  (forall i, (p < i < p + d)%nat -> nth i (uniform_knot p d) 0 = INR (i - p) / INR d) /\
  (forall i, (p + d <= i < 2 * (p + 1) + (d - 1))%nat -> nth i (uniform_knot p d) 0 = 1) /\
  knot_range (uniform_knot p d) = Ok (0, 1).
Proof.
  intros Hd. split; [apply uniform_knot_length|].
  assert (Hdp : 0 < INR d) by (apply lt_0_INR; lia).
  assert (HB : forall i, (p < i < p + d)%nat -> 0 <= INR (i - p) / INR d <= 1).
  { intros i Hi. assert (INR (i - p) <= INR d) by (apply le_INR; lia). assert (0 <= INR (i - p)) by apply pos_INR. split.
    - apply Rmult_le_pos; [assumption|]. left. now apply Rinv_0_lt_compat.
    - apply Rmult_le_reg_r with (INR d); [assumption|]. unfold Rdiv. rewrite Rmult_assoc, Rinv_l by lra. lra. }
  split; [|split; [|split; [|split]]].
  - intros i j [Hij Hj]. rewrite uniform_knot_length in Hj. rewrite !nth_uniform_knot by lia.
    destruct (Nat.leb_spec i p), (Nat.leb_spec j p); try lia; try lra.
    + destruct (Nat.ltb_spec j (p + d)); [apply HB; lia|lra].
    + destruct (Nat.ltb_spec i (p + d)), (Nat.ltb_spec j (p + d)); try lia; try lra.
      * apply Rmult_le_compat_r; [left; now apply Rinv_0_lt_compat|]. apply le_INR. lia.
      * apply HB. lia.
  - intros i Hi. rewrite nth_uniform_knot by lia. now rewrite (proj2 (Nat.leb_le i p)) by lia.
  - intros i Hi. rewrite nth_uniform_knot by lia. rewrite (proj2 (Nat.leb_gt i p)) by lia. now rewrite (proj2 (Nat.ltb_lt i _)) by lia.
  - intros i Hi. rewrite nth_uniform_knot by lia. rewrite (proj2 (Nat.leb_gt i p)) by lia. now rewrite (proj2 (Nat.ltb_ge i _)) by lia.
  - unfold knot_range. rewrite (idx_nth _ _ 0) by (rewrite uniform_knot_length; lia). cbn [obind].
    rewrite uniform_knot_length, usub_Ok by lia. cbn [obind].
    rewrite (idx_nth _ _ 0) by (rewrite uniform_knot_length; lia). cbn [obind].
    rewrite !nth_uniform_knot by lia. set (e := (2 * (p + 1) + (d - 1) - 1)%nat).
    rewrite (proj2 (Nat.leb_gt e p)), (proj2 (Nat.ltb_ge e (p + d))) by (unfold e; lia). reflexivity.
Qed.

(** from_values_and_multiplicities, in any arithmetic: each value repeated its multiplicity, in order. *)
Theorem C15_from_values_and_multiplicities {F} {NF : Num F} (vs : list F) (ms : list nat) :
  length vs = length ms ->
  length (from_values_and_multiplicities vs ms) = list_sum ms /\
  forall k j d, (k < length ms)%nat -> (j < nth k ms 0%nat)%nat ->
    nth (list_sum (firstn k ms) + j) (from_values_and_multiplicities vs ms) d = nth k vs d.
Proof.
  unfold from_values_and_multiplicities. revert ms. induction vs as [|v vs IH]; intros [|m ms] HL; cbn in HL; try discriminate.
  - split; [reflexivity|]. intros k j d Hk. cbn in Hk. lia.
  - injection HL as HL. destruct (IH ms HL) as [H1 H2]. cbn [combine flat_map]. split.
    + rewrite app_length, repeat_length. rewrite H1. reflexivity.
    + intros [|k] j d Hk Hj; cbn [firstn nth] in *.
      * change (list_sum []) with 0%nat. cbn [Nat.add]. rewrite app_nth1 by now rewrite repeat_length.
        rewrite (nth_indep _ d v) by now rewrite repeat_length. apply nth_repeat.
      * rewrite app_nth2 by (rewrite repeat_length; change (list_sum (m :: firstn k ms)) with (m + list_sum (firstn k ms))%nat; lia). rewrite repeat_length.
        rewrite <- (H2 k j d) by (cbn in Hk; lia || assumption). f_equal. change (list_sum (m :: firstn k ms)) with (m + list_sum (firstn k ms))%nat. lia.
Qed.
Example C15_nonvacuous : uniform_knot 2 4 = [0; 0; 0; 1 * (1/4); 2 * (1/4); 3 * (1/4); 1; 1; 1] /\
  from_values_and_multiplicities [0; 1; 3] [2; 1; 3]%nat = [0; 0; 1; 3; 3; 3].
Proof. split; [|reflexivity]. unfold uniform_knot. cbn. repeat (apply f_equal2; [lra|]). reflexivity. Qed.

(** ** C16: KnotVector::add_knot. *)
(** in any arithmetic it inserts the value at the returned position and never panics *)
Theorem C16_add_knot_inserts {F} {NF : Num F} (ks : list F) (x : F) :
  exists j, (j <= length ks)%nat /\ knot_add ks x = Ok (firstn j ks ++ x :: skipn j ks, j) /\
    (forall i d, (j <= i < length ks)%nat -> fleb (nth i ks d) x = false) /\
    (forall d, (0 < j)%nat -> fleb (nth (j - 1) ks d) x = true).
Proof.
  unfold knot_add. destruct (rposition (fun t => fleb t x) ks) as [i|] eqn:E.
  - destruct ks as [|k0 ks'] eqn:Eks; [discriminate|]. rewrite <- Eks in *. 
    assert (H := fun d => rposition_Some _ _ _ d E). pose proof (H k0) as [Hi _].
    rewrite insert_at_Ok by lia. cbn [obind]. exists (i + 1)%nat. split; [lia|]. split; [reflexivity|]. split.
    + intros i' d Hi'. apply (H d). lia.
    + intros d _. replace (i + 1 - 1)%nat with i by lia. apply (H d).
  - rewrite insert_at_Ok by lia. exists 0%nat. split; [lia|]. split; [reflexivity|]. split; [|lia].
    intros i d Hi. rewrite rposition_None in E. apply E. apply nth_In. lia.
Qed.

Lemma knot_add_sorted (ks : list R) x : sorted ks ->
  exists j, (j <= length ks)%nat /\ knot_add ks x = Ok (firstn j ks ++ x :: skipn j ks, j) /\
    (forall i, (i < j)%nat -> nth i ks 0 <= x) /\ (forall i, (j <= i < length ks)%nat -> x < nth i ks 0) /\
    sorted (firstn j ks ++ x :: skipn j ks).
Proof.
  intros Hs. destruct (C16_add_knot_inserts ks x) as [j (Hj & E & Hhi & Hlo)]. exists j. rnum.
  assert (A : forall i, (i < j)%nat -> nth i ks 0 <= x).
  { intros i Hi. assert (nth i ks 0 <= nth (j - 1) ks 0) by (apply Hs; lia).
    specialize (Hlo 0 ltac:(lia)). apply Rleb_true in Hlo. lra. }
  assert (B : forall i, (j <= i < length ks)%nat -> x < nth i ks 0).
  { intros i Hi. apply Rleb_false. now apply Hhi. }
  repeat split; try assumption.
  intros a b [Hab Hb]. rewrite insert_length in Hb. rewrite !nth_insert by assumption.
  destruct (Nat.ltb_spec a j), (Nat.ltb_spec b j); try lia.
  - apply Hs. lia.
  - destruct (Nat.eqb_spec b j); [now apply A|]. apply Hs. lia.
  - destruct (Nat.eqb_spec a j), (Nat.eqb_spec b j); try lia; try lra.
    + left. apply B. lia.
    + apply Hs. lia.
Qed.

Fixpoint add_all (ks : list R) (xs : list R) : outcome (list R) :=
  match xs with [] => Ok ks | x :: xs' => ' (ks', _) <- knot_add ks x ;; add_all ks' xs' end.

Theorem C16_add_knots_sorted (xs ks : list R) : sorted ks ->
  exists ks', add_all ks xs = Ok ks' /\ sorted ks' /\ Permutation ks' (xs ++ ks).
Proof.
  revert ks. induction xs as [|x xs IH]; intros ks Hs; cbn [add_all].
  - exists ks. repeat split; auto.
  - destruct (knot_add_sorted ks x Hs) as [j (Hj & E & _ & _ & Hs')]. rewrite E. cbn [obind].
    destruct (IH _ Hs') as [ks' (E' & Hs'' & HP)]. exists ks'. repeat split; auto.
    eapply Permutation_trans; [exact HP|].
    eapply Permutation_trans; [apply Permutation_app_head; symmetry; apply Permutation_middle|].
    rewrite firstn_skipn. change ((x :: xs) ++ ks) with (x :: xs ++ ks). symmetry. apply Permutation_middle.
Qed.
Theorem C16_position (ks : list R) (x : R) (ks' : list R) (j : nat) : sorted ks -> knot_add ks x = Ok (ks', j) ->
  nth j ks' 0 = x /\ (forall i, (i < j)%nat -> nth i ks' 0 = nth i ks 0 /\ nth i ks 0 <= x) /\
  (forall i, (j <= i < length ks)%nat -> nth (i + 1) ks' 0 = nth i ks 0 /\ x < nth i ks 0).
Proof.
  intros Hs E. destruct (knot_add_sorted ks x Hs) as [j' (Hj & E' & A & B & _)].
  rewrite E' in E. apply Ok_inj in E. injection E as <- <-.
  split; [|split].
  - rewrite nth_insert by assumption. now rewrite Nat.ltb_irrefl, Nat.eqb_refl.
  - intros i Hi. split; [|now apply A]. rewrite nth_insert by assumption. now rewrite (proj2 (Nat.ltb_lt _ _)) by lia.
  - intros i Hi. split; [|now apply B]. rewrite nth_insert by assumption. rewrite (proj2 (Nat.ltb_ge _ _)) by lia.
    rewrite (proj2 (Nat.eqb_neq _ _)) by lia. f_equal. lia.
Qed.
Example C16_nonvacuous : knot_add [0; 1; 1; 3] 1 = Ok ([0; 1; 1; 1; 3], 3%nat).
Proof.
  unfold knot_add. cbn. rewrite (proj2 (Rleb_false 3 1)) by lra. rewrite (proj2 (Rleb_true 1 1)) by lra. reflexivity.
Qed.

(** ** C17: normalize, shrink, spans, range. *)
Theorem C17_normalize (ks : list R) : ks <> [] -> sorted ks -> nth 0 ks 0 < nth (length ks - 1) ks 0 ->
  exists ks', knot_normalize ks = Ok ks' /\ length ks' = length ks /\ sorted ks' /\
    nth 0 ks' 0 = 0 /\ nth (length ks' - 1) ks' 0 = 1 /\
    (forall i, (i < length ks)%nat ->
       nth i ks 0 = nth 0 ks 0 + nth i ks' 0 * (nth (length ks - 1) ks 0 - nth 0 ks 0)).
Proof.
  intros Hne Hs Hlt. unfold knot_normalize.
  assert (HL : (0 < length ks)%nat) by (destruct ks; [congruence|cbn; lia]).
  rewrite (idx_nth _ _ 0) by lia. cbn [obind]. rewrite usub_Ok by lia. cbn [obind].
  rewrite (idx_nth _ _ 0) by lia. cbn [obind].
  set (a := nth 0 ks 0) in *. set (b := nth (length ks - 1) ks 0) in *. rnum.
  eexists. split; [reflexivity|].
  assert (Hn : forall i, (i < length ks)%nat -> nth i (map (fun v => (v - a) / (b - a)) ks) 0 = (nth i ks 0 - a) / (b - a))
    by (intros i Hi; now rewrite (nth_map_default _ _ _ 0) by assumption).
  rewrite map_length. split; [reflexivity|]. split; [|split; [|split]].
  - intros i j [Hij Hj]. rewrite map_length in Hj. rewrite !Hn by lia.
    apply Rmult_le_compat_r; [left; apply Rinv_0_lt_compat; lra|]. assert (nth i ks 0 <= nth j ks 0) by (apply Hs; lia). lra.
  - rewrite Hn by lia. fold a. unfold Rdiv. ring.
  - rewrite Hn by lia. fold b. field. lra.
  - intros i Hi. rewrite Hn by assumption. field. lra.
Qed.
Theorem C17_shrink {F} {NF : Num F} (a b : F) (ks : list F) :
  shrink (a :: ks ++ [b]) = Ok ks /\ shrink ([] : list F) = Panic /\ shrink [a] = Panic.
Proof.
  split; [|split; reflexivity]. unfold shrink. rewrite usub_Ok by (cbn; lia). cbn [obind].
  rewrite slice_Ok by (cbn; rewrite ?app_length; cbn; lia). cbn [length skipn]. rewrite app_length. cbn [length].
  f_equal. replace (S (length ks + 1) - 1 - 1)%nat with (length ks) by lia.
  rewrite firstn_app, Nat.sub_diag, firstn_all. cbn. apply app_nil_r.
Qed.
Theorem C17_spans {F} {NF : Num F} (ks : list F) (degree : nat) (d : F) :
  exists sp, spans ks degree = Ok sp /\ length sp = (length ks - degree)%nat /\
    forall i, (i + degree < length ks)%nat -> nth i sp d = fsub (nth (i + degree) ks d) (nth i ks d).
Proof.
  unfold spans, windows.
  set (g := fun i => fsub (nth (i + degree) ks d) (nth i ks d)).
  exists (map g (seq 0 (length ks + 1 - (degree + 1)))).
  replace (length ks + 1 - (degree + 1))%nat with (length ks - degree)%nat by lia.
  split; [|split].
  - assert (K : forall l, (forall i, In i l -> (i + degree < length ks)%nat) ->
      mapM (fun w => a <- idx w degree;; b <- idx w 0;; Ok (fsub a b)) (map (fun i => firstn (degree + 1) (skipn i ks)) l)
      = Ok (map g l)).
    { induction l as [|i l IH]; intros Hl; [reflexivity|]. cbn [map mapM].
      assert (Hi : (i + degree < length ks)%nat) by (apply Hl; now left).
      rewrite !(idx_nth _ _ d) by (rewrite firstn_length, skipn_length; lia). cbn [obind].
      rewrite !nth_firstn by lia. rewrite !nth_skipn. rewrite IH by (intros; apply Hl; now right). cbn [obind].
      rewrite Nat.add_0_r. reflexivity. }
    apply K. intros i Hi. apply in_seq in Hi. lia.
  - now rewrite map_length, seq_length.
  - intros i Hi. rewrite (nth_map_default _ _ _ 0%nat) by (rewrite seq_length; lia). now rewrite seq_nth by lia.
Qed.
Theorem C17_range {F} {NF : Num F} (a b : F) (ks : list F) : knot_range (a :: ks ++ [b]) = Ok (a, b) /\ knot_range ([] : list F) = Panic.
Proof.
  split; [|reflexivity]. unfold knot_range. cbn [idx nth_error obind]. rewrite usub_Ok by (cbn; lia). cbn [obind].
  cbn [length]. rewrite app_length. cbn [length]. replace (S (length ks + 1) - 1)%nat with (S (length ks)) by lia.
  rewrite (idx_nth _ _ b) by (cbn; rewrite app_length; cbn; lia). cbn [nth obind].
  rewrite app_nth2 by lia. now rewrite Nat.sub_diag.
Qed.
Example C17_nonvacuous : knot_normalize [2; 3; 4] = Ok [0; 1/2; 1].
Proof.
  unfold knot_normalize. cbn. f_equal. repeat (apply f_equal2; [lra|]). reflexivity.
Qed.
