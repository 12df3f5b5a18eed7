(** Knot vectors over R: the model's functions against the Cox-de Boor specification. *)
From Coq Require Import Reals Lra Psatz Lia Arith.
From Verif Require Import Prelude Num M_vec M_utils M_curve L_base L_vec L_cdb.
Open Scope R_scope.

(** ** Specification vocabulary *)
(** t_0 <= t_1 <= ... *)
Definition sorted (ks : list R) : Prop :=
  forall i j, (i <= j < length ks)%nat -> nth i ks 0 <= nth j ks 0.
(** distinct knots are distinguishable: further apart than 2^-50 * max(1, |a|, |b|). *)
Definition separated (ks : list R) : Prop :=
  forall a b, In a ks -> In b ks -> a <> b -> Rabs (a - b) > / 1125899906842624 * Rmax 1 (Rmax (Rabs a) (Rabs b)).
(** s is the knot span evaluated at u: t_s <= u < t_{s+1}, or the last non-empty span when u is
    at or beyond the last knot. *)
Definition is_span (ks : list R) (u : R) (s : nat) : Prop :=
  (s + 1 < length ks)%nat /\ nth s ks 0 < nth (s + 1) ks 0 /\ nth s ks 0 <= u /\
  (u < nth (s + 1) ks 0 \/ (nth (s + 1) ks 0 = nth (length ks - 1) ks 0 /\ nth (length ks - 1) ks 0 <= u)).

(** ** approx and inv_or_zero over R *)
Lemma ulps_eq_refl_R (a : R) : ulps_eq a a = true.
Proof.
  unfold ulps_eq, abs_diff_eq, feps; rnum. rewrite Rminus_eq_0, Rabs_R0.
  rewrite (proj2 (Rleb_true _ _)) by lra. reflexivity.
Qed.
Lemma ulps_eq_false_R (a b : R) :
  Rabs (a - b) > / 1125899906842624 * Rmax 1 (Rmax (Rabs a) (Rabs b)) -> ulps_eq a b = false.
Proof.
  intros H. unfold ulps_eq, abs_diff_eq, feps; rnum. apply orb_false_iff.
  assert (M1 : 1 <= Rmax 1 (Rmax (Rabs a) (Rabs b))) by apply Rmax_l.
  assert (M2 : Rmax (Rabs a) (Rabs b) <= Rmax 1 (Rmax (Rabs a) (Rabs b))) by apply Rmax_r.
  split.
  - apply Rleb_false. lra.
  - unfold Rulps4. apply andb_false_iff. right. apply Rleb_false. lra.
Qed.
Lemma separated_eq ks a b : separated ks -> In a ks -> In b ks -> ulps_eq a b = if Req_EM_T a b then true else false.
Proof.
  intros H Ha Hb. destruct (Req_EM_T a b) as [->|NE]; [apply ulps_eq_refl_R|].
  apply ulps_eq_false_R. now apply H.
Qed.
Lemma separated_gap ks a b : separated ks -> In a ks -> In b ks -> a <> b -> Rabs (a - b) > / 1125899906842624.
Proof.
  intros H Ha Hb NE. specialize (H a b Ha Hb NE).
  assert (M1 : 1 <= Rmax 1 (Rmax (Rabs a) (Rabs b))) by apply Rmax_l. lra.
Qed.

Lemma inv_or_zero_R (d : R) : inv_or_zero d = if Rle_dec (Rabs d) (/ 4503599627370496) then 0 else / d.
Proof.
  unfold inv_or_zero, ulps_eq, abs_diff_eq, feps; rnum. rewrite Rminus_0_r.
  unfold Rulps4. rewrite Rmult_0_r. rewrite (proj2 (Rltb_false 0 0)) by lra. cbn [andb]. rewrite orb_false_r.
  unfold Rleb. replace (1 / 4503599627370496) with (/ 4503599627370496) by lra.
  destruct (Rle_dec (Rabs d) (/ 4503599627370496)); [reflexivity|]. unfold Rdiv. ring.
Qed.
Lemma inv_or_zero_sep ks a b : separated ks -> In a ks -> In b ks -> inv_or_zero (a - b) = ratio 1 (a - b).
Proof.
  intros H Ha Hb. rewrite inv_or_zero_R. unfold ratio.
  destruct (Req_EM_T (a - b) 0) as [E|E].
  - rewrite E, Rabs_R0. destruct (Rle_dec _ _); [reflexivity|]. exfalso. lra.
  - assert (NE : a <> b) by lra. pose proof (separated_gap ks a b H Ha Hb NE).
    destruct (Rle_dec _ _); [exfalso; lra|]. unfold Rdiv. ring.
Qed.
Lemma ratio_1_mul a d : ratio 1 d * a = ratio a d.
Proof. unfold ratio. destruct (Req_EM_T d 0); [ring|]. unfold Rdiv. ring. Qed.

(** ** sorted lists as sequences *)
Lemma sorted_mono ks D : sorted ks -> (forall a, In a ks -> a <= D) -> mono (fun i => nth i ks D).
Proof.
  intros Hs HD i j Hij.
  destruct (le_lt_dec (length ks) j) as [Hj|Hj].
  - rewrite (nth_overflow ks D Hj).
    destruct (le_lt_dec (length ks) i) as [Hi|Hi]; [rewrite nth_overflow by assumption; lra|].
    apply HD. now apply nth_In.
  - rewrite !(nth_indep ks D 0) by lia. apply Hs. lia.
Qed.
Lemma sorted_le_last ks a : sorted ks -> In a ks -> a <= nth (length ks - 1) ks 0.
Proof.
  intros Hs Ha. apply (In_nth _ _ 0) in Ha. destruct Ha as [i [Hi <-]]. apply Hs. lia.
Qed.
Lemma sorted_cons_inv a l : sorted (a :: l) -> sorted l.
Proof. intros H i j Hij. apply (H (S i) (S j)). cbn. lia. Qed.

(** ** multiplicity, span_index *)
Lemma filter_count {A} (p : A -> bool) (l : list A) k d : (k <= length l)%nat ->
  (forall i, (i < k)%nat -> p (nth i l d) = false) ->
  (forall i, (k <= i < length l)%nat -> p (nth i l d) = true) ->
  length (filter p l) = (length l - k)%nat.
Proof.
  revert k. induction l as [|a l IH]; intros k Hk Hf Ht; [reflexivity|].
  cbn [filter]. destruct k as [|k].
  - assert (E0 : p a = true) by (apply (Ht 0%nat); cbn; lia). rewrite E0. cbn [length]. rewrite (IH 0%nat); [lia|lia|lia|].
    intros i Hi. apply (Ht (S i)). cbn. lia.
  - assert (E0 : p a = false) by (apply (Hf 0%nat); cbn; lia). rewrite E0. cbn [length] in *. rewrite (IH k); [lia|lia| |].
    + intros i Hi. apply (Hf (S i)). lia.
    + intros i Hi. apply (Ht (S i)). lia.
Qed.
Lemma filter_count_prefix {A} (p : A -> bool) (l : list A) k d : (k <= length l)%nat ->
  (forall i, (i < k)%nat -> p (nth i l d) = true) ->
  (forall i, (k <= i < length l)%nat -> p (nth i l d) = false) ->
  length (filter p l) = k.
Proof.
  revert k. induction l as [|a l IH]; intros k Hk Ht Hf; [cbn in *; lia|].
  cbn [filter]. destruct k as [|k].
  - assert (E0 : p a = false) by (apply (Hf 0%nat); cbn; lia). rewrite E0. apply IH; [lia|lia|]. intros i Hi. apply (Hf (S i)). cbn. lia.
  - assert (E0 : p a = true) by (apply (Ht 0%nat); cbn; lia). rewrite E0. cbn [length] in *. rewrite (IH k); [lia|lia| |].
    + intros i Hi. apply (Ht (S i)). lia.
    + intros i Hi. apply (Hf (S i)). lia.
Qed.

Lemma rposition_sorted ks u i : sorted ks -> (i < length ks)%nat -> nth i ks 0 <= u ->
  ((i + 1 < length ks)%nat -> u < nth (i + 1) ks 0) ->
  rposition (fun t => Rleb t u) ks = Some i.
Proof.
  intros Hs Hi H1 H2.
  destruct (rposition (fun t => Rleb t u) ks) as [k|] eqn:E.
  - apply (rposition_Some _ _ _ 0) in E. destruct E as [Hk [Hp Hr]]. f_equal.
    destruct (lt_eq_lt_dec k i) as [[H|H]|H]; [|assumption|].
    + exfalso. specialize (Hr i (conj H Hi)). apply Rleb_false in Hr. lra.
    + exfalso. apply Rleb_true in Hp. assert (Hx : (i + 1 < length ks)%nat) by lia. specialize (H2 Hx).
      assert (nth (i + 1) ks 0 <= nth k ks 0) by (apply Hs; lia). lra.
  - exfalso. rewrite rposition_None in E. specialize (E (nth i ks 0) (nth_In _ _ Hi)). apply Rleb_false in E. lra.
Qed.

Theorem span_index_spec ks u s : sorted ks -> separated ks -> is_span ks u s -> span_index ks u = Ok s.
Proof.
  intros Hs Hsep (Hlen & Hne & Hlo & Hhi). unfold span_index. rnum.
  destruct Hhi as [Hhi|[Hlast Hhi]].
  - rewrite (rposition_sorted ks u s) by (auto; lia).
    rewrite usub_Ok by lia. cbn [obind]. now rewrite (proj2 (Nat.eqb_neq _ _)) by lia.
  - rewrite (rposition_sorted ks u (length ks - 1)) by (auto; lia).
    rewrite usub_Ok by lia. cbn [obind]. rewrite Nat.eqb_refl.
    unfold multiplicity. destruct ks as [|k0 ks'] eqn:Eks; [cbn in Hlen; lia|]. rewrite <- Eks in *. clear Eks k0 ks'.
    rewrite (idx_nth _ _ 0) by lia. cbn [obind].
    rewrite (filter_count _ ks (s + 1) 0); [|lia| |].
    + rewrite usub_Ok by lia. f_equal. lia.
    + intros i Hi. rewrite (separated_eq ks) by (auto; apply nth_In; lia).
      destruct (Req_EM_T _ _) as [E|E]; [|reflexivity]. exfalso.
      assert (nth i ks 0 <= nth s ks 0) by (apply Hs; lia). lra.
    + intros i Hi. rewrite (separated_eq ks) by (auto; apply nth_In; lia).
      destruct (Req_EM_T _ _) as [E|E]; [reflexivity|]. exfalso. apply E.
      assert (nth (s + 1) ks 0 <= nth i ks 0) by (apply Hs; lia).
      assert (nth i ks 0 <= nth (length ks - 1) ks 0) by (apply Hs; lia). lra.
Qed.

(** every parameter from the first knot on has a span, unless all knots are equal *)
Lemma span_exists ks u : sorted ks -> (length ks >= 2)%nat -> nth 0 ks 0 < nth (length ks - 1) ks 0 -> nth 0 ks 0 <= u ->
  exists s, is_span ks u s.
Proof.
  intros Hs HL Hne Hu.
  destruct (Rlt_le_dec u (nth (length ks - 1) ks 0)) as [H|H].
  - (* last index with t_i <= u *)
    assert (K : forall m, (m < length ks)%nat -> u < nth m ks 0 -> exists s, (s < m)%nat /\ nth s ks 0 <= u < nth (s + 1) ks 0).
    { induction m as [|m IH]; intros Hm Hmu; [lra|].
      destruct (Rlt_le_dec u (nth m ks 0)) as [H1|H1].
      - destruct IH as [s [H2 H3]]; [lia|assumption|]. exists s. split; [lia|assumption].
      - exists m. split; [lia|]. rewrite Nat.add_1_r. lra. }
    destruct (K (length ks - 1)%nat) as [s [H1 H2]]; [lia|assumption|].
    exists s. split; [lia|]. split; [lra|]. split; [lra|]. left. lra.
  - assert (K : forall m, (m < length ks)%nat -> nth m ks 0 < nth (length ks - 1) ks 0 ->
      exists s, (m <= s)%nat /\ (s + 1 < length ks)%nat /\ nth s ks 0 < nth (s + 1) ks 0 /\ nth (s + 1) ks 0 = nth (length ks - 1) ks 0).
    { intros m Hm. remember (length ks - 1 - m)%nat as g eqn:Eg. revert m Hm Eg.
      induction g as [|g IH]; intros m Hm Eg Hlt.
      - replace m with (length ks - 1)%nat in Hlt by lia. lra.
      - destruct (Req_EM_T (nth (m + 1) ks 0) (nth (length ks - 1) ks 0)) as [E|E].
        + exists m. repeat split; [lia|lia|lra|assumption].
        + assert (nth (m + 1) ks 0 <= nth (length ks - 1) ks 0) by (apply Hs; lia).
          destruct (IH (m + 1)%nat) as [s [H1 H2]]; [lia|lia|lra|]. exists s. split; [lia|assumption]. }
    destruct (K 0%nat) as [s [_ [H1 [H2 H3]]]]; [lia|assumption|].
    exists s. split; [assumption|]. split; [assumption|].
    assert (nth s ks 0 <= nth (length ks - 1) ks 0) by (apply Hs; lia).
    split; [lra|]. right. split; assumption.
Qed.

(** ** bspline_basis *)
(** whatever span is used, as long as it is not empty *)
Theorem basis_cdb_at ks p u s : sorted ks -> separated ks -> span_index ks u = Ok s ->
  (s + 1 < length ks)%nat -> nth s ks 0 < nth (s + 1) ks 0 -> (p + 1 < length ks)%nat ->
  bspline_basis ks p u = Ok (map (fun i => cdb (fun i => nth i ks 0) s p i u) (seq 0 (length ks - 1 - p))).
Proof.
  intros Hs Hsep Hspan Hlen Hne Hp. unfold bspline_basis.
  rewrite usub_Ok by lia. cbn [obind]. rewrite Hspan. cbn [obind].
  remember (length ks - 1)%nat as n eqn:En.
  rewrite upd_Ok by (rewrite repeat_length; lia). cbn [obind].
  set (D := nth n ks 0).
  set (T := fun i => nth i ks D).
  assert (HT : mono T) by (apply sorted_mono; [assumption|intros a Ha; unfold D; rewrite En; now apply sorted_le_last]).
  assert (HTk : forall i, (i < length ks)%nat -> nth i ks 0 = T i) by (intros; now apply nth_indep).
  assert (HTs : T s < T (s + 1)%nat) by (rewrite <- !HTk by lia; assumption).
  set (P := fun (k : nat) (values : list R) =>
    length values = n /\ forall i, (i + (k - 1) < n)%nat -> nth i values 0 = cdb T s (k - 1) i u).
  assert (HIn : forall i, (i < length ks)%nat -> In (T i) ks) by (intros; now apply nth_In).
  match goal with |- context [foldM ?f ?st (range_incl 1 p)] =>
    assert (HF : exists values, foldM f st (range_incl 1 p) = Ok values /\ P (p + 1)%nat values) end.
  { rewrite range_incl_range. replace (S p) with (p + 1)%nat by lia. apply foldM_range.
    - lia.
    - split; [now rewrite set_nth_length, repeat_length|].
      intros i Hi. cbn [Nat.sub cdb]. rewrite nth_set_nth, repeat_length.
      rewrite (proj2 (Nat.ltb_lt s n)) by lia. rewrite andb_true_r, (Nat.eqb_sym s i).
      destruct (i =? s)%nat; [reflexivity|apply nth_repeat].
    - intros k values Hk [HL HV]. cbn zeta.
      set (base := if (s <? k)%nat then 0%nat else (s - k)%nat).
      assert (Hbase : (base + k <= n)%nat /\ (base = 0%nat \/ base = (s - k)%nat) /\ (base <= s)%nat /\ ((s < k)%nat -> base = 0%nat) /\ ((k <= s)%nat -> base = (s - k)%nat)).
      { unfold base. destruct (Nat.ltb_spec s k); lia. }
      destruct Hbase as (Hb1 & Hb2 & Hb3 & Hb4 & Hb5).
      rewrite !(idx_nth _ _ D) by lia. cbn [obind]. change (nth (base + k) ks D) with (T (base + k)%nat). change (nth base ks D) with (T base).
      set (max := if (s + k <? n)%nat then s else (n - k - 1)%nat).
      assert (Emax : (if (s + k <? n)%nat then Ok s else (a <- usub n k ;; usub a 1)) = Ok max).
      { unfold max. destruct (Nat.ltb_spec (s + k) n); [reflexivity|].
        rewrite usub_Ok by lia. cbn [obind]. now rewrite usub_Ok by lia. }
      rewrite Emax. cbn [obind].
      assert (Hmax : (max + k < n)%nat /\ (base <= max)%nat /\ (max <= s)%nat /\ (forall m, (m + k < n)%nat -> (max < m)%nat -> (s < m)%nat)).
      { unfold max. destruct (Nat.ltb_spec (s + k) n); repeat split; try lia; intros; lia. }
      destruct Hmax as (Hm1 & Hm2 & Hm3 & Hm4).
      set (Q := fun (i : nat) (st : list R * R) =>
        length (fst st) = n /\
        (forall m, (m + k < n)%nat -> (m < i)%nat -> nth m (fst st) 0 = cdb T s k m u) /\
        (forall m, (m + (k - 1) < n)%nat -> (i <= m)%nat -> nth m (fst st) 0 = cdb T s (k - 1) m u) /\
        snd st * cdb T s (k - 1) i u = ratio (u - T i) (T (i + k)%nat - T i) * cdb T s (k - 1) i u).
      match goal with |- context [foldM ?f ?st (range_incl base max)] =>
        assert (HG : exists st', foldM f st (range_incl base max) = Ok st' /\ Q (max + 1)%nat st') end.
      { rewrite range_incl_range. replace (S max) with (max + 1)%nat by lia. apply foldM_range.
        - lia.
        - unfold Q. cbn [fst snd]. split; [assumption|]. split; [|split].
          + intros m Hm Hmb. rewrite HV by lia.
            rewrite (cdb_support T s (k - 1) m) by lia. rewrite (cdb_support T s k m) by lia. reflexivity.
          + intros m Hm _. apply HV. assumption.
          + destruct (le_lt_dec k s) as [Hks|Hks].
            * rewrite (cdb_support T s (k - 1) base) by lia. lra.
            * rewrite (inv_or_zero_sep ks) by (auto; apply HIn; lia). rnum. now rewrite ratio_1_mul.
        - intros i [vals a] Hi (HL1 & HA & HB & HC). cbn [fst snd] in *.
          rewrite !(idx_nth ks _ D) by lia. cbn [obind].
          rewrite !(idx_nth vals _ 0) by lia. cbn [obind].
          rewrite upd_Ok by lia. cbn [obind].
          eexists. split; [reflexivity|]. unfold Q. cbn [fst snd].
          change (nth (i + k + 1) ks D) with (T (i + k + 1)%nat). change (nth (i + 1) ks D) with (T (i + 1)%nat).
          rewrite (inv_or_zero_sep ks) by (auto; apply HIn; lia). rnum. rewrite ratio_1_mul.
          split; [now rewrite set_nth_length|]. split; [|split].
          + intros m Hm Hmi. rewrite nth_set_nth, HL1. rewrite (proj2 (Nat.ltb_lt i n)) by lia. rewrite andb_true_r.
            destruct (Nat.eqb_spec i m) as [<-|NE].
            * rewrite (HB i), (HB (i + 1)%nat) by lia. rewrite HC.
              destruct k as [|k']; [lia|]. cbn [Nat.sub]. rewrite Nat.sub_0_r. reflexivity.
            * apply HA; lia.
          + intros m Hm Hmi. rewrite nth_set_nth_neq by lia. apply HB; lia.
          + replace (i + 1 + k)%nat with (i + k + 1)%nat by lia.
            destruct k as [|k']; [lia|]. cbn [Nat.sub]. rewrite Nat.sub_0_r.
            pose proof (cdb_coeffs T s HT HTs k' (i + 1)%nat u) as HX.
            replace (i + 1 + S k')%nat with (i + S k' + 1)%nat in HX by lia. lra. }
      destruct HG as [[vals a] [HG (HL1 & HA & HB & HC)]]. rewrite HG. cbn [obind fst] in *.
      exists vals. split; [reflexivity|]. split; [assumption|].
      intros i Hi. replace (k + 1 - 1)%nat with k in * by lia.
      destruct (le_lt_dec i max) as [H1|H1]; [apply HA; lia|].
      rewrite HB by lia. specialize (Hm4 i Hi H1).
      rewrite !cdb_support by lia. reflexivity. }
  destruct HF as [values [HF [HL HV]]]. rewrite HF. cbn [obind].
  rewrite usub_Ok by lia. cbn [obind]. f_equal.
  apply (nth_ext_len _ _ 0).
  - rewrite firstn_length, map_length, seq_length. lia.
  - intros i Hi. rewrite firstn_length in Hi. rewrite nth_firstn by lia.
    rewrite HV by lia. rewrite (nth_map_default _ _ _ 0%nat) by (rewrite seq_length; lia).
    rewrite seq_nth by lia. cbn [Nat.add]. replace (p + 1 - 1)%nat with p by lia.
    apply cdb_ext. intros m Hm. symmetry. apply HTk. lia.
Qed.
Theorem basis_cdb ks p u s : sorted ks -> separated ks -> is_span ks u s -> (p + 1 < length ks)%nat ->
  bspline_basis ks p u = Ok (map (fun i => cdb (fun i => nth i ks 0) s p i u) (seq 0 (length ks - 1 - p))).
Proof.
  intros Hs Hsep Hspan Hp. apply basis_cdb_at; auto; [now apply span_index_spec|apply Hspan..].
Qed.
