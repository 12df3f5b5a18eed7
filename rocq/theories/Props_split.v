(** Properties C12-C14: splitting, clamping and Bezier decomposition of B-spline curves. *)
From Coq Require Import Reals Lra Psatz Lia Arith Permutation.
From Verif Require Import Prelude Num M_vec M_utils M_curve L_base L_vec L_bezier L_cdb L_insert L_knot L_bspline L_split Props_bezier Props_knot Props_bspline.
Open Scope R_scope.

Definition first_knot (ks : list R) : R := nth 0 ks 0.
Definition last_knot (ks : list R) : R := nth (length ks - 1) ks 0.
(** how many knots are equal to x *)
Definition mult (ks : list R) (x : R) : nat := count_occ Req_EM_T ks x.

(** The parameter at which split(t) cuts: the knot just below t when it is within 1e-7, else t. *)
Definition cut_parameter (ks : list R) (t x : R) : Prop :=
  exists i, (i + 1 < length ks)%nat /\ nth i ks 0 <= t < nth (i + 1) ks 0 /\
    ((t - nth i ks 0 <= / 10000000 /\ x = nth i ks 0) \/ (/ 10000000 < t - nth i ks 0 /\ x = t)).

Lemma mult_block ks x j s : (s <= j <= length ks)%nat ->
  (forall i, (i < j - s)%nat -> nth i ks 0 < x) -> (forall i, (j - s <= i < j)%nat -> nth i ks 0 = x) ->
  (forall i, (j <= i < length ks)%nat -> x < nth i ks 0) -> mult ks x = s.
Proof.
  intros Hj H1 H2 H3. unfold mult.
  assert (E : forall l : list R, count_occ Req_EM_T l x = length (filter (fun a => if Req_EM_T a x then true else false) l)).
  { clear. induction l as [|a l IH]; cbn; [reflexivity|]. destruct (Req_EM_T a x); cbn; now rewrite IH. }
  rewrite E. rewrite (filter_count_mid _ ks (j - s) j 0); [lia|lia| | |]; intros i Hi.
  - specialize (H1 i Hi). destruct (Req_EM_T _ _); [lra|reflexivity].
  - specialize (H2 i Hi). destruct (Req_EM_T _ _); [reflexivity|contradiction].
  - specialize (H3 i Hi). destruct (Req_EM_T _ _); [lra|reflexivity].
Qed.

(** ** C12: split *)
Theorem C12_split (c : BSpline R (vec3 R)) (t x : R) :
  let ks := bs_knots c in let p := bs_degree c in
  valid_bspline c -> cut_parameter ks t x -> separated (x :: ks) ->
  first_knot ks < x -> nth p ks 0 <= x ->
  exists c0 c1, bspline_split c t = Ok (c0, c1) /\ valid_bspline c0 /\ valid_bspline c1 /\
    bs_degree c0 = p /\ bs_degree c1 = p /\
    (* ranges and clamping at the cut *)
    first_knot (bs_knots c0) = first_knot ks /\ last_knot (bs_knots c0) = x /\ (p + 1 <= mult (bs_knots c0) x)%nat /\
    first_knot (bs_knots c1) = x /\ last_knot (bs_knots c1) = last_knot ks /\ mult (bs_knots c1) x = (p + 1)%nat /\
    (* same curve *)
    (forall u, first_knot ks <= u < x -> bspline3_get_point c0 u = bspline3_get_point c u) /\
    ((mult ks x <= p)%nat -> bspline3_get_point c0 x = bspline3_get_point c x) /\
    (forall u, x <= u -> bspline3_get_point c1 u = bspline3_get_point c u).
Proof.
  intros ks p Hv [i0 (Hi0 & Ht & Hx)] Hsep Hx0 Hxp. pose proof Hv as [Hs Hsp HL Hne]. fold ks p in Hs, Hsp, HL.
  assert (Hspan : is_span ks t i0).
  { split; [assumption|]. split; [lra|]. split; [lra|]. left; lra. }
  assert (Hx' : x = if near t (nth i0 ks 0) then nth i0 ks 0 else t).
  { unfold near, abs_diff_eq, ftol; rnum. rewrite Rabs_right by lra. unfold Rleb.
    destruct (Rle_dec _ _); destruct Hx as [[? ?]|[? ?]]; try assumption; lra. }
  assert (Hxt : nth i0 ks 0 <= x <= t) by (destruct Hx as [[? ?]|[? ?]]; lra).
  assert (Hlo : forall i, (i < S i0)%nat -> nth i ks 0 <= x).
  { intros i Hi. apply Rle_trans with (nth i0 ks 0); [|lra]. apply Hs. lia. }
  assert (Hhi : forall i, (S i0 <= i < length ks)%nat -> x < nth i ks 0).
  { intros i Hi. apply Rlt_le_trans with (nth (i0 + 1) ks 0); [lra|]. apply Hs. lia. }
  destruct (block_exists ks x (S i0) Hs ltac:(lia) Hlo) as [s (Hsj & H1 & H2)].
  destruct (split_result c t x i0 s Hv Hspan ltac:(apply Ht) Hx' Hsep Hx0 Hxp Hsj H1 H2) as [c0 [c1 (E & V0 & V1 & D0 & D1 & K0 & K1 & E0 & E1 & E2)]].
  fold ks p in K0, K1, E0, E1, E2, D0, D1.
  assert (Em : mult ks x = s) by (apply (mult_block ks x (S i0) s); auto; lia).
  assert (LF : length (firstn (S i0) ks) = S i0) by (rewrite firstn_length; lia).
  exists c0, c1. rewrite Em. rewrite K0, K1. split; [exact E|]. split; [exact V0|]. split; [exact V1|]. split; [exact D0|]. split; [exact D1|].
  unfold first_knot, last_knot.
  split. { rewrite app_nth1 by lia. now rewrite nth_firstn by lia. }
  split.
  { rewrite app_length, LF, repeat_length. destruct (S p - s)%nat as [|m'] eqn:Em'.
    - rewrite app_nth1 by lia. rewrite nth_firstn by lia. apply H2. lia.
    - rewrite app_nth2 by lia. rewrite LF. rewrite (nth_indep _ 0 x) by (rewrite repeat_length; lia). apply nth_repeat. }
  split.
  { unfold mult. rewrite count_occ_app.
    assert (G : forall m, count_occ Req_EM_T (repeat x m) x = m).
    { induction m as [|m IH]; cbn; [reflexivity|]. destruct (Req_EM_T x x); [now rewrite IH|contradiction]. }
    rewrite G. replace (count_occ Req_EM_T (firstn (S i0) ks) x) with s; [lia|].
    symmetry. change (mult (firstn (S i0) ks) x = s). apply (mult_block _ _ (S i0) s).
    - lia.
    - intros i Hi. rewrite nth_firstn by lia. now apply H1.
    - intros i Hi. rewrite nth_firstn by lia. now apply H2.
    - intros i Hi. lia. }
  split. { rewrite Nat.add_1_r. reflexivity. }
  split.
  { rewrite app_length, repeat_length, skipn_length. rewrite app_nth2 by (rewrite repeat_length; lia).
    rewrite repeat_length, nth_skipn. f_equal. lia. }
  split.
  { unfold mult. rewrite count_occ_app.
    assert (G : forall m, count_occ Req_EM_T (repeat x m) x = m).
    { induction m as [|m IH]; cbn; [reflexivity|]. destruct (Req_EM_T x x); [now rewrite IH|contradiction]. }
    rewrite G. rewrite (proj1 (count_occ_not_In Req_EM_T (skipn (S i0) ks) x)); [lia|].
    intros Hin. apply (In_nth _ _ 0) in Hin. destruct Hin as [i [Hi Ei]]. rewrite skipn_length in Hi. rewrite nth_skipn in Ei.
    specialize (Hhi (S i0 + i)%nat ltac:(lia)). lra. }
  split; [exact E0|]. split; [exact E2|exact E1].
Qed.

Example C12_nonvacuous : valid_bspline c_ex /\ cut_parameter (bs_knots c_ex) 1 1 /\ separated (1 :: bs_knots c_ex) /\
  first_knot (bs_knots c_ex) < 1 /\ nth (bs_degree c_ex) (bs_knots c_ex) 0 <= 1 /\ (mult (bs_knots c_ex) 1 <= bs_degree c_ex)%nat.
Proof.
  split; [apply c_ex_valid|]. split.
  { exists 3%nat. cbn. split; [lia|]. split; [lra|]. left. lra. }
  split.
  { apply separated_ints. intros a Ha. cbn in Ha.
    repeat (destruct Ha as [<-|Ha]; [eexists; split; [reflexivity|lia]|]). destruct Ha. }
  unfold first_knot. cbn. split; [lra|]. split; [lra|]. unfold mult. cbn.
  repeat (destruct (Req_EM_T _ _); try lra). lia.
Qed.

(** Splitting at the start of a clamped curve: an empty left piece, the right piece is the curve. *)
Theorem C12_split_at_start (c : BSpline R (vec3 R)) (t : R) :
  let ks := bs_knots c in let p := bs_degree c in
  valid_bspline c -> nth p ks 0 = first_knot ks -> first_knot ks < nth (p + 1) ks 0 ->
  first_knot ks <= t <= first_knot ks + / 10000000 -> t < nth (p + 1) ks 0 ->
  bspline_split c t = Ok (mkBSpline [] (firstn (p + 1) ks) p, c).
Proof.
  intros ks p Hv Hp Hp1 Ht Ht1. pose proof Hv as [Hs Hsp HL Hne]. fold ks p in Hs, Hsp, HL. unfold first_knot in *.
  assert (B : forall i, (i <= p)%nat -> nth i ks 0 = nth 0 ks 0).
  { intros i Hi. assert (nth 0 ks 0 <= nth i ks 0) by (apply Hs; lia). assert (nth i ks 0 <= nth p ks 0) by (apply Hs; lia). lra. }
  assert (Hspan : forall t', nth 0 ks 0 <= t' <= t -> is_span ks t' p).
  { intros t' Ht'. split; [lia|]. split; [lra|]. split; [lra|]. left; lra. }
  unfold bspline_split. fold ks p. rewrite (span_index_spec ks t p) by (auto; apply Hspan; lra). cbn [obind].
  rewrite (idx_nth _ _ 0) by lia. cbn [obind].
  assert (En : near t (nth p ks 0) = true).
  { unfold near, abs_diff_eq, ftol; rnum. apply Rleb_true. rewrite Rabs_right by lra. lra. }
  rewrite En. rewrite (multiplicity_block ks (nth p ks 0) (p + 1) (p + 1) p); auto; try lia.
  - cbn [obind]. replace (length (range_incl (p + 1) p)) with 0%nat by (unfold range_incl; rewrite seq_length; lia).
    cbn [bspline_add_knots obind]. fold ks. rewrite (span_index_spec ks (nth p ks 0) p) by (auto; apply Hspan; lra). cbn [obind].
    rewrite !slice_Ok by lia. cbn [obind]. rewrite usub_Ok by lia. cbn [obind]. rewrite Nat.sub_diag.
    rewrite !slice_Ok by lia. cbn [obind]. rewrite !Nat.sub_0_r. cbn [skipn]. rewrite !firstn_all. cbn [firstn].
    subst ks p. now destruct c.
  - intros i Hi. rewrite Hp. apply B. lia.
  - intros i Hi. rewrite Hp. apply Rlt_le_trans with (nth (p + 1) ks 0); [assumption|]. apply Hs. lia.
Qed.

(** Splitting at the end parameter does not give the pieces one expects: whatever the curve, the
    knots left in self end at the last knot below the end. *)
Theorem C12_split_at_end (c : BSpline R (vec3 R)) (i : nat) :
  let ks := bs_knots c in let p := bs_degree c in
  valid_bspline c -> (p <= i)%nat -> (i + 1 < length ks)%nat -> nth i ks 0 < nth (i + 1) ks 0 -> nth (i + 1) ks 0 = last_knot ks ->
  / 10000000 < last_knot ks - nth i ks 0 ->
  exists c0 c1, bspline_split c (last_knot ks) = Ok (c0, c1) /\
    bs_knots c0 = firstn (i + 1) ks /\ last_knot (bs_knots c0) < last_knot ks.
Proof.
  intros ks p Hv Hpi Hi Hlt Hl Hfar. pose proof Hv as [Hs Hsp HL Hne]. fold ks p in Hs, Hsp, HL. unfold last_knot in *.
  set (x := nth (length ks - 1) ks 0) in *.
  assert (Hspan : is_span ks x i).
  { split; [assumption|]. split; [assumption|]. split; [lra|]. right. fold x. split; [assumption|lra]. }
  assert (Hmax : forall a, (a < length ks)%nat -> nth a ks 0 <= x) by (intros a Ha; apply Hs; lia).
  destruct (rep_result c x (length ks) Hv ltac:(fold ks; lia)) with (m := S p) as [c' (E1 & Hv' & Hd' & Hk' & HL' & _)].
  { intros a Ha. now apply Hmax. }
  { fold ks. intros; lia. }
  { apply (separated_incl ks); [assumption|]. intros a [<-|Ha]; [apply nth_In; fold ks; lia|exact Ha]. }
  { fold p. lia. }
  fold ks p in E1, Hd', Hk', HL'.
  assert (KN : forall a, nth a (bs_knots c') 0 = if (a <? length ks)%nat then nth a ks 0 else if (a <? length ks + S p)%nat then x else nth (a - S p) ks 0).
  { intros a. rewrite Hk'. apply nth_ins_rep. lia. }
  assert (LK : length (bs_knots c') = (length ks + S p)%nat) by (rewrite Hk'; apply ins_rep_length; lia).
  assert (Hspan' : is_span (bs_knots c') x i).
  { unfold is_span. rewrite LK, !KN. rewrite !(proj2 (Nat.ltb_lt _ (length ks))) by lia.
    rewrite (proj2 (Nat.ltb_ge _ (length ks))), (proj2 (Nat.ltb_lt _ (length ks + S p))) by lia.
    split; [lia|]. split; [assumption|]. split; [lra|]. right. split; [assumption|lra]. }
  unfold bspline_split. fold ks p. rewrite (span_index_spec ks x i) by auto. cbn [obind].
  rewrite (idx_nth _ _ 0) by lia. cbn [obind].
  assert (En : near x (nth i ks 0) = false).
  { unfold near, abs_diff_eq, ftol; rnum. apply Rleb_false. rewrite Rabs_right by lra. lra. }
  rewrite En. cbn [obind]. replace (length (range_incl 0 p)) with (S p) by (unfold range_incl; rewrite seq_length; lia).
  rewrite E1. cbn [obind]. rewrite (span_index_spec (bs_knots c') x i) by (auto; apply Hv'). cbn [obind].
  rewrite slice_Ok by lia. cbn [obind]. rewrite usub_Ok by lia. cbn [obind]. rewrite !slice_Ok by lia. cbn [obind].
  eexists. eexists. split; [reflexivity|]. cbn [bs_knots]. rewrite Nat.sub_0_r. cbn [skipn].
  assert (EF : firstn (i + 1) (bs_knots c') = firstn (i + 1) ks).
  { rewrite Hk'. unfold ins_rep. rewrite firstn_all, skipn_all, app_nil_r, firstn_app.
    replace (i + 1 - length ks)%nat with 0%nat by lia. cbn [firstn]. now rewrite app_nil_r. }
  rewrite EF. split; [reflexivity|]. rewrite firstn_length, Nat.min_l by lia. rewrite nth_firstn by lia.
  replace (i + 1 - 1)%nat with i by lia. lra.
Qed.
(** computed in binary64: a polyline 1 -> 2 -> 3 split at its end; self then evaluates to -1 there. *)
Example C12_split_at_end_computed :
  let c := mkBSpline [v64 1 0 0; v64 2 0 0; v64 3 0 0] (map f64_of_Z [0; 0; 1; 2; 2]%Z) 1 in
  bspline3_get_point c (f64_of_Z 2) = Ok (v64 3 0 0) /\
  obind (bspline_split c (f64_of_Z 2)) (fun '(c0, _) => bspline3_get_point c0 (f64_of_Z 2)) = Ok (v64 (-1) 0 0).
Proof. vm_compute. split; reflexivity. Qed.

(** ** C13: clamp *)
Lemma add_own_knot_fixed m (c : BSpline R (vec3 R)) i x :
  (forall m' c', (m' < m)%nat -> bspline_add_knots m' c x = Ok c' -> idx (bs_knots c') i = Ok x) ->
  bspline_add_own_knot m c i = bspline_add_knots m c x.
Proof.
  revert c. induction m as [|m IH]; intros c H; cbn [bspline_add_own_knot bspline_add_knots]; [reflexivity|].
  rewrite (H 0%nat c) by (try lia; reflexivity). cbn [obind].
  destruct (bspline_add_knot c x) as [c1| |] eqn:E1; cbn [obind]; [|reflexivity|reflexivity].
  apply IH. intros m' c' Hm' E'. apply (H (S m') c'); [lia|]. cbn [bspline_add_knots]. rewrite E1. exact E'.
Qed.

Lemma first_mult ks p : sorted ks -> separated ks -> (p < length ks)%nat ->
  exists s, multiplicity ks 0 = Ok s /\ ((s <= p)%nat <-> nth 0 ks 0 < nth p ks 0).
Proof.
  intros Hs Hsep Hp. destruct (knot_add_sorted ks (nth 0 ks 0) Hs) as [j (Hj & _ & Hlo & Hhi & _)].
  destruct (block_exists ks (nth 0 ks 0) j Hs Hj Hlo) as [s (H1 & H2 & H3)].
  exists s. split; [apply (multiplicity_block ks (nth 0 ks 0) j s 0); auto; lia|].
  assert (Hj0 : (0 < j)%nat).
  { destruct (Nat.eq_dec j 0) as [->|]; [|lia]. specialize (Hhi 0%nat ltac:(lia)). lra. }
  assert (Es : s = j).
  { destruct (Nat.eq_dec (j - s) 0); [lia|]. specialize (H2 0%nat ltac:(lia)). lra. }
  subst s. split; intros H.
  - apply Hhi. lia.
  - destruct (le_lt_dec j p); [assumption|]. specialize (Hlo p ltac:(lia)). lra.
Qed.

(** Clamping works when the start is already clamped: the end knot is repeated up to multiplicity
    degree + 1, and the curve is the same on its whole range.  A clamped curve is returned as it is. *)
Theorem C13_clamp_start_clamped (c : BSpline R (vec3 R)) :
  let ks := bs_knots c in let p := bs_degree c in
  valid_bspline c -> first_knot ks < last_knot ks -> nth p ks 0 = first_knot ks ->
  exists c', bspline_clamp c = Ok c' /\ valid_bspline c' /\ bs_degree c' = p /\
    (p + 1 <= mult (bs_knots c') (first_knot (bs_knots c')))%nat /\
    (p + 1 <= mult (bs_knots c') (last_knot (bs_knots c')))%nat /\
    bs_knots c' = ks ++ repeat (last_knot ks) (p + 1 - mult ks (last_knot ks)) /\
    ((p + 1 <= mult ks (last_knot ks))%nat -> c' = c) /\
    forall u, first_knot ks <= u -> bspline3_get_point c' u = bspline3_get_point c u.
Proof.
  intros ks p Hv Hne0 Hp. pose proof Hv as [Hs Hsep HL Hne]. fold ks p in Hs, Hsep, HL. unfold first_knot, last_knot in *.
  set (x := nth (length ks - 1) ks 0) in *.
  unfold bspline_clamp. fold ks p.
  destruct (first_mult ks p Hs Hsep ltac:(lia)) as [s0 (Es0 & Hs0)]. rewrite Es0. cbn [obind].
  replace (length (range_incl s0 p)) with 0%nat.
  2:{ unfold range_incl. rewrite seq_length. destruct (le_lt_dec s0 p) as [H|H]; [|lia]. apply Hs0 in H. lra. }
  cbn [bspline_add_own_knot obind]. fold ks. rewrite usub_Ok by lia. cbn [obind].
  assert (Hmax : forall a, (a < length ks)%nat -> nth a ks 0 <= x) by (intros a Ha; apply Hs; lia).
  destruct (block_exists ks x (length ks) Hs ltac:(lia) Hmax) as [s (H1 & H2 & H3)].
  rewrite (multiplicity_block ks x (length ks) s (length ks - 1)); auto; try lia.
  cbn [obind]. replace (length (range_incl s p)) with (S p - s)%nat by (unfold range_incl; now rewrite seq_length).
  assert (Hsepx : separated (x :: ks)).
  { apply (separated_incl ks); [assumption|]. intros a [<-|Ha]; [apply nth_In; lia|exact Ha]. }
  assert (Hlo : forall i, (i < length ks)%nat -> nth i ks 0 <= x) by exact Hmax.
  assert (Hhi : forall i, (length ks <= i < length ks)%nat -> x < nth i ks 0) by (intros; lia).
  assert (Em : mult ks x = s) by (apply (mult_block ks x (length ks) s); auto; lia).
  assert (IR : forall m, ins_rep ks (length ks) m x = ks ++ repeat x m).
  { intros m. unfold ins_rep. now rewrite firstn_all, skipn_all, app_nil_r. }
  rewrite (add_own_knot_fixed _ c _ x).
  2:{ intros m' c' Hm' E'. destruct (rep_result c x (length ks) Hv ltac:(fold ks; lia) Hlo Hhi Hsepx ltac:(fold p; lia) m') as [c'' (E'' & _ & _ & K'' & _)].
      rewrite E' in E''. apply Ok_inj in E''. subst c''. rewrite K''. fold ks. rewrite IR.
      rewrite (idx_nth _ _ 0) by (rewrite app_length; lia). rewrite app_nth1 by lia. reflexivity. }
  destruct (rep_result c x (length ks) Hv ltac:(fold ks; lia) Hlo Hhi Hsepx ltac:(fold p; lia) (S p - s)) as [c' (E' & V' & D' & K' & L' & C' & _)].
  fold ks p in D', K', C'. rewrite IR in K'.
  assert (G : forall m, count_occ Req_EM_T (repeat x m) x = m).
  { induction m as [|m IH]; cbn; [reflexivity|]. destruct (Req_EM_T x x); [now rewrite IH|contradiction]. }
  exists c'. split; [exact E'|]. split; [exact V'|]. split; [exact D'|].
  assert (LK : nth (length (bs_knots c') - 1) (bs_knots c') 0 = x).
  { rewrite K', app_length, repeat_length. destruct (S p - s)%nat as [|m'] eqn:Em'.
    - rewrite app_nth1 by lia. unfold x. f_equal. lia.
    - rewrite app_nth2 by lia. rewrite (nth_indep _ 0 x) by (rewrite repeat_length; lia). apply nth_repeat. }
  split.
  { assert (F0 : nth 0 (bs_knots c') 0 = nth 0 ks 0) by (rewrite K'; apply app_nth1; lia). rewrite F0.
    unfold mult. rewrite K', count_occ_app.
    assert (GG : (p + 1 <= count_occ Req_EM_T ks (nth 0 ks 0%R))%nat); [|lia].
    rewrite <- (firstn_skipn (p + 1) ks) at 1. rewrite (count_occ_app Req_EM_T (firstn _ _)).
    replace (firstn (p + 1) ks) with (repeat (nth 0 ks 0) (p + 1)).
    + assert (G' : forall y m, count_occ Req_EM_T (repeat y m) y = m).
      { intros y. induction m as [|m IH]; cbn; [reflexivity|]. destruct (Req_EM_T y y); [now rewrite IH|contradiction]. }
      rewrite G'. lia.
    + apply (nth_ext_len _ _ 0); [rewrite repeat_length, firstn_length; lia|]. intros i Hi. rewrite repeat_length in Hi.
      rewrite (nth_indep _ 0 (nth 0 ks 0)) by now rewrite repeat_length. rewrite nth_repeat, nth_firstn by lia.
      assert (nth 0 ks 0 <= nth i ks 0) by (apply Hs; lia). assert (nth i ks 0 <= nth p ks 0) by (apply Hs; lia). lra. }
  split; [rewrite LK; unfold mult; rewrite K', count_occ_app, G; change (count_occ Req_EM_T ks x) with (mult ks x); lia|].
  split; [rewrite K', Em; now replace (p + 1 - s)%nat with (S p - s)%nat by lia|].
  split.
  { intros Hm. replace (S p - s)%nat with 0%nat in E' by lia. cbn in E'. congruence. }
  intros u Hu. destruct (span_exists ks u Hs ltac:(lia) Hne0 Hu) as [su Hsu]. apply (C' u su Hsu). intros _. now right.
Qed.
Example C13_nonvacuous :
  let c := mkBSpline [V3 0 0 0; V3 1 2 0; V3 3 2 1; V3 4 0 0] [0; 0; 0; 1; 2; 3; 4] 2 in
  valid_bspline c /\ first_knot (bs_knots c) < last_knot (bs_knots c) /\ nth (bs_degree c) (bs_knots c) 0 = first_knot (bs_knots c).
Proof.
  split.
  - split; cbn [bs_knots bs_cps bs_degree].
    + apply sorted_by_pairs. intros i Hi. cbn [length] in Hi. do 6 (destruct i as [|i]; [cbn; lra|]). lia.
    + apply separated_ints. intros a Ha. cbn in Ha.
      repeat (destruct Ha as [<-|Ha]; [eexists; split; [reflexivity|lia]|]). destruct Ha.
    + reflexivity.
    + cbn; lia.
  - unfold first_knot, last_knot. cbn. lra.
Qed.

(** It never works when the start is not clamped. *)
Theorem C13_clamp_panics_iff (c : BSpline R (vec3 R)) :
  let ks := bs_knots c in valid_bspline c -> first_knot ks < last_knot ks ->
  (bspline_clamp c = Panic <-> first_knot ks < nth (bs_degree c) ks 0).
Proof.
  intros ks Hv Hne0. pose proof Hv as [Hs Hsep HL Hne]. fold ks in Hs, Hsep, HL. set (p := bs_degree c) in *.
  assert (Hp : first_knot ks <= nth p ks 0) by (apply Hs; lia). split.
  - intros E. destruct (Rle_lt_or_eq_dec _ _ Hp) as [|Eq]; [assumption|].
    destruct (C13_clamp_start_clamped c Hv Hne0 (eq_sym Eq)) as [c' [E' _]]. congruence.
  - intros H. unfold bspline_clamp. fold ks p. destruct (first_mult ks p Hs Hsep ltac:(lia)) as [s0 (Es0 & Hs0)].
    rewrite Es0. cbn [obind]. apply Hs0 in H. unfold range_incl. rewrite seq_length.
    replace (S p - s0)%nat with (S (p - s0)) by lia. cbn [bspline_add_own_knot]. fold ks. rewrite (idx_nth _ _ 0) by lia. cbn [obind].
    rewrite (proj2 (C11_add_knot_panics_iff c (nth 0 ks 0) Hv ltac:(apply (separated_incl ks); [assumption|]; intros a [<-|Ha]; [apply nth_In; lia|exact Ha]))).
    + reflexivity.
    + fold ks p. split; [lra|]. now apply Hs0.
Qed.

(** ** C14: decomposition into Bezier pieces *)
(** On the knots a,..,a,b,..,b the basis functions are the Bernstein polynomials. *)
Lemma cdb_bernstein t p a b u : a < b -> (forall j, (j <= p)%nat -> t j = a) -> (forall j, (p < j <= 2 * p + 1)%nat -> t j = b) ->
  forall k r, (k <= p)%nat -> (r <= k)%nat -> cdb t p k (p - k + r) u = Bern k r ((u - a) / (b - a)).
Proof.
  intros Hab Ha Hb k. induction k as [|k IH]; intros r Hk Hr.
  - replace r with 0%nat by lia. rewrite Nat.sub_0_r, Nat.add_0_r. cbn [cdb]. now rewrite Nat.eqb_refl, Bern_00.
  - cbn [cdb]. set (i := (p - S k + r)%nat).
    assert (E1 : t (i + S k + 1)%nat = b) by (apply Hb; unfold i; lia).
    assert (A2 : cdb t p k (i + 1) u = if (r <=? k)%nat then Bern k r ((u - a) / (b - a)) else 0).
    { destruct (Nat.leb_spec r k).
      - replace (i + 1)%nat with (p - k + r)%nat by (unfold i; lia). apply IH; lia.
      - apply cdb_support. left. unfold i. lia. }
    rewrite A2.
    assert (T2 : ratio (t (i + S k + 1)%nat - u) (t (i + S k + 1)%nat - t (i + 1)%nat) * (if (r <=? k)%nat then Bern k r ((u - a) / (b - a)) else 0)
                 = (1 - (u - a) / (b - a)) * Bern k r ((u - a) / (b - a))).
    { destruct (Nat.leb_spec r k).
      - rewrite E1, (Ha (i + 1)%nat) by (unfold i; lia). rewrite ratio_nz by (intro; lra).
        replace ((b - u) / (b - a)) with (1 - (u - a) / (b - a)) by (field; intro; lra). ring.
      - rewrite Bern_above by lia. ring. }
    rewrite T2. destruct r as [|r].
    + rewrite Bern_S0. rewrite (cdb_support t p k i) by (right; unfold i; lia). ring.
    + rewrite Bern_SS. rewrite (Ha i) by (unfold i; lia). rewrite (Hb (i + S k)%nat) by (unfold i; lia).
      rewrite ratio_nz by (intro; lra). replace i with (p - k + r)%nat by (unfold i; lia). rewrite IH by lia. reflexivity.
Qed.

(** a B-spline with only two distinct knots is the Bezier curve of its control points *)
Lemma bezier_piece (c : BSpline R (vec3 R)) a b : valid_bspline c -> a < b ->
  bs_knots c = repeat a (bs_degree c + 1) ++ repeat b (bs_degree c + 1) ->
  length (bs_cps c) = (bs_degree c + 1)%nat /\
  forall s, 0 <= s -> bezier3_get_point (bs_cps c) s = bspline3_get_point c (a + s * (b - a)).
Proof.
  intros Hv Hab HK. pose proof Hv as [Hs Hsep HL Hne]. set (p := bs_degree c) in *.
  assert (HN : length (bs_cps c) = (p + 1)%nat) by (rewrite HK, app_length, !repeat_length in HL; lia).
  split; [assumption|]. intros s Hs0.
  assert (KA : forall j, (j <= p)%nat -> nth j (bs_knots c) 0 = a).
  { intros j Hj. rewrite HK, app_nth1 by (rewrite repeat_length; lia).
    rewrite (nth_indep _ 0 a) by (rewrite repeat_length; lia). apply nth_repeat. }
  assert (KB : forall j, (p < j <= 2 * p + 1)%nat -> nth j (bs_knots c) 0 = b).
  { intros j Hj. rewrite HK, app_nth2 by (rewrite repeat_length; lia).
    rewrite repeat_length. rewrite (nth_indep _ 0 b) by (rewrite repeat_length; lia). apply nth_repeat. }
  assert (LK : length (bs_knots c) = (2 * p + 2)%nat) by lia.
  assert (Hspan : is_span (bs_knots c) (a + s * (b - a)) p).
  { unfold is_span. rewrite LK. rewrite (KA p), (KB (p + 1)%nat), (KB (2 * p + 2 - 1)%nat) by lia.
    split; [lia|]. split; [assumption|]. split; [nra|]. destruct (Rlt_le_dec (a + s * (b - a)) b); [left; lra|right; lra]. }
  rewrite (bspline_eval c _ p Hv Hspan). fold p. rewrite bezier_eval_Bern by lia. f_equal.
  apply comb3_ext. intros i Hi. rewrite HN. replace (p + 1 - 1)%nat with p by lia.
  pose proof (cdb_bernstein (fun j => nth j (bs_knots c) 0) p a b (a + s * (b - a)) Hab KA KB p i ltac:(lia) ltac:(lia)) as E.
  rewrite Nat.sub_diag in E. cbn [Nat.add] in E. rewrite E. f_equal. field. intro; lra.
Qed.

(** [cps] is the Bezier form of c over [a, b].  At b the curve and the piece agree where c is
    continuous, and at the end. *)
Definition is_bezier_of (c : BSpline R (vec3 R)) (a b : R) (cps : list (vec3 R)) : Prop :=
  length cps = (bs_degree c + 1)%nat /\
  (forall s, 0 <= s < 1 -> bezier3_get_point cps s = bspline3_get_point c (a + s * (b - a))) /\
  ((mult (bs_knots c) b <= bs_degree c)%nat \/ b = last_knot (bs_knots c) -> bezier3_get_point cps 1 = bspline3_get_point c b).

Definition strictly_increasing (ds : list R) : Prop := forall i j, (i < j < length ds)%nat -> nth i ds 0 < nth j ds 0.

Lemma dedup_spec (kept : R) l :
  (forall i j, (i <= j < length (kept :: l))%nat -> nth i (kept :: l) 0 <= nth j (kept :: l) 0) ->
  (forall a b, In a (kept :: l) -> In b (kept :: l) -> a <> b -> Rabs (a - b) > / 10000000) ->
  let ds := kept :: dedup_by_from (fun a b => near a b) kept l in
  strictly_increasing ds /\ (forall a, In a ds <-> In a (kept :: l)).
Proof.
  revert kept. induction l as [|a l IH]; intros kept Hs Ht ds.
  - cbn in ds. subst ds. split; [|reflexivity]. intros i j Hij. cbn in Hij. lia.
  - cbn [dedup_by_from] in ds. assert (Hka : kept <= a) by (apply (Hs 0%nat 1%nat); cbn; lia).
    destruct (near a kept) eqn:En.
    + assert (a = kept).
      { destruct (Req_EM_T a kept) as [|NE]; [assumption|exfalso].
        specialize (Ht a kept ltac:(now right; left) ltac:(now left) NE).
        unfold near, abs_diff_eq, ftol in En; rnum. apply Rleb_true in En. lra. }
      subst a. destruct (IH kept) as [I1 I2].
      * intros i j Hij. specialize (Hs (S i) (S j) ltac:(cbn in *; lia)). exact Hs.
      * intros x y Hx Hy. apply Ht; now right.
      * split; [exact I1|]. intros x. unfold ds. rewrite (I2 x). cbn [In]. tauto.
    + destruct (IH a) as [I1 I2].
      * intros i j Hij. specialize (Hs (S i) (S j) ltac:(cbn in *; lia)). exact Hs.
      * intros x y Hx Hy. apply Ht; now right.
      * assert (NE : kept <> a) by (intros <-; rewrite near_refl_R in En; discriminate).
        split.
        -- intros i j Hij. unfold ds. destruct j as [|j]; [lia|]. destruct i as [|i].
           ++ cbn [nth]. apply Rlt_le_trans with a; [lra|]. destruct j as [|j]; [cbn; lra|]. left.
              apply (I1 0%nat (S j)). unfold ds in Hij. cbn [length] in Hij. cbn [length]. lia.
           ++ apply (I1 i j). unfold ds in Hij. cbn [length] in Hij. cbn [length]. lia.
        -- intros x. unfold ds. cbn [In]. rewrite <- (I2 x). reflexivity.
Qed.

Section Pieces.
Variable c : BSpline R (vec3 R).
Hypothesis Hv : valid_bspline c.
Let ks := bs_knots c.
Let p := bs_degree c.
Hypothesis Hstart : nth p ks 0 = first_knot ks.
Hypothesis Hmult : forall x, (mult ks x <= p + 1)%nat.
Variable ds : list R.
Hypothesis Hds : strictly_increasing ds.
Hypothesis HdsI : forall a, In a ds <-> In a ks.

Let Hs : sorted ks. Proof. apply (vb_sorted _ Hv). Qed.
Let HL : length ks = (length (bs_cps c) + p + 1)%nat. Proof. apply (vb_len _ Hv). Qed.

(** the part of the curve left of the knot x, clamped at x *)
Record left_part (b : BSpline R (vec3 R)) (x : R) : Prop := {
  lp_valid : valid_bspline b;
  lp_degree : bs_degree b = p;
  lp_knots : exists L, (L < length ks)%nat /\ bs_knots b = firstn L ks ++ repeat x (p + 1) /\
     (forall i, (i < L)%nat -> nth i ks 0 < x) /\ (forall i, (L <= i < length ks)%nat -> x <= nth i ks 0);
  lp_eval : forall u, first_knot ks <= u < x -> bspline3_get_point b u = bspline3_get_point c u;
  lp_end : (mult ks x <= p)%nat \/ x = last_knot ks -> bspline3_get_point b x = bspline3_get_point c x;
}.

Lemma piece_step b x y : left_part b x -> first_knot ks < y -> In y ks -> y < x -> (forall a, In a ks -> a < x -> a <= y) ->
  exists b' piece, bspline_split b y = Ok (b', piece) /\ left_part b' y /\ is_bezier_of c y x (bs_cps piece).
Proof.
  intros [Vb Db [L (HLL & Kb & HLlo & HLhi)] Eb Endb] Hy0 Hyin Hyx Hyprev.
  assert (LF : length (firstn L ks) = L) by (rewrite firstn_length; lia).
  assert (LB : length (bs_knots b) = (L + (p + 1))%nat) by (rewrite Kb, app_length, LF, repeat_length; lia).
  assert (NB1 : forall i, (i < L)%nat -> nth i (bs_knots b) 0 = nth i ks 0).
  { intros i Hi. rewrite Kb, app_nth1 by lia. now apply nth_firstn. }
  assert (NB2 : forall i, (L <= i < L + (p + 1))%nat -> nth i (bs_knots b) 0 = x).
  { intros i Hi. rewrite Kb, app_nth2 by lia. rewrite LF. rewrite (nth_indep _ 0 x) by (rewrite repeat_length; lia). apply nth_repeat. }
  (* y is the knot just before L *)
  destruct (In_nth _ _ 0 Hyin) as [iy [Hiy Eiy]].
  assert (HiyL : (iy < L)%nat).
  { destruct (le_lt_dec L iy); [|assumption]. specialize (HLhi iy ltac:(lia)). lra. }
  assert (EL1 : nth (L - 1) ks 0 = y).
  { assert (nth (L - 1) ks 0 <= y) by (apply Hyprev; [apply nth_In; lia|apply HLlo; lia]).
    assert (nth iy ks 0 <= nth (L - 1) ks 0) by (apply Hs; lia). lra. }
  assert (HpL : (p < L)%nat).
  { destruct (le_lt_dec L p) as [H|]; [|assumption]. assert (nth (L - 1) ks 0 <= nth p ks 0) by (apply Hs; lia). unfold first_knot in *. lra. }
  assert (Hlo : forall i, (i < L)%nat -> nth i ks 0 <= y).
  { intros i Hi. apply Hyprev; [apply nth_In; lia|now apply HLlo]. }
  destruct (block_exists ks y L Hs ltac:(lia) Hlo) as [s (S1 & S2 & S3)].
  assert (Em : mult ks y = s).
  { apply (mult_block ks y L s); auto; [lia|]. intros i Hi. specialize (HLhi i Hi). lra. }
  pose proof (Hmult y) as Hmy. rewrite Em in Hmy.
  assert (F0 : nth 0 (bs_knots b) 0 = first_knot ks) by (apply NB1; lia).
  destruct (split_result b y y (L - 1) s Vb) as [c0 [c1 (E & V0 & V1 & D0 & D1 & K0 & K1 & E0 & E1 & E2)]].
  { split; [lia|]. replace (L - 1 + 1)%nat with L by lia. rewrite NB1, (NB2 L) by lia. rewrite EL1.
    split; [assumption|]. split; [lra|]. left; assumption. }
  { replace (L - 1 + 1)%nat with L by lia. rewrite NB2 by lia. assumption. }
  { rewrite NB1 by lia. rewrite EL1. now rewrite near_refl_R. }
  { apply (separated_incl (bs_knots b)); [apply (vb_sep _ Vb)|]. intros a [<-|Ha]; [|exact Ha].
    rewrite <- EL1, <- NB1 by lia. apply nth_In. lia. }
  { rewrite F0. assumption. }
  { rewrite Db, NB1 by lia. unfold first_knot in *. lra. }
  { lia. }
  { intros i Hi. rewrite NB1 by lia. apply S2. lia. }
  { intros i Hi. rewrite NB1 by lia. apply S3. lia. }
  rewrite Db in K0, K1, D0, D1, E2. rewrite F0 in E0. replace (S (L - 1)) with L in K0, K1 by lia.
  assert (SK : skipn L (bs_knots b) = repeat x (p + 1)).
  { rewrite Kb, skipn_app, LF, Nat.sub_diag. cbn [skipn]. rewrite skipn_all2 by lia. reflexivity. }
  assert (FK : firstn L (bs_knots b) = firstn L ks).
  { rewrite Kb, firstn_app, LF, Nat.sub_diag. cbn [firstn]. rewrite app_nil_r. apply firstn_all2. lia. }
  exists c0, c1. split; [exact E|]. split.
  - split; auto.
    + exists (L - s)%nat. split; [lia|]. split; [|split].
      * rewrite K0, FK. apply (nth_ext_len _ _ 0).
        -- rewrite !app_length, !repeat_length, !firstn_length. lia.
        -- intros i Hi. rewrite app_length, LF, repeat_length in Hi. destruct (le_lt_dec (L - s) i) as [H|H].
           ++ rewrite (app_nth2 (firstn (L - s) ks)) by (rewrite firstn_length; lia).
              rewrite (nth_indep (repeat y (p + 1)) 0 y) by (rewrite repeat_length, firstn_length; lia). rewrite nth_repeat.
              destruct (le_lt_dec L i).
              ** rewrite app_nth2 by lia. rewrite (nth_indep (repeat y (S p - s)) 0 y) by (rewrite repeat_length, LF; lia). apply nth_repeat.
              ** rewrite app_nth1 by lia. rewrite nth_firstn by lia. apply S3. lia.
           ++ rewrite !app_nth1 by (rewrite firstn_length; lia). now rewrite !nth_firstn by lia.
      * exact S2.
      * intros i Hi. assert (Hs1 : (1 <= s)%nat). { destruct s; [|lia]. specialize (S2 (L - 1)%nat ltac:(lia)). lra. }
        rewrite <- (S3 (L - s)%nat) at 1 by lia. apply Hs. lia.
    + intros u Hu. rewrite E0 by exact Hu. apply Eb. lra.
    + intros [H|H]; [|exfalso].
      * rewrite E2 by lia. apply Eb. lra.
      * specialize (HLhi (length ks - 1)%nat ltac:(lia)). unfold last_knot in H. lra.
  - destruct (bezier_piece c1 y x V1 Hyx) as [BL BE].
    { rewrite K1, SK, D1. reflexivity. }
    rewrite D1 in BL. split; [exact BL|]. split.
    + intros r Hr. rewrite BE by lra. assert (y <= y + r * (x - y) < x) by nra. rewrite E1 by lra. apply Eb. unfold first_knot in *. lra.
    + intros Hx. rewrite BE by lra. replace (y + 1 * (x - y)) with x by ring. rewrite E1 by lra. now apply Endb.
Qed.
End Pieces.

Theorem C14_piecewise_bezier (c : BSpline R (vec3 R)) :
  let ks := bs_knots c in let p := bs_degree c in
  valid_bspline c -> first_knot ks < last_knot ks ->
  nth p ks 0 = first_knot ks -> nth (length (bs_cps c)) ks 0 = last_knot ks ->
  (forall x, (mult ks x <= p + 1)%nat) ->
  (forall a b, In a ks -> In b ks -> a <> b -> Rabs (a - b) > / 10000000) ->
  (* ds: the distinct knots in increasing order *)
  exists ds pieces, strictly_increasing ds /\ (forall a, In a ds <-> In a ks) /\
    to_piecewise_bezier c = Ok pieces /\ length ds = S (length pieces) /\
    forall r, (r < length pieces)%nat -> is_bezier_of c (nth r ds 0) (nth (r + 1) ds 0) (nth r pieces []).
Proof.
  intros ks p Hv Hne0 Hst Hen Hmu Htol. pose proof Hv as [Hs Hsep HL Hne]. fold ks p in Hs, Hsep, HL.
  set (n := length (bs_cps c)) in *.
  set (ds := dedup_by (fun a b => near a b) ks).
  assert (Hds : strictly_increasing ds /\ forall a, In a ds <-> In a ks).
  { unfold ds. destruct ks as [|k0 l] eqn:Ek; [cbn in HL; lia|]. apply (dedup_spec k0 l); assumption. }
  destruct Hds as [Hds HdsI].
  assert (In0 : In (first_knot ks) ks) by (apply nth_In; lia).
  assert (InL : In (last_knot ks) ks) by (apply nth_In; lia).
  assert (HN : (2 <= length ds)%nat).
  { apply HdsI in In0. apply HdsI in InL. destruct ds as [|a [|b l]]; [destruct In0| |cbn; lia].
    destruct In0 as [E0|[]]. destruct InL as [E|[]]. lra. }
  assert (D0 : nth 0 ds 0 = first_knot ks).
  { apply HdsI in In0. apply (In_nth _ _ 0) in In0. destruct In0 as [i [Hi Ei]].
    assert (Hn : In (nth 0 ds 0) ks) by (apply HdsI, nth_In; lia). apply (In_nth _ _ 0) in Hn. destruct Hn as [i' [Hi' Ei']].
    assert (first_knot ks <= nth i' ks 0) by (apply Hs; lia).
    destruct i as [|i]; [assumption|]. specialize (Hds 0%nat (S i) ltac:(lia)). lra. }
  assert (DL : nth (length ds - 1) ds 0 = last_knot ks).
  { apply HdsI in InL. apply (In_nth _ _ 0) in InL. destruct InL as [i [Hi Ei]].
    assert (Hn : In (nth (length ds - 1) ds 0) ks) by (apply HdsI, nth_In; lia). apply (In_nth _ _ 0) in Hn. destruct Hn as [i' [Hi' Ei']].
    assert (nth i' ks 0 <= last_knot ks) by (apply Hs; lia).
    destruct (Nat.eq_dec i (length ds - 1)) as [<-|]; [assumption|]. specialize (Hds i (length ds - 1)%nat ltac:(lia)). lra. }
  assert (Hmax : forall a, (a < length ks)%nat -> nth a ks 0 <= last_knot ks) by (intros a Ha; apply Hs; lia).
  (* the curve itself is a left part *)
  assert (LP : left_part c c (last_knot ks)).
  { destruct (block_exists ks (last_knot ks) (length ks) Hs ltac:(lia) Hmax) as [s (B1 & B2 & B3)].
    assert (Em : mult ks (last_knot ks) = s) by (apply (mult_block ks _ (length ks) s); auto; try lia; intros; lia).
    pose proof (Hmu (last_knot ks)) as Hm. rewrite Em in Hm.
    assert (s = p + 1)%nat.
    { destruct (Nat.eq_dec s (p + 1)); [assumption|]. specialize (B2 n ltac:(lia)). lra. }
    subst s. split; [assumption|reflexivity| |intros; reflexivity|intros; reflexivity].
    exists n. fold ks p. split; [lia|]. split; [|split].
    - apply (nth_ext_len _ _ 0); [rewrite app_length, repeat_length, firstn_length; lia|]. intros i Hi.
      destruct (le_lt_dec n i) as [HH|HH].
      + rewrite app_nth2 by (rewrite firstn_length; lia). rewrite (nth_indep (repeat (last_knot ks) (p + 1)) 0 (last_knot ks)) by (rewrite repeat_length, firstn_length; lia).
        rewrite nth_repeat. apply B3. lia.
      + rewrite app_nth1 by (rewrite firstn_length; lia). now rewrite nth_firstn by lia.
    - intros i Hi. apply B2. lia.
    - intros i Hi. rewrite <- Hen. apply Hs. lia. }
  destruct (C13_clamp_start_clamped c Hv Hne0 Hst) as [c' (EC & _ & _ & _ & _ & _ & Hid & _)].
  assert (c' = c).
  { apply Hid. destruct LP as [_ _ [L (L1 & L2 & L3 & L4)] _ _]. fold ks p in L1, L2, L3, L4.
    assert (E : ks = firstn L ks ++ repeat (last_knot ks) (p + 1)) by exact L2. unfold mult.
    assert (EM : count_occ Req_EM_T ks (last_knot ks) = count_occ Req_EM_T (firstn L ks ++ repeat (last_knot ks) (p + 1)) (last_knot ks)) by (f_equal; exact E).
    fold ks. rewrite EM, count_occ_app. assert (G : forall y m, count_occ Req_EM_T (repeat y m) y = m).
    { intros y. induction m as [|m IH]; cbn; [reflexivity|]. destruct (Req_EM_T y y); [now rewrite IH|contradiction]. }
    rewrite G. fold p. lia. }
  subst c'.
  assert (Hstep : forall b i, (2 <= i < length ds)%nat -> left_part c b (nth (length ds - i + 1) ds 0) ->
    exists b' piece, bspline_split b (nth (length ds - i) ds 0) = Ok (b', piece) /\ left_part c b' (nth (length ds - i) ds 0) /\
      is_bezier_of c (nth (length ds - i) ds 0) (nth (length ds - i + 1) ds 0) (bs_cps piece)).
  { intros b i Hi Hb. apply (piece_step c Hv Hst Hmu b _ _ Hb).
    - change (first_knot (bs_knots c)) with (first_knot ks). rewrite <- D0. apply Hds. lia.
    - apply HdsI. apply nth_In. lia.
    - apply Hds. lia.
    - intros a Ha Hlt. apply HdsI in Ha. apply (In_nth _ _ 0) in Ha. destruct Ha as [q [Hq <-]].
      destruct (lt_eq_lt_dec q (length ds - i)) as [[H|H]|H].
      + left. apply Hds. lia.
      + subst q. lra.
      + exfalso. destruct (Nat.eq_dec q (length ds - i + 1)) as [E|NE]; [rewrite E in Hlt; lra|].
        specialize (Hds (length ds - i + 1)%nat q ltac:(lia)). lra. }
  set (P := fun (i : nat) (st : list (list (vec3 R)) * BSpline R (vec3 R)) =>
    length (fst st) = (i - 2)%nat /\ left_part c (snd st) (nth (length ds - i + 1) ds 0) /\
    forall q, (q < i - 2)%nat -> is_bezier_of c (nth (length ds - 2 - q) ds 0) (nth (length ds - 2 - q + 1) ds 0) (nth q (fst st) [])).
  destruct (foldM_range P (fun '(result, bspline) i =>
         ni <- usub (length ds) i ;;
         t <- idx ds ni ;;
         ' (bspline, piece) <- bspline_split bspline t ;;
         Ok (result ++ [bs_cps piece], bspline)) 2 (length ds) ([], c)) as [[result b] (EF & Q1 & Q2 & Q3)].
  - assumption.
  - split; [reflexivity|]. split; [|intros; lia]. cbn [snd]. replace (length ds - 2 + 1)%nat with (length ds - 1)%nat by lia. rewrite DL. exact LP.
  - intros i [result b] Hi (Q1 & Q2 & Q3). cbn [fst snd] in Q1, Q2, Q3.
    rewrite usub_Ok by lia. cbn [obind]. rewrite (idx_nth _ _ 0) by lia. cbn [obind].
    destruct (Hstep b i Hi Q2) as [b' [piece (E1 & E2 & E3)]]. rewrite E1. cbn [obind].
    eexists. split; [reflexivity|]. split; [|split]; cbn [fst snd].
    + rewrite app_length. cbn [length]. lia.
    + replace (length ds - (i + 1) + 1)%nat with (length ds - i)%nat by lia. exact E2.
    + intros q Hq. destruct (Nat.eq_dec q (i - 2)) as [->|NE].
      * rewrite app_nth2 by lia. rewrite Q1, Nat.sub_diag. cbn [nth]. replace (length ds - 2 - (i - 2))%nat with (length ds - i)%nat by lia. exact E3.
      * rewrite app_nth1 by lia. apply Q3. lia.
  - cbn [fst snd] in Q1, Q2, Q3. replace (length ds - length ds + 1)%nat with 1%nat in Q2 by lia.
    (* the piece that is left *)
    assert (QB : is_bezier_of c (nth 0 ds 0) (nth 1 ds 0) (bs_cps b)).
    { destruct Q2 as [Vb Db [L (L1 & L2 & L3 & L4)] Eb Endb]. fold ks p in Db, L1, L2, L3, L4, Eb, Endb.
      assert (H01 : nth 0 ds 0 < nth 1 ds 0) by (apply Hds; lia).
      assert (A0 : forall i, (i < L)%nat -> nth i ks 0 = nth 0 ds 0).
      { intros i Hi. specialize (L3 i Hi). assert (Hin : In (nth i ks 0) ds) by (apply HdsI, nth_In; lia).
        apply (In_nth _ _ 0) in Hin. destruct Hin as [q [Hq Eq]]. destruct q as [|[|q]]; [congruence|lra|].
        specialize (Hds 1%nat (S (S q)) ltac:(lia)). lra. }
      assert (HpL : (p < L)%nat).
      { destruct (le_lt_dec L p) as [H|]; [|assumption]. specialize (L4 p ltac:(lia)). lra. }
      assert (EL : L = (p + 1)%nat).
      { pose proof (Hmu (nth 0 ds 0)) as Hm. rewrite (mult_block ks (nth 0 ds 0) L L) in Hm; [lia|lia| | |].
        - intros; lia.
        - intros i Hi. apply A0. lia.
        - intros i Hi. specialize (L4 i Hi). lra. }
      subst L. destruct (bezier_piece b (nth 0 ds 0) (nth 1 ds 0) Vb H01) as [BL BE].
      { rewrite L2, Db. f_equal. apply (nth_ext_len _ _ 0); [rewrite repeat_length, firstn_length; lia|].
        intros i Hi. rewrite firstn_length in Hi. rewrite nth_firstn by lia.
        rewrite (nth_indep (repeat (nth 0 ds 0) (p + 1)) 0 (nth 0 ds 0)) by (rewrite repeat_length; lia). rewrite nth_repeat. apply A0. lia. }
      split; [fold p; lia|]. split.
      - intros s Hs0. rewrite BE by lra. apply Eb. rewrite D0 in *. nra.
      - intros H. rewrite BE by lra. replace (nth 0 ds 0 + 1 * (nth 1 ds 0 - nth 0 ds 0)) with (nth 1 ds 0) by ring. now apply Endb. }
    exists ds, (rev (result ++ [bs_cps b])). split; [assumption|]. split; [assumption|].
    assert (LR : length (result ++ [bs_cps b]) = (length ds - 1)%nat) by (rewrite app_length; cbn [length]; lia).
    split; [|split].
    + unfold to_piecewise_bezier. rewrite EC. cbn [obind]. fold ks ds. rewrite usub_Ok by lia. cbn [obind].
      unfold P in EF. rewrite EF. reflexivity.
    + rewrite rev_length, LR. lia.
    + rewrite rev_length, LR. intros r Hr. rewrite rev_nth by lia. rewrite LR.
      destruct r as [|r].
      * replace (length ds - 1 - 1)%nat with (length result) by lia. rewrite app_nth2, Nat.sub_diag by lia. exact QB.
      * rewrite app_nth1 by lia. specialize (Q3 (length ds - 1 - S (S r))%nat ltac:(lia)).
        replace (length ds - 2 - (length ds - 1 - S (S r)))%nat with (S r) in Q3 by lia. exact Q3.
Qed.
Example C14_nonvacuous : valid_bspline c_ex /\ first_knot (bs_knots c_ex) < last_knot (bs_knots c_ex) /\
  nth (bs_degree c_ex) (bs_knots c_ex) 0 = first_knot (bs_knots c_ex) /\
  nth (length (bs_cps c_ex)) (bs_knots c_ex) 0 = last_knot (bs_knots c_ex) /\
  (forall x, (mult (bs_knots c_ex) x <= bs_degree c_ex + 1)%nat) /\
  (forall a b, In a (bs_knots c_ex) -> In b (bs_knots c_ex) -> a <> b -> Rabs (a - b) > / 10000000).
Proof.
  split; [apply c_ex_valid|]. unfold first_knot, last_knot, mult. cbn. split; [lra|]. split; [reflexivity|]. split; [reflexivity|]. split.
  - intros x. repeat (destruct (Req_EM_T _ _); try lra); lia.
  - intros a b Ha Hb NE.
    assert (G : forall d, d >= 1 \/ d <= -1 -> Rabs d > / 10000000).
    { intros d [H|H]; [rewrite Rabs_right by lra|rewrite Rabs_left by lra]; lra. }
    apply G. repeat (destruct Ha as [<-|Ha]; [|]); try destruct Ha; repeat (destruct Hb as [<-|Hb]; [|]); try destruct Hb; lra.
Qed.
