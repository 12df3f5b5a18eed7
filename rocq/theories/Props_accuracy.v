(** Property C62: forward error of Bezier and B-spline evaluation in double arithmetic. *)
From Coq Require Import ZArith Reals Lra Lia List Bool Floats.SpecFloat Psatz.
From Verif Require Import Prelude Num M_vec M_utils M_curve M_surface L_base L_vec L_bezier L_cdb L_knot L_surface L_float L_grid L_err L_bserr Props_bezier Props_surface.
Open Scope R_scope.

(** ** Specification *)
(** the reals denoted by a point of doubles *)
Definition val3 (p : vec3 f64) : vec3 R := V3 (val (x3 p)) (val (y3 p)) (val (z3 p)).
Definition finite3 (p : vec3 f64) : Prop := num64 (x3 p) /\ num64 (y3 p) /\ num64 (z3 p).
(** maximum norm at most [M] *)
Definition within (M : R) (p : vec3 R) : Prop := Rabs (x3 p) <= M /\ Rabs (y3 p) <= M /\ Rabs (z3 p) <= M.
(** finite, and each coordinate at most [e] away from that of [q] *)
Definition close3 (e : R) (p : vec3 f64) (q : vec3 R) : Prop :=
  finite3 p /\ Rabs (val (x3 p) - x3 q) <= e /\ Rabs (val (y3 p) - y3 q) <= e /\ Rabs (val (z3 p) - z3 q) <= e.
(** at most 2^40 *)
Definition moderate (n : nat) : Prop := (Z.of_nat n <= 2 ^ 40)%Z.

Lemma eps_49 : pow2 (-49) = 16 * eps.
Proof. change (-49)%Z with (4 + -53)%Z. rewrite pow2_add, eps_pow2, <- (pow2_Z 4) by lia. reflexivity. Qed.
Lemma eps_48 : pow2 (-48) = 32 * eps.
Proof. change (-48)%Z with (5 + -53)%Z. rewrite pow2_add, eps_pow2, <- (pow2_Z 5) by lia. reflexivity. Qed.
Lemma eps_50 : pow2 (-50) = 8 * eps.
Proof. change (-50)%Z with (3 + -53)%Z. rewrite pow2_add, eps_pow2, <- (pow2_Z 3) by lia. reflexivity. Qed.
Lemma eps_51 : pow2 (-51) = 4 * eps.
Proof. change (-51)%Z with (2 + -53)%Z. rewrite pow2_add, eps_pow2, <- (pow2_Z 2) by lia. reflexivity. Qed.
Lemma eps_46 : pow2 (-46) = 128 * eps.
Proof. change (-46)%Z with (7 + -53)%Z. rewrite pow2_add, eps_pow2, <- (pow2_Z 7) by lia. reflexivity. Qed.
Lemma eta_1073 : pow2 (-1073) = 4 * eta.
Proof. change (-1073)%Z with (2 + -1075)%Z. rewrite pow2_add, <- (pow2_Z 2) by lia. reflexivity. Qed.

Lemma weighted_close (bs : list f64) (ps : list (vec3 f64)) (w : nat -> R) (M L : R) :
  0 <= M <= pow2 1000 -> length bs = length ps -> moderate (length ps) -> (forall b, In b bs -> num64 b) ->
  (forall p, In p ps -> finite3 p /\ within M (val3 p)) ->
  sumf (fun i => Rabs (w i)) (length ps) <= 1 -> sumf (fun i => Rabs (val (nth i bs f0) - w i)) (length ps) <= L -> L <= 1 / 2 ->
  close3 (INR (length ps) * (4 * eps * M + 3 * eta) + L * M) (weighted_sum bs ps) (comb3 w (map val3 ps)).
Proof.
  intros HM HL Hn Hb Hp Hw HD HL2. rewrite weighted_sum_64. unfold comb3. rewrite map_length.
  assert (G : forall (c : vec3 f64 -> f64) (c' : vec3 R -> R), (forall p, c' (val3 p) = val (c p)) -> c vzero = f0 -> c' vzero = 0 -> (forall p, In p ps -> num64 (c p) /\ Rabs (val (c p)) <= M) ->
    num64 (acc64 bs (map c ps)) /\ Rabs (val (acc64 bs (map c ps)) - sumf (fun i => w i * c' (nth i (map val3 ps) vzero)) (length ps)) <= INR (length ps) * (4 * eps * M + 3 * eta) + L * M).
  { intros c c' Hc Hz Hz' Hb'. destruct (acc_error M bs (map c ps) w L) as [N E]; rewrite ?map_length; auto.
    - intros x Hx. apply in_map_iff in Hx. destruct Hx as (p & <- & Hp'). now apply Hb'.
    - split; [exact N|]. rewrite map_length in E.
      replace (sumf (fun i => w i * c' (nth i (map val3 ps) vzero)) (length ps)) with (sumf (fun i => w i * val (nth i (map c ps) f0)) (length ps)); [exact E|].
      apply sumf_ext. intros i Hi. f_equal. rewrite (nth_map_default _ _ _ vzero) by exact Hi. rewrite (nth_map_default _ _ _ vzero) by exact Hi. symmetry. apply Hc. }
  destruct (G x3 x3) as [N1 E1]; [reflexivity..|intros p Hp'; destruct (Hp p Hp') as [(A & B & D) (A' & B' & D')]; auto|].
  destruct (G y3 y3) as [N2 E2]; [reflexivity..|intros p Hp'; destruct (Hp p Hp') as [(A & B & D) (A' & B' & D')]; auto|].
  destruct (G z3 z3) as [N3 E3]; [reflexivity..|intros p Hp'; destruct (Hp p Hp') as [(A & B & D) (A' & B' & D')]; auto|].
  split; [split; [exact N1|split; [exact N2|exact N3]]|]. split; [exact E1|]. split; [exact E2|exact E3].
Qed.
Lemma close3_mono e e' p q : close3 e p q -> e <= e' -> close3 e' p q.
Proof. intros (A & B & D & E) H. split; [exact A|]. repeat split; lra. Qed.

(** ** The Bernstein basis *)
(** every basis value is finite and non-negative, and the errors of all of them together are at most n-1 times 2^-50 *)
Theorem C62_bernstein_f64 (n : nat) (u : f64) : (1 <= n)%nat -> moderate n -> num64 u -> 0 <= val u <= 1 ->
  exists bs, bernstein n u = Ok bs /\ length bs = n /\ (forall b, In b bs -> num64 b /\ 0 <= val b) /\
    sumf (fun i => Rabs (val (nth i bs f0) - C (n - 1) i * val u ^ i * (1 - val u) ^ (n - 1 - i))) n <= INR (n - 1) * pow2 (-50).
Proof.
  intros Hn Hm Hu Hr. assert (Hm' : small_n (n - 1)) by (unfold moderate, small_n in *; lia).
  destruct (bern_error u Hu Hr (n - 1) Hm') as [N E]. rewrite bernstein_rec by exact Hn. eexists. split; [reflexivity|]. split; [now rewrite map_length, seq_length|]. split.
  - intros b Hb. apply in_map_iff in Hb. destruct Hb as (k & <- & _). apply N.
  - change (-50)%Z with (3 + -53)%Z. rewrite pow2_add, eps_pow2, <- (pow2_Z 3) by lia. change (IZR (2 ^ 3)) with 8. replace (S (n - 1)) with n in E by lia.
    eapply Rle_trans; [|eapply Rle_trans; [exact E|right; ring]]. right. apply sumf_ext. intros i Hi.
    rewrite (nth_map_default _ _ _ 0%nat) by now rewrite seq_length. rewrite seq_nth by exact Hi. unfold Bern. now rewrite (proj2 (Nat.leb_le _ _)) by lia.
Qed.
Lemma bern_weights n u : (1 <= n)%nat -> 0 <= u <= 1 -> sumf (fun i => Rabs (C (n - 1) i * u ^ i * (1 - u) ^ (n - 1 - i))) n = 1.
Proof.
  intros Hn Hr. transitivity (sumf (fun i => Bern (n - 1) i u) n); [|apply Bern_sum_len; lia]. apply sumf_ext. intros i Hi. pose proof (Bern_nonneg (n - 1) i u Hr) as B. unfold Bern in *.
  rewrite (proj2 (Nat.leb_le i (n - 1))) in * by lia. apply Rabs_right. lra.
Qed.

(** ** C62: Bezier curves *)
(** the computed point is finite and off by at most N (2^-49 M + 2^-1073) in each coordinate from the point
    that exact arithmetic gives on the same control points *)
Theorem C62_bezier_f64 (cps : list (vec3 f64)) (u : f64) (M : R) : cps <> [] -> moderate (length cps) -> num64 u -> 0 <= val u <= 1 ->
  0 <= M <= pow2 1000 -> (forall p, In p cps -> finite3 p /\ within M (val3 p)) ->
  exists p q, bezier3_get_point cps u = Ok p /\ bezier3_get_point (map val3 cps) (val u) = Ok q /\
    close3 (INR (length cps) * (pow2 (-49) * M + pow2 (-1073))) p q.
Proof.
  intros Hc Hm Hu Hr HM Hp. assert (Hn : (1 <= length cps)%nat) by (destruct cps; [congruence|cbn; lia]). pose proof eta_pos as H0.
  destruct (C62_bernstein_f64 (length cps) u Hn Hm Hu Hr) as (bs & Eb & Lb & Nb & Sb).
  assert (Bn : INR (length cps) <= 1099511627776) by (apply small_INR; exact Hm). pose proof (pos_INR (length cps)) as Pn.
  assert (In1 : INR (length cps - 1) <= INR (length cps)) by (apply le_INR; lia).
  rewrite eps_50 in Sb.
  assert (Sb' : sumf (fun i => Rabs (val (nth i bs f0) - C (length cps - 1) i * val u ^ i * (1 - val u) ^ (length cps - 1 - i))) (length cps) <= 8 * eps * INR (length cps)) by (unfold eps in *; lra).
  unfold bezier3_get_point at 1. rewrite Eb. cbn [obind]. eexists. exists (comb3 (fun i => C (length cps - 1) i * val u ^ i * (1 - val u) ^ (length cps - 1 - i)) (map val3 cps)). split; [reflexivity|]. split.
  { rewrite C01_bezier_eval by (rewrite map_length; lia). now rewrite map_length. }
  eapply close3_mono; [apply (weighted_close bs cps _ M (8 * eps * INR (length cps))); auto|].
  - intros b Hb. now apply Nb.
  - right. now apply bern_weights.
  - unfold eps. lra.
  - rewrite eps_49, eta_1073. assert (0 <= INR (length cps) * eta) by nra. assert (0 <= INR (length cps) * M) by nra. unfold eps. lra.
Qed.
(** ** C62: Bezier surfaces *)
Definition val_grid (g : Grid (vec3 f64)) : Grid (vec3 R) := mkGrid (g_cols g) (map val3 (g_data g)).
Lemma val_grid_wf g r c : wf_grid g r c -> wf_grid (val_grid g) r c.
Proof. intros (A & B & D). unfold wf_grid, val_grid. cbn [g_cols g_data]. rewrite map_length. auto. Qed.
Lemma nth_num (bs : list f64) i : (forall b, In b bs -> num64 b) -> num64 (nth i bs f0).
Proof. intros H. destruct (Nat.ltb_spec i (length bs)); [apply H; now apply nth_In|rewrite nth_overflow by lia; exact f0_num]. Qed.
Lemma tensor_close (g : Grid (vec3 f64)) r c (bu bv : list f64) (wu wv : nat -> R) (M Lu Lv : R) :
  wf_grid g r c -> moderate (r * c) -> 0 <= M <= pow2 1000 -> (forall p, In p (g_data g) -> finite3 p /\ within M (val3 p)) ->
  (r <= length bu)%nat -> (c <= length bv)%nat -> (forall b, In b bu -> num64 b) -> (forall b, In b bv -> num64 b) ->
  sumf (fun i => Rabs (wu i)) r <= 1 -> sumf (fun j => Rabs (wv j)) c <= 1 ->
  sumf (fun i => Rabs (val (nth i bu f0) - wu i)) r <= Lu -> sumf (fun j => Rabs (val (nth j bv f0) - wv j)) c <= Lv -> Lu <= 1 / 8 -> Lv <= 1 / 8 ->
  exists p, tensor_sum g bu bv = Ok p /\
    close3 (INR (r * c) * (4 * eps * M + 3 * eta) + (Lu + 9 / 8 * Lv + 3 * eps) * M) p (tensor3 wu wv (val_grid g) r c).
Proof.
  intros Hw Hm HM Hp Hru Hcv Nu Nv Wu Wv Eu Ev Bu Bv. pose proof eta_pos as H0. pose proof eta_small as H1.
  rewrite (tensor_sum_cells g bu bv r c Hw Hru Hcv). eexists. split; [reflexivity|].
  destruct (product_weights bu bv wu wv r c Lu Lv (fun i => nth_num bu i Nu) (fun j => nth_num bv j Nv) Wu Wv Eu Ev Bu Bv) as [NP EP].
  pose proof Hw as (Hc & HL & H1c).
  set (w := fun m => wu (m / c)%nat * wv (m mod c)%nat).
  assert (Wm : forall i j, (j < c)%nat -> w (i * c + j)%nat = wu i * wv j).
  { intros i j Hj. unfold w. rewrite Nat.div_add_l, Nat.div_small, Nat.add_0_r by lia. rewrite (Nat.add_comm (i * c)), Nat.mod_add, Nat.mod_small by lia. reflexivity. }
  assert (T3 : tensor3 wu wv (val_grid g) r c = comb3 w (map val3 (g_data g))).
  { unfold tensor3, comb3, tsum. rewrite map_length, HL. f_equal; rewrite sumf_cells; apply sumf_ext; intros i Hi; apply sumf_ext; intros j Hj; rewrite Wm by exact Hj; unfold entry, val_grid; cbn [g_cols g_data]; now rewrite Hc. }
  rewrite T3. assert (Brc : INR (r * c) * eta <= eps).
  { pose proof (small_INR (r * c) Hm). pose proof (pos_INR (r * c)). unfold eps in *. nra. }
  eapply close3_mono; [apply (weighted_close _ _ w M (Lu + 9 / 8 * Lv + 3 * eps)); auto|].
  - now rewrite cell_weights_length, HL.
  - rewrite HL. exact Hm.
  - intros b Hb. apply in_flat_map in Hb. destruct Hb as (i & Hi & Hb). apply in_seq in Hi. apply in_map_iff in Hb. destruct Hb as (j & <- & Hj). apply in_seq in Hj. apply NP; lia.
  - rewrite HL, sumf_cells.
    apply Rle_trans with (sumf (fun i => Rabs (wu i)) r * sumf (fun j => Rabs (wv j)) c).
    + right. rewrite <- sumf_prod. apply sumf_ext. intros i Hi. apply sumf_ext. intros j Hj. rewrite Wm by exact Hj. apply Rabs_mult.
    + assert (0 <= sumf (fun i => Rabs (wu i)) r) by (apply sumf_nonneg; intros; apply Rabs_pos). assert (0 <= sumf (fun i => Rabs (wv i)) c) by (apply sumf_nonneg; intros; apply Rabs_pos).
      apply Rle_trans with (1 * 1); [apply Rmult_le_compat; assumption|lra].
  - rewrite HL, sumf_cells. eapply Rle_trans; [|eapply Rle_trans; [exact EP|lra]]. right. apply sumf_ext. intros i Hi. apply sumf_ext. intros j Hj. rewrite Wm by exact Hj. now rewrite cell_weights_nth.
  - unfold eps. lra.
  - rewrite HL. lra.
Qed.
Theorem C62_bezier_surface_f64 (g : Grid (vec3 f64)) (r c : nat) (u v : f64) (M : R) : wf_grid g r c -> (1 <= r)%nat -> moderate (r * c) ->
  num64 u -> num64 v -> 0 <= val u <= 1 -> 0 <= val v <= 1 -> 0 <= M <= pow2 1000 -> (forall p, In p (g_data g) -> finite3 p /\ within M (val3 p)) ->
  exists p q, bezier_surface3_get_point g u v = Ok p /\ bezier_surface3_get_point (val_grid g) (val u) (val v) = Ok q /\
    close3 (INR (r * c) * (pow2 (-48) * M + pow2 (-1073))) p q.
Proof.
  intros Hw Hr Hm Nu Nv Ru Rv HM Hp. pose proof Hw as (Hc & HL & H1). pose proof eta_pos as H0.
  assert (Mr : moderate r) by (unfold moderate in *; nia). assert (Mc : moderate c) by (unfold moderate in *; nia).
  destruct (C62_bernstein_f64 r u Hr Mr Nu Ru) as (bu & Eu & Lu & Nbu & Su). destruct (C62_bernstein_f64 c v H1 Mc Nv Rv) as (bv & Ev & Lv & Nbv & Sv).
  rewrite eps_50 in Su, Sv.
  assert (Br : INR r <= 1099511627776) by (apply small_INR; exact Mr). assert (Bc : INR c <= 1099511627776) by (apply small_INR; exact Mc).
  assert (Ir : INR (r - 1) = INR r - 1) by (rewrite minus_INR by lia; reflexivity). assert (Ic : INR (c - 1) = INR c - 1) by (rewrite minus_INR by lia; reflexivity).
  rewrite Ir in Su. rewrite Ic in Sv.
  assert (Pr : 1 <= INR r) by (change 1 with (INR 1); apply le_INR; lia). assert (Pc : 1 <= INR c) by (change 1 with (INR 1); apply le_INR; lia).
  destruct (tensor_close g r c bu bv (fun i => C (r - 1) i * val u ^ i * (1 - val u) ^ (r - 1 - i)) (fun i => C (c - 1) i * val v ^ i * (1 - val v) ^ (c - 1 - i)) M
    (8 * eps * (INR r - 1)) (8 * eps * (INR c - 1))) as (p & Ep & Cp); auto.
  1,2: lia. 1: (intros; now apply Nbu). 1: (intros; now apply Nbv). 1,2: right; now apply bern_weights. 1,2: lra. 1,2: unfold eps; lra.
  exists p. eexists. split; [unfold bezier_surface3_get_point; rewrite (wf_rows g r c Hw), Hc, Eu; cbn [obind]; rewrite Ev; exact Ep|]. split.
  { apply C20_bezier_surface with (r := r) (c := c); [now apply val_grid_wf|exact Hr]. }
  eapply close3_mono; [exact Cp|].
  rewrite eps_48, eta_1073, mult_INR.
  assert (Q : 8 * (INR r - 1) + 9 * (INR c - 1) + 3 <= 28 * (INR r * INR c)) by nra.
  assert (Q' : (8 * (INR r - 1) + 9 * (INR c - 1) + 3) * (eps * M) <= 28 * (INR r * INR c) * (eps * M)) by (apply Rmult_le_compat_r; [unfold eps; lra|exact Q]).
  assert (0 <= INR r * INR c * eta) by (assert (0 <= INR r * INR c) by nra; nra). lra.
Qed.
(** decimal fractions as control points: not representable, so that every step rounds *)
Lemma checked_leb (x y : f64) : num64 x -> num64 y -> fleb x y = true -> val x <= val y.
Proof. intros Hx Hy H. rewrite leb_val in H by assumption. now apply Rleb_true. Qed.
Lemma checked_unit (x : f64) : is_fin x && valid_binary p64 e64 x && fleb (fabs x) f1 = true -> num64 x /\ Rabs (val x) <= 1.
Proof.
  intros H. apply andb_true_iff in H. destruct H as [H L]. apply andb_true_iff in H. split; [exact H|].
  apply (checked_leb (fabs x) f1) in L; [|now apply number_abs|exact f1_num]. rewrite f1_val in L. change (val (fabs x)) with (val (SFabs x)) in L. now rewrite B2R_abs in L.
Qed.
Lemma checked_pos (x : f64) : is_fin x && valid_binary p64 e64 x && fleb f0 x = true -> num64 x /\ 0 <= val x.
Proof. intros H. apply andb_true_iff in H. destruct H as [H L]. apply andb_true_iff in H. split; [exact H|]. apply (checked_leb f0 x) in L; [|exact f0_num|exact H]. now rewrite f0_val in L. Qed.
Definition unit_point (p : vec3 f64) : bool :=
  forallb (fun x => is_fin x && valid_binary p64 e64 x && fleb (fabs x) f1) [x3 p; y3 p; z3 p].
Lemma checked_points (ps : list (vec3 f64)) : forallb unit_point ps = true -> forall p, In p ps -> finite3 p /\ within 1 (val3 p).
Proof.
  intros H p Hp. apply (proj1 (forallb_forall _ _) H) in Hp. unfold unit_point in Hp. cbn [forallb] in Hp. rewrite andb_true_r in Hp. apply andb_true_iff in Hp. destruct Hp as [A Hp]. apply andb_true_iff in Hp. destruct Hp as [B D].
  apply checked_unit in A, B, D. unfold finite3, within, val3. cbn [x3 y3 z3]. tauto.
Qed.
Definition tenth (n : Z) : f64 := flit n 10.
Definition tenths (a b c : Z) : vec3 f64 := V3 (tenth a) (tenth b) (tenth c).
Example C62_bezier_nonvacuous : exists p q, bezier3_get_point [tenths 0 0 0; tenths 1 3 7; tenths 9 2 (-4)] (tenth 3) = Ok p /\
  bezier3_get_point (map val3 [tenths 0 0 0; tenths 1 3 7; tenths 9 2 (-4)]) (val (tenth 3)) = Ok q /\ close3 (3 * (pow2 (-49) + pow2 (-1073))) p q.
Proof.
  destruct (C62_bezier_f64 [tenths 0 0 0; tenths 1 3 7; tenths 9 2 (-4)] (tenth 3) 1) as (p & q & A & B & D).
  - discriminate.
  - vm_compute. discriminate.
  - split; vm_compute; reflexivity.
  - split; [apply checked_pos; vm_compute; reflexivity|]. destruct (checked_unit (tenth 3)) as [_ H]; [vm_compute; reflexivity|]. pose proof (Rle_abs (val (tenth 3))). lra.
  - pose proof big_pow2. lra.
  - apply checked_points. vm_compute. reflexivity.
  - exists p, q. split; [exact A|]. split; [exact B|]. eapply close3_mono; [exact D|]. right. cbn [length INR]. ring.
Qed.

Example C62_surface_nonvacuous : exists p q, bezier_surface3_get_point (mkGrid 2 [tenths 0 0 0; tenths 1 3 7; tenths 9 2 (-4); tenths 5 5 1]) (tenth 3) (tenth 8) = Ok p /\
  bezier_surface3_get_point (val_grid (mkGrid 2 [tenths 0 0 0; tenths 1 3 7; tenths 9 2 (-4); tenths 5 5 1])) (val (tenth 3)) (val (tenth 8)) = Ok q /\ close3 (4 * (pow2 (-48) + pow2 (-1073))) p q.
Proof.
  assert (U : forall x, is_fin x && valid_binary p64 e64 x && fleb f0 x = true -> is_fin x && valid_binary p64 e64 x && fleb (fabs x) f1 = true -> num64 x /\ 0 <= val x <= 1).
  { intros x H1 H2. apply checked_pos in H1. apply checked_unit in H2. destruct H1 as [N H1]. destruct H2 as [_ H2]. pose proof (Rle_abs (val x)). split; [exact N|lra]. }
  destruct (U (tenth 3)) as [N3 R3]; [vm_compute; reflexivity..|]. destruct (U (tenth 8)) as [N8 R8]; [vm_compute; reflexivity..|].
  destruct (C62_bezier_surface_f64 (mkGrid 2 [tenths 0 0 0; tenths 1 3 7; tenths 9 2 (-4); tenths 5 5 1]) 2 2 (tenth 3) (tenth 8) 1) as (p & q & A & B & D); auto.
  - repeat split; cbn; lia.
  - vm_compute. discriminate.
  - pose proof big_pow2. lra.
  - apply checked_points. vm_compute. reflexivity.
  - exists p, q. split; [exact A|]. split; [exact B|]. eapply close3_mono; [exact D|]. right. cbn [Nat.mul Nat.add INR]. ring.
Qed.

(** ** C62: B-spline curves *)
(** the parameter lies in the domain: at least [degree] knots on either side of its span *)
Definition in_domain (ks : list R) (degree : nat) (u : R) : Prop :=
  let m := (length ks - 1 - degree)%nat in
  nth degree ks 0 <= u /\ (u < nth m ks 0 \/ (nth degree ks 0 < u /\ u = nth m ks 0 /\ nth m ks 0 = nth (length ks - 1) ks 0)).
Lemma domain_span ks p u : sorted ks -> (p + 1 < length ks)%nat -> in_domain ks p u ->
  exists s, is_span ks u s /\ (p <= s)%nat /\ (s + p < length ks - 1)%nat /\ u <= nth (s + 1) ks 0.
Proof.
  intros Hs Hp (Hlo & Hhi). set (m := (length ks - 1 - p)%nat) in *.
  assert (L0 : nth 0 ks 0 <= nth p ks 0) by (apply Hs; lia). assert (Lm : nth m ks 0 <= nth (length ks - 1) ks 0) by (apply Hs; lia).
  destruct (span_exists ks u Hs) as [s Sp]; [lia|destruct Hhi as [H|(H & H' & H'')]; lra|lra|]. pose proof Sp as (S1 & S2 & S3 & S4). exists s. split; [exact Sp|].
  destruct Hhi as [H|(H & H' & H'')].
  - split; [|split].
    + destruct (Nat.leb_spec p s) as [|L]; [assumption|exfalso]. assert (nth (s + 1) ks 0 <= nth p ks 0) by (apply Hs; lia). destruct S4 as [S4|[S4 S5]]; lra.
    + destruct (Nat.ltb_spec (s + p) (length ks - 1)) as [|L]; [assumption|exfalso]. assert (nth m ks 0 <= nth s ks 0) by (apply Hs; unfold m; lia). lra.
    + destruct S4 as [S4|[S4 S5]]; lra.
  - destruct S4 as [S4|[S4 S5]]; [exfalso; assert (nth (s + 1) ks 0 <= nth (length ks - 1) ks 0) by (apply Hs; lia); lra|]. split; [|split; [|lra]].
    + destruct (Nat.leb_spec p s) as [|L]; [assumption|exfalso]. assert (nth (s + 1) ks 0 <= nth p ks 0) by (apply Hs; lia). lra.
    + destruct (Nat.ltb_spec (s + p) (length ks - 1)) as [|L]; [assumption|exfalso]. assert (nth m ks 0 <= nth s ks 0) by (apply Hs; unfold m; lia). lra.
Qed.
(** a knot vector for [n] control points and a parameter of its domain, of absolute values at most 2^500 *)
Definition evaluable (ks : list f64) (degree n : nat) (u : f64) : Prop :=
  (forall k, In k ks -> moderate_knot k) /\ moderate_knot u /\ sorted (val_list ks) /\ separated (val_list ks) /\
  length ks = (n + degree + 1)%nat /\ (1 <= n)%nat /\ moderate (length ks) /\ in_domain (val_list ks) degree (val u).
(** every basis value is finite, and the errors of all of them together are at most degree times 2^-48 *)
Theorem C62_basis_f64 (ks : list f64) (degree n : nat) (u : f64) : evaluable ks degree n u ->
  exists bs ws, bspline_basis ks degree u = Ok bs /\ bspline_basis (val_list ks) degree (val u) = Ok ws /\
    length bs = n /\ length ws = n /\ (forall b, In b bs -> num64 b) /\ (forall w, In w ws -> 0 <= w) /\
    sumf (fun i => Rabs (nth i ws 0)) n = 1 /\
    sumf (fun i => Rabs (val (nth i bs f0) - nth i ws 0)) n <= INR degree * pow2 (-48).
Proof.
  intros (Hk & Hu & Hs & Hsep & Hlen & Hn & Hm & Hd). assert (Hp : (degree + 1 < length ks)%nat) by lia. replace n with (length ks - 1 - degree)%nat by lia. assert (LV : length (val_list ks) = length ks) by apply map_length.
  destruct (domain_span (val_list ks) degree (val u) Hs ltac:(lia) Hd) as (s & Sp & P1 & P2 & U2). rewrite LV in P2. pose proof Sp as (S1 & S2 & S3 & _). rewrite LV in S1.
  set (D := nth (length ks - 1) (val_list ks) 0).
  assert (TD : forall i, (i < length ks)%nat -> nth i (val_list ks) 0 = nth i (val_list ks) D) by (intros; apply nth_indep; lia).
  assert (Hspan : nth s (val_list ks) D < nth (s + 1) (val_list ks) D) by (rewrite <- !TD by lia; exact S2).
  assert (Hin : nth s (val_list ks) D <= val u <= nth (s + 1) (val_list ks) D) by (rewrite <- !TD by lia; lra).
  destruct (bs_error ks u s degree Hk Hu Hs Hsep P1 P2 ltac:(unfold moderate, small_n in *; lia) Hspan Hin degree ltac:(lia)) as [N E].
  rewrite (basis_recF ks u s degree); [|rewrite span_index_64 by (auto; apply Hu); now apply span_index_spec|exact P1|exact P2].
  rewrite (basis_cdb (val_list ks) degree (val u) s Hs Hsep Sp) by lia. rewrite LV. eexists. eexists. split; [reflexivity|]. split; [reflexivity|].
  rewrite !map_length, !seq_length. split; [reflexivity|]. split; [reflexivity|]. split; [intros b Hb; apply in_map_iff in Hb; destruct Hb as (i & <- & _); apply N|].
  assert (Ext : forall i, (i < length ks - 1 - degree)%nat -> cdb (fun i => nth i (val_list ks) 0) s degree i (val u) = cdb (fun i => nth i (val_list ks) D) s degree i (val u)).
  { intros i Hi. apply cdb_ext. intros j Hj. apply TD. lia. }
  assert (Mo : mono (fun i => nth i (val_list ks) D)) by (unfold D; apply (T_mono ks Hs)).
  split; [intros w Hw; apply in_map_iff in Hw; destruct Hw as (i & <- & Hi); apply in_seq in Hi; rewrite Ext by lia; now apply cdb_nonneg|]. split.
  - rewrite <- (cdb_sum (fun i => nth i (val_list ks) D) s Mo Hspan degree (length ks - 1 - degree) (val u)) by lia. apply sumf_ext. intros i Hi.
    rewrite (nth_map_default _ _ _ 0%nat) by now rewrite seq_length. rewrite seq_nth by exact Hi. cbn [Nat.add]. rewrite Ext by exact Hi. apply Rabs_right, Rle_ge. now apply cdb_nonneg.
  - replace (length ks - 1 - degree)%nat with (S s + (length ks - 1 - degree - S s))%nat by lia. rewrite sumf_app. match goal with |- _ + sumf ?f ?n <= _ => assert (Z : sumf f n = 0); [apply sumf_zero|rewrite Z] end.
    2: assert (E48 : pow2 (-48) = 32 * eps) by (change (-48)%Z with (5 + -53)%Z; rewrite pow2_add, eps_pow2, <- (pow2_Z 5) by lia; reflexivity); rewrite E48, Rplus_0_r;
      eapply Rle_trans; [|eapply Rle_trans; [exact E|right; ring]]; right; apply sumf_ext; intros i Hi;
      rewrite !(nth_map_default _ _ _ 0%nat) by (rewrite seq_length; lia); rewrite seq_nth by lia; cbn [Nat.add]; rewrite Ext by lia; reflexivity.
    intros i Hi. rewrite !(nth_map_default _ _ _ 0%nat) by (rewrite seq_length; lia). rewrite seq_nth by lia. rewrite bsN_outside, cdb_support by lia. rewrite f0_val, Rminus_0_r. apply Rabs_R0.
Qed.
Definition val_bspline (c : BSpline f64 (vec3 f64)) : BSpline R (vec3 R) := mkBSpline (map val3 (bs_cps c)) (val_list (bs_knots c)) (bs_degree c).
Theorem C62_bspline_f64 (c : BSpline f64 (vec3 f64)) (u : f64) (M : R) :
  evaluable (bs_knots c) (bs_degree c) (length (bs_cps c)) u -> 0 <= M <= pow2 1000 -> (forall p, In p (bs_cps c) -> finite3 p /\ within M (val3 p)) ->
  exists p q, bspline3_get_point c u = Ok p /\ bspline3_get_point (val_bspline c) (val u) = Ok q /\
    close3 (INR (length (bs_cps c) + 8 * bs_degree c) * (pow2 (-51) * M + pow2 (-1073))) p q.
Proof.
  intros HE HM Hp. pose proof eta_pos as H0.
  destruct (C62_basis_f64 _ _ _ _ HE) as (bs & ws & Eb & Ew & Lb & Lw & Nb & _ & Sw & Sb). destruct HE as (_ & _ & _ & _ & HL & Hn & Hm & _).
  rewrite eps_48 in Sb.
  assert (Bd : INR (bs_degree c) <= 1099511627776) by (apply small_INR; unfold moderate, small_n in *; lia). pose proof (pos_INR (bs_degree c)) as Pd. pose proof (pos_INR (length (bs_cps c))) as Pn.
  exists (weighted_sum bs (bs_cps c)), (comb3 (fun i => nth i ws 0) (map val3 (bs_cps c))). split; [unfold bspline3_get_point; now rewrite Eb|]. split.
  { unfold bspline3_get_point, val_bspline. cbn [bs_knots bs_degree bs_cps]. rewrite Ew. cbn [obind]. rewrite weighted_sum_comb3 by (rewrite map_length; lia). reflexivity. }
  eapply close3_mono; [apply (weighted_close bs (bs_cps c) (fun i => nth i ws 0) M (INR (bs_degree c) * (32 * eps))); auto|].
  - unfold moderate in *. lia.
  - lra.
  - unfold eps. lra.
  - rewrite eps_51, eta_1073, plus_INR, mult_INR. replace (INR 8) with 8 by (cbn; ring). assert (0 <= INR (length (bs_cps c)) * eta) by nra. assert (0 <= INR (bs_degree c) * eta) by nra. unfold eps. lra.
Qed.
(** ** C62: B-spline surfaces *)
Definition val_bss (s : BSplineSurface f64 (vec3 f64)) : BSplineSurface R (vec3 R) :=
  mkBSS (val_grid (bss_cps s)) (val_list (fst (bss_knots s)), val_list (snd (bss_knots s))) (bss_degree s).
Theorem C62_bspline_surface_f64 (s : BSplineSurface f64 (vec3 f64)) (r c : nat) (u v : f64) (M : R) : wf_grid (bss_cps s) r c -> moderate (r * c) ->
  evaluable (fst (bss_knots s)) (fst (bss_degree s)) r u -> evaluable (snd (bss_knots s)) (snd (bss_degree s)) c v ->
  0 <= M <= pow2 1000 -> (forall p, In p (g_data (bss_cps s)) -> finite3 p /\ within M (val3 p)) ->
  exists p q, bss3_get_point s u v = Ok p /\ bss3_get_point (val_bss s) (val u) (val v) = Ok q /\
    close3 (INR (r * c + 8 * fst (bss_degree s) + 9 * snd (bss_degree s) + 1) * (pow2 (-51) * M + pow2 (-1073))) p q.
Proof.
  intros Hw Hm HU HV HM Hp. pose proof eta_pos as H0.
  destruct (C62_basis_f64 _ _ _ _ HU) as (bu & wu & Eu & Fu & Lu & Lwu & Nu & _ & Wu & Su). destruct (C62_basis_f64 _ _ _ _ HV) as (bv & wv & Ev & Fv & Lv & Lwv & Nv & _ & Wv & Sv).
  destruct HU as (_ & _ & _ & _ & LU & _ & MU & _). destruct HV as (_ & _ & _ & _ & LV & _ & MV & _). destruct s as [g [ku kv] [p q]]. cbn [bss_cps bss_knots bss_degree fst snd] in *.
  rewrite eps_48 in Su, Sv.
  assert (Bp : INR p <= 1099511627776) by (apply small_INR; unfold moderate, small_n in *; lia). assert (Bq : INR q <= 1099511627776) by (apply small_INR; unfold moderate, small_n in *; lia).
  destruct (tensor_close g r c bu bv (fun i => nth i wu 0) (fun i => nth i wv 0) M (INR p * (32 * eps)) (INR q * (32 * eps))) as (pt & Ept & Cpt); auto; try lia; try lra; try (unfold eps; lra).
  exists pt, (tensor3 (fun i => nth i wu 0) (fun i => nth i wv 0) (val_grid g) r c). split; [unfold bss3_get_point; cbn [bss_cps bss_knots bss_degree fst snd]; rewrite Eu; cbn [obind]; rewrite Ev; exact Ept|]. split.
  { unfold bss3_get_point, val_bss. cbn [bss_cps bss_knots bss_degree fst snd]. rewrite Fu. cbn [obind]. rewrite Fv. cbn [obind]. apply tensor_sum_3; [now apply val_grid_wf|lia|lia]. }
  eapply close3_mono; [exact Cpt|]. rewrite eps_51, eta_1073, !plus_INR, !(mult_INR _ p), !(mult_INR _ q). replace (INR 8) with 8 by (cbn; ring). replace (INR 9) with 9 by (cbn; ring). change (INR 1) with 1.
  pose proof (pos_INR p). pose proof (pos_INR q). pose proof (pos_INR (r * c)).
  assert (0 <= INR (r * c) * eta) by (apply Rmult_le_pos; lra). assert (0 <= INR p * eta) by (apply Rmult_le_pos; lra). assert (0 <= INR q * eta) by (apply Rmult_le_pos; lra). unfold eps. lra.
Qed.

(** ** C62: rational curves and surfaces *)
Definition val4 (p : vec4 f64) : vec4 R := V4 (val (x4 p)) (val (y4 p)) (val (z4 p)) (val (w4 p)).
(** homogeneous coordinates: finite, at most [M] in absolute value, and the weight at least [m] *)
Definition weighted_point (m M : R) (p : vec4 f64) : Prop :=
  finite3 (truncate4 p) /\ num64 (w4 p) /\ within M (val3 (truncate4 p)) /\ m <= val (w4 p) <= M.
Lemma weighted_sum_hom {F P Q : Type} {NF : Num F} {VP : VecOps F P} {VQ : VecOps F Q} (h : P -> Q) (bs : list F) (ps : list P) :
  h vzero = vzero -> (forall a b, h (vadd a b) = vadd (h a) (h b)) -> (forall s a, h (vmull s a) = vmull s (h a)) -> h (weighted_sum bs ps) = weighted_sum bs (map h ps).
Proof.
  intros H0 Ha Hm. unfold weighted_sum. rewrite <- H0. generalize (vzero : P) as a. revert ps. induction bs as [|b bs IH]; intros [|p ps] a; cbn [combine map fold_left]; try reflexivity.
  rewrite IH, Ha, Hm. reflexivity.
Qed.
Lemma pow2_400 : 0 < pow2 (-400) /\ pow2 400 * pow2 (-400) = 1 /\ 1024 * (pow2 400 * eta) <= eps /\ 16 * (pow2 400 * pow2 400) < pow2 1023.
Proof.
  split; [apply pow2_pos|]. split; [rewrite <- pow2_add; reflexivity|]. split.
  - rewrite <- eps_pow2. unfold eta. rewrite <- pow2_add. change 1024 with (IZR (2 ^ 10)). rewrite pow2_Z by lia. rewrite <- pow2_add. apply pow2_le. lia.
  - rewrite <- pow2_add. change 16 with (IZR (2 ^ 4)). rewrite pow2_Z by lia. rewrite <- pow2_add. apply pow2_lt. lia.
Qed.
Lemma quotient_close (x w : f64) (X W m M e : R) : num64 x -> num64 w -> pow2 (-400) <= m -> m <= M -> M <= pow2 400 ->
  Rabs (val x - X) <= e -> Rabs (val w - W) <= e -> m <= W <= M -> Rabs X <= M -> 5 * eps * M <= e -> e <= m / 4 ->
  num64 (fmul (fdiv f1 w) x) /\ Rabs (val (fmul (fdiv f1 w) x) - 1 / W * X) <= 4 * e * M / (m * m).
Proof.
  intros Nx Nw Hm HmM HM Ex Ew HW HX He1 He2. destruct pow2_400 as (P4 & PP & Peta & Pbig). pose proof eta_pos as H0. pose proof eta_small as H1.
  apply abs_between in Ew. assert (W1 : 3 / 4 * m <= val w) by lra. assert (W2 : val w <= 2 * M) by lra. assert (Pm : 0 < m) by lra.
  set (q := / m). assert (Q0 : 0 < q) by (now apply Rinv_0_lt_compat). assert (Qm : q * m = 1) by (unfold q; field; lra).
  assert (Q4 : q <= pow2 400) by (assert (pow2 400 * m >= 1) by nra; assert (0 < pow2 400) by apply pow2_pos; nra).
  set (r := / val w). assert (R0 : 0 < r) by (apply Rinv_0_lt_compat; lra). assert (Rw : r * val w = 1) by (unfold r; field; lra).
  assert (R1 : r <= 4 / 3 * q) by nra. assert (Pk : 0 < pow2 400) by apply pow2_pos.
  assert (R2 : eta <= eps * r / 8).
  { assert (A : 1 <= r * (2 * pow2 400)) by nra. assert (B : eps * 1 <= eps * (r * (2 * pow2 400))) by (apply Rmult_le_compat_l; [unfold eps; lra|exact A]).
    assert (D : 1024 * (pow2 400 * eta) <= pow2 400 * (2 * (eps * r))) by lra. assert (D' : pow2 400 * (1024 * eta) <= pow2 400 * (2 * (eps * r))) by lra. apply Rmult_le_reg_l in D'; [|exact Pk]. lra. }
  set (iW := / W). assert (I0 : 0 < iW) by (apply Rinv_0_lt_compat; lra). assert (IW : iW * W = 1) by (unfold iW; field; lra). assert (I1 : iW <= q) by nra.
  assert (P41 : 1 <= pow2 400) by (apply Rle_trans with (pow2 0); [right; symmetry; apply pow2_0|apply pow2_le; lia]).
  assert (V1 : val (f1 : f64) / val w = r) by (rewrite f1_val; unfold r; field; lra).
  destruct (div64 f1 w f1_num Nw ltac:(lra)) as [Ni [Ei _]]; [rewrite V1, Rabs_right by lra; nra|]. rewrite V1, (Rabs_right r) in Ei by lra.
  set (i := fdiv f1 w) in *. assert (Ei' : Rabs (val i - r) <= 9 / 8 * (eps * r)) by lra. apply abs_between in Ei'.
  assert (Pe : 0 < eps) by (unfold eps; lra). assert (P0e : 0 <= e) by (assert (0 <= eps * M) by (apply Rmult_le_pos; lra); lra). assert (Pqe : 0 <= q * e) by (apply Rmult_le_pos; lra). assert (Se : eps <= / 1000000000) by (unfold eps; lra).
  assert (Ax : Rabs (val x) <= 5 / 4 * M). { replace (val x) with ((val x - X) + X) by ring. eapply Rle_trans; [apply Rabs_triang|]. lra. }
  assert (I2 : 0 < val i <= 2 * r) by (assert (eps * r <= / 1000000000 * r) by (apply Rmult_le_compat_r; lra); lra).
  assert (Kx : r * Rabs (val x) <= 5 / 3 * (q * M)). { apply Rle_trans with (4 / 3 * q * (5 / 4 * M)); [apply Rmult_le_compat; try lra; apply Rabs_pos|right; lra]. }
  pose proof (Rabs_pos (val x)) as Px.
  assert (Ix : Rabs (val i * val x) <= 2 * (r * Rabs (val x))). { rewrite Rabs_mult, (Rabs_right (val i)) by lra. nra. }
  assert (QM : 1 <= q * M) by (rewrite <- Qm; apply Rmult_le_compat_l; lra). assert (QM2 : q * M <= pow2 400 * pow2 400) by (apply Rmult_le_compat; lra).
  destruct (mul64 i x Ni Nx) as [Nr [Er _]]; [lra|]. split; [exact Nr|].
  assert (T1b : Rabs (val (fmul i x) - val i * val x) <= 9 / 5 * (eps * (q * M))).
  { assert (Z : Rabs (val i * val x) <= (1 + 9 / 8 * eps) * (r * Rabs (val x))). { rewrite Rabs_mult, (Rabs_right (val i)) by lra. assert (val i * Rabs (val x) <= ((1 + 9 / 8 * eps) * r) * Rabs (val x)) by (apply Rmult_le_compat_r; lra). lra. }
    assert (Z2 : Rabs (val i * val x) <= 1.7 * (q * M)).
    { apply Rle_trans with (1.01 * (5 / 3 * (q * M))); [|lra]. eapply Rle_trans; [exact Z|]. apply Rmult_le_compat; try lra. apply Rmult_le_pos; lra. }
    assert (eps * Rabs (val i * val x) <= eps * (1.7 * (q * M))) by (apply Rmult_le_compat_l; lra).
    assert (eta <= eps * (q * M) / 20). { assert (eta <= eps * eps) by assumption. assert (eps * eps <= eps * / 1000000000) by (apply Rmult_le_compat_l; lra). assert (eps * 1 <= eps * (q * M)) by (apply Rmult_le_compat_l; lra). lra. }
    lra. }
  assert (T2 : Rabs (val i * val x - r * val x) <= 15 / 8 * (eps * (q * M))).
  { replace (val i * val x - r * val x) with ((val i - r) * val x) by ring. rewrite Rabs_mult. assert (Rabs (val i - r) <= 9 / 8 * (eps * r)) by lra.
    apply Rle_trans with (9 / 8 * (eps * r) * Rabs (val x)); [apply Rmult_le_compat_r; assumption|]. replace (9 / 8 * (eps * r) * Rabs (val x)) with (9 / 8 * eps * (r * Rabs (val x))) by ring. apply Rle_trans with (9 / 8 * eps * (5 / 3 * (q * M))); [apply Rmult_le_compat_l; lra|right; field]. }
  assert (T3 : Rabs (r * val x - iW * X) <= 8 / 3 * (q * e) * (q * M)).
  { replace (r * val x - iW * X) with (r * (val x - X) + X * iW * (r * (W - val w))).
    - eapply Rle_trans; [apply Rabs_triang|]. rewrite !Rabs_mult, (Rabs_right r), (Rabs_right iW) by lra.
      assert (A : r * Rabs (val x - X) <= 4 / 3 * q * e) by (apply Rmult_le_compat; try lra; apply Rabs_pos).
      assert (B : Rabs X * iW <= M * q) by (apply Rmult_le_compat; try lra; apply Rabs_pos).
      assert (D : Rabs (W - val w) <= e) by (apply Rabs_le; lra).
      assert (B' : r * Rabs (W - val w) <= 4 / 3 * q * e) by (apply Rmult_le_compat; try lra; apply Rabs_pos).
      assert (A2 : Rabs X * iW * (r * Rabs (W - val w)) <= M * q * (4 / 3 * q * e)).
      { apply Rmult_le_compat; try assumption; apply Rmult_le_pos; try lra; apply Rabs_pos. }
      apply Rle_trans with (4 / 3 * (q * e) + (4 / 3 * (q * e)) * (q * M)); [lra|]. assert (q * e * 1 <= q * e * (q * M)) by (apply Rmult_le_compat_l; lra). lra.
    - replace (X * iW * (r * (W - val w))) with (X * (r * (iW * W)) - X * iW * (r * val w)) by ring. rewrite Rw, IW. ring. }
  replace (1 / W) with iW by (unfold iW; field; lra). replace (4 * e * M / (m * m)) with (4 * (q * e) * (q * M)) by (unfold q; field; lra).
  replace (val (fmul i x) - iW * X) with ((val (fmul i x) - val i * val x) + (val i * val x - r * val x) + (r * val x - iW * X)) by ring.
  eapply Rle_trans; [apply Rabs_triang|]. eapply Rle_trans; [apply Rplus_le_compat_r, Rabs_triang|].
  assert (Qe : 5 * (eps * (q * M)) <= q * e). { replace (5 * (eps * (q * M))) with (q * (5 * eps * M)) by ring. apply Rmult_le_compat_l; lra. }
  assert (Qe2 : q * e * 1 <= q * e * (q * M)) by (apply Rmult_le_compat_l; lra). lra.
Qed.
Definition wcopies {F} (p : vec4 F) : vec3 F := V3 (w4 p) (w4 p) (w4 p).
Lemma rational_close (bs : list f64) (ws : list R) (ps : list (vec4 f64)) (m M L e : R) : pow2 (-400) <= m -> m <= M -> M <= pow2 400 ->
  length bs = length ps -> length ws = length ps -> moderate (length ps) -> (forall b, In b bs -> num64 b) -> (forall p, In p ps -> weighted_point m M p) ->
  (forall w, In w ws -> 0 <= w) -> sumf (fun i => Rabs (nth i ws 0)) (length ps) = 1 -> sumf (fun i => Rabs (val (nth i bs f0) - nth i ws 0)) (length ps) <= L -> L <= 1 / 2 ->
  INR (length ps) * (4 * eps * M + 3 * eta) + L * M <= e -> 5 * eps * M <= e -> e <= m / 4 ->
  close3 (4 * e * M / (m * m)) (project_w (weighted_sum bs ps)) (project_w (weighted_sum ws (map val4 ps))).
Proof.
  intros Hm HmM HM Lb Lw Hn Nb Hp Pw Sw Sd HL HE He1 He2. destruct pow2_400 as (P4 & PP & _ & Pbig).
  assert (HM' : 0 <= M <= pow2 1000) by (split; [lra|apply Rle_trans with (pow2 400); [exact HM|apply pow2_le; lia]]).
  assert (Pws : forall i, 0 <= nth i ws 0) by (intros i; destruct (Nat.ltb_spec i (length ws)); [apply Pw; now apply nth_In|rewrite nth_overflow by lia; lra]).
  assert (Sw' : sumf (fun i => nth i ws 0) (length ps) = 1) by (rewrite <- Sw; apply sumf_ext; intros i _; rewrite Rabs_right; [reflexivity|apply Rle_ge, Pws]).
  assert (K : forall h : forall F, vec4 F -> vec3 F, (forall q, In q ps -> finite3 (h f64 q) /\ within M (val3 (h f64 q))) -> (forall q, val3 (h f64 q) = h R (val4 q)) ->
    (forall bs ps, h f64 (weighted_sum bs ps) = weighted_sum bs (map (h f64) ps)) -> (forall bs ps, h R (weighted_sum bs ps) = weighted_sum bs (map (h R) ps)) ->
    close3 e (h f64 (weighted_sum bs ps)) (comb3 (fun i => nth i ws 0) (map (fun q => h R (val4 q)) ps)) /\ h R (weighted_sum ws (map val4 ps)) = comb3 (fun i => nth i ws 0) (map (fun q => h R (val4 q)) ps)).
  { intros h H1 H2 H3 H4. split.
    - rewrite H3. eapply close3_mono; [|exact HE].
      replace (map (fun q => h R (val4 q)) ps) with (map val3 (map (h f64) ps)) by (rewrite map_map; apply map_ext; intros; apply H2). rewrite <- (map_length (h f64) ps).
      apply weighted_close; rewrite ?map_length; auto; [|lra]. intros q Hq. apply in_map_iff in Hq. destruct Hq as (q' & <- & Hq). now apply H1.
    - rewrite H4, map_map. apply weighted_sum_comb3. now rewrite map_length. }
  destruct (K (@truncate4)) as [C1 R1]; [intros q Hq; destruct (Hp q Hq) as (A & _ & B & _); split; assumption|reflexivity|intros; apply weighted_sum_hom; reflexivity..|].
  destruct (K (@wcopies)) as [C2 R2]; [intros q Hq; destruct (Hp q Hq) as (_ & A & _ & B)|reflexivity|intros; apply weighted_sum_hom; reflexivity..|].
  { split; [repeat split; apply A|]. unfold wcopies, within, val3. cbn [x3 y3 z3]. rewrite (Rabs_right (val (w4 q))) by lra. repeat split; apply B. }
  clear K. set (p := weighted_sum bs ps) in *. set (q := weighted_sum ws (map val4 ps)) in *. rewrite <- R1 in C1. rewrite <- R2 in C2.
  destruct C1 as ((N1 & N2 & N3) & E1 & E2 & E3). destruct C2 as ((N4 & _ & _) & E4 & _ & _). unfold truncate4, wcopies in *. cbn [x3 y3 z3] in *.
  assert (Bd : forall (f : vec3 R -> R) (g : vec4 f64 -> R) v, f v = sumf (fun i => nth i ws 0 * g (nth i ps vzero)) (length ps) -> (forall q, In q ps -> Rabs (g q) <= M) -> Rabs (f v) <= M).
  { intros f g v E Hg. rewrite E. apply Rle_trans with (sumf (fun i => nth i ws 0 * Rabs (g (nth i ps vzero))) (length ps)).
    - clear -Pws. induction (length ps) as [|k IH]; [rewrite !sumf_0, Rabs_R0; lra|]. rewrite !sumf_S. eapply Rle_trans; [apply Rabs_triang|]. rewrite Rabs_mult, (Rabs_right (nth k ws 0)) by (apply Rle_ge, Pws). lra.
    - apply sumf_convex_le; auto. intros i Hi. apply Hg. now apply nth_In. }
  assert (Bx : Rabs (x4 q) <= M /\ Rabs (y4 q) <= M /\ Rabs (z4 q) <= M).
  { split; [|split]; [apply (Bd (fun v => x3 v) (fun p => val (x4 p)) (V3 (x4 q) (y4 q) (z4 q)))|apply (Bd (fun v => y3 v) (fun p => val (y4 p)) (V3 (x4 q) (y4 q) (z4 q)))|apply (Bd (fun v => z3 v) (fun p => val (z4 p)) (V3 (x4 q) (y4 q) (z4 q)))];
      try (intros p' Hp'; destruct (Hp p' Hp') as (_ & _ & (B1 & B2 & B3) & _); assumption);
      rewrite R1; unfold comb3; cbn [x3 y3 z3]; rewrite map_length; apply sumf_ext; intros i Hi; f_equal; rewrite (nth_map_default _ _ _ vzero) by exact Hi; reflexivity. }
  assert (W4 : w4 q = sumf (fun i => nth i ws 0 * val (w4 (nth i ps vzero))) (length ps)).
  { change (w4 q) with (x3 (V3 (w4 q) (w4 q) (w4 q))). rewrite R2. unfold comb3. cbn [x3]. rewrite map_length. apply sumf_ext. intros i Hi. f_equal. rewrite (nth_map_default _ _ _ vzero) by exact Hi. reflexivity. }
  assert (Bw : m <= w4 q <= M).
  { rewrite W4. split.
    - assert (G : sumf (fun i => nth i ws 0 * (- val (w4 (nth i ps vzero)))) (length ps) <= - m).
      { apply sumf_convex_le; auto. intros i Hi. destruct (Hp (nth i ps vzero)) as (_ & _ & _ & B); [now apply nth_In|]. lra. }
      rewrite (sumf_ext _ (fun i => -1 * (nth i ws 0 * val (w4 (nth i ps vzero))))) in G by (intros; ring). rewrite sumf_scal in G. lra.
    - apply sumf_convex_le; auto. intros i Hi. destruct (Hp (nth i ps vzero)) as (_ & _ & _ & B); [now apply nth_In|]. lra. }
  destruct Bx as (Bx & By & Bz).
  destruct (quotient_close (x4 p) (w4 p) (x4 q) (w4 q) m M e) as [A1 A1']; auto. destruct (quotient_close (y4 p) (w4 p) (y4 q) (w4 q) m M e) as [A2 A2']; auto. destruct (quotient_close (z4 p) (w4 p) (z4 q) (w4 q) m M e) as [A3 A3']; auto.
  unfold project_w, close3, finite3. cbn. repeat split; assumption || apply A1 || apply A2 || apply A3.
Qed.
(** the cells of a tensor product *)
Lemma cell_close (bu bv : list f64) (wu wv : list R) (r c : nat) (Lu Lv : R) : (1 <= c)%nat -> moderate (r * c) ->
  length wu = r -> length wv = c -> (forall b, In b bu -> num64 b) -> (forall b, In b bv -> num64 b) -> (forall w, In w wu -> 0 <= w) -> (forall w, In w wv -> 0 <= w) ->
  sumf (fun i => Rabs (nth i wu 0)) r = 1 -> sumf (fun j => Rabs (nth j wv 0)) c = 1 ->
  sumf (fun i => Rabs (val (nth i bu f0) - nth i wu 0)) r <= Lu -> sumf (fun j => Rabs (val (nth j bv f0) - nth j wv 0)) c <= Lv -> Lu <= 1 / 8 -> Lv <= 1 / 8 ->
  (forall b, In b (cell_weights bu bv r c) -> num64 b) /\ (forall w, In w (cell_weights wu wv r c) -> 0 <= w) /\
  sumf (fun i => Rabs (nth i (cell_weights wu wv r c) 0)) (r * c) = 1 /\
  sumf (fun i => Rabs (val (nth i (cell_weights bu bv r c) f0) - nth i (cell_weights wu wv r c) 0)) (r * c) <= Lu + 9 / 8 * Lv + 3 * eps.
Proof.
  intros H1 Hm Lwu Lwv Nu Nv Pu Pv Wu Wv Eu Ev Bu Bv. pose proof eta_pos as H0. pose proof eta_small as He.
  destruct (product_weights bu bv (fun i => nth i wu 0) (fun j => nth j wv 0) r c Lu Lv (fun i => nth_num bu i Nu) (fun j => nth_num bv j Nv) ltac:(lra) ltac:(lra) Eu Ev Bu Bv) as [NP EP].
  assert (Brc : INR (r * c) * eta <= eps).
  { pose proof (small_INR (r * c) Hm). pose proof (pos_INR (r * c)). unfold eps in *. nra. }
  split; [|split; [|split]].
  - intros b Hb. apply in_flat_map in Hb. destruct Hb as (i & Hi & Hb). apply in_seq in Hi. apply in_map_iff in Hb. destruct Hb as (j & <- & Hj). apply in_seq in Hj. apply NP; lia.
  - intros b Hb. apply in_flat_map in Hb. destruct Hb as (i & Hi & Hb). apply in_seq in Hi. apply in_map_iff in Hb. destruct Hb as (j & <- & Hj). apply in_seq in Hj. apply Rmult_le_pos; [apply Pu|apply Pv]; apply nth_In; lia.
  - rewrite sumf_cells. transitivity (sumf (fun i => Rabs (nth i wu 0)) r * sumf (fun j => Rabs (nth j wv 0)) c); [|rewrite Wu, Wv; ring].
    rewrite <- sumf_prod. apply sumf_ext. intros i Hi. apply sumf_ext. intros j Hj. pose proof (cell_weights_nth wu wv r c i j Hi Hj) as E. cbn [f0 RNum] in E. rewrite E. apply Rabs_mult.
  - rewrite sumf_cells. eapply Rle_trans; [|eapply Rle_trans; [exact EP|lra]]. right. apply sumf_ext. intros i Hi. apply sumf_ext. intros j Hj. rewrite cell_weights_nth by assumption.
    pose proof (cell_weights_nth wu wv r c i j Hi Hj) as E. cbn [f0 RNum] in E. rewrite E. reflexivity.
Qed.
(** [e] is the error of the homogeneous coordinates *)
Lemma homogeneous_error (n m M a : R) : pow2 (-400) <= m -> m <= M -> 1 <= n -> a <= n -> n * (8 * eps) * M <= m / 4 ->
  a * (4 * eps * M + 3 * eta) <= a * (4 * eps * M) + n * (eps * M) /\ 5 * eps * M <= n * (8 * eps) * M.
Proof.
  intros H1 H2 H3 H4 H5. destruct pow2_400 as (P4 & PP & Peta & _). pose proof eta_pos as H0.
  assert (E : 3 * eta <= eps * M). { assert (pow2 400 * (1024 * eta) <= pow2 400 * (eps * pow2 (-400))) by (replace (pow2 400 * (eps * pow2 (-400))) with (eps * (pow2 400 * pow2 (-400))) by ring; rewrite PP; lra). apply Rmult_le_reg_l in H; [|apply pow2_pos]. assert (eps * pow2 (-400) <= eps * M) by (apply Rmult_le_compat_l; unfold eps; lra). lra. }
  assert (Pe : 0 <= eps * M) by (apply Rmult_le_pos; unfold eps in *; lra). assert (A : 1 * (eps * M) <= n * (eps * M)) by (apply Rmult_le_compat_r; assumption).
  split; [|lra]. destruct (Rle_dec a 0) as [N|N].
  - assert (a * (3 * eta) <= 0) by (assert (0 <= - a * eta) by (apply Rmult_le_pos; lra); lra). lra.
  - assert (a * (3 * eta) <= a * (eps * M)) by (apply Rmult_le_compat_l; lra). assert (a * (eps * M) <= n * (eps * M)) by (apply Rmult_le_compat_r; assumption). lra.
Qed.
(** ** C62: rational Bezier curves *)
(** error at most N 2^-46 (M/m)^2 *)
Theorem C62_rational_bezier_f64 (cps : list (vec4 f64)) (u : f64) (m M : R) : cps <> [] -> moderate (length cps) -> num64 u -> 0 <= val u <= 1 ->
  pow2 (-400) <= m -> m <= M -> M <= pow2 400 -> (forall p, In p cps -> weighted_point m M p) -> INR (length cps) * pow2 (-46) * M <= m ->
  exists p q, bezier4_get_point cps u = Ok p /\ bezier4_get_point (map val4 cps) (val u) = Ok q /\
    close3 (INR (length cps) * pow2 (-46) * (M / m * (M / m))) p q.
Proof.
  intros Hc Hm Hu Hr Hm1 HmM HM Hp Hs. assert (Hn : (1 <= length cps)%nat) by (destruct cps; [congruence|cbn; lia]). pose proof eta_pos as H0. destruct pow2_400 as (P4 & _).
  destruct (C62_bernstein_f64 (length cps) u Hn Hm Hu Hr) as (bs & Eb & Lb & Nb & Sb). destruct (bern_list (length cps) (val u) Hn) as (ws & Ew & Lw & Nw).
  assert (Bn : INR (length cps) <= 1099511627776) by (apply small_INR; exact Hm). assert (Pn : 1 <= INR (length cps)) by (change 1 with (INR 1); apply le_INR; exact Hn).
  assert (In1 : INR (length cps - 1) = INR (length cps) - 1) by (rewrite minus_INR by exact Hn; reflexivity). rewrite eps_50, In1 in Sb. rewrite eps_46 in *.
  exists (project_w (weighted_sum bs cps)), (project_w (weighted_sum ws (map val4 cps))). split; [unfold bezier4_get_point; now rewrite Eb|]. split; [unfold bezier4_get_point; rewrite map_length; now rewrite Ew|].
  assert (Pos : forall i, (i < length cps)%nat -> 0 <= bern_poly (length cps) i (val u)) by (intros i Hi; rewrite bern_poly_Bern by exact Hi; now apply Bern_nonneg).
  destruct (homogeneous_error (4 * INR (length cps)) m M (INR (length cps))) as [HE HE2]; [lra..|].
  assert (Pe : 0 <= eps * M) by (apply Rmult_le_pos; unfold eps in *; lra). assert (Pe' : 0 <= INR (length cps) * (eps * M)) by (apply Rmult_le_pos; lra).
  eapply close3_mono; [apply (rational_close bs ws cps m M (8 * eps * (INR (length cps) - 1)) (4 * INR (length cps) * (8 * eps) * M)); auto|].
  - intros b Hb. now apply Nb.
  - intros w Hw. apply (In_nth _ _ 0) in Hw. destruct Hw as (i & Hi & <-). rewrite Nw by lia. apply Pos. lia.
  - rewrite <- (bern_weights (length cps) (val u) Hn Hr). apply sumf_ext. intros i Hi. now rewrite Nw.
  - eapply Rle_trans; [right|exact (Rle_trans _ _ _ Sb (Req_le _ _ (Rmult_comm _ _)))]. apply sumf_ext. intros i Hi. now rewrite Nw.
  - unfold eps. lra.
  - lra.
  - lra.
  - right. field. lra.
Qed.
(** ** C62: rational B-spline curves *)
Definition val_bspline4 (c : BSpline f64 (vec4 f64)) : BSpline R (vec4 R) := mkBSpline (map val4 (bs_cps c)) (val_list (bs_knots c)) (bs_degree c).
Theorem C62_rational_bspline_f64 (c : BSpline f64 (vec4 f64)) (u : f64) (m M : R) :
  evaluable (bs_knots c) (bs_degree c) (length (bs_cps c)) u ->
  pow2 (-400) <= m -> m <= M -> M <= pow2 400 -> (forall p, In p (bs_cps c) -> weighted_point m M p) -> INR (length (bs_cps c) + 8 * bs_degree c) * pow2 (-48) * M <= m ->
  exists p q, bspline4_get_point c u = Ok p /\ bspline4_get_point (val_bspline4 c) (val u) = Ok q /\
    close3 (INR (length (bs_cps c) + 8 * bs_degree c) * pow2 (-48) * (M / m * (M / m))) p q.
Proof.
  intros HE Hm1 HmM HM Hp Hs. pose proof eta_pos as H0. destruct pow2_400 as (P4 & _).
  destruct (C62_basis_f64 _ _ _ _ HE) as (bs & ws & Eb & Ew & Lb & Lw & Nb & Pw & Sw & Sb). destruct HE as (_ & _ & _ & _ & HL & Hn & Hm & _).
  rewrite eps_48 in *. rewrite plus_INR, mult_INR in *. replace (INR 8) with 8 in * by (cbn; ring).
  assert (Bd : INR (bs_degree c) <= 1099511627776) by (apply small_INR; unfold moderate, small_n in *; lia). pose proof (pos_INR (bs_degree c)) as Pd. assert (Pn : 1 <= INR (length (bs_cps c))) by (change 1 with (INR 1); apply le_INR; exact Hn).
  exists (project_w (weighted_sum bs (bs_cps c))), (project_w (weighted_sum ws (map val4 (bs_cps c)))). split; [unfold bspline4_get_point; now rewrite Eb|]. split; [unfold bspline4_get_point, val_bspline4; cbn [bs_knots bs_degree bs_cps]; now rewrite Ew|].
  set (n := INR (length (bs_cps c))) in *. set (d := INR (bs_degree c)) in *.
  destruct (homogeneous_error (n + 8 * d) m M n) as [HE HE2]; [lra..|].
  assert (Pe : 0 <= eps * M) by (apply Rmult_le_pos; unfold eps in *; lra). assert (Pe' : 0 <= n * (eps * M)) by (apply Rmult_le_pos; lra). assert (Pe'' : 0 <= d * (eps * M)) by (apply Rmult_le_pos; lra).
  eapply close3_mono; [apply (rational_close bs ws (bs_cps c) m M (d * (32 * eps)) ((n + 8 * d) * (8 * eps) * M)); auto|].
  - unfold moderate in *. lia.
  - unfold eps. lra.
  - fold n. lra.
  - lra.
  - right. field. lra.
Qed.
(** ** C62: rational surfaces *)
Definition val_grid4 (g : Grid (vec4 f64)) : Grid (vec4 R) := mkGrid (g_cols g) (map val4 (g_data g)).
Lemma val_grid4_wf g r c : wf_grid g r c -> wf_grid (val_grid4 g) r c.
Proof. intros (A & B & D). unfold wf_grid, val_grid4. cbn [g_cols g_data]. rewrite map_length. auto. Qed.
Theorem C62_rational_bezier_surface_f64 (g : Grid (vec4 f64)) (r c : nat) (u v : f64) (m M : R) : wf_grid g r c -> (1 <= r)%nat -> moderate (r * c) ->
  num64 u -> num64 v -> 0 <= val u <= 1 -> 0 <= val v <= 1 ->
  pow2 (-400) <= m -> m <= M -> M <= pow2 400 -> (forall p, In p (g_data g) -> weighted_point m M p) -> INR (r * c) * pow2 (-46) * M <= m ->
  exists p q, bezier_surface4_get_point g u v = Ok p /\ bezier_surface4_get_point (val_grid4 g) (val u) (val v) = Ok q /\
    close3 (INR (r * c) * pow2 (-46) * (M / m * (M / m))) p q.
Proof.
  intros Hw Hr Hm Nu Nv Ru Rv Hm1 HmM HM Hp Hs. pose proof Hw as (Hc & HL & H1). pose proof eta_pos as H0. destruct pow2_400 as (P4 & _).
  assert (Mr : moderate r) by (unfold moderate in *; nia). assert (Mc : moderate c) by (unfold moderate in *; nia).
  destruct (C62_bernstein_f64 r u Hr Mr Nu Ru) as (bu & Eu & Lu & Nbu & Su). destruct (C62_bernstein_f64 c v H1 Mc Nv Rv) as (bv & Ev & Lv & Nbv & Sv).
  destruct (bern_list r (val u) Hr) as (wu & Fu & Lwu & Nwu). destruct (bern_list c (val v) H1) as (wv & Fv & Lwv & Nwv).
  rewrite eps_50 in Su, Sv. rewrite eps_46 in *.
  assert (Br : INR r <= 1099511627776) by (apply small_INR; exact Mr). assert (Bc : INR c <= 1099511627776) by (apply small_INR; exact Mc).
  assert (Ir : INR (r - 1) = INR r - 1) by (rewrite minus_INR by lia; reflexivity). assert (Ic : INR (c - 1) = INR c - 1) by (rewrite minus_INR by lia; reflexivity).
  rewrite Ir in Su. rewrite Ic in Sv.
  assert (Pr : 1 <= INR r) by (change 1 with (INR 1); apply le_INR; lia). assert (Pc : 1 <= INR c) by (change 1 with (INR 1); apply le_INR; lia).
  assert (Wpos : forall n t (w : list R), 0 <= t <= 1 -> length w = n -> (forall i, (i < n)%nat -> nth i w 0 = bern_poly n i t) -> forall x, In x w -> 0 <= x).
  { intros n t w Ht Lw Nw x Hx. apply (In_nth _ _ 0) in Hx. destruct Hx as (i & Hi & <-). rewrite Nw by lia. rewrite bern_poly_Bern by lia. now apply Bern_nonneg. }
  destruct (cell_close bu bv wu wv r c (8 * eps * (INR r - 1)) (8 * eps * (INR c - 1))) as (CN & CP & CS & CD); auto.
  { intros b Hb; now apply Nbu. } { intros b Hb; now apply Nbv. } { now apply (Wpos r (val u)). } { now apply (Wpos c (val v)). }
  { rewrite <- (bern_weights r (val u) Hr Ru). apply sumf_ext. intros i Hi. now rewrite Nwu. } { rewrite <- (bern_weights c (val v) H1 Rv). apply sumf_ext. intros i Hi. now rewrite Nwv. }
  { eapply Rle_trans; [right|exact (Rle_trans _ _ _ Su (Req_le _ _ (Rmult_comm _ _)))]. apply sumf_ext. intros i Hi. now rewrite Nwu. }
  { eapply Rle_trans; [right|exact (Rle_trans _ _ _ Sv (Req_le _ _ (Rmult_comm _ _)))]. apply sumf_ext. intros i Hi. now rewrite Nwv. }
  1,2: unfold eps; lra.
  assert (Hw' : wf_grid (val_grid4 g) r c) by now apply val_grid4_wf.
  exists (project_w (weighted_sum (cell_weights bu bv r c) (g_data g))), (project_w (weighted_sum (cell_weights wu wv r c) (map val4 (g_data g)))). split; [|split].
  { unfold bezier_surface4_get_point. rewrite (wf_rows g r c Hw), Hc, Eu. cbn [obind]. rewrite Ev. cbn [obind]. rewrite (tensor_sum_cells g bu bv r c Hw) by lia. reflexivity. }
  { unfold bezier_surface4_get_point. rewrite (wf_rows _ r c Hw'). change (g_cols (val_grid4 g)) with (g_cols g). rewrite Hc, Fu. cbn [obind]. rewrite Fv. cbn [obind]. rewrite (tensor_sum_cells (val_grid4 g) wu wv r c Hw') by lia. reflexivity. }
  rewrite mult_INR in *. set (x := INR r) in *. set (y := INR c) in *.
  assert (XY : 1 <= x * y) by nra. assert (XY2 : 8 * (x - 1) + 9 * (y - 1) + 3 <= 20 * (x * y)) by nra.
  destruct (homogeneous_error (4 * (x * y)) m M (x * y)) as [HE HE2]; [lra..|].
  assert (Pe : 0 <= eps * M) by (apply Rmult_le_pos; unfold eps in *; lra). assert (XY3 : (8 * (x - 1) + 9 * (y - 1) + 3) * (eps * M) <= 20 * (x * y) * (eps * M)) by (apply Rmult_le_compat_r; assumption).
  eapply close3_mono; [apply (rational_close (cell_weights bu bv r c) (cell_weights wu wv r c) (g_data g) m M (8 * eps * (x - 1) + 9 / 8 * (8 * eps * (y - 1)) + 3 * eps) (4 * (x * y) * (8 * eps) * M)); rewrite ?HL, ?cell_weights_length, ?mult_INR; auto|].
  - unfold eps. lra.
  - fold x y. assert (0 <= x * y * (eps * M)) by (apply Rmult_le_pos; lra). lra.
  - lra.
  - right. field. lra.
Qed.
Definition val_bss4 (s : BSplineSurface f64 (vec4 f64)) : BSplineSurface R (vec4 R) :=
  mkBSS (val_grid4 (bss_cps s)) (val_list (fst (bss_knots s)), val_list (snd (bss_knots s))) (bss_degree s).
Theorem C62_rational_bspline_surface_f64 (s : BSplineSurface f64 (vec4 f64)) (r c : nat) (u v : f64) (m M : R) : wf_grid (bss_cps s) r c -> moderate (r * c) ->
  evaluable (fst (bss_knots s)) (fst (bss_degree s)) r u -> evaluable (snd (bss_knots s)) (snd (bss_degree s)) c v ->
  pow2 (-400) <= m -> m <= M -> M <= pow2 400 -> (forall p, In p (g_data (bss_cps s)) -> weighted_point m M p) ->
  INR (r * c + 8 * fst (bss_degree s) + 9 * snd (bss_degree s)) * pow2 (-48) * M <= m ->
  exists p q, bss4_get_point s u v = Ok p /\ bss4_get_point (val_bss4 s) (val u) (val v) = Ok q /\
    close3 (INR (r * c + 8 * fst (bss_degree s) + 9 * snd (bss_degree s)) * pow2 (-48) * (M / m * (M / m))) p q.
Proof.
  intros Hw Hm HU HV Hm1 HmM HM Hp Hs. pose proof Hw as (Hc & HL & H1). pose proof eta_pos as H0. destruct pow2_400 as (P4 & _).
  destruct (C62_basis_f64 _ _ _ _ HU) as (bu & wu & Eu & Fu & Lu & Lwu & Nu & Pwu & Wu & Su). destruct (C62_basis_f64 _ _ _ _ HV) as (bv & wv & Ev & Fv & Lv & Lwv & Nv & Pwv & Wv & Sv).
  destruct HU as (_ & _ & _ & _ & LU & Hr & MU & _). destruct HV as (_ & _ & _ & _ & LV & _ & MV & _). destruct s as [g [ku kv] [p q]]. cbn [bss_cps bss_knots bss_degree fst snd] in *.
  rewrite eps_48 in *.
  assert (Bp : INR p <= 1099511627776) by (apply small_INR; unfold moderate, small_n in *; lia). assert (Bq : INR q <= 1099511627776) by (apply small_INR; unfold moderate, small_n in *; lia).
  assert (Pr : 1 <= INR r) by (change 1 with (INR 1); apply le_INR; lia). assert (Pc : 1 <= INR c) by (change 1 with (INR 1); apply le_INR; lia).
  destruct (cell_close bu bv wu wv r c (INR p * (32 * eps)) (INR q * (32 * eps))) as (CN & CP & CS & CD); auto; try (unfold eps; lra).
  assert (Hw' : wf_grid (val_grid4 g) r c) by now apply val_grid4_wf.
  exists (project_w (weighted_sum (cell_weights bu bv r c) (g_data g))), (project_w (weighted_sum (cell_weights wu wv r c) (map val4 (g_data g)))). split; [|split].
  { unfold bss4_get_point. cbn [bss_cps bss_knots bss_degree fst snd]. rewrite Eu. cbn [obind]. rewrite Ev. cbn [obind]. rewrite (tensor_sum_cells g bu bv r c Hw) by lia. reflexivity. }
  { unfold bss4_get_point, val_bss4. cbn [bss_cps bss_knots bss_degree fst snd]. rewrite Fu. cbn [obind]. rewrite Fv. cbn [obind]. rewrite (tensor_sum_cells (val_grid4 g) wu wv r c Hw') by lia. reflexivity. }
  rewrite !plus_INR, !(mult_INR _ p), !(mult_INR _ q), (mult_INR r) in *. replace (INR 8) with 8 in * by (cbn; ring). replace (INR 9) with 9 in * by (cbn; ring).
  pose proof (pos_INR p) as Pp. pose proof (pos_INR q) as Pq. set (x := INR r) in *. set (y := INR c) in *. set (a := INR p) in *. set (b := INR q) in *. assert (XY : 1 <= x * y) by nra.
  destruct (homogeneous_error (x * y + 8 * a + 9 * b) m M (x * y)) as [HE HE2]; [lra..|].
  assert (Pe : 0 <= eps * M) by (apply Rmult_le_pos; unfold eps in *; lra). assert (XY3 : 1 * (eps * M) <= (x * y) * (eps * M)) by (apply Rmult_le_compat_r; assumption).
  assert (Pa : 0 <= a * (eps * M)) by (apply Rmult_le_pos; lra). assert (Pb : 0 <= b * (eps * M)) by (apply Rmult_le_pos; lra).
  eapply close3_mono; [apply (rational_close (cell_weights bu bv r c) (cell_weights wu wv r c) (g_data g) m M (a * (32 * eps) + 9 / 8 * (b * (32 * eps)) + 3 * eps) ((x * y + 8 * a + 9 * b) * (8 * eps) * M)); rewrite ?HL, ?cell_weights_length, ?mult_INR; auto|].
  - unfold eps. lra.
  - fold x y. lra.
  - lra.
  - right. field. lra.
Qed.
(** ** Concrete cases: decimal knots, points and parameters *)
Lemma tenth_3 : val (tenth 3) = 5404319552844595 / 18014398509481984.
Proof.
  assert (E : tenth 3 = S754_finite false 5404319552844595 (-54)) by (vm_compute; reflexivity). rewrite E. cbn [B2R]. 
  assert (P : IZR (2 ^ 1) * pow2 (-54) = eps) by (rewrite pow2_Z by lia; rewrite <- pow2_add; apply eps_pow2). change (IZR (2 ^ 1)) with 2 in P. unfold eps in P. lra.
Qed.
Lemma tenth_7 : val (tenth 7) = 6305039478318694 / 9007199254740992.
Proof.
  assert (E : tenth 7 = S754_finite false 6305039478318694 (-53)) by (vm_compute; reflexivity). rewrite E. cbn [B2R]. rewrite eps_pow2. unfold eps. lra.
Qed.
Definition decimal_knots : list f64 := [f0; f0; f0; tenth 3; f1; f1; f1].
Lemma decimal_evaluable : evaluable decimal_knots 2 4 (tenth 7).
Proof.
  assert (U : forall x, is_fin x && valid_binary p64 e64 x && fleb (fabs x) f1 = true -> moderate_knot x).
  { intros x H. apply checked_unit in H. destruct H as [N H]. split; [exact N|]. apply Rle_trans with (pow2 0); [rewrite pow2_0; exact H|apply pow2_le; lia]. }
  assert (V : val_list decimal_knots = [0; 0; 0; 5404319552844595 / 18014398509481984; 1; 1; 1]).
  { unfold val_list, decimal_knots. cbn [map]. rewrite tenth_3. rewrite f1_val, f0_val. reflexivity. }
  split; [intros k [<-|[<-|[<-|[<-|[<-|[<-|[<-|[]]]]]]]]; apply U; vm_compute; reflexivity|]. split; [apply U; vm_compute; reflexivity|]. rewrite V. split; [|split; [|split; [reflexivity|split; [lia|split; [vm_compute; discriminate|]]]]].
  - intros i j Hij. cbn [length] in Hij. do 7 (destruct i as [|i]; [do 7 (destruct j as [|j]; [try (exfalso; lia); cbn [nth]; lra|]); exfalso; lia|]). exfalso; lia.
  - assert (S : forall x, In x [0; 0; 0; 5404319552844595 / 18014398509481984; 1; 1; 1] -> x = 0 \/ x = 5404319552844595 / 18014398509481984 \/ x = 1) by (intros x Hx; cbn in Hx; intuition).
    intros a b Ha Hb NE. apply S in Ha, Hb. 
    assert (B : Rmax 1 (Rmax (Rabs a) (Rabs b)) <= 1) by (repeat apply Rmax_lub; [lra| |]; apply Rabs_le; intuition; subst; lra).
    assert (D : 1 / 4 <= Rabs (a - b)) by (destruct Ha as [Ha|[Ha|Ha]], Hb as [Hb|[Hb|Hb]]; subst a b; try congruence; first [rewrite Rabs_right by lra; lra|rewrite Rabs_left by lra; lra]). lra.
  - unfold in_domain. cbn [length Nat.sub nth]. rewrite tenth_7. split; [lra|left; lra].
Qed.
Definition decimal_curve : BSpline f64 (vec3 f64) := mkBSpline [tenths 0 0 0; tenths 1 3 7; tenths 9 2 (-4); tenths 5 5 1] decimal_knots 2.
Example C62_bspline_nonvacuous : exists p q, bspline3_get_point decimal_curve (tenth 7) = Ok p /\
  bspline3_get_point (val_bspline decimal_curve) (val (tenth 7)) = Ok q /\ close3 (20 * (pow2 (-51) + pow2 (-1073))) p q.
Proof.
  destruct (C62_bspline_f64 decimal_curve (tenth 7) 1) as (p & q & A & B & D).
  - exact decimal_evaluable.
  - pose proof big_pow2. lra.
  - apply checked_points. vm_compute. reflexivity.
  - exists p, q. split; [exact A|]. split; [exact B|]. eapply close3_mono; [exact D|]. right. rewrite Rmult_1_r. f_equal. change (length (bs_cps decimal_curve) + 8 * bs_degree decimal_curve)%nat with 20%nat. cbn [INR]. ring.
Qed.
Definition decimal_surface : BSplineSurface f64 (vec3 f64) :=
  mkBSS (mkGrid 4 (flat_map (fun i => map (fun j => tenths i j (i * j - 3)) [0; 1; 2; 3]%Z) [0; 1; 2; 3]%Z)) (decimal_knots, decimal_knots) (2, 2)%nat.
Example C62_bspline_surface_nonvacuous : exists p q, bss3_get_point decimal_surface (tenth 7) (tenth 7) = Ok p /\
  bss3_get_point (val_bss decimal_surface) (val (tenth 7)) (val (tenth 7)) = Ok q /\ close3 (51 * (pow2 (-51) + pow2 (-1073))) p q.
Proof.
  destruct (C62_bspline_surface_f64 decimal_surface 4 4 (tenth 7) (tenth 7) 1) as (p & q & A & B & D).
  - repeat split; cbn; lia.
  - vm_compute. discriminate.
  - exact decimal_evaluable.
  - exact decimal_evaluable.
  - pose proof big_pow2. lra.
  - apply checked_points. vm_compute. reflexivity.
  - exists p, q. split; [exact A|]. split; [exact B|]. eapply close3_mono; [exact D|]. right. rewrite Rmult_1_r. f_equal. change (4 * 4 + 8 * fst (bss_degree decimal_surface) + 9 * snd (bss_degree decimal_surface) + 1)%nat with 51%nat. cbn [INR]. ring.
Qed.
(** weights 1 and 1/2 *)
Definition weighted_tenths (a b c w : Z) : vec4 f64 := V4 (tenth a) (tenth b) (tenth c) (tenth w).
Definition weighted_unit (p : vec4 f64) : bool := unit_point (truncate4 p) && (is_fin (w4 p) && valid_binary p64 e64 (w4 p) && fleb (fabs (w4 p)) f1) && fleb (tenth 5) (w4 p).
Lemma tenth_5 : val (tenth 5) = 1 / 2.
Proof.
  assert (E : tenth 5 = S754_finite false 4503599627370496 (-53)) by (vm_compute; reflexivity). rewrite E. cbn [B2R]. rewrite eps_pow2. unfold eps. lra.
Qed.
Lemma checked_weighted (ps : list (vec4 f64)) : forallb weighted_unit ps = true -> forall p, In p ps -> weighted_point (1 / 2) 1 p.
Proof.
  intros H p Hp. apply (proj1 (forallb_forall _ _) H) in Hp. unfold weighted_unit in Hp. apply andb_true_iff in Hp. destruct Hp as [Hp L]. apply andb_true_iff in Hp. destruct Hp as [A B].
  destruct (checked_points [truncate4 p]) with (p := truncate4 p) as [F W]; [cbn [forallb]; now rewrite A|now left|]. apply checked_unit in B. destruct B as [N B].
  split; [exact F|]. split; [exact N|]. split; [exact W|]. apply (checked_leb (tenth 5) (w4 p)) in L; [|split; vm_compute; reflexivity|exact N]. rewrite tenth_5 in L. pose proof (Rle_abs (val (w4 p))). lra.
Qed.
Lemma half_bounds : pow2 (-400) <= 1 / 2 /\ 1 <= pow2 400.
Proof.
  split.
  - apply Rle_trans with (pow2 (-1)); [apply pow2_le; lia|]. assert (P : IZR (2 ^ 1) * pow2 (-1) = 1) by (rewrite pow2_Z by lia; rewrite <- pow2_add; apply pow2_0). change (IZR (2 ^ 1)) with 2 in P. lra.
  - apply Rle_trans with (pow2 0); [right; symmetry; apply pow2_0|apply pow2_le; lia].
Qed.
Definition rational_curve : BSpline f64 (vec4 f64) := mkBSpline [weighted_tenths 0 0 0 10; weighted_tenths 1 3 7 5; weighted_tenths 9 2 (-4) 5; weighted_tenths 5 5 1 10] decimal_knots 2.
Example C62_rational_nonvacuous : exists p q, bspline4_get_point rational_curve (tenth 7) = Ok p /\
  bspline4_get_point (val_bspline4 rational_curve) (val (tenth 7)) = Ok q /\ close3 (80 * pow2 (-48)) p q.
Proof.
  destruct half_bounds as [H1 H2].
  destruct (C62_rational_bspline_f64 rational_curve (tenth 7) (1 / 2) 1) as (p & q & A & B & D); [exact decimal_evaluable|exact H1|lra|exact H2|apply checked_weighted; vm_compute; reflexivity| |].
  - change (length (bs_cps rational_curve) + 8 * bs_degree rational_curve)%nat with 20%nat. rewrite eps_48. cbn [INR]. unfold eps. lra.
  - exists p, q. split; [exact A|]. split; [exact B|]. eapply close3_mono; [exact D|]. right. change (length (bs_cps rational_curve) + 8 * bs_degree rational_curve)%nat with 20%nat. cbn [INR]. field.
Qed.
Definition rational_patch : Grid (vec4 f64) := mkGrid 2 [weighted_tenths 0 0 0 10; weighted_tenths 1 3 7 5; weighted_tenths 9 2 (-4) 5; weighted_tenths 5 5 1 10].
Example C62_rational_surface_nonvacuous : exists p q, bezier_surface4_get_point rational_patch (tenth 3) (tenth 7) = Ok p /\
  bezier_surface4_get_point (val_grid4 rational_patch) (val (tenth 3)) (val (tenth 7)) = Ok q /\ close3 (16 * pow2 (-46)) p q.
Proof.
  destruct half_bounds as [H1 H2].
  destruct (C62_rational_bezier_surface_f64 rational_patch 2 2 (tenth 3) (tenth 7) (1 / 2) 1) as (p & q & A & B & D);
    [repeat split; cbn; lia|lia|vm_compute; discriminate|split; vm_compute; reflexivity..|rewrite tenth_3; lra|rewrite tenth_7; lra|exact H1|lra|exact H2|apply checked_weighted; vm_compute; reflexivity| |].
  - rewrite eps_46. cbn [INR Nat.mul Nat.add]. unfold eps. lra.
  - exists p, q. split; [exact A|]. split; [exact B|]. eapply close3_mono; [exact D|]. right. cbn [INR Nat.mul Nat.add]. field.
Qed.
Example C62_rational_bezier_nonvacuous : exists p q, bezier4_get_point (g_data rational_patch) (tenth 3) = Ok p /\
  bezier4_get_point (map val4 (g_data rational_patch)) (val (tenth 3)) = Ok q /\ close3 (16 * pow2 (-46)) p q.
Proof.
  destruct half_bounds as [H1 H2].
  destruct (C62_rational_bezier_f64 (g_data rational_patch) (tenth 3) (1 / 2) 1) as (p & q & A & B & D);
    [discriminate|vm_compute; discriminate|split; vm_compute; reflexivity|rewrite tenth_3; lra|exact H1|lra|exact H2|apply checked_weighted; vm_compute; reflexivity| |].
  - rewrite eps_46. cbn [INR length rational_patch g_data]. unfold eps. lra.
  - exists p, q. split; [exact A|]. split; [exact B|]. eapply close3_mono; [exact D|]. right. cbn [INR length rational_patch g_data]. field.
Qed.
Definition rational_surface : BSplineSurface f64 (vec4 f64) :=
  mkBSS (mkGrid 4 (flat_map (fun i => map (fun j => weighted_tenths i j (i * j - 3) (10 - i)) [0; 1; 2; 3]%Z) [0; 1; 2; 3]%Z)) (decimal_knots, decimal_knots) (2, 2)%nat.
Example C62_rational_bspline_surface_nonvacuous : exists p q, bss4_get_point rational_surface (tenth 7) (tenth 7) = Ok p /\
  bss4_get_point (val_bss4 rational_surface) (val (tenth 7)) (val (tenth 7)) = Ok q /\ close3 (200 * pow2 (-48)) p q.
Proof.
  destruct half_bounds as [H1 H2].
  assert (E50 : INR (4 * 4 + 8 * fst (bss_degree rational_surface) + 9 * snd (bss_degree rational_surface)) = 50) by (change (4 * 4 + 8 * fst (bss_degree rational_surface) + 9 * snd (bss_degree rational_surface))%nat with 50%nat; cbn [INR]; ring).
  destruct (C62_rational_bspline_surface_f64 rational_surface 4 4 (tenth 7) (tenth 7) (1 / 2) 1) as (p & q & A & B & D);
    [repeat split; cbn; lia|vm_compute; discriminate|exact decimal_evaluable..|exact H1|lra|exact H2|apply checked_weighted; vm_compute; reflexivity| |].
  - rewrite E50, eps_48. unfold eps. lra.
  - exists p, q. split; [exact A|]. split; [exact B|]. eapply close3_mono; [exact D|]. right. rewrite E50. field.
Qed.
