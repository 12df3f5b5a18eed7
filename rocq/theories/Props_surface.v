(** Properties C18-C20: tensor product surfaces. *)
From Coq Require Import Reals Lra Psatz Lia Arith.
From Verif Require Import Prelude Num M_vec M_utils M_curve M_surface L_base L_bezier L_vec L_cdb L_knot L_bspline L_geom L_surface Props_bezier Props_knot Props_bspline Props_utils.
Open Scope R_scope.

(** ** Specification: the tensor product combination of the entries of a grid *)
Definition tsum {P} {VP : VecOps R P} (wu wv : nat -> R) (g : Grid P) (r c : nat) (coord : P -> R) : R :=
  sumf (fun i => sumf (fun j => wu i * wv j * coord (entry g i j)) c) r.
Definition tensor3 (wu wv : nat -> R) (g : Grid (vec3 R)) (r c : nat) : vec3 R :=
  V3 (tsum wu wv g r c x3) (tsum wu wv g r c y3) (tsum wu wv g r c z3).
Definition tensor4 (wu wv : nat -> R) (g : Grid (vec4 R)) (r c : nat) : vec3 R :=
  V3 (tsum wu wv g r c x4 / tsum wu wv g r c w4) (tsum wu wv g r c y4 / tsum wu wv g r c w4) (tsum wu wv g r c z4 / tsum wu wv g r c w4).
Definition bern_poly (n i : nat) (u : R) : R := C (n - 1) i * u ^ i * (1 - u) ^ (n - 1 - i).

Lemma tsum_ext {P} {VP : VecOps R P} wu wv wu' wv' (g : Grid P) r c l :
  (forall i, (i < r)%nat -> wu i = wu' i) -> (forall j, (j < c)%nat -> wv j = wv' j) -> tsum wu wv g r c l = tsum wu' wv' g r c l.
Proof. intros H1 H2. apply sumf_ext. intros i Hi. apply sumf_ext. intros j Hj. now rewrite H1, H2. Qed.
Lemma tensor3_ext wu wv wu' wv' g r c :
  (forall i, (i < r)%nat -> wu i = wu' i) -> (forall j, (j < c)%nat -> wv j = wv' j) -> tensor3 wu wv g r c = tensor3 wu' wv' g r c.
Proof. intros H1 H2. unfold tensor3. f_equal; now apply tsum_ext. Qed.
Lemma tensor4_ext wu wv wu' wv' g r c :
  (forall i, (i < r)%nat -> wu i = wu' i) -> (forall j, (j < c)%nat -> wv j = wv' j) -> tensor4 wu wv g r c = tensor4 wu' wv' g r c.
Proof. intros H1 H2. unfold tensor4. now rewrite !(tsum_ext wu wv wu' wv') by assumption. Qed.
Lemma tsum_expand_x3 (l : vec3 R -> R) : linear l -> forall p, l p = l (V3 1 0 0) * x3 p + l (V3 0 1 0) * y3 p + l (V3 0 0 1) * z3 p.
Proof.
  intros Hl p. assert (E : p = vadd (vadd (vmull (x3 p) (V3 1 0 0)) (vmull (y3 p) (V3 0 1 0))) (vmull (z3 p) (V3 0 0 1))).
  { apply vec3_ext; vsimp; ring. }
  rewrite E at 1. rewrite !(lin_add Hl), !(lin_mull Hl). ring.
Qed.
Lemma tensor3_coord wu wv g r c l : linear l -> l (tensor3 wu wv g r c) = tsum wu wv g r c l.
Proof.
  intros Hl. rewrite (tsum_expand_x3 l Hl). unfold tensor3. cbn [x3 y3 z3]. unfold tsum.
  rewrite <- !sumf_scal, <- !sumf_plus. apply sumf_ext. intros i _. rewrite <- !sumf_scal, <- !sumf_plus. apply sumf_ext. intros j _.
  rewrite (tsum_expand_x3 l Hl (entry g i j)). ring.
Qed.
Lemma tensor_sum_3 (g : Grid (vec3 R)) bu bv r c : wf_grid g r c -> (r <= length bu)%nat -> (c <= length bv)%nat ->
  tensor_sum g bu bv = Ok (tensor3 (fun i => nth i bu 0) (fun j => nth j bv 0) g r c).
Proof.
  intros Hw Hu Hv. destruct (tensor_sum_coord g bu bv r c Hw Hu Hv) as [q [E H]]. rewrite E. f_equal.
  apply vec3_ext; rewrite H by auto with linear; reflexivity.
Qed.
Lemma tensor_sum_4 (g : Grid (vec4 R)) bu bv r c : wf_grid g r c -> (r <= length bu)%nat -> (c <= length bv)%nat ->
  obind (tensor_sum g bu bv) (fun p => Ok (project_w p)) = Ok (tensor4 (fun i => nth i bu 0) (fun j => nth j bv 0) g r c).
Proof.
  intros Hw Hu Hv. destruct (tensor_sum_coord g bu bv r c Hw Hu Hv) as [q [E H]]. rewrite E. cbn [obind]. f_equal.
  unfold project_w, truncate4. apply vec3_ext; vsimp; rewrite !H by auto with linear; unfold Rdiv; rewrite Rmult_1_l; apply Rmult_comm.
Qed.

(** ** C20: Bezier surfaces *)
Lemma bern_list n u : (1 <= n)%nat -> exists b, bernstein n u = Ok b /\ length b = n /\ forall i, (i < n)%nat -> nth i b 0 = bern_poly n i u.
Proof.
  intros H. rewrite bernstein_R by assumption. eexists. split; [reflexivity|]. split; [now rewrite map_length, seq_length|].
  intros i Hi. rewrite (nth_map_default _ _ _ 0%nat) by now rewrite seq_length. rewrite seq_nth by assumption. cbn [Nat.add]. unfold Bern, bern_poly.
  now rewrite (proj2 (Nat.leb_le _ _)) by lia.
Qed.
Theorem C20_bezier_surface (g : Grid (vec3 R)) (r c : nat) (u v : R) : wf_grid g r c -> (1 <= r)%nat ->
  bezier_surface3_get_point g u v = Ok (tensor3 (fun i => bern_poly r i u) (fun j => bern_poly c j v) g r c).
Proof.
  intros Hw Hr. pose proof Hw as (Hc & HL & H1). unfold bezier_surface3_get_point. rewrite (wf_rows g r c Hw), Hc.
  destruct (bern_list r u Hr) as [bu (E1 & L1 & N1)]. destruct (bern_list c v H1) as [bv (E2 & L2 & N2)].
  rewrite E1. cbn [obind]. rewrite E2. cbn [obind]. rewrite (tensor_sum_3 g bu bv r c) by (auto; lia). f_equal. now apply tensor3_ext.
Qed.
Theorem C20_rational_bezier_surface (g : Grid (vec4 R)) (r c : nat) (u v : R) : wf_grid g r c -> (1 <= r)%nat ->
  bezier_surface4_get_point g u v = Ok (tensor4 (fun i => bern_poly r i u) (fun j => bern_poly c j v) g r c).
Proof.
  intros Hw Hr. pose proof Hw as (Hc & HL & H1). unfold bezier_surface4_get_point. rewrite (wf_rows g r c Hw), Hc.
  destruct (bern_list r u Hr) as [bu (E1 & L1 & N1)]. destruct (bern_list c v H1) as [bv (E2 & L2 & N2)].
  rewrite E1. cbn [obind]. rewrite E2. cbn [obind]. rewrite (tensor_sum_4 g bu bv r c) by (auto; lia). f_equal. now apply tensor4_ext.
Qed.
Lemma bern_poly_Bern n i u : (i < n)%nat -> bern_poly n i u = Bern (n - 1) i u.
Proof. intros H. unfold bern_poly, Bern. now rewrite (proj2 (Nat.leb_le _ _)) by lia. Qed.

(** row i and column j of the control net *)
Definition row (g : Grid (vec3 R)) (c i : nat) : list (vec3 R) := map (entry g i) (seq 0 c).
Definition column (g : Grid (vec3 R)) (r j : nat) : list (vec3 R) := map (fun i => entry g i j) (seq 0 r).
Lemma row_nth g c i j : (j < c)%nat -> nth j (row g c i) vzero = entry g i j.
Proof. intros H. unfold row. rewrite (nth_map_default _ _ _ 0%nat) by now rewrite seq_length. now rewrite seq_nth. Qed.
Lemma column_nth g r i j : (i < r)%nat -> nth i (column g r j) vzero = entry g i j.
Proof. intros H. unfold column. rewrite (nth_map_default _ _ _ 0%nat) by now rewrite seq_length. now rewrite seq_nth. Qed.
Lemma row_length g c i : length (row g c i) = c.
Proof. unfold row. now rewrite map_length, seq_length. Qed.
Lemma column_length g r j : length (column g r j) = r.
Proof. unfold column. now rewrite map_length, seq_length. Qed.

Lemma tensor3_rows wu wv g r c : tensor3 wu wv g r c = comb3 wu (map (fun i => comb3 wv (row g c i)) (seq 0 r)).
Proof.
  assert (G : forall l, linear l -> l (tensor3 wu wv g r c) = l (comb3 wu (map (fun i => comb3 wv (row g c i)) (seq 0 r)))).
  { intros l Hl. rewrite tensor3_coord, comb3_coord by assumption. rewrite map_length, seq_length. apply sumf_ext. intros i Hi.
    rewrite (nth_map_default _ _ _ 0%nat) by now rewrite seq_length. rewrite seq_nth by assumption. cbn [Nat.add].
    rewrite comb3_coord, row_length, <- sumf_scal by assumption. apply sumf_ext. intros j Hj. rewrite row_nth by assumption. ring. }
  apply vec3_ext; apply G; auto with linear.
Qed.
Lemma tensor3_columns wu wv g r c : tensor3 wu wv g r c = comb3 wv (map (fun j => comb3 wu (column g r j)) (seq 0 c)).
Proof.
  assert (G : forall l, linear l -> l (tensor3 wu wv g r c) = l (comb3 wv (map (fun j => comb3 wu (column g r j)) (seq 0 c)))).
  { intros l Hl. rewrite tensor3_coord, comb3_coord by assumption. rewrite map_length, seq_length. unfold tsum. rewrite sumf_swap. apply sumf_ext. intros j Hj.
    rewrite (nth_map_default _ _ _ 0%nat) by now rewrite seq_length. rewrite seq_nth by assumption. cbn [Nat.add].
    rewrite comb3_coord, column_length, <- sumf_scal by assumption. apply sumf_ext. intros i Hi. rewrite column_nth by assumption. ring. }
  apply vec3_ext; apply G; auto with linear.
Qed.
(** Evaluating is evaluating the Bezier curves of the rows at v and the Bezier curve of the results
    at u; or the columns first. *)
Theorem C20_isoparametric (g : Grid (vec3 R)) (r c : nat) (u v : R) : wf_grid g r c -> (1 <= r)%nat ->
  (exists qs, mapM (fun i => bezier3_get_point (row g c i) v) (seq 0 r) = Ok qs /\ bezier_surface3_get_point g u v = bezier3_get_point qs u) /\
  (exists qs, mapM (fun j => bezier3_get_point (column g r j) u) (seq 0 c) = Ok qs /\ bezier_surface3_get_point g u v = bezier3_get_point qs v).
Proof.
  intros Hw Hr. pose proof Hw as (Hc & HL & H1). rewrite (C20_bezier_surface g r c u v Hw Hr).
  rewrite (tensor3_ext _ _ (fun i => Bern (r - 1) i u) (fun j => Bern (c - 1) j v)) by (intros; now apply bern_poly_Bern). split.
  - exists (map (fun i => comb3 (fun j => Bern (c - 1) j v) (row g c i)) (seq 0 r)). split.
    + apply mapM_Ok_map. intros i _. rewrite bezier_eval_Bern by (rewrite row_length; lia). now rewrite row_length.
    + rewrite bezier_eval_Bern by (rewrite map_length, seq_length; lia). rewrite map_length, seq_length. f_equal. apply tensor3_rows.
  - exists (map (fun j => comb3 (fun i => Bern (r - 1) i u) (column g r j)) (seq 0 c)). split.
    + apply mapM_Ok_map. intros j _. rewrite bezier_eval_Bern by (rewrite column_length; lia). now rewrite column_length.
    + rewrite bezier_eval_Bern by (rewrite map_length, seq_length; lia). rewrite map_length, seq_length. f_equal. apply tensor3_columns.
Qed.
Lemma comb3_at_0 n (cps : list (vec3 R)) : length cps = n -> (1 <= n)%nat -> comb3 (fun i => Bern (n - 1) i 0) cps = nth 0 cps vzero.
Proof. intros HL Hn. apply comb3_single; [lia|]. intros i Hi. apply Bern_at_0. Qed.
Lemma comb3_at_1 n (cps : list (vec3 R)) : length cps = n -> (1 <= n)%nat -> comb3 (fun i => Bern (n - 1) i 1) cps = nth (n - 1) cps vzero.
Proof. intros HL Hn. apply comb3_single; [lia|]. intros i Hi. apply Bern_at_1. Qed.
(** the four boundary curves and the four corners *)
Theorem C20_boundary (g : Grid (vec3 R)) (r c : nat) (u v : R) : wf_grid g r c -> (1 <= r)%nat ->
  bezier_surface3_get_point g 0 v = bezier3_get_point (row g c 0) v /\
  bezier_surface3_get_point g 1 v = bezier3_get_point (row g c (r - 1)) v /\
  bezier_surface3_get_point g u 0 = bezier3_get_point (column g r 0) u /\
  bezier_surface3_get_point g u 1 = bezier3_get_point (column g r (c - 1)) u.
Proof.
  intros Hw Hr. pose proof Hw as (Hc & HL & H1).
  assert (E : forall u v, bezier_surface3_get_point g u v = Ok (tensor3 (fun i => Bern (r - 1) i u) (fun j => Bern (c - 1) j v) g r c)).
  { intros u' v'. rewrite (C20_bezier_surface g r c u' v' Hw Hr). f_equal. apply tensor3_ext; intros; now apply bern_poly_Bern. }
  rewrite !E, !bezier_eval_Bern by (rewrite ?row_length, ?column_length; lia). rewrite !row_length, !column_length.
  repeat split; f_equal.
  - rewrite tensor3_rows. rewrite comb3_at_0 by (rewrite ?map_length, ?seq_length; lia).
    rewrite (nth_map_default _ _ _ 0%nat) by (rewrite seq_length; lia). now rewrite seq_nth by lia.
  - rewrite tensor3_rows. rewrite comb3_at_1 by (rewrite ?map_length, ?seq_length; lia).
    rewrite (nth_map_default _ _ _ 0%nat) by (rewrite seq_length; lia). now rewrite seq_nth by lia.
  - rewrite tensor3_columns. rewrite comb3_at_0 by (rewrite ?map_length, ?seq_length; lia).
    rewrite (nth_map_default _ _ _ 0%nat) by (rewrite seq_length; lia). now rewrite seq_nth by lia.
  - rewrite tensor3_columns. rewrite comb3_at_1 by (rewrite ?map_length, ?seq_length; lia).
    rewrite (nth_map_default _ _ _ 0%nat) by (rewrite seq_length; lia). now rewrite seq_nth by lia.
Qed.
Theorem C20_corners (g : Grid (vec3 R)) (r c : nat) : wf_grid g r c -> (1 <= r)%nat ->
  bezier_surface3_get_point g 0 0 = Ok (entry g 0 0) /\ bezier_surface3_get_point g 0 1 = Ok (entry g 0 (c - 1)) /\
  bezier_surface3_get_point g 1 0 = Ok (entry g (r - 1) 0) /\ bezier_surface3_get_point g 1 1 = Ok (entry g (r - 1) (c - 1)).
Proof.
  intros Hw Hr. pose proof Hw as (Hc & HL & H1).
  destruct (C20_boundary g r c 0 0 Hw Hr) as (A & B & _). destruct (C20_boundary g r c 0 1 Hw Hr) as (A' & B' & _).
  rewrite A, A', B, B'. rewrite !bezier_eval_Bern by (rewrite row_length; lia). rewrite !row_length.
  rewrite !comb3_at_0, !comb3_at_1 by (rewrite ?row_length; lia). rewrite !row_nth by lia. auto.
Qed.
Theorem C20_convex_hull (g : Grid (vec3 R)) (r c : nat) (u v : R) (p : vec3 R) : wf_grid g r c -> (1 <= r)%nat ->
  0 <= u <= 1 -> 0 <= v <= 1 -> bezier_surface3_get_point g u v = Ok p ->
  forall (normal : vec3 R) (bound : R), (forall q, In q (g_data g) -> dot3 normal q <= bound) -> dot3 normal p <= bound.
Proof.
  intros Hw Hr Hu Hv E normal bound Hb. pose proof Hw as (Hc & HL & H1).
  destruct (C20_isoparametric g r c u v Hw Hr) as [[qs [E1 E2]] _]. rewrite E2 in E.
  apply (C03_bezier_convex_hull qs u p Hu E). intros q Hq. pose proof (mapM_length _ _ _ E1) as Hlen. rewrite seq_length in Hlen. apply mapM_inv in E1.
  apply (In_nth _ _ vzero) in Hq. destruct Hq as [i [Hi Eq]].
  assert (Er : bezier3_get_point (row g c i) v = Ok q).
  { clear - E1 Eq Hi Hlen. assert (K : forall xs ys k, Forall2 (fun i q => bezier3_get_point (row g c i) v = Ok q) xs ys -> (k < length ys)%nat ->
      bezier3_get_point (row g c (nth k xs 0%nat)) v = Ok (nth k ys vzero)).
    { intros xs ys k H. revert k. induction H; intros k Hk; cbn in *; [lia|]. destruct k; [assumption|]. apply IHForall2. lia. }
    specialize (K _ _ i E1 Hi). rewrite seq_nth in K by lia. now rewrite Eq in K. }
  apply (C03_bezier_convex_hull (row g c i) v q Hv Er). intros q' Hq'. apply in_map_iff in Hq'. destruct Hq' as [j [<- Hj]].
  apply in_seq in Hj. apply Hb. unfold entry. apply nth_In. rewrite HL, Hc. nia.
Qed.
Theorem C20_new {P} (g : Grid P) : (exists g', bezier_surface_new g = Ok g') <-> (2 <= g_rows g)%nat /\ (2 <= g_cols g)%nat.
Proof.
  unfold bezier_surface_new, assert. destruct (Nat.ltb_spec 1 (g_rows g)), (Nat.ltb_spec 1 (g_cols g)); cbn [andb obind];
    (split; [intros [g' E]|intros [? ?]]); try discriminate; try lia; eauto.
Qed.
Definition g_ex : Grid (vec3 R) := mkGrid 2 [V3 0 0 0; V3 0 1 0; V3 1 0 0; V3 1 1 2; V3 2 0 0; V3 2 1 0].
Example C20_nonvacuous : wf_grid g_ex 3 2 /\ entry g_ex 1 1 = V3 1 1 2 /\ bezier_surface3_get_point g_ex (1/2) 1 = Ok (V3 1 1 1).
Proof.
  assert (W : wf_grid g_ex 3 2) by (repeat split; cbn; lia). split; [exact W|]. split; [reflexivity|].
  rewrite (C20_bezier_surface g_ex 3 2) by (auto; lia). unfold tensor3, tsum, bern_poly, C, sumf, entry. cbn. f_equal. f_equal; field.
Qed.

(** ** C18: B-spline surfaces *)
Record valid_surface {P} (s : BSplineSurface R P) (r c : nat) : Prop := {
  vs_grid : wf_grid (bss_cps s) r c;
  vs_rows : (1 <= r)%nat;
  vs_su : sorted (fst (bss_knots s)); vs_pu : separated (fst (bss_knots s));
  vs_sv : sorted (snd (bss_knots s)); vs_pv : separated (snd (bss_knots s));
  vs_lu : length (fst (bss_knots s)) = (r + fst (bss_degree s) + 1)%nat;
  vs_lv : length (snd (bss_knots s)) = (c + snd (bss_degree s) + 1)%nat;
}.
Definition first_of (ks : list R) : R := nth 0 ks 0.
Definition last_of (ks : list R) : R := nth (length ks - 1) ks 0.

Lemma basis_total ks p n u : sorted ks -> separated ks -> length ks = (n + p + 1)%nat -> (1 <= n)%nat -> first_of ks < last_of ks -> first_of ks <= u ->
  exists s b, is_span ks u s /\ bspline_basis ks p u = Ok b /\ length b = n /\ forall i, (i < n)%nat -> nth i b 0 = cdb (fun i => nth i ks 0) s p i u.
Proof.
  intros Hs Hp HL Hn Hlt Hu. destruct (C06_basis_is_cox_de_boor ks p u) as [s [Hsp E]]; auto; try lia.
  exists s. eexists. split; [exact Hsp|]. split; [exact E|]. split.
  - rewrite map_length, seq_length. lia.
  - intros i Hi. rewrite (nth_map_default _ _ _ 0%nat) by (rewrite seq_length; lia). now rewrite seq_nth by lia.
Qed.
Theorem C18_get_point (s : BSplineSurface R (vec3 R)) (r c : nat) (u v : R) :
  let ku := fst (bss_knots s) in let kv := snd (bss_knots s) in
  valid_surface s r c -> first_of ku < last_of ku -> first_of kv < last_of kv -> first_of ku <= u -> first_of kv <= v ->
  exists su sv, is_span ku u su /\ is_span kv v sv /\
    bss3_get_point s u v = Ok (tensor3 (fun i => cdb (fun k => nth k ku 0) su (fst (bss_degree s)) i u)
                                       (fun j => cdb (fun k => nth k kv 0) sv (snd (bss_degree s)) j v) (bss_cps s) r c).
Proof.
  intros ku kv [Hw Hr S1 P1 S2 P2 L1 L2] Hlu Hlv Hu Hv. pose proof Hw as (Hc & HL & H1).
  destruct (basis_total ku (fst (bss_degree s)) r u S1 P1 L1 Hr Hlu Hu) as [su [bu (Su & Eu & Lu & Nu)]].
  destruct (basis_total kv (snd (bss_degree s)) c v S2 P2 L2 H1 Hlv Hv) as [sv [bv (Sv & Ev & Lv & Nv)]].
  exists su, sv. split; [exact Su|]. split; [exact Sv|]. unfold bss3_get_point. fold ku kv. rewrite Eu. cbn [obind]. rewrite Ev. cbn [obind].
  rewrite (tensor_sum_3 _ bu bv r c) by (auto; lia). f_equal. now apply tensor3_ext.
Qed.
Theorem C18_get_point_rational (s : BSplineSurface R (vec4 R)) (r c : nat) (u v : R) :
  let ku := fst (bss_knots s) in let kv := snd (bss_knots s) in
  valid_surface s r c -> first_of ku < last_of ku -> first_of kv < last_of kv -> first_of ku <= u -> first_of kv <= v ->
  exists su sv, is_span ku u su /\ is_span kv v sv /\
    bss4_get_point s u v = Ok (tensor4 (fun i => cdb (fun k => nth k ku 0) su (fst (bss_degree s)) i u)
                                       (fun j => cdb (fun k => nth k kv 0) sv (snd (bss_degree s)) j v) (bss_cps s) r c).
Proof.
  intros ku kv [Hw Hr S1 P1 S2 P2 L1 L2] Hlu Hlv Hu Hv. pose proof Hw as (Hc & HL & H1).
  destruct (basis_total ku (fst (bss_degree s)) r u S1 P1 L1 Hr Hlu Hu) as [su [bu (Su & Eu & Lu & Nu)]].
  destruct (basis_total kv (snd (bss_degree s)) c v S2 P2 L2 H1 Hlv Hv) as [sv [bv (Sv & Ev & Lv & Nv)]].
  exists su, sv. split; [exact Su|]. split; [exact Sv|]. unfold bss4_get_point. fold ku kv. rewrite Eu. cbn [obind]. rewrite Ev. cbn [obind].
  rewrite (tensor_sum_4 _ bu bv r c) by (auto; lia). f_equal. now apply tensor4_ext.
Qed.
(** [new] accepts exactly matching sizes; the result evaluates for degrees below 256. *)
Theorem C18_new {P} (g : Grid P) (ku kv : list R) (p q r c : nat) : wf_grid g r c -> (p < 256)%nat -> (q < 256)%nat ->
  ((exists s, bss_new g (ku, kv) (p, q) = Ok s) <-> length ku = (r + p + 1)%nat /\ length kv = (c + q + 1)%nat) /\
  forall s, bss_new g (ku, kv) (p, q) = Ok s ->
    bss_cps s = g /\ bss_knots s = (ku, kv) /\ bss_degree s = (p, q) /\
    ((1 <= r)%nat -> sorted ku -> separated ku -> sorted kv -> separated kv -> valid_surface s r c).
Proof.
  intros Hw Hp Hq. unfold bss_new, assert. cbn [fst snd]. rewrite (wf_rows g r c Hw). pose proof Hw as (Hc & _). rewrite Hc.
  destruct (Nat.eqb_spec (r + p + 1) (length ku)), (Nat.eqb_spec (c + q + 1) (length kv)); cbn [obind]; split;
    try (split; [intros [s E]; discriminate|lia]); try (intros s E; discriminate); try (split; [lia|eauto]).
  intros s E. apply Ok_inj in E. subst s. cbn [bss_cps bss_knots bss_degree]. unfold as_u8. rewrite !Nat.mod_small by assumption.
  split; [reflexivity|]. split; [reflexivity|]. split; [reflexivity|]. intros. constructor; cbn [bss_cps bss_knots bss_degree fst snd]; auto; lia.
Qed.
(** The stored degree is the requested one only below 256. *)
Theorem C18_degree_truncated {P} (g : Grid P) (knots : list R * list R) (p q : nat) (s : BSplineSurface R P) :
  bss_new g knots (p, q) = Ok s -> bss_degree s = (p mod 256, q mod 256)%nat /\
    (bss_degree s = (p, q) <-> (p < 256)%nat /\ (q < 256)%nat).
Proof.
  unfold bss_new, assert. intros E. destruct (_ =? _)%nat; [|discriminate]. destruct (_ =? _)%nat; [|discriminate].
  cbn [obind] in E. apply Ok_inj in E. subst s. cbn [bss_degree]. unfold as_u8. split; [reflexivity|]. split.
  - intros E. pose proof (f_equal fst E) as E1. pose proof (f_equal snd E) as E2. cbn [fst snd] in E1, E2. rewrite <- E1, <- E2.
    split; apply Nat.mod_upper_bound; discriminate.
  - intros [H1 H2]. now rewrite !Nat.mod_small.
Qed.
Example C18_degree_truncated_nonvacuous :
  exists s, bss_new (mkGrid 1 [V3 0 0 0 : vec3 R]) (repeat 0 258, repeat 0 2) (256, 0)%nat = Ok s /\ bss_degree s = (0, 0)%nat.
Proof. eexists. split; [reflexivity|reflexivity]. Qed.

(** [uniform_clamped] *)
Lemma uniform_knot_values p d (a : R) : (1 <= d)%nat -> In a (uniform_knot p d) -> exists i, (i <= d)%nat /\ a = INR i / INR d.
Proof.
  intros Hd Ha. destruct (C15_uniform_knot p d Hd) as (HL & _ & K0 & K1 & K2 & _).
  assert (Hdp : INR d <> 0) by (apply not_0_INR; lia).
  apply (In_nth _ _ 0) in Ha. destruct Ha as [i [Hi <-]]. rewrite HL in Hi.
  destruct (Nat.le_gt_cases i p) as [H|H]; [exists 0%nat; rewrite K0 by assumption; split; [lia|]; cbn; field; assumption|].
  destruct (Nat.lt_ge_cases i (p + d)) as [H'|H'].
  - exists (i - p)%nat. split; [lia|]. apply K1. lia.
  - exists d. split; [lia|]. rewrite K2 by lia. field. assumption.
Qed.
Lemma uniform_knot_separated p d : (1 <= d)%nat -> INR d < 1125899906842624 -> separated (uniform_knot p d).
Proof.
  intros Hd Hb a b Ha Hb' NE. apply uniform_knot_values in Ha, Hb'; try assumption.
  destruct Ha as [i [Hi ->]]. destruct Hb' as [j [Hj ->]].
  assert (Hdp : 0 < INR d) by (apply lt_0_INR; lia).
  assert (Hr : forall k, (k <= d)%nat -> Rabs (INR k / INR d) <= 1).
  { intros k Hk. rewrite Rabs_right.
    - apply Rmult_le_reg_r with (INR d); [assumption|]. unfold Rdiv. rewrite Rmult_assoc, Rinv_l by lra. apply le_INR in Hk. lra.
    - apply Rle_ge. apply Rmult_le_pos; [apply pos_INR|]. apply Rlt_le, Rinv_0_lt_compat. assumption. }
  assert (HM : Rmax 1 (Rmax (Rabs (INR i / INR d)) (Rabs (INR j / INR d))) = 1).
  { apply Rmax_left. apply Rmax_lub; auto. }
  rewrite HM. replace (INR i / INR d - INR j / INR d) with ((INR i - INR j) * / INR d) by (field; lra).
  rewrite Rabs_mult, (Rabs_right (/ INR d)) by (apply Rle_ge, Rlt_le, Rinv_0_lt_compat; assumption).
  assert (H1 : 1 <= Rabs (INR i - INR j)).
  { destruct (Nat.lt_trichotomy i j) as [H|[H|H]].
    - rewrite Rabs_left1; apply (le_INR (S i) j) in H; rewrite S_INR in H; lra.
    - subst. contradiction.
    - rewrite Rabs_right; apply (le_INR (S j) i) in H; rewrite S_INR in H; lra. }
  assert (H2 : / 1125899906842624 < / INR d) by (apply Rinv_lt_contravar; [nra|assumption]). nra.
Qed.
Theorem C15_uniform_clamped_surface {P} (g : Grid P) (r c p q : nat) : wf_grid g r c -> (p < 256)%nat -> (q < 256)%nat ->
  INR r < 1125899906842624 -> INR c < 1125899906842624 ->
  ((exists s, bss_uniform_clamped g (p, q) = Ok s) <-> (p < r)%nat /\ (q < c)%nat) /\
  forall s, bss_uniform_clamped g (p, q) = Ok s ->
    valid_surface s r c /\ bss_degree s = (p, q) /\
    bss_knots s = (uniform_knot p (r - p), uniform_knot q (c - q)) /\
    first_of (fst (bss_knots s)) = 0 /\ last_of (fst (bss_knots s)) = 1 /\
    first_of (snd (bss_knots s)) = 0 /\ last_of (snd (bss_knots s)) = 1.
Proof.
  intros Hw Hp Hq Br Bc. unfold bss_uniform_clamped, assert. rewrite (wf_rows g r c Hw). pose proof Hw as (Hc & _). rewrite Hc.
  destruct (Nat.ltb_spec p r), (Nat.ltb_spec q c); cbn [andb obind]; split;
    try (split; [intros [s E]; discriminate|lia]); try (intros s E; discriminate); try (split; [lia|eauto]).
  intros s E. apply Ok_inj in E. subst s. cbn [bss_cps bss_knots bss_degree fst snd]. unfold as_u8. rewrite !Nat.mod_small by assumption.
  destruct (C15_uniform_knot p (r - p)) as (L1 & S1 & A1 & _ & B1 & _); [lia|].
  destruct (C15_uniform_knot q (c - q)) as (L2 & S2 & A2 & _ & B2 & _); [lia|].
  unfold first_of, last_of. rewrite L1, L2.
  repeat split; cbn [bss_cps bss_knots bss_degree fst snd]; auto; try lia; try apply Hw.
  - apply uniform_knot_separated; [lia|]. apply Rle_lt_trans with (INR r); [apply le_INR; lia|assumption].
  - apply uniform_knot_separated; [lia|]. apply Rle_lt_trans with (INR c); [apply le_INR; lia|assumption].
  - apply A1. lia.
  - apply B1. lia.
  - apply A2. lia.
  - apply B2. lia.
Qed.
Definition s_ex : BSplineSurface R (vec3 R) := mkBSS g_ex ([0; 0; 0; 1; 1; 1], [0; 0; 1; 1]) (2, 1)%nat.
Example C15_uniform_clamped_nonvacuous : exists s, bss_uniform_clamped g_ex (2, 1)%nat = Ok s.
Proof.
  apply (C15_uniform_clamped_surface g_ex 3 2 2 1); [repeat split; cbn; lia|lia|lia| | |lia]; cbn; lra.
Qed.
Lemma s_ex_valid : valid_surface s_ex 3 2.
Proof.
  constructor; cbn [bss_cps bss_knots bss_degree fst snd s_ex]; try (cbn; lia).
  - repeat split; cbn; lia.
  - apply sorted_by_pairs. intros i Hi. do 5 (destruct i as [|i]; [cbn; lra|]). cbn in Hi. lia.
  - apply separated_ints. intros a Ha. cbn in Ha. repeat (destruct Ha as [<-|Ha]; [eexists; split; [reflexivity|lia]|]). destruct Ha.
  - apply sorted_by_pairs. intros i Hi. do 3 (destruct i as [|i]; [cbn; lra|]). cbn in Hi. lia.
  - apply separated_ints. intros a Ha. cbn in Ha. repeat (destruct Ha as [<-|Ha]; [eexists; split; [reflexivity|lia]|]). destruct Ha.
Qed.
Example C18_nonvacuous : valid_surface s_ex 3 2 /\ first_of (fst (bss_knots s_ex)) = 0 /\ last_of (fst (bss_knots s_ex)) = 1 /\
  exists p, bss3_get_point s_ex (1/2) (1/3) = Ok p.
Proof.
  split; [apply s_ex_valid|]. split; [reflexivity|]. split; [reflexivity|].
  destruct (C18_get_point s_ex 3 2 (1/2) (1/3)) as [su [sv (_ & _ & E)]]; [apply s_ex_valid|unfold first_of, last_of; cbn; lra..|]. eauto.
Qed.

(** ** C19: partial derivatives *)
(** For fixed v the surface is the B-spline curve whose control points are the row combinations. *)
Definition u_curve (s : BSplineSurface R (vec3 R)) (r c : nat) (bv : list R) : BSpline R (vec3 R) :=
  mkBSpline (map (fun i => comb3 (fun j => nth j bv 0) (row (bss_cps s) c i)) (seq 0 r)) (fst (bss_knots s)) (fst (bss_degree s)).
Definition v_curve (s : BSplineSurface R (vec3 R)) (r c : nat) (bu : list R) : BSpline R (vec3 R) :=
  mkBSpline (map (fun j => comb3 (fun i => nth i bu 0) (column (bss_cps s) r j)) (seq 0 c)) (snd (bss_knots s)) (snd (bss_degree s)).
Lemma surface_u_curve s r c u v bu bv : wf_grid (bss_cps s) r c ->
  bspline_basis (snd (bss_knots s)) (snd (bss_degree s)) v = Ok bv -> length bv = c ->
  bspline_basis (fst (bss_knots s)) (fst (bss_degree s)) u = Ok bu -> length bu = r ->
  bss3_get_point s u v = bspline3_get_point (u_curve s r c bv) u.
Proof.
  intros Hw Ev Lv Eu Lu. unfold bss3_get_point, bspline3_get_point, u_curve. cbn [bs_knots bs_cps bs_degree].
  rewrite Eu. cbn [obind]. rewrite Ev. cbn [obind]. rewrite (tensor_sum_3 _ bu bv r c) by (auto; lia). f_equal.
  rewrite weighted_sum_comb3 by (now rewrite map_length, seq_length). apply tensor3_rows.
Qed.
Lemma surface_v_curve s r c u v bu bv : wf_grid (bss_cps s) r c ->
  bspline_basis (snd (bss_knots s)) (snd (bss_degree s)) v = Ok bv -> length bv = c ->
  bspline_basis (fst (bss_knots s)) (fst (bss_degree s)) u = Ok bu -> length bu = r ->
  bss3_get_point s u v = bspline3_get_point (v_curve s r c bu) v.
Proof.
  intros Hw Ev Lv Eu Lu. unfold bss3_get_point, bspline3_get_point, v_curve. cbn [bs_knots bs_cps bs_degree].
  rewrite Eu. cbn [obind]. rewrite Ev. cbn [obind]. rewrite (tensor_sum_3 _ bu bv r c) by (auto; lia). f_equal.
  rewrite weighted_sum_comb3 by (now rewrite map_length, seq_length). apply tensor3_columns.
Qed.
Lemma u_curve_valid s r c bv : valid_surface s r c -> valid_bspline (u_curve s r c bv).
Proof. intros []. constructor; cbn [u_curve bs_knots bs_cps bs_degree]; auto; rewrite map_length, seq_length; auto. Qed.
Lemma v_curve_valid s r c bu : valid_surface s r c -> valid_bspline (v_curve s r c bu).
Proof. intros [W]. destruct W as (? & ? & ?). constructor; cbn [v_curve bs_knots bs_cps bs_degree]; auto; rewrite map_length, seq_length; auto. Qed.

Lemma comb3_diff w (la lb : list (vec3 R)) n k1 k2 : length la = n -> length lb = n ->
  vmulr (vmulr (vsub (comb3 w la) (comb3 w lb)) k1) k2 =
  comb3 w (map (fun j => vmulr (vmulr (vsub (nth j la vzero) (nth j lb vzero)) k1) k2) (seq 0 n)).
Proof.
  intros La Lb.
  assert (G : forall l, linear l -> l (vmulr (vmulr (vsub (comb3 w la) (comb3 w lb)) k1) k2) =
     l (comb3 w (map (fun j => vmulr (vmulr (vsub (nth j la vzero) (nth j lb vzero)) k1) k2) (seq 0 n)))).
  { intros l Hl. rewrite !(lin_mulr Hl), (lin_sub Hl), !comb3_coord by assumption. rewrite map_length, seq_length, La, Lb.
    rewrite <- sumf_minus, <- !sumf_scal_r. apply sumf_ext. intros j Hj.
    rewrite (nth_map_default _ _ _ 0%nat) by now rewrite seq_length. rewrite seq_nth by assumption. cbn [Nat.add].
    rewrite !(lin_mulr Hl), (lin_sub Hl). ring. }
  apply vec3_ext; apply G; auto with linear.
Qed.

(** derivative_u: the control net and the relation to the curve derivative *)
Lemma derivative_u_curve s r c bv : valid_surface s r c -> (1 <= fst (bss_degree s))%nat -> (2 <= r)%nat -> length bv = c ->
  exists d, bss_derivative_u s = Ok d /\ valid_surface d (r - 1) c /\ snd (bss_knots d) = snd (bss_knots s) /\
    bss_degree d = (fst (bss_degree s) - 1, snd (bss_degree s))%nat /\
    bspline_derivative (u_curve s r c bv) = Ok (u_curve d (r - 1) c bv).
Proof.
  intros Hv Hp Hr HLv. pose proof Hv as [Hw _ S1 P1 S2 P2 L1 L2]. pose proof Hw as (Hc & HLg & H1).
  destruct s as [g [ku kv] [p q]]. cbn [bss_cps bss_knots bss_degree fst snd] in *.
  destruct (shrink_nth ku ltac:(lia)) as [ku' (Ek & HLk & Hk)].
  destruct (C17_spans ku' p 0) as [sp (Esp & HLsp & Hsp)].
  unfold bss_derivative_u. cbn [bss_cps bss_knots bss_degree]. rewrite (proj2 (Nat.eqb_neq p 0)) by lia.
  rewrite Ek. cbn [obind]. rewrite Esp. cbn [obind]. rewrite (wf_rows g r c Hw), Hc. rewrite usub_Ok by lia. cbn [obind].
  destruct (mapM_cells (fun i j => a <- grid_idx g (i + 1) j ;; b <- grid_idx g i j ;; span <- idx sp i ;;
       Ok (vmulr (vmulr (vsub a b) (fofnat p)) (inv_or_zero span)))
     (fun i j => vmulr (vmulr (vsub (entry g (i + 1) j) (entry g i j)) (INR p)) (inv_or_zero (nth i sp 0))) (r - 1) c) as [data (E1 & E2 & W & En)]; [lia|lia| |].
  { intros i j Hi Hj. rewrite !(grid_idx_entry g r c) by (auto; lia). cbn [obind]. rewrite (idx_nth sp i 0) by lia. reflexivity. }
  rewrite E1. cbn [obind]. rewrite E2. cbn [obind].
  eexists. split; [reflexivity|]. cbn [bss_cps bss_knots bss_degree fst snd].
  split.
  { constructor; cbn [bss_cps bss_knots bss_degree fst snd]; auto; try lia.
    - intros i j Hij. rewrite !Hk by lia. apply S1. lia.
    - apply (separated_incl ku); [assumption|]. intros a Ha. apply (In_nth _ _ 0) in Ha. destruct Ha as [i [Hi <-]].
      rewrite Hk by lia. apply nth_In. lia. }
  split; [reflexivity|]. split; [reflexivity|].
  unfold bspline_derivative, u_curve. cbn [bs_cps bs_knots bs_degree bss_cps bss_knots bss_degree fst snd].
  rewrite Ek. cbn [obind]. rewrite Esp. cbn [obind]. rewrite usub_Ok by lia. cbn [obind]. f_equal. f_equal.
  set (w := fun j => nth j bv 0).
  apply (nth_ext_len _ _ vzero).
  - rewrite !map_length, combine_length, pairs_length, map_length, !seq_length. lia.
  - intros i Hi. rewrite map_length, combine_length, pairs_length, map_length, seq_length in Hi.
    rewrite (nth_map_default _ _ _ ((vzero, vzero), 0)) by (rewrite combine_length, pairs_length, map_length, seq_length; lia).
    assert (E : nth i (combine (pairs (map (fun i => comb3 w (row g c i)) (seq 0 r))) sp) ((vzero, vzero), 0)
              = (nth i (pairs (map (fun i => comb3 w (row g c i)) (seq 0 r))) (vzero, vzero), nth i sp 0)).
    { clear - Hi. assert (K : forall A B (l : list A) (m : list B) k da db, (k < length l)%nat -> (k < length m)%nat -> nth k (combine l m) (da, db) = (nth k l da, nth k m db)).
      { induction l; intros [|] [|k] da db H1 H2; cbn in *; try lia; auto. apply IHl; lia. }
      apply K; [rewrite pairs_length, map_length, seq_length|]; lia. }
    rewrite E, pairs_nth by (rewrite map_length, seq_length; lia). cbn iota beta.
    rewrite !(nth_map_default _ _ _ 0%nat) by (rewrite seq_length; lia). rewrite !seq_nth by lia. cbn [Nat.add].
    rewrite (comb3_diff w (row g c (i + 1)) (row g c i) c) by apply row_length.
    f_equal. unfold row at 3. apply map_ext_in. intros j Hj. apply in_seq in Hj. rewrite !row_nth by lia.
    rewrite En by lia. reflexivity.
Qed.
(** derivative_v: the control net and the relation to the curve derivative *)
Lemma derivative_v_curve s r c bu : valid_surface s r c -> (1 <= snd (bss_degree s))%nat -> (2 <= c)%nat -> length bu = r ->
  exists d, bss_derivative_v s = Ok d /\ valid_surface d r (c - 1) /\ fst (bss_knots d) = fst (bss_knots s) /\
    bss_degree d = (fst (bss_degree s), snd (bss_degree s) - 1)%nat /\
    bspline_derivative (v_curve s r c bu) = Ok (v_curve d r (c - 1) bu).
Proof.
  intros Hv Hp Hr HLu. pose proof Hv as [Hw Hr1 S1 P1 S2 P2 L1 L2]. pose proof Hw as (Hc & HLg & H1).
  destruct s as [g [ku kv] [p q]]. cbn [bss_cps bss_knots bss_degree fst snd] in *.
  destruct (shrink_nth kv ltac:(lia)) as [kv' (Ek & HLk & Hk)].
  destruct (C17_spans kv' q 0) as [sp (Esp & HLsp & Hsp)].
  unfold bss_derivative_v. cbn [bss_cps bss_knots bss_degree]. rewrite (proj2 (Nat.eqb_neq q 0)) by lia.
  rewrite Ek. cbn [obind]. rewrite Esp. cbn [obind]. rewrite (wf_rows g r c Hw), Hc. rewrite usub_Ok by lia. cbn [obind].
  destruct (mapM_cells (fun i j => a <- grid_idx g i (j + 1) ;; b <- grid_idx g i j ;; span <- idx sp j ;;
       Ok (vmulr (vmulr (vsub a b) (fofnat q)) (inv_or_zero span)))
     (fun i j => vmulr (vmulr (vsub (entry g i (j + 1)) (entry g i j)) (INR q)) (inv_or_zero (nth j sp 0))) r (c - 1)) as [data (E1 & E2 & W & En)]; [lia|lia| |].
  { intros i j Hi Hj. rewrite !(grid_idx_entry g r c) by (auto; lia). cbn [obind]. rewrite (idx_nth sp j 0) by lia. reflexivity. }
  rewrite E1. cbn [obind]. rewrite E2. cbn [obind].
  eexists. split; [reflexivity|]. cbn [bss_cps bss_knots bss_degree fst snd].
  split.
  { constructor; cbn [bss_cps bss_knots bss_degree fst snd]; auto; try lia.
    - intros i j Hij. rewrite !Hk by lia. apply S2. lia.
    - apply (separated_incl kv); [assumption|]. intros a Ha. apply (In_nth _ _ 0) in Ha. destruct Ha as [i [Hi <-]].
      rewrite Hk by lia. apply nth_In. lia. }
  split; [reflexivity|]. split; [reflexivity|].
  unfold bspline_derivative, v_curve. cbn [bs_cps bs_knots bs_degree bss_cps bss_knots bss_degree fst snd].
  rewrite Ek. cbn [obind]. rewrite Esp. cbn [obind]. rewrite usub_Ok by lia. cbn [obind]. f_equal. f_equal.
  set (w := fun j => nth j bu 0).
  apply (nth_ext_len _ _ vzero).
  - rewrite !map_length, combine_length, pairs_length, map_length, !seq_length. lia.
  - intros i Hi. rewrite map_length, combine_length, pairs_length, map_length, seq_length in Hi.
    rewrite (nth_map_default _ _ _ ((vzero, vzero), 0)) by (rewrite combine_length, pairs_length, map_length, seq_length; lia).
    assert (E : nth i (combine (pairs (map (fun j => comb3 w (column g r j)) (seq 0 c))) sp) ((vzero, vzero), 0)
              = (nth i (pairs (map (fun j => comb3 w (column g r j)) (seq 0 c))) (vzero, vzero), nth i sp 0)).
    { clear - Hi. assert (K : forall A B (l : list A) (m : list B) k da db, (k < length l)%nat -> (k < length m)%nat -> nth k (combine l m) (da, db) = (nth k l da, nth k m db)).
      { induction l; intros [|] [|k] da db H1 H2; cbn in *; try lia; auto. apply IHl; lia. }
      apply K; [rewrite pairs_length, map_length, seq_length|]; lia. }
    rewrite E, pairs_nth by (rewrite map_length, seq_length; lia). cbn iota beta.
    rewrite !(nth_map_default _ _ _ 0%nat) by (rewrite seq_length; lia). rewrite !seq_nth by lia. cbn [Nat.add].
    rewrite (comb3_diff w (column g r (i + 1)) (column g r i) r) by apply column_length.
    f_equal. unfold column at 3. apply map_ext_in. intros j Hj. apply in_seq in Hj. rewrite !column_nth by lia.
    rewrite En by lia. reflexivity.
Qed.

Definition partial_u (s : BSplineSurface R (vec3 R)) (coord : vec3 R -> R) (v u l : R) : Prop :=
  derivable_pt_lim (curve_coord (fun x => bss3_get_point s x v) coord) u l.
Definition partial_v (s : BSplineSurface R (vec3 R)) (coord : vec3 R -> R) (u v l : R) : Prop :=
  derivable_pt_lim (curve_coord (fun y => bss3_get_point s u y) coord) v l.

(** derivative_u evaluates to the partial derivative in u, at every u inside a knot span of the
    domain and every v of the v range. *)
Theorem C19_derivative_u (s : BSplineSurface R (vec3 R)) (r c : nat) :
  let ku := fst (bss_knots s) in let kv := snd (bss_knots s) in let p := fst (bss_degree s) in
  valid_surface s r c -> (1 <= p)%nat -> (2 <= r)%nat ->
  exists d, bss_derivative_u s = Ok d /\ valid_surface d (r - 1) c /\ bss_degree d = (p - 1, snd (bss_degree s))%nat /\
  forall k u v, (p <= k < r)%nat -> nth k ku 0 < u < nth (k + 1) ku 0 -> first_of kv < last_of kv -> first_of kv <= v ->
    exists a, bss3_get_point d u v = Ok a /\ partial_u s x3 v u (x3 a) /\ partial_u s y3 v u (y3 a) /\ partial_u s z3 v u (z3 a).
Proof.
  intros ku kv p Hv Hp Hr. pose proof Hv as [Hw _ S1 P1 S2 P2 L1 L2]. pose proof Hw as (Hc & HLg & H1).
  destruct (derivative_u_curve s r c (repeat 0 c) Hv Hp Hr (repeat_length _ _)) as [d (Ed & Vd & Kd & Dd & _)].
  exists d. split; [exact Ed|]. split; [exact Vd|]. split; [exact Dd|].
  intros k u v Hk Hu Hlv Hvv.
  destruct (basis_total kv (snd (bss_degree s)) c v S2 P2 L2 H1 Hlv Hvv) as [sv [bv (Sv & Ev & Lv & Nv)]].
  destruct (derivative_u_curve s r c bv Hv Hp Hr Lv) as [d' (Ed' & _ & _ & _ & Ec)]. rewrite Ed in Ed'. apply Ok_inj in Ed'. subst d'.
  pose proof (u_curve_valid s r c bv Hv) as Vc.
  destruct (C10_bspline_derivative (u_curve s r c bv) Vc Hp) as [dc (Edc & _ & _ & _ & Hkn & HD)].
  rewrite Ec in Edc. apply Ok_inj in Edc. subst dc. cbn [u_curve bs_knots] in Hkn. fold ku in Hkn, L1.
  destruct (HD k u) as [a (Ea & Dx & Dy & Dz)].
  { cbn [u_curve bs_degree bs_cps]. now rewrite map_length, seq_length. } { exact Hu. }
  assert (Hfirst : first_of ku <= nth k ku 0) by (apply S1; fold ku; lia).
  assert (Hlast : nth (k + 1) ku 0 <= last_of ku) by (apply S1; fold ku; lia).
  assert (Eq : forall x, nth k ku 0 < x < nth (k + 1) ku 0 -> bss3_get_point s x v = bspline3_get_point (u_curve s r c bv) x).
  { intros x Hx. destruct (basis_total ku p r x S1 P1 L1 ltac:(lia) ltac:(lra) ltac:(lra)) as [su [bu (_ & Eu & Lu & _)]].
    now apply (surface_u_curve s r c x v bu bv). }
  exists a. split.
  - rewrite <- Ea. pose proof Vd as [Wd Rd SD1 PD1 SD2 PD2 LD1 LD2].
    destruct (basis_total (fst (bss_knots d)) (fst (bss_degree d)) (r - 1) u SD1 PD1 LD1 Rd) as [su [bu (_ & Eu & Lu & _)]].
    + unfold first_of, last_of. rewrite LD1, Dd. cbn [fst]. fold p. rewrite !Hkn by lia. fold ku.
      assert (nth (0 + 1) ku 0 <= nth k ku 0) by (apply S1; fold ku; lia).
      assert (nth (k + 1) ku 0 <= nth (r - 1 + (p - 1) + 1 - 1 + 1) ku 0) by (apply S1; fold ku; lia). lra.
    + unfold first_of. rewrite Hkn by lia. assert (nth (0 + 1) ku 0 <= nth k ku 0) by (apply S1; fold ku; lia). lra.
    + apply (surface_u_curve d (r - 1) c u v bu bv); auto. now rewrite Kd, Dd.
  - unfold partial_u. repeat split; (match goal with |- derivable_pt_lim (curve_coord _ ?cc) _ _ =>
      apply (derivable_pt_lim_locally_ext (curve_coord (bspline3_get_point (u_curve s r c bv)) cc) _ u (nth k ku 0) (nth (k + 1) ku 0)) end;
      [exact Hu|intros x Hx; unfold curve_coord; now rewrite Eq|assumption]).
Qed.
Theorem C19_derivative_v (s : BSplineSurface R (vec3 R)) (r c : nat) :
  let ku := fst (bss_knots s) in let kv := snd (bss_knots s) in let q := snd (bss_degree s) in
  valid_surface s r c -> (1 <= q)%nat -> (2 <= c)%nat ->
  exists d, bss_derivative_v s = Ok d /\ valid_surface d r (c - 1) /\ bss_degree d = (fst (bss_degree s), q - 1)%nat /\
  forall k u v, (q <= k < c)%nat -> nth k kv 0 < v < nth (k + 1) kv 0 -> first_of ku < last_of ku -> first_of ku <= u ->
    exists a, bss3_get_point d u v = Ok a /\ partial_v s x3 u v (x3 a) /\ partial_v s y3 u v (y3 a) /\ partial_v s z3 u v (z3 a).
Proof.
  intros ku kv q Hv Hq Hc2. pose proof Hv as [Hw Hr S1 P1 S2 P2 L1 L2]. pose proof Hw as (Hc & HLg & H1).
  destruct (derivative_v_curve s r c (repeat 0 r) Hv Hq Hc2 (repeat_length _ _)) as [d (Ed & Vd & Kd & Dd & _)].
  exists d. split; [exact Ed|]. split; [exact Vd|]. split; [exact Dd|].
  intros k u v Hk Hvv Hlu Hu.
  destruct (basis_total ku (fst (bss_degree s)) r u S1 P1 L1 Hr Hlu Hu) as [su [bu (Su & Eu & Lu & Nu)]].
  destruct (derivative_v_curve s r c bu Hv Hq Hc2 Lu) as [d' (Ed' & _ & _ & _ & Ec)]. rewrite Ed in Ed'. apply Ok_inj in Ed'. subst d'.
  pose proof (v_curve_valid s r c bu Hv) as Vc.
  destruct (C10_bspline_derivative (v_curve s r c bu) Vc Hq) as [dc (Edc & _ & _ & _ & Hkn & HD)].
  rewrite Ec in Edc. apply Ok_inj in Edc. subst dc. cbn [v_curve bs_knots] in Hkn. fold kv in Hkn, L2.
  destruct (HD k v) as [a (Ea & Dx & Dy & Dz)].
  { cbn [v_curve bs_degree bs_cps]. now rewrite map_length, seq_length. } { exact Hvv. }
  assert (Hfirst : first_of kv <= nth k kv 0) by (apply S2; fold kv; lia).
  assert (Hlast : nth (k + 1) kv 0 <= last_of kv) by (apply S2; fold kv; lia).
  assert (Eq : forall x, nth k kv 0 < x < nth (k + 1) kv 0 -> bss3_get_point s u x = bspline3_get_point (v_curve s r c bu) x).
  { intros x Hx. destruct (basis_total kv q c x S2 P2 L2 ltac:(lia) ltac:(lra) ltac:(lra)) as [sv [bv (_ & Ev & Lv & _)]].
    now apply (surface_v_curve s r c u x bu bv). }
  exists a. split.
  - rewrite <- Ea. pose proof Vd as [Wd Rd SD1 PD1 SD2 PD2 LD1 LD2]. pose proof Wd as (_ & _ & Cd).
    destruct (basis_total (snd (bss_knots d)) (snd (bss_degree d)) (c - 1) v SD2 PD2 LD2 Cd) as [sv [bv (_ & Ev & Lv & _)]].
    + unfold first_of, last_of. rewrite LD2, Dd. cbn [snd]. fold q. rewrite !Hkn by lia. fold kv.
      assert (nth (0 + 1) kv 0 <= nth k kv 0) by (apply S2; fold kv; lia).
      assert (nth (k + 1) kv 0 <= nth (c - 1 + (q - 1) + 1 - 1 + 1) kv 0) by (apply S2; fold kv; lia). lra.
    + unfold first_of. rewrite Hkn by lia. assert (nth (0 + 1) kv 0 <= nth k kv 0) by (apply S2; fold kv; lia). lra.
    + apply (surface_v_curve d r (c - 1) u v bu bv); auto. now rewrite Kd, Dd.
  - unfold partial_v. repeat split; (match goal with |- derivable_pt_lim (curve_coord _ ?cc) _ _ =>
      apply (derivable_pt_lim_locally_ext (curve_coord (bspline3_get_point (v_curve s r c bu)) cc) _ v (nth k kv 0) (nth (k + 1) kv 0)) end;
      [exact Hvv|intros x Hx; unfold curve_coord; now rewrite Eq|assumption]).
Qed.

(** Degree 0 in a direction: the derivative is the zero surface, for every parameter pair at all,
    and that is the partial derivative inside every knot span. *)
Lemma zero_basis u : exists a b, bspline_basis (uniform_knot 1 1 : list R) 1 u = Ok [a; b].
Proof.
  destruct (Rlt_le_dec u 0) as [H|H].
  - exists 0, 0. exact (C09_below_range_all_zero 1 u (Nat.le_refl 1) H).
  - destruct (C15_uniform_knot 1 1) as (L & S & A & _ & B & _); [lia|].
    destruct (basis_total (uniform_knot 1 1) 1 2 u S) as [s [b (_ & E & Lb & _)]]; auto.
    + apply uniform_knot_separated; [lia|cbn; lra].
    + unfold first_of, last_of. rewrite L, (A 0%nat), B by lia. lra.
    + destruct b as [|x [|y [|z b]]]; try discriminate Lb. eauto.
Qed.
Definition zero_surface : BSplineSurface R (vec3 R) :=
  mkBSS (mkGrid 2 (repeat vzero 4)) (uniform_knot 1 1, uniform_knot 1 1) (1, 1)%nat.
Lemma zero_surface_point u v : bss3_get_point zero_surface u v = Ok (V3 0 0 0).
Proof.
  unfold bss3_get_point, zero_surface. cbn [bss_knots bss_degree bss_cps fst snd].
  destruct (zero_basis u) as (a & b & Eu). destruct (zero_basis v) as (a' & b' & Ev).
  rewrite Eu. cbn [obind]. rewrite Ev. cbn [obind].
  rewrite (tensor_sum_3 _ _ _ 2 2) by (cbn; auto; repeat split; cbn; lia). f_equal.
  unfold tensor3, entry. cbn. f_equal; ring.
Qed.
Lemma degree0_basis ks n k u x : sorted ks -> separated ks -> length ks = (n + 0 + 1)%nat -> (1 <= n)%nat -> (k < n)%nat ->
  nth k ks 0 < u < nth (k + 1) ks 0 -> nth k ks 0 < x < nth (k + 1) ks 0 -> bspline_basis ks 0 x = bspline_basis ks 0 u.
Proof.
  intros S P L Hn Hk Hu Hx.
  rewrite (basis_cdb ks 0 x k), (basis_cdb ks 0 u k); auto; try lia; unfold is_span; repeat split; try lia; try lra; now left.
Qed.
Theorem C19_degree0_u (s : BSplineSurface R (vec3 R)) (r c : nat) :
  valid_surface s r c -> fst (bss_degree s) = 0%nat ->
  exists d, bss_derivative_u s = Ok d /\ (forall u v, bss3_get_point d u v = Ok (V3 0 0 0)) /\
  forall k u v, (k < r)%nat -> nth k (fst (bss_knots s)) 0 < u < nth (k + 1) (fst (bss_knots s)) 0 ->
    partial_u s x3 v u 0 /\ partial_u s y3 v u 0 /\ partial_u s z3 v u 0.
Proof.
  intros [Hw Hr S1 P1 S2 P2 L1 L2] H0. exists zero_surface. split; [|split].
  - unfold bss_derivative_u. destruct (bss_degree s) as [p q]. cbn [fst] in H0. now subst p.
  - apply zero_surface_point.
  - intros k u v Hk Hu. rewrite H0 in L1.
    assert (Eq : forall x, nth k (fst (bss_knots s)) 0 < x < nth (k + 1) (fst (bss_knots s)) 0 -> bss3_get_point s x v = bss3_get_point s u v).
    { intros x Hx. unfold bss3_get_point. rewrite H0. now rewrite (degree0_basis _ r k u x). }
    unfold partial_u. repeat split; (match goal with |- derivable_pt_lim (curve_coord _ ?cc) _ _ =>
      apply (derivable_pt_lim_locally_ext (fct_cte (curve_coord (fun x => bss3_get_point s x v) cc u)) _ u _ _ _ Hu);
      [intros x Hx; unfold fct_cte, curve_coord; now rewrite (Eq x Hx)|apply derivable_pt_lim_const] end).
Qed.
Theorem C19_degree0_v (s : BSplineSurface R (vec3 R)) (r c : nat) :
  valid_surface s r c -> snd (bss_degree s) = 0%nat ->
  exists d, bss_derivative_v s = Ok d /\ (forall u v, bss3_get_point d u v = Ok (V3 0 0 0)) /\
  forall k u v, (k < c)%nat -> nth k (snd (bss_knots s)) 0 < v < nth (k + 1) (snd (bss_knots s)) 0 ->
    partial_v s x3 u v 0 /\ partial_v s y3 u v 0 /\ partial_v s z3 u v 0.
Proof.
  intros [Hw Hr S1 P1 S2 P2 L1 L2] H0. pose proof Hw as (_ & _ & Hc). exists zero_surface. split; [|split].
  - unfold bss_derivative_v. destruct (bss_degree s) as [p q]. cbn [snd] in H0. now subst q.
  - apply zero_surface_point.
  - intros k u v Hk Hu. rewrite H0 in L2.
    assert (Eq : forall x, nth k (snd (bss_knots s)) 0 < x < nth (k + 1) (snd (bss_knots s)) 0 -> bss3_get_point s u x = bss3_get_point s u v).
    { intros x Hx. unfold bss3_get_point. rewrite H0. now rewrite (degree0_basis _ c k v x). }
    unfold partial_v. repeat split; (match goal with |- derivable_pt_lim (curve_coord _ ?cc) _ _ =>
      apply (derivable_pt_lim_locally_ext (fct_cte (curve_coord (fun y => bss3_get_point s u y) cc v)) _ v _ _ _ Hu);
      [intros x Hx; unfold fct_cte, curve_coord; now rewrite (Eq x Hx)|apply derivable_pt_lim_const] end).
Qed.

Lemma dot3_pos (w : vec3 R) : w <> V3 0 0 0 -> 0 < dot3 w w.
Proof.
  destruct w as [x y z]. intros H. unfold dot3; rnum; cbn [x3 y3 z3].
  pose proof (Rle_0_sqr x) as Px. pose proof (Rle_0_sqr y) as Py. pose proof (Rle_0_sqr z) as Pz. unfold Rsqr in *.
  destruct (Req_dec x 0) as [Kx|Kx]; [destruct (Req_dec y 0) as [Ky|Ky]; [destruct (Req_dec z 0) as [Kz|Kz]|]|].
  - exfalso. apply H. now subst.
  - apply Rsqr_pos_lt in Kz. unfold Rsqr in Kz. lra.
  - apply Rsqr_pos_lt in Ky. unfold Rsqr in Ky. lra.
  - apply Rsqr_pos_lt in Kx. unfold Rsqr in Kx. lra.
Qed.
(** get_normals: one vector per parameter pair; where the partials are independent it has length
    one and is orthogonal to both of them, oriented as du x dv; every call with in-range parameters succeeds. *)
Theorem C19_normals (s : BSplineSurface R (vec3 R)) (params : list (vec2 R)) (ns : list (vec3 R)) :
  bss3_get_normals s params = Ok ns ->
  length ns = length params /\
  exists du dv, bss_derivative_u s = Ok du /\ bss_derivative_v s = Ok dv /\
  forall k, (k < length params)%nat -> exists a b,
    let uv := nth k params (V2 0 0) in let n := nth k ns vzero in
    bss3_get_point du (x2 uv) (y2 uv) = Ok a /\ bss3_get_point dv (x2 uv) (y2 uv) = Ok b /\
    (cross3 a b <> V3 0 0 0 ->
       dot3 n a = 0 /\ dot3 n b = 0 /\ dot3 n n = 1 /\ 0 < dot3 n (cross3 a b)).
Proof.
  unfold bss3_get_normals. intros E.
  destruct (bss_derivative_u s) as [du| |]; try discriminate. cbn [obind] in E.
  destruct (bss_derivative_v s) as [dv| |]; try discriminate. cbn [obind] in E.
  split; [now apply mapM_length in E|]. exists du, dv. split; [easy|]. split; [easy|].
  intros k Hk.
  pose proof (mapM_nth _ _ _ k (V2 0 0) vzero E Hk) as H. cbv beta in H.
  set (uv := nth k params (V2 0 0)) in *.
  destruct (bss3_get_point du (x2 uv) (y2 uv)) as [a| |]; try discriminate. cbn [obind] in H.
  destruct (bss3_get_point dv (x2 uv) (y2 uv)) as [b| |]; try discriminate. cbn [obind] in H.
  apply Ok_inj in H. exists a, b. cbv zeta. split; [easy|]. split; [easy|]. intros Hx. rewrite <- H.
  set (w := cross3 a b) in *.
  assert (Hww : 0 < dot3 w w) by now apply dot3_pos.
  assert (Hl : 0 < length3 w) by (unfold length3; rnum; now apply sqrt_lt_R0).
  assert (Hsq : length3 w * length3 w = dot3 w w) by (unfold length3; rnum; apply sqrt_sqrt; lra).
  set (l := length3 w) in *.
  assert (D : forall z, dot3 (normalize3 w) z = dot3 w z / l).
  { intros z. unfold normalize3. fold l. clearbody l. unfold dot3. cbn. rnum. field. lra. }
  assert (Dw : dot3 (normalize3 w) (normalize3 w) = dot3 w w / (l * l)).
  { unfold normalize3. fold l. clearbody l. unfold dot3. cbn. rnum. field. lra. }
  rewrite Dw, !D, Hsq. repeat split.
  - replace (dot3 w a) with 0 by (unfold w, dot3, cross3; rnum; cbn [x3 y3 z3]; ring). unfold Rdiv. ring.
  - replace (dot3 w b) with 0 by (unfold w, dot3, cross3; rnum; cbn [x3 y3 z3]; ring). unfold Rdiv. ring.
  - field. intro; lra.
  - apply Rdiv_lt_0_compat; assumption.
Qed.

(** All together: for parameters inside knot spans get_normals succeeds and its vectors are
    orthogonal to the two partial derivatives (as limits) of get_point. *)
Theorem C19_normals_of_partials (s : BSplineSurface R (vec3 R)) (r c : nat) (params : list (vec2 R)) :
  let ku := fst (bss_knots s) in let kv := snd (bss_knots s) in
  let p := fst (bss_degree s) in let q := snd (bss_degree s) in
  valid_surface s r c -> (1 <= p)%nat -> (2 <= r)%nat -> (1 <= q)%nat -> (2 <= c)%nat ->
  (forall uv, In uv params -> (exists k, (p <= k < r)%nat /\ nth k ku 0 < x2 uv < nth (k + 1) ku 0) /\
                              (exists k, (q <= k < c)%nat /\ nth k kv 0 < y2 uv < nth (k + 1) kv 0)) ->
  exists ns, bss3_get_normals s params = Ok ns /\ length ns = length params /\
  forall k, (k < length params)%nat -> exists a b,
    let uv := nth k params (V2 0 0) in let n := nth k ns vzero in
    partial_u s x3 (y2 uv) (x2 uv) (x3 a) /\ partial_u s y3 (y2 uv) (x2 uv) (y3 a) /\ partial_u s z3 (y2 uv) (x2 uv) (z3 a) /\
    partial_v s x3 (x2 uv) (y2 uv) (x3 b) /\ partial_v s y3 (x2 uv) (y2 uv) (y3 b) /\ partial_v s z3 (x2 uv) (y2 uv) (z3 b) /\
    (cross3 a b <> V3 0 0 0 -> dot3 n a = 0 /\ dot3 n b = 0 /\ dot3 n n = 1 /\ 0 < dot3 n (cross3 a b)).
Proof.
  intros ku kv p q Hv Hp Hr Hq Hc Hin. pose proof Hv as [_ _ S1 _ S2 _ L1 L2].
  destruct (C19_derivative_u s r c Hv Hp Hr) as [du (Edu & _ & _ & Du)].
  destruct (C19_derivative_v s r c Hv Hq Hc) as [dv (Edv & _ & _ & Dv)].
  assert (Pt : forall uv, In uv params -> exists a b, bss3_get_point du (x2 uv) (y2 uv) = Ok a /\ bss3_get_point dv (x2 uv) (y2 uv) = Ok b /\
    (partial_u s x3 (y2 uv) (x2 uv) (x3 a) /\ partial_u s y3 (y2 uv) (x2 uv) (y3 a) /\ partial_u s z3 (y2 uv) (x2 uv) (z3 a)) /\
    (partial_v s x3 (x2 uv) (y2 uv) (x3 b) /\ partial_v s y3 (x2 uv) (y2 uv) (y3 b) /\ partial_v s z3 (x2 uv) (y2 uv) (z3 b))).
  { intros uv Huv. destruct (Hin uv Huv) as [[k [Hk Hu]] [k' [Hk' Hv']]].
    fold ku in L1. fold kv in L2. fold ku in S1. fold kv in S2.
    assert (A1 : nth 0 ku 0 <= nth k ku 0) by (apply S1; fold p in L1; lia).
    assert (A2 : nth (k + 1) ku 0 <= nth (length ku - 1) ku 0) by (apply S1; fold p in L1; lia).
    assert (B1 : nth 0 kv 0 <= nth k' kv 0) by (apply S2; fold q in L2; lia).
    assert (B2 : nth (k' + 1) kv 0 <= nth (length kv - 1) kv 0) by (apply S2; fold q in L2; lia).
    destruct (Du k (x2 uv) (y2 uv) Hk Hu) as [a (Ea & Pa)]; [unfold first_of, last_of; fold kv; lra..|].
    destruct (Dv k' (x2 uv) (y2 uv) Hk' Hv') as [b (Eb & Pb)]; [unfold first_of, last_of; fold ku; lra..|].
    exists a, b. tauto. }
  assert (T : exists ns, bss3_get_normals s params = Ok ns).
  { unfold bss3_get_normals. rewrite Edu, Edv. cbn [obind]. apply mapM_total. intros uv Huv.
    destruct (Pt uv Huv) as (a & b & Ea & Eb & _). rewrite Ea, Eb. cbn [obind]. eauto. }
  destruct T as [ns E]. exists ns. split; [exact E|].
  destruct (C19_normals s params ns E) as [HL [du' [dv' (E1 & E2 & HN)]]]. split; [exact HL|].
  rewrite Edu in E1. apply Ok_inj in E1. subst du'. rewrite Edv in E2. apply Ok_inj in E2. subst dv'.
  intros k Hk. destruct (HN k Hk) as (a & b & Ea & Eb & HO). cbv zeta in *.
  destruct (Pt (nth k params (V2 0 0)) ltac:(now apply nth_In)) as (a' & b' & Ea' & Eb' & Pa & Pb).
  rewrite Ea in Ea'. apply Ok_inj in Ea'. subst a'. rewrite Eb in Eb'. apply Ok_inj in Eb'. subst b'.
  exists a, b. tauto.
Qed.
Example C19_nonvacuous : exists ns, bss3_get_normals s_ex [V2 (1/2) (1/3)] = Ok ns /\ length ns = 1%nat.
Proof.
  destruct (C19_normals_of_partials s_ex 3 2 [V2 (1/2) (1/3)]) as [ns (E & HL & _)]; [apply s_ex_valid|cbn; lia..| |eauto].
  intros uv [<-|[]]. split; [exists 2%nat|exists 1%nat]; cbn; split; try lia; lra.
Qed.
