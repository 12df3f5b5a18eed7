(** Properties C30-C32: polylines and degree 1 B-splines. *)
From Coq Require Import Reals Lra Psatz Lia Arith Floats.SpecFloat.
From Verif Require Import Prelude Num M_vec M_utils M_curve L_base L_vec L_geom L_cdb L_knot L_bspline L_f64
  Props_knot Props_bspline Props_utils.
Open Scope R_scope.

(** ** Specification: arc length along a list of vertices *)
Definition vert (vs : list (vec3 R)) (i : nat) : vec3 R := nth i vs vzero.
Definition seg_len (vs : list (vec3 R)) (i : nat) : R := dist3 (vert vs (i + 1)) (vert vs i).
(** length of the first [k] segments, and of all of them *)
Definition arc (vs : list (vec3 R)) (k : nat) : R := sumf (seg_len vs) k.
Definition total (vs : list (vec3 R)) : R := arc vs (length vs - 1).
(** [q] is the point at arc length [l]: on segment [k], at fraction [s]. *)
Definition at_arc (vs : list (vec3 R)) (l : R) (q : vec3 R) : Prop :=
  exists k s, (k + 1 < length vs)%nat /\ 0 <= s <= 1 /\ q = on_segment3 (vert vs k) (vert vs (k + 1)) s /\ arc vs k + s * seg_len vs k = l.

Lemma dist3_distance a b : distance3 a b = dist3 a b.
Proof. unfold distance3, length3, dist3, dot3. vsimp. f_equal. ring. Qed.
Lemma dist3_nonneg a b : 0 <= dist3 a b.
Proof. apply sqrt_pos. Qed.
Lemma seg_len_nonneg vs i : 0 <= seg_len vs i.
Proof. apply dist3_nonneg. Qed.
Lemma arc_S vs k : arc vs (k + 1) = arc vs k + seg_len vs k.
Proof. unfold arc. now rewrite Nat.add_1_r, sumf_S. Qed.
Lemma arc_mono vs j k : (j <= k)%nat -> arc vs j <= arc vs k.
Proof.
  induction 1 as [|k Hk IH]; [lra|]. rewrite <- Nat.add_1_r, arc_S. pose proof (seg_len_nonneg vs k). lra.
Qed.

(** what [polyline_new] stores *)
Record is_polyline (pl : Polyline R) : Prop := {
  ip_count : (2 <= length (pl_vertices pl))%nat;
  ip_segs : length (pl_segment_lengths pl) = (length (pl_vertices pl) - 1)%nat;
  ip_seg : forall i, (i < length (pl_vertices pl) - 1)%nat -> nth i (pl_segment_lengths pl) 0 = seg_len (pl_vertices pl) i;
  ip_len : pl_length pl = total (pl_vertices pl) }.
Lemma fsum_sumf (l : list R) : fsum l = sumf (fun i => nth i l 0) (length l).
Proof.
  unfold fsum. rnum. induction l as [|x l IH] using rev_ind; [reflexivity|].
  rewrite fold_left_app, app_length. cbn [fold_left length]. rewrite IH, Nat.add_1_r, sumf_S.
  rewrite app_nth2, Nat.sub_diag by lia. cbn [nth]. f_equal. apply sumf_ext. intros i Hi. now rewrite app_nth1 by lia.
Qed.
Theorem C30_new (vs : list (vec3 R)) :
  ((exists pl, polyline_new vs = Ok pl) <-> (2 <= length vs)%nat) /\
  forall pl, polyline_new vs = Ok pl -> pl_vertices pl = vs /\ is_polyline pl.
Proof.
  unfold polyline_new, assert. destruct (Nat.leb_spec 2 (length vs)) as [H|H]; cbn [obind].
  - split; [split; eauto|]. intros pl E. apply Ok_inj in E. subst pl. cbn [pl_vertices]. split; [reflexivity|].
    assert (HS : length (map (fun '(a, b) => distance3 b a) (pairs vs)) = (length vs - 1)%nat) by now rewrite map_length, pairs_length.
    assert (HN : forall i, (i < length vs - 1)%nat -> nth i (map (fun '(a, b) => distance3 b a) (pairs vs)) 0 = seg_len vs i).
    { intros i Hi. rewrite (nth_map_default _ _ _ (vzero, vzero)) by (rewrite pairs_length; lia). rewrite pairs_nth by lia.
      apply dist3_distance. }
    constructor; cbn [pl_vertices pl_segment_lengths pl_length]; auto.
    rewrite fsum_sumf, HS. apply sumf_ext. exact HN.
  - split; [split; [intros [pl E]; discriminate|lia]|]. intros pl E; discriminate.
Qed.

Lemma enumerate_skip {A} (l : list A) k x : nth_error l k = Some x -> skipn k (enumerate l) = (k, x) :: skipn (k + 1) (enumerate l).
Proof.
  intros H. assert (Hn : nth_error (enumerate l) k = Some (k, x)) by (rewrite enumerate_nth_error, H; reflexivity).
  generalize dependent (enumerate l). intros e He. revert k He H. intros k He _. revert He. generalize (k, x). intros y He.
  revert k He. induction e as [|z e IH]; intros [|k] He; try discriminate.
  - cbn in He. injection He as ->. reflexivity.
  - cbn [skipn Nat.add]. cbn in He. rewrite (IH k He). reflexivity.
Qed.
Lemma lerp_segment a b s : lerp3 a b s = on_segment3 a b s.
Proof. unfold lerp3, on_segment3. vsimp. f_equal; ring. Qed.

Section Walk.
Context (pl : Polyline R) (H : is_polyline pl).
Let vs := pl_vertices pl.
Let n := (length vs - 1)%nat.
Lemma walk_spec m : forall k l, (n - k = m)%nat -> (k < n)%nat -> 0 <= l <= arc vs n - arc vs k ->
  exists j, (k <= j < n)%nat /\ (arc vs j - arc vs k < l \/ j = k) /\ l <= arc vs (j + 1) - arc vs k /\
    polyline_walk pl (skipn k (enumerate (pl_segment_lengths pl))) l =
      Ok (on_segment3 (vert vs j) (vert vs (j + 1)) ((l - (arc vs j - arc vs k)) / seg_len vs j)).
Proof.
  destruct H as [Hc Hs Hd Hl]. fold vs in Hc, Hs, Hd. fold n in Hs, Hd.
  induction m as [|m IH]; intros k l Hm Hk Hl0; [lia|].
  rewrite (enumerate_skip _ k (seg_len vs k)) by (rewrite (nth_error_nth' _ 0) by lia; now rewrite Hd).
  cbn [polyline_walk]. rnum. destruct (Rltb_spec (seg_len vs k) l) as [P|P].
  - assert (Hk1 : (k + 1 < n)%nat).
    { destruct (Nat.eq_dec (k + 1) n) as [E|E]; [|lia]. rewrite <- E, arc_S in Hl0. lra. }
    destruct (IH (k + 1)%nat (l - seg_len vs k)) as [j (A & B & C & D)]; try lia.
    { rewrite arc_S. split; lra. }
    rewrite !arc_S in *. exists j. split; [lia|]. split; [|split].
    + left. destruct B as [B| ->]; [lra|]. rewrite arc_S. lra.
    + rewrite arc_S. lra.
    + replace (l - (arc vs j - arc vs k)) with (l - seg_len vs k - (arc vs j - (arc vs k + seg_len vs k))) by ring. exact D.
  - exists k. split; [lia|]. split; [now right|]. split; [rewrite arc_S; lra|].
    rewrite (idx_nth _ _ vzero) by (fold vs; lia). cbn [obind]. rewrite (idx_nth _ _ vzero) by (fold vs; lia). cbn [obind].
    rewrite lerp_segment. fold vs. unfold vert. do 2 f_equal. f_equal. lra.
Qed.
(** get_point in exact arithmetic: arc length parametrisation; never panics. *)
Theorem C30_get_point (t : R) :
  exists q, polyline_get_point pl t = Ok q /\
    (t <= 0 -> q = vert vs 0) /\ (1 <= t -> q = vert vs (length vs - 1)) /\ (0 <= t <= 1 -> at_arc vs (t * total vs) q).
Proof.
  pose proof H as [Hc Hs Hd Hl]. fold vs in Hc, Hs, Hd, Hl. fold n in Hs, Hd.
  assert (E0 : forall a b, on_segment3 a b 0 = a) by (intros [a b c] ?; unfold on_segment3; vsimp; f_equal; ring).
  assert (E1 : forall a b, on_segment3 a b 1 = b) by (intros ? [a b c]; unfold on_segment3; vsimp; f_equal; ring).
  assert (A0 : arc vs 0 = 0) by reflexivity.
  unfold polyline_get_point, polyline_start, polyline_end. rnum. fold vs.
  destruct (Rleb_spec t 0) as [P|P]; [|destruct (Rleb_spec 1 t) as [Q|Q]].
  - rewrite (idx_nth _ _ vzero) by lia. eexists. split; [reflexivity|]. split; [easy|]. split; [intros; lra|].
    intros Ht. exists 0%nat, 0. split; [lia|]. split; [lra|]. split; [symmetry; apply E0|]. rewrite A0. assert (t = 0) by lra. subst t. lra.
  - rewrite usub_Ok by lia. cbn [obind]. rewrite (idx_nth _ _ vzero) by lia. eexists. split; [reflexivity|].
    split; [intros; lra|]. split; [easy|]. intros Ht. exists (n - 1)%nat, 1. split; [unfold n; lia|]. split; [lra|].
    split; [rewrite E1; unfold vert, n; f_equal; lia|]. unfold total. fold n. assert (t = 1) by lra. subst t.
    replace n with (n - 1 + 1)%nat at 3 by (unfold n; lia). rewrite arc_S. lra.
  - destruct (walk_spec n 0 (t * pl_length pl)) as [j (A & B & C & D)]; try lia; try (unfold n; lia).
    { rewrite Hl. unfold total. fold n. rewrite A0. pose proof (arc_mono vs 0 n ltac:(lia)). rewrite A0 in *. split; nra. }
    cbn [skipn] in D. rewrite D. eexists. split; [reflexivity|]. split; [intros; lra|]. split; [intros; lra|]. intros _.
    rewrite Hl in *. rewrite A0, !Rminus_0_r in *. set (l := t * total vs) in *. rewrite arc_S in C.
    assert (Bj : arc vs j <= l).
    { destruct B as [B| ->]; [lra|]. rewrite A0. unfold l, total. fold n. pose proof (arc_mono vs 0 n ltac:(lia)). rewrite A0 in *. nra. }
    pose proof (seg_len_nonneg vs j) as Hsj.
    exists j, ((l - arc vs j) / seg_len vs j). split; [unfold n in A; lia|].
    destruct (Req_dec (seg_len vs j) 0) as [Z|Z].
    + rewrite Z in *. unfold Rdiv. rewrite Rinv_0, Rmult_0_r. split; [lra|]. split; [reflexivity|]. lra.
    + split; [|split; [reflexivity|field; exact Z]]. split.
      * apply Rmult_le_pos; [lra|]. left. apply Rinv_0_lt_compat. lra.
      * apply Rmult_le_reg_r with (seg_len vs j); [lra|]. unfold Rdiv. rewrite Rmult_assoc, Rinv_l by exact Z. lra.
Qed.
End Walk.
(** The point at a given arc length is unique, so [at_arc] determines the result. *)
Lemma on_segment_zero a b s s' : dist3 b a = 0 -> on_segment3 a b s = on_segment3 a b s'.
Proof.
  intros E. rewrite <- dist3_distance in E. unfold distance3 in E. apply length3_zero in E.
  unfold on_segment3. assert (x3 b - x3 a = 0) as -> by (apply (f_equal x3) in E; exact E).
  assert (y3 b - y3 a = 0) as -> by (apply (f_equal y3) in E; exact E).
  assert (z3 b - z3 a = 0) as -> by (apply (f_equal z3) in E; exact E). f_equal; ring.
Qed.
Lemma on_segment_0 a b : on_segment3 a b 0 = a.
Proof. destruct a as [a1 a2 a3]. unfold on_segment3. vsimp. f_equal; ring. Qed.
Lemma on_segment_1 a b : on_segment3 a b 1 = b.
Proof. destruct b as [b1 b2 b3]. unfold on_segment3. vsimp. f_equal; ring. Qed.
(** vertices between equal arc lengths coincide *)
Lemma arc_eq_vert vs j k : (j <= k)%nat -> arc vs j = arc vs k -> vert vs j = vert vs k.
Proof.
  induction 1 as [|k Hk IH]; [easy|]. intros E. rewrite <- Nat.add_1_r, arc_S in E.
  pose proof (seg_len_nonneg vs k). pose proof (arc_mono vs j k Hk).
  rewrite IH by lra. rewrite <- Nat.add_1_r.
  transitivity (on_segment3 (vert vs k) (vert vs (k + 1)) 0); [symmetry; apply on_segment_0|].
  transitivity (on_segment3 (vert vs k) (vert vs (k + 1)) 1); [|apply on_segment_1].
  apply on_segment_zero. fold (seg_len vs k). lra.
Qed.
Lemma at_arc_unique vs l q q' : at_arc vs l q -> at_arc vs l q' -> q = q'.
Proof.
  intros (k & s & Hk & Hs & -> & El) (k' & s' & Hk' & Hs' & -> & El').
  assert (W : forall k s k' s', 0 <= s <= 1 -> 0 <= s' <= 1 -> (k < k')%nat -> arc vs k + s * seg_len vs k = l -> arc vs k' + s' * seg_len vs k' = l ->
     on_segment3 (vert vs k) (vert vs (k + 1)) s = on_segment3 (vert vs k') (vert vs (k' + 1)) s').
  { clear. intros k s k' s' Hs Hs' Hk El El'. pose proof (arc_mono vs (k + 1) k' ltac:(lia)) as M. rewrite arc_S in M.
    pose proof (seg_len_nonneg vs k). pose proof (seg_len_nonneg vs k').
    assert (0 <= s' * seg_len vs k') by nra. assert (s * seg_len vs k <= seg_len vs k) by nra.
    assert (E1 : s * seg_len vs k = seg_len vs k) by lra. assert (E2 : s' * seg_len vs k' = 0) by lra. assert (E3 : arc vs (k + 1) = arc vs k') by (rewrite arc_S; lra).
    transitivity (vert vs (k + 1)).
    - destruct (Req_dec (seg_len vs k) 0) as [Z|Z].
      + rewrite <- (on_segment_1 (vert vs k) (vert vs (k + 1))) at 2. now apply on_segment_zero.
      + assert (s = 1) by (apply (Rmult_eq_reg_r (seg_len vs k)); [lra|exact Z]). subst s. apply on_segment_1.
    - rewrite (arc_eq_vert vs (k + 1) k') by (auto; lia). symmetry.
      destruct (Req_dec (seg_len vs k') 0) as [Z|Z].
      + rewrite <- (on_segment_0 (vert vs k') (vert vs (k' + 1))) at 2. now apply on_segment_zero.
      + assert (s' = 0) by (apply (Rmult_eq_reg_r (seg_len vs k')); [lra|exact Z]). subst s'. apply on_segment_0. }
  destruct (Nat.lt_trichotomy k k') as [L|[<-|L]].
  - now apply W.
  - destruct (Req_dec (seg_len vs k) 0) as [Z|Z]; [now apply on_segment_zero|]. f_equal.
    apply (Rmult_eq_reg_r (seg_len vs k)); [lra|exact Z].
  - symmetry. now apply W.
Qed.
Theorem C30_get_point_iff (pl : Polyline R) (t : R) (q : vec3 R) : is_polyline pl -> 0 <= t <= 1 ->
  (polyline_get_point pl t = Ok q <-> at_arc (pl_vertices pl) (t * total (pl_vertices pl)) q).
Proof.
  intros H Ht. destruct (C30_get_point pl H t) as [q' (E & _ & _ & A)]. specialize (A Ht). rewrite E. split.
  - intros Eq. apply Ok_inj in Eq. now subst.
  - intros A'. f_equal. exact (at_arc_unique _ _ _ _ A A').
Qed.

(** In IEEE arithmetic the loop can run off the end: the accumulated length rounds up, the
    subtractions do not, and [unreachable!()] is reached.  Here 1 followed by eight segments of length 3 * 2^-54. *)
Definition tiny : f64 := SFdiv p64 e64 (f64_of_Z 3) (f64_of_Z (2 ^ 54)).
Definition creep : list (vec3 f64) :=
  V3 (f64_of_Z 0) (f64_of_Z 0) (f64_of_Z 0) ::
  map (fun i => V3 (f64_of_Z 1) (SFmul p64 e64 (f64_of_Z i) tiny) (f64_of_Z 0)) [0; 1; 2; 3; 4; 5; 6; 7; 8]%Z.
Theorem C30_unreachable_reached_f64 :
  exists pl t, polyline_new creep = Ok pl /\ SFltb (f64_of_Z 0) t = true /\ SFltb t (f64_of_Z 1) = true /\
    polyline_get_point pl t = Panic.
Proof.
  eexists. exists (SFdiv p64 e64 (f64_of_Z (2 ^ 53 - 1)) (f64_of_Z (2 ^ 53))).
  split; [vm_compute; reflexivity|]. vm_compute. auto.
Qed.
(** ... and a polyline of coinciding points evaluates to NaN. *)
Theorem C30_degenerate_nan_f64 :
  exists pl, polyline_new [v64 1 2 3; v64 1 2 3] = Ok pl /\
    polyline_get_point pl (SFdiv p64 e64 (f64_of_Z 1) (f64_of_Z 2)) = Ok (V3 S754_nan S754_nan S754_nan).
Proof. eexists. split; [vm_compute; reflexivity|]. vm_compute. reflexivity. Qed.
Definition corner : list (vec3 R) := [V3 0 0 0; V3 1 0 0; V3 1 2 0].
Example C30_nonvacuous : exists pl, polyline_new corner = Ok pl /\ is_polyline pl /\ at_arc corner 2 (V3 1 1 0).
Proof.
  destruct (C30_new corner) as [[_ A] B]. destruct A as [pl E]; [cbn; lia|]. exists pl. split; [exact E|]. split; [now apply B|].
  exists 1%nat, (1/2). split; [cbn; lia|]. split; [lra|]. unfold vert, arc, seg_len, sumf, vert, dist3. cbn. split.
  - unfold on_segment3. cbn. f_equal; lra.
  - replace ((1 - 0) * ((1 - 0) * 1) + (0 - 0) * ((0 - 0) * 1) + (0 - 0) * ((0 - 0) * 1)) with 1 by ring.
    replace ((1 - 1) * ((1 - 1) * 1) + (2 - 0) * ((2 - 0) * 1) + (0 - 0) * ((0 - 0) * 1)) with (2 * 2) by ring.
    rewrite sqrt_1, sqrt_square by lra. lra.
Qed.

(** ** C31: projection *)
Lemma min_fold {A} (f : A -> R) (l : list A) (M : R) (d : A) :
  let r := fold_left (fun '(m, mi) '(i, x) => if Rltb (f x) m then (f x, i) else (m, mi)) (enumerate l) (M, 0%nat) in
  (forall x, In x l -> fst r <= f x) /\ fst r <= M /\
  ((snd r < length l)%nat /\ fst r = f (nth (snd r) l d) \/ r = (M, 0%nat)).
Proof.
  induction l as [|x l IH] using rev_ind; cbv zeta in *.
  - cbn. repeat split; [intros ? []|lra|now right].
  - rewrite enumerate_snoc, fold_left_app. cbn [fold_left]. destruct (fold_left _ (enumerate l) _) as [m mi].
    cbn [fst snd] in *. destruct IH as (I1 & I2 & I3). destruct (Rltb_spec (f x) m) as [P|P]; cbn [fst snd]; rewrite app_length; cbn [length].
    + repeat split; [|lra|].
      * intros y Hy. apply in_app_or in Hy. destruct Hy as [Hy|[<-|[]]]; [specialize (I1 y Hy); lra|lra].
      * left. split; [lia|]. rewrite app_nth2, Nat.sub_diag by lia. reflexivity.
    + repeat split; [|lra|].
      * intros y Hy. apply in_app_or in Hy. destruct Hy as [Hy|[<-|[]]]; [now apply I1|lra].
      * destruct I3 as [[I3 I4]|I3]; [left|now right]. split; [lia|]. now rewrite app_nth1 by lia.
Qed.
Definition seg_dist (vs : list (vec3 R)) (p : vec3 R) (i : nat) : R := distance_to_line_segment3 (vert vs i) (vert vs (i + 1)) p.
(** the signed length from the start of segment [k] to the foot of the perpendicular from [p] *)
Definition foot (vs : list (vec3 R)) (p : vec3 R) (k : nat) : R :=
  dot3 (vsub p (vert vs k)) (vsub (vert vs (k + 1)) (vert vs k)) / seg_len vs k.
Definition on_polyline (vs : list (vec3 R)) (q : vec3 R) : Prop := exists l, at_arc vs l q.

Lemma in_pairs_nth vs (x : vec3 R * vec3 R) : In x (pairs vs) -> exists i, (i < length vs - 1)%nat /\ x = (vert vs i, vert vs (i + 1)).
Proof.
  intros Hx. apply (In_nth _ _ (vzero, vzero)) in Hx. destruct Hx as [i [Hi E]]. rewrite pairs_length in Hi. exists i. split; [exact Hi|].
  rewrite <- E, pairs_nth by lia. reflexivity.
Qed.
Lemma nearest_segment pl p : is_polyline pl -> let vs := pl_vertices pl in let k := polyline_nearest_segment pl p in
  (k < length vs - 1)%nat /\
  ((exists i, (i < length vs - 1)%nat /\ seg_dist vs p i < RMAX) -> forall i, (i < length vs - 1)%nat -> seg_dist vs p k <= seg_dist vs p i).
Proof.
  intros [Hc _ _ _]. cbv zeta. set (vs := pl_vertices pl) in *. unfold polyline_nearest_segment. fold vs.
  pose proof (min_fold (fun x => distance_to_line_segment3 (fst x) (snd x) p) (pairs vs) RMAX (vzero, vzero)) as M. cbv zeta in M.
  match type of M with context [fold_left ?f _ _] => match goal with |- context [fold_left ?g ?l ?i] =>
    replace (fold_left g l i) with (fold_left f l i) end end.
  2:{ generalize (enumerate (pairs vs)). intros l. change (@fmaxval R RNum) with RMAX. generalize (RMAX, 0%nat).
      induction l as [|[i [a b]] l IH]; intros st; [reflexivity|]. cbn [fold_left]. rewrite <- IH. destruct st. reflexivity. }
  destruct (fold_left _ (enumerate (pairs vs)) _) as [m k]. cbn [fst snd] in *. destruct M as (M1 & M2 & M3).
  rewrite pairs_length in M3. split.
  - destruct M3 as [[M3 _]|M3]; [exact M3|]. injection M3 as _ ->. lia.
  - assert (M1' : forall i, (i < length vs - 1)%nat -> m <= seg_dist vs p i).
    { intros i Hi. apply (M1 (vert vs i, vert vs (i + 1))). replace (vert vs i, vert vs (i + 1)) with (nth i (pairs vs) (vzero, vzero)) by now rewrite pairs_nth by lia.
      apply nth_In. now rewrite pairs_length. }
    intros [i0 [Hi0 D0]] i Hi. destruct M3 as [[M3 M4]|M3].
    + rewrite pairs_nth in M4 by lia. cbn [fst snd] in M4. fold (vert vs k) (vert vs (k + 1)) in M4. fold (seg_dist vs p k) in M4. rewrite <- M4. now apply M1'.
    + injection M3 as -> _. specialize (M1' i0 Hi0). lra.
Qed.
Lemma foot_normalize vs p k : dot3 (vsub p (vert vs k)) (normalize3 (vsub (vert vs (k + 1)) (vert vs k))) = foot vs p k.
Proof.
  unfold foot, normalize3. change (length3 (vsub (vert vs (k + 1)) (vert vs k))) with (distance3 (vert vs (k + 1)) (vert vs k)).
  rewrite dist3_distance. fold (seg_len vs k). unfold dot3. vsimp. unfold Rdiv. ring.
Qed.
Lemma fsum_firstn pl k : is_polyline pl -> (k <= length (pl_vertices pl) - 1)%nat -> fsum (firstn k (pl_segment_lengths pl)) = arc (pl_vertices pl) k.
Proof.
  intros [Hc Hs Hd _] Hk. rewrite fsum_sumf, firstn_length, Nat.min_l by lia. apply sumf_ext. intros i Hi.
  rewrite <- Hd by lia. rewrite <- (firstn_skipn k (pl_segment_lengths pl)) at 2. rewrite app_nth1 by (rewrite firstn_length; lia). reflexivity.
Qed.
(** The exact value of project: clamped (arc length of the nearest segment's start + unclamped foot) / length. *)
Theorem C31_project_value (pl : Polyline R) (p : vec3 R) : is_polyline pl ->
  let vs := pl_vertices pl in let k := polyline_nearest_segment pl p in
  (k < length vs - 1)%nat /\
  polyline_project pl p = Ok (Rmax 0 (Rmin 1 ((arc vs k + foot vs p k) / total vs))).
Proof.
  intros H. cbv zeta. destruct (nearest_segment pl p H) as [Hk _]. cbv zeta in Hk. split; [exact Hk|].
  unfold polyline_project. cbv zeta. set (k := polyline_nearest_segment pl p) in *.
  rewrite (idx_nth _ _ vzero) by lia. cbn [obind]. rewrite (idx_nth _ _ vzero) by lia. cbn [obind].
  fold (vert (pl_vertices pl) k). fold (vert (pl_vertices pl) (k + 1)). rewrite foot_normalize, fsum_firstn by (auto; lia).
  rewrite (ip_len _ H). unfold fclamp. rnum. rewrite (proj2 (Rleb_true 0 1)) by lra. f_equal.
  set (x := (arc (pl_vertices pl) k + foot (pl_vertices pl) p k) / total (pl_vertices pl)).
  destruct (Rltb_spec x 0) as [P|P].
  - rewrite (proj2 (Rltb_false 1 0)) by lra. rewrite Rmin_right by lra. rewrite Rmax_left by lra. reflexivity.
  - destruct (Rltb_spec 1 x) as [Q|Q]; [rewrite Rmin_left, Rmax_right by lra|rewrite Rmin_right, Rmax_right by lra]; reflexivity.
Qed.
Theorem C31_in_range (pl : Polyline R) (p : vec3 R) : is_polyline pl -> exists t, polyline_project pl p = Ok t /\ 0 <= t <= 1.
Proof.
  intros H. destruct (C31_project_value pl p H) as [_ E]. eexists. split; [exact E|]. split; [apply Rmax_l|].
  apply Rmax_lub; [lra|apply Rmin_l].
Qed.

Lemma segment_min a b p s : let B := dot3 (vsub p a) (vsub b a) in let C := dot3 (vsub b a) (vsub b a) in
  (s = 0 /\ B <= 0 \/ s = 1 /\ C <= B \/ s * C = B) -> 0 <= s <= 1 -> forall s', 0 <= s' <= 1 ->
  dist3 p (on_segment3 a b s) <= dist3 p (on_segment3 a b s').
Proof.
  intros B C Hs Hr s' Hs'. unfold dist3. apply sqrt_le_1_alt.
  assert (Q : forall s, (x3 p - x3 (on_segment3 a b s)) ^ 2 + (y3 p - y3 (on_segment3 a b s)) ^ 2 + (z3 p - z3 (on_segment3 a b s)) ^ 2 =
     dot3 (vsub p a) (vsub p a) - 2 * s * B + s * s * C) by (intros; unfold B, C, on_segment3, dot3; vsimp; ring).
  rewrite !Q. assert (HC : 0 <= C) by apply dot3_nonneg. clearbody B C. clear Q. set (A := dot3 (vsub p a) (vsub p a)). clearbody A.
  destruct Hs as [[-> HB]|[[-> HB]|HB]].
  - assert (0 <= s' * s' * C) by (apply Rmult_le_pos; [apply Rle_0_sqr|lra]). assert (0 <= s' * (- B)) by (apply Rmult_le_pos; lra). lra.
  - assert (0 <= (1 - s') * (2 * B - C * (1 + s'))); [|lra]. apply Rmult_le_pos; [lra|]. nra.
  - subst B. assert (0 <= C * ((s' - s) * (s' - s))) by (apply Rmult_le_pos; [lra|apply Rle_0_sqr]). lra.
Qed.

(** The nearest point is found whenever the foot of the perpendicular on the nearest segment lies in it, or the excess is at an end of the polyline. *)
Theorem C31_nearest (pl : Polyline R) (p : vec3 R) : is_polyline pl ->
  let vs := pl_vertices pl in let k := polyline_nearest_segment pl p in
  0 < total vs -> (exists i, (i < length vs - 1)%nat /\ seg_dist vs p i < RMAX) ->
  (0 <= foot vs p k <= seg_len vs k \/ k = 0%nat /\ foot vs p k <= 0 \/ k = (length vs - 2)%nat /\ seg_len vs k <= foot vs p k) ->
  exists t q, polyline_project pl p = Ok t /\ polyline_get_point pl t = Ok q /\ on_polyline vs q /\
    forall q', on_polyline vs q' -> dist3 p q <= dist3 p q'.
Proof.
  intros H vs k HL Hd Hcase. pose proof H as [Hc _ _ _]. fold vs in Hc.
  destruct (C31_project_value pl p H) as [Hk E]. cbv zeta in Hk, E. fold vs k in Hk, E.
  destruct (nearest_segment pl p H) as [_ Hmin]. cbv zeta in Hmin. fold vs k in Hmin. specialize (Hmin Hd).
  set (t := Rmax 0 (Rmin 1 ((arc vs k + foot vs p k) / total vs))) in *.
  set (a := vert vs k) in *. set (b := vert vs (k + 1)) in *.
  set (B := dot3 (vsub p a) (vsub b a)). set (C := dot3 (vsub b a) (vsub b a)).
  assert (Hseg : seg_len vs k * seg_len vs k = C).
  { unfold seg_len. rewrite <- dist3_distance. unfold distance3. apply length3_sq. }
  assert (Hfoot : foot vs p k = B / seg_len vs k) by reflexivity.
  pose proof (seg_len_nonneg vs k) as Hsn.
  assert (Hak : 0 <= arc vs k) by (apply (arc_mono vs 0 k); lia).
  assert (Hak1 : arc vs k + seg_len vs k <= total vs) by (rewrite <- arc_S; apply arc_mono; lia).
  (* the parameter on segment k *)
  assert (S : exists s, 0 <= s <= 1 /\ (s = 0 /\ B <= 0 \/ s = 1 /\ C <= B \/ s * C = B) /\ t * total vs = arc vs k + s * seg_len vs k).
  { destruct (Req_dec (seg_len vs k) 0) as [Z|Z].
    - assert (Hab : vsub b a = vzero).
      { apply length3_zero. change (length3 (vsub b a)) with (distance3 b a). rewrite dist3_distance. exact Z. }
      assert (B0 : B = 0) by (unfold B; rewrite Hab; unfold dot3; vsimp; ring).
      assert (F0 : foot vs p k = 0) by (rewrite Hfoot, B0; unfold Rdiv; ring).
      exists 0. split; [lra|]. split; [left; split; lra|]. unfold t. rewrite F0.
      assert (0 <= arc vs k / total vs <= 1).
      { split; [apply Rmult_le_pos; [lra|left; now apply Rinv_0_lt_compat]|]. apply Rmult_le_reg_r with (total vs); [lra|]. unfold Rdiv. rewrite Rmult_assoc, Rinv_l by (intro; lra). lra. }
      rewrite Rplus_0_r, Rmin_right, Rmax_right by lra. field. intro; lra.
    - assert (HBf : B = foot vs p k * seg_len vs k) by (rewrite Hfoot; field; exact Z).
      assert (Inside : forall x, 0 <= x <= total vs -> Rmax 0 (Rmin 1 (x / total vs)) * total vs = x).
      { intros x Hx. assert (0 <= x / total vs <= 1).
        { split; [apply Rmult_le_pos; [lra|left; now apply Rinv_0_lt_compat]|]. apply Rmult_le_reg_r with (total vs); [lra|]. unfold Rdiv. rewrite Rmult_assoc, Rinv_l by (intro; lra). lra. }
        rewrite Rmin_right, Rmax_right by lra. field. intro; lra. }
      destruct Hcase as [Hf|[[Hk0 Hf]|[Hk0 Hf]]].
      + exists (foot vs p k / seg_len vs k). split; [|split].
        * split; [apply Rmult_le_pos; [lra|left; apply Rinv_0_lt_compat; lra]|]. apply Rmult_le_reg_r with (seg_len vs k); [lra|]. unfold Rdiv. rewrite Rmult_assoc, Rinv_l by exact Z. lra.
        * right; right. rewrite HBf, <- Hseg. field. exact Z.
        * unfold t. rewrite Inside by lra. field. exact Z.
      + exists 0. split; [lra|]. split; [left; split; [reflexivity|rewrite HBf; nra]|]. assert (A0 : arc vs k = 0) by (rewrite Hk0; reflexivity).
        unfold t. rewrite A0. assert ((0 + foot vs p k) / total vs <= 0).
        { unfold Rdiv. assert (0 < / total vs) by now apply Rinv_0_lt_compat. nra. }
        rewrite Rmin_right, Rmax_left by lra. lra.
      + exists 1. split; [lra|]. split; [right; left; split; [reflexivity|rewrite HBf, <- Hseg; nra]|].
        assert (HT : arc vs k + seg_len vs k = total vs) by (rewrite <- arc_S; unfold total; f_equal; lia).
        unfold t. assert (1 <= (arc vs k + foot vs p k) / total vs).
        { apply Rmult_le_reg_r with (total vs); [lra|]. unfold Rdiv. rewrite Rmult_assoc, Rinv_l by (intro; lra). lra. }
        rewrite Rmin_left, Rmax_right by lra. lra. }
  destruct S as [s (Hs & Hsc & Ht)].
  assert (Ht01 : 0 <= t <= 1). { unfold t. split; [apply Rmax_l|]. apply Rmax_lub; [lra|apply Rmin_l]. }
  set (q := on_segment3 a b s).
  assert (A : at_arc vs (t * total vs) q) by (exists k, s; repeat split; auto; try lra; lia).
  exists t, q. split; [exact E|]. split; [now apply C30_get_point_iff|]. split; [now exists (t * total vs)|].
  intros q' (l & k' & s' & Hk' & Hs' & -> & _).
  destruct (C25_segment_distance_3d a b p) as [_ [s0 [Hs0 E0]]]. destruct (C25_segment_distance_3d (vert vs k') (vert vs (k' + 1)) p) as [L' _].
  apply Rle_trans with (dist3 p (on_segment3 a b s0)); [now apply segment_min|]. rewrite E0.
  apply Rle_trans with (seg_dist vs p k'); [apply Hmin; lia|now apply L'].
Qed.
(** In particular project is a right inverse of get_point: points of the polyline are found again. *)
Lemma dist3_zero_eq p q : dist3 p q = 0 -> p = q.
Proof.
  intros E. rewrite <- dist3_distance in E. unfold distance3 in E. apply length3_zero in E.
  apply vec3_ext; [apply (f_equal x3) in E|apply (f_equal y3) in E|apply (f_equal z3) in E]; vsimp; lra.
Qed.
Lemma dist3_refl p : dist3 p p = 0.
Proof. unfold dist3. rewrite !Rminus_diag_eq by reflexivity. replace (0 ^ 2 + 0 ^ 2 + 0 ^ 2) with 0 by ring. apply sqrt_0. Qed.
Theorem C31_roundtrip (pl : Polyline R) (q : vec3 R) : is_polyline pl ->
  let vs := pl_vertices pl in 0 < total vs -> on_polyline vs q ->
  exists t, polyline_project pl q = Ok t /\ 0 <= t <= 1 /\ polyline_get_point pl t = Ok q.
Proof.
  intros H vs HL Hon. pose proof Hon as (l & k0 & s0 & Hk0 & Hs0 & Hq & _). pose proof H as [Hc _ _ _]. fold vs in Hc.
  assert (D0 : seg_dist vs q k0 <= 0).
  { destruct (C25_segment_distance_3d (vert vs k0) (vert vs (k0 + 1)) q) as [L _]. rewrite <- (dist3_refl q). rewrite Hq at 3. now apply L. }
  assert (HM : 0 < RMAX) by (unfold RMAX; apply IZR_lt; vm_compute; reflexivity).
  assert (Hex : exists i, (i < length vs - 1)%nat /\ seg_dist vs q i < RMAX) by (exists k0; split; [lia|lra]).
  set (k := polyline_nearest_segment pl q).
  destruct (nearest_segment pl q H) as [Hk Hmin]. cbv zeta in Hk, Hmin. fold vs k in Hk, Hmin.
  assert (Dk : seg_dist vs q k <= 0) by (specialize (Hmin Hex k0 ltac:(lia)); lra).
  destruct (C25_segment_distance_3d (vert vs k) (vert vs (k + 1)) q) as [_ [s [Hs Es]]].
  assert (Eq : q = on_segment3 (vert vs k) (vert vs (k + 1)) s).
  { apply dist3_zero_eq. rewrite Es. fold (seg_dist vs q k). apply Rle_antisym; [exact Dk|]. unfold seg_dist. rewrite <- Es. apply dist3_nonneg. }
  assert (Hf : foot vs q k = s * seg_len vs k).
  { unfold foot. replace (dot3 (vsub q (vert vs k)) (vsub (vert vs (k + 1)) (vert vs k))) with (s * (seg_len vs k * seg_len vs k)).
    - destruct (Req_dec (seg_len vs k) 0) as [Z|Z]; [rewrite Z; unfold Rdiv; ring|field; exact Z].
    - unfold seg_len. rewrite <- dist3_distance. unfold distance3. rewrite length3_sq. rewrite Eq at 1. unfold on_segment3, dot3. vsimp. ring. }
  destruct (C31_nearest pl q H HL Hex) as (t & q1 & E1 & E2 & _ & HN).
  { left. fold vs k. rewrite Hf. pose proof (seg_len_nonneg vs k). split; nra. }
  fold vs in HN. assert (q1 = q).
  { symmetry. apply dist3_zero_eq. apply Rle_antisym; [|apply dist3_nonneg]. rewrite <- (dist3_refl q).
    now apply HN. }
  subst q1. exists t. split; [exact E1|]. split; [|exact E2].
  destruct (C31_in_range pl q H) as [t' [E' Ht']]. rewrite E1 in E'. apply Ok_inj in E'. now subst.
Qed.

(** At a corner the foot may lie beyond the segment's end although the next segment is not nearer: project then runs past the corner.
    Polyline (0,0) (1,0) (1,-1), point (2,1): the nearest point is the corner (1,0), the result is the far end (1,-1). *)
Theorem C31_corner_refuted :
  exists pl, polyline_new [v64 0 0 0; v64 1 0 0; v64 1 (-1) 0] = Ok pl /\
    obind (polyline_project pl (v64 2 1 0)) (polyline_get_point pl) = Ok (v64 1 (-1) 0) /\
    SFltb (distance_squared3 (v64 2 1 0) (v64 1 0 0)) (distance_squared3 (v64 2 1 0) (v64 1 (-1) 0)) = true.
Proof. eexists. split; [vm_compute; reflexivity|]. split; vm_compute; reflexivity. Qed.
Example C31_nonvacuous : exists pl, polyline_new corner = Ok pl /\ is_polyline pl /\ 0 < total (pl_vertices pl) /\ on_polyline (pl_vertices pl) (V3 1 1 0).
Proof.
  destruct C30_nonvacuous as (pl & E & H & A). exists pl. split; [exact E|]. split; [exact H|].
  destruct (C30_new corner) as [_ B]. destruct (B pl E) as [-> _]. split; [|now exists 2].
  destruct A as (k & s & Hk & Hs & _ & El). unfold total.
  assert (arc corner k + seg_len corner k <= arc corner (length corner - 1)) by (rewrite <- arc_S; apply arc_mono; lia).
  pose proof (seg_len_nonneg corner k). nra.
Qed.

(** ** C32: degree 1 B-splines *)
(** Knots proportional to the arc length of the control polygon over [lo,hi]. *)
Definition chord_knots (cps : list (vec3 R)) (ks : list R) (lo hi : R) : Prop :=
  nth 0 ks 0 = lo /\ nth (length cps + 1) ks 0 = hi /\
  forall i, (i < length cps)%nat -> nth (i + 1) ks 0 = lo + (hi - lo) * (arc cps i / total cps).
Lemma degree1_eval c u s : valid_bspline c -> bs_degree c = 1%nat -> is_span (bs_knots c) u s -> (1 <= s < length (bs_cps c))%nat ->
  let t i := nth i (bs_knots c) 0 in
  bspline3_get_point c u = Ok (on_segment3 (vert (bs_cps c) (s - 1)) (vert (bs_cps c) s) ((u - t s) / (t (s + 1)%nat - t s))).
Proof.
  intros Hv Hd Hspan Hs t. rewrite (bspline_eval c u s Hv Hspan). rewrite Hd. f_equal.
  pose proof Hspan as (_ & Hne & _). fold (t s) (t (s + 1)%nat) in Hne.
  set (al := (u - t s) / (t (s + 1)%nat - t s)).
  set (w := fun i => cdb (fun i => nth i (bs_knots c) 0) s 1 i u).
  assert (Hw : forall i, w i = (if (i =? s)%nat then al else 0) + (if (i =? s - 1)%nat then 1 - al else 0)).
  { intros i. unfold w. cbn [cdb]. fold (t i). unfold ratio. destruct (Nat.eqb_spec i s) as [->|N].
    - rewrite (proj2 (Nat.eqb_neq (s + 1) s)) by lia. rewrite (proj2 (Nat.eqb_neq s (s - 1))) by lia. fold (t s) (t (s + 1)%nat).
      destruct (Req_EM_T (t (s + 1)%nat - t s) 0); [lra|]. unfold al. lra.
    - destruct (Nat.eqb_spec i (s - 1)) as [->|N'].
      + replace (s - 1 + 1)%nat with s by lia. rewrite Nat.eqb_refl. fold (t (s + 1)%nat) (t s). replace (s - 1 + 1 + 1)%nat with (s + 1)%nat by lia.
        replace (s - 1 + 1)%nat with s by lia. fold (t (s + 1)%nat) (t s).
        destruct (Req_EM_T (t (s + 1)%nat - t s) 0); [lra|]. unfold al. field. lra.
      + rewrite (proj2 (Nat.eqb_neq (i + 1) s)) by lia. ring. }
  assert (HC : forall cc : vec3 R -> R, linear cc -> cc (comb3 w (bs_cps c)) = al * cc (vert (bs_cps c) s) + (1 - al) * cc (vert (bs_cps c) (s - 1))).
  { intros cc Hcc. rewrite comb3_coord by exact Hcc.
    rewrite (sumf_ext _ (fun i => (if (i =? s)%nat then al * cc (vert (bs_cps c) s) else 0) + (if (i =? s - 1)%nat then (1 - al) * cc (vert (bs_cps c) (s - 1)) else 0))).
    - rewrite sumf_plus. f_equal.
      + rewrite (sumf_single _ _ s); [now rewrite Nat.eqb_refl|lia|intros i _ Ni; now rewrite (proj2 (Nat.eqb_neq _ _) Ni)].
      + rewrite (sumf_single _ _ (s - 1)); [now rewrite Nat.eqb_refl|lia|intros i _ Ni; now rewrite (proj2 (Nat.eqb_neq _ _) Ni)].
    - intros i Hi. rewrite Hw. fold (vert (bs_cps c) i). destruct (Nat.eqb_spec i s) as [E1|N], (Nat.eqb_spec i (s - 1)) as [E2|N2]; try lia; subst; ring. }
  apply vec3_ext; [rewrite (HC x3 linear_x3)|rewrite (HC y3 linear_y3)|rewrite (HC z3 linear_z3)]; unfold on_segment3; cbn [x3 y3 z3]; ring.
Qed.
Section Chord.
Context (c : BSpline R (vec3 R)) (lo hi : R) (Hv : valid_bspline c) (Hd : bs_degree c = 1%nat) (H2 : (2 <= length (bs_cps c))%nat)
  (Hlt : lo < hi) (HT : 0 < total (bs_cps c)) (Hk : chord_knots (bs_cps c) (bs_knots c) lo hi).
Let cps := bs_cps c.
Let n := length cps.
Let t i := nth i (bs_knots c) 0.
(** With chord-length knots the curve is the arc-length parametrised control polygon. *)
Theorem C32_chord_length_curve u : lo <= u <= hi ->
  exists q, bspline3_get_point c u = Ok q /\ at_arc cps ((u - lo) / (hi - lo) * total cps) q.
Proof.
  intros Hu. pose proof Hv as [Hs _ HL _]. rewrite Hd in HL. fold cps n in HL, H2. destruct Hk as (K0 & K1 & K). fold cps n in K, K1.
  assert (Kn : nth (length (bs_knots c) - 1) (bs_knots c) 0 = hi) by (rewrite HL; replace (n + 1 + 1 - 1)%nat with (n + 1)%nat by lia; exact K1).
  destruct (span_exists (bs_knots c) u Hs) as [s Hspan]; [lia|rewrite K0, Kn; lra|rewrite K0; lra|].
  pose proof Hspan as (Hs1 & Hne & Hle & Hhi). fold (t s) (t (s + 1)%nat) in Hne, Hle, Hhi.
  fold cps in HT.
  assert (A0 : arc cps 0 = 0) by (unfold arc; reflexivity).
  assert (T1 : t 1%nat = lo). { pose proof (K 0%nat ltac:(lia)) as Q. cbn [Nat.add] in Q. unfold t. rewrite Q, A0. unfold Rdiv. lra. }
  assert (Tn : t n = hi). { pose proof (K (n - 1)%nat ltac:(lia)) as Q. replace (n - 1 + 1)%nat with n in Q by lia. unfold t. rewrite Q. unfold total in HT |- *. fold n in HT |- *. field. intro; lra. }
  assert (S1 : (1 <= s)%nat). { destruct s; [exfalso; cbn in Hne; rewrite T1 in Hne; unfold t in Hne; rewrite K0 in Hne; lra|lia]. }
  assert (S2 : (s < n)%nat).
  { destruct (Nat.lt_ge_cases s n) as [L|L]; [exact L|exfalso]. assert (s = n) by lia. subst s. rewrite Tn in Hne. unfold t in Hne. rewrite K1 in Hne. lra. }
  rewrite (degree1_eval c u s Hv Hd Hspan) by (fold cps n; lia). fold cps t. eexists. split; [reflexivity|].
  assert (E1 : t s = lo + (hi - lo) * (arc cps (s - 1) / total cps)) by (unfold t; replace s with (s - 1 + 1)%nat at 1 by lia; apply K; lia).
  assert (E2 : t (s + 1)%nat = lo + (hi - lo) * ((arc cps (s - 1) + seg_len cps (s - 1)) / total cps)).
  { rewrite <- arc_S. replace (s - 1 + 1)%nat with s by lia. apply K. lia. }
  set (al := (u - t s) / (t (s + 1)%nat - t s)).
  assert (Hal : 0 <= al <= 1).
  { unfold al. split; [apply Rmult_le_pos; [lra|left; apply Rinv_0_lt_compat; lra]|].
    apply Rmult_le_reg_r with (t (s + 1)%nat - t s); [lra|]. unfold Rdiv. rewrite Rmult_assoc, Rinv_l by (intro; lra).
    destruct Hhi as [Hhi|[Hhi1 Hhi2]]; [lra|]. rewrite Kn in Hhi1. lra. }
  exists (s - 1)%nat, al. split; [fold n; lia|]. split; [exact Hal|]. split; [now replace (s - 1 + 1)%nat with s by lia|].
  assert (Hdl : t (s + 1)%nat - t s = (hi - lo) * (seg_len cps (s - 1) / total cps)) by (rewrite E1, E2; field; lra).
  assert (Hsl : seg_len cps (s - 1) <> 0). { intros Z. rewrite Z in Hdl. unfold Rdiv in Hdl. rewrite Rmult_0_l, Rmult_0_r in Hdl. lra. }
  unfold al. rewrite Hdl, E1. field. lra.
Qed.
(** Then project finds the points of the curve again. *)
Theorem C32_project_roundtrip u q : lo <= u <= hi -> bspline3_get_point c u = Ok q ->
  exists u', bspline3_project c q = Ok u' /\ lo <= u' <= hi /\ bspline3_get_point c u' = Ok q.
Proof.
  intros Hu E. destruct (C32_chord_length_curve u Hu) as [q' [E' A]]. rewrite E in E'. apply Ok_inj in E'. subst q'.
  destruct (C30_new cps) as [[_ P] B]. destruct (P H2) as [pl Epl]. destruct (B pl Epl) as [Vs Hpl].
  destruct (C31_roundtrip pl q Hpl) as (r & Er & Hr & Eg); [now rewrite Vs|rewrite Vs; eexists; exact A|].
  apply C30_get_point_iff in Eg; [|assumption..]. rewrite Vs in Eg.
  assert (Hu' : lo <= lo + (hi - lo) * r <= hi) by (split; nra).
  pose proof Hv as [_ _ HL _]. rewrite Hd in HL. destruct Hk as (K0 & K1 & K).
  exists (lo + (hi - lo) * r). split; [|split; [exact Hu'|]].
  - unfold bspline3_project. rewrite Hd. cbn [Nat.eqb]. fold cps. rewrite Epl. cbn [obind]. rewrite Er. cbn [obind].
    unfold knot_range. rewrite (idx_nth _ _ 0) by lia. cbn [obind]. rewrite usub_Ok by lia. cbn [obind]. rewrite (idx_nth _ _ 0) by lia. cbn [obind].
    rewrite K0, HL. replace (length (bs_cps c) + 1 + 1 - 1)%nat with (length (bs_cps c) + 1)%nat by lia. rewrite K1. reflexivity.
  - destruct (C32_chord_length_curve _ Hu') as [q' [E' A']]. rewrite E'. f_equal. apply (at_arc_unique cps (r * total cps)); [|exact Eg].
    replace (r * total cps) with ((lo + (hi - lo) * r - lo) / (hi - lo) * total cps) by (field; lra). exact A'.
Qed.
End Chord.
(** For other knots project does not even find the curve's own points: control points 0, 1, 3 on the x axis, knots 0 0 1/2 1 1,
    the point (1,0,0) = get_point(1/2) is projected to about 1/3, where the curve is at about 2/3. *)
Theorem C32_general_knots_refuted :
  let h := SFdiv p64 e64 (f64_of_Z 1) (f64_of_Z 2) in
  let c := mkBSpline [v64 0 0 0; v64 1 0 0; v64 3 0 0] [f64_of_Z 0; f64_of_Z 0; h; f64_of_Z 1; f64_of_Z 1] 1 in
  bspline3_get_point c h = Ok (v64 1 0 0) /\
  exists u q, bspline3_project c (v64 1 0 0) = Ok u /\ bspline3_get_point c u = Ok q /\ SFltb (x3 q) (SFdiv p64 e64 (f64_of_Z 7) (f64_of_Z 10)) = true.
Proof. split; [vm_compute; reflexivity|]. eexists. eexists. split; [vm_compute; reflexivity|]. split; [vm_compute; reflexivity|]. vm_compute. reflexivity. Qed.
(** Three control points at arc length 0, 1, 3 with the matching knots 0 0 1 3 3. *)
Definition chord_example : BSpline R (vec3 R) := mkBSpline corner [0; 0; 1; 3; 3] 1.
Example C32_nonvacuous : valid_bspline chord_example /\ 0 < total (bs_cps chord_example) /\ chord_knots (bs_cps chord_example) (bs_knots chord_example) 0 3.
Proof.
  assert (S0 : seg_len corner 0 = 1).
  { unfold seg_len, dist3, vert, corner. cbn [nth Nat.add]. vsimp. replace (_ + _) with (1 * 1) by ring. apply sqrt_square; lra. }
  assert (S1 : seg_len corner 1 = 2).
  { unfold seg_len, dist3, vert, corner. cbn [nth Nat.add]. vsimp. replace (_ + _) with (2 * 2) by ring. apply sqrt_square; lra. }
  assert (A0 : arc corner 0 = 0) by (unfold arc; reflexivity).
  assert (A1 : arc corner 1 = 1) by (change 1%nat with (0 + 1)%nat; rewrite arc_S, A0, S0; ring).
  assert (A2 : arc corner 2 = 3) by (change 2%nat with (1 + 1)%nat; rewrite arc_S, A1, S1; ring).
  assert (T : total corner = 3) by exact A2.
  split; [|split].
  - constructor; [| |cbn; lia|cbn; lia].
    + intros i j Hij. cbn in Hij. do 5 (destruct i as [|i]; [do 5 (destruct j as [|j]; [cbn; first [lra|lia]|]); lia|]). lia.
    + apply separated_ints. intros a Ha. cbn in Ha. repeat (destruct Ha as [<-|Ha]; [eexists; split; [reflexivity|lia]|]). destruct Ha.
  - cbn [bs_cps chord_example]. rewrite T. lra.
  - unfold chord_knots. cbn [bs_cps bs_knots chord_example]. split; [reflexivity|]. split; [reflexivity|]. rewrite T.
    intros i Hi. cbn in Hi. destruct i as [|[|[|i]]]; [rewrite A0|rewrite A1|rewrite A2|lia]; cbn [nth Nat.add]; lra.
Qed.
