(** Property C43: the segment intersection test of the mesher. *)
From Coq Require Import Reals Lra Psatz Lia Arith ZArith Floats.SpecFloat.
From Verif Require Import Prelude Num M_vec M_utils M_polygon M_meshgen L_base L_vec L_geom L_f64 Props_polygon.
Open Scope R_scope.

(** ** Specification: closed segments, and sharing a point *)
Definition on_seg (a b q : vec2 R) : Prop := exists s, 0 <= s <= 1 /\ x2 q = x2 a + s * (x2 b - x2 a) /\ y2 q = y2 a + s * (y2 b - y2 a).
Definition segments_meet (a b c d : vec2 R) : Prop := exists q, on_seg a b q /\ on_seg c d q.

Definition between (lo hi x : R) : Prop := Rmin lo hi <= x <= Rmax lo hi.
Lemma between_cases u v x : between u v x <-> u <= x <= v \/ v <= x <= u.
Proof. unfold between, Rmin, Rmax. destruct (Rle_dec u v); lra. Qed.
Lemma between_param u v x : u <> v -> between u v x -> 0 <= (x - u) / (v - u) <= 1.
Proof.
  intros N H. rewrite between_cases in H. assert (D : v - u <> 0) by lra.
  assert (E : (x - u) / (v - u) * (v - u) = x - u) by (field; exact D). set (s := (x - u) / (v - u)) in *. clearbody s. destruct H; nra.
Qed.
(** a point on the line of a segment whose x (or y, if the segment is vertical) is in range is on the segment *)
Lemma on_seg_x u v p : tri_area2 u v p = 0 -> x2 u <> x2 v -> between (x2 u) (x2 v) (x2 p) -> on_seg u v p.
Proof.
  intros HA N HB. exists ((x2 p - x2 u) / (x2 v - x2 u)). split; [now apply between_param|]. split; [field; lra|].
  unfold tri_area2 in HA. apply (Rmult_eq_reg_l (x2 v - x2 u)); [|lra].
  replace ((x2 v - x2 u) * (y2 u + (x2 p - x2 u) / (x2 v - x2 u) * (y2 v - y2 u))) with ((x2 v - x2 u) * y2 u + (x2 p - x2 u) * (y2 v - y2 u)) by (field; lra). lra.
Qed.
Lemma on_seg_y u v p : tri_area2 u v p = 0 -> y2 u <> y2 v -> between (y2 u) (y2 v) (y2 p) -> on_seg u v p.
Proof.
  intros HA N HB. exists ((y2 p - y2 u) / (y2 v - y2 u)). split; [now apply between_param|]. split; [|field; lra].
  unfold tri_area2 in HA. apply (Rmult_eq_reg_l (y2 v - y2 u)); [|lra].
  replace ((y2 v - y2 u) * (x2 u + (y2 p - y2 u) / (y2 v - y2 u) * (x2 v - x2 u))) with ((y2 v - y2 u) * x2 u + (y2 p - y2 u) * (x2 v - x2 u)) by (field; lra). lra.
Qed.
Lemma on_seg_start u v : on_seg u v u.
Proof. exists 0. split; [lra|]. split; ring. Qed.
Lemma on_seg_end u v : on_seg u v v.
Proof. exists 1. split; [lra|]. split; ring. Qed.
Lemma on_seg_refl u v p : x2 p = x2 u -> y2 p = y2 u -> on_seg u v p.
Proof. intros E1 E2. exists 0. split; [lra|]. split; lra. Qed.
Lemma meet_sym a b c d : segments_meet a b c d -> segments_meet c d a b.
Proof. intros (q & H1 & H2). now exists q. Qed.

Definition overlap (a b c d : R) : Prop := ~ Rmax c d < Rmin a b /\ ~ Rmax a b < Rmin c d.
Lemma overlap_common a b c d : overlap a b c d -> between a b c \/ between a b d \/ between c d a \/ between c d b.
Proof. unfold overlap, between, Rmin, Rmax. destruct (Rle_dec a b), (Rle_dec c d); lra. Qed.
Lemma collinear_meet a b c d : tri_area2 c d a = 0 -> tri_area2 c d b = 0 -> tri_area2 a b c = 0 -> tri_area2 a b d = 0 ->
  overlap (x2 a) (x2 b) (x2 c) (x2 d) -> overlap (y2 a) (y2 b) (y2 c) (y2 d) -> segments_meet a b c d.
Proof.
  intros Ha Hb Hc Hd OX OY.
  destruct (Req_dec (x2 a) (x2 b)) as [Xab|Xab]; [destruct (Req_dec (x2 c) (x2 d)) as [Xcd|Xcd]|].
  - (* both vertical (or points) *)
    destruct (Req_dec (x2 a) (x2 c)) as [Xac|Xac].
    2:{ exfalso. revert OX. unfold overlap, Rmin, Rmax. destruct (Rle_dec (x2 a) (x2 b)), (Rle_dec (x2 c) (x2 d)); lra. }
    destruct (Req_dec (y2 a) (y2 b)) as [Yab|Yab]; [destruct (Req_dec (y2 c) (y2 d)) as [Ycd|Ycd]|].
    + exists a. split; [apply on_seg_start|]. apply on_seg_refl; [lra|]. revert OY. unfold overlap, Rmin, Rmax. destruct (Rle_dec (y2 a) (y2 b)), (Rle_dec (y2 c) (y2 d)); lra.
    + exists a. split; [apply on_seg_start|]. apply on_seg_y; [exact Ha|exact Ycd|]. apply overlap_common in OY. rewrite !between_cases in *. lra.
    + apply overlap_common in OY as [K|[K|[K|K]]].
      * exists c. split; [now apply on_seg_y|apply on_seg_start].
      * exists d. split; [now apply on_seg_y|apply on_seg_end].
      * destruct (Req_dec (y2 c) (y2 d)) as [Ycd|Ycd]; [|exists a; split; [apply on_seg_start|now apply on_seg_y]].
        exists a. split; [apply on_seg_start|]. apply on_seg_refl; rewrite between_cases in K; lra.
      * destruct (Req_dec (y2 c) (y2 d)) as [Ycd|Ycd]; [|exists b; split; [apply on_seg_end|now apply on_seg_y]].
        exists b. split; [apply on_seg_end|]. apply on_seg_refl; rewrite between_cases in K; lra.
  - (* a b vertical, c d not: a = b *)
    assert (Yab : y2 a = y2 b). { revert Ha Hb. unfold tri_area2. rewrite <- Xab. intros. apply (Rmult_eq_reg_l (x2 d - x2 c)); lra. }
    exists a. split; [apply on_seg_start|]. apply on_seg_x; [exact Ha|exact Xcd|]. apply overlap_common in OX. rewrite !between_cases in *. lra.
  - apply overlap_common in OX as [K|[K|[K|K]]].
    + exists c. split; [now apply on_seg_x|apply on_seg_start].
    + exists d. split; [now apply on_seg_x|apply on_seg_end].
    + destruct (Req_dec (x2 c) (x2 d)) as [Xcd|Xcd]; [|exists a; split; [apply on_seg_start|now apply on_seg_x]].
      assert (Ycd : y2 c = y2 d). { revert Hc Hd. unfold tri_area2. rewrite <- Xcd. intros. apply (Rmult_eq_reg_l (x2 b - x2 a)); lra. }
      exists c. split; [|apply on_seg_start]. apply on_seg_x; [exact Hc|exact Xab|]. rewrite !between_cases in *. lra.
    + destruct (Req_dec (x2 c) (x2 d)) as [Xcd|Xcd]; [|exists b; split; [apply on_seg_end|now apply on_seg_x]].
      exists c. split; [|apply on_seg_start]. apply on_seg_x; [exact Hc|exact Xab|]. rewrite !between_cases in *. lra.
Qed.
Lemma straddle_param o1 o2 : o1 <> o2 -> o1 * o2 <= 0 -> 0 <= o1 / (o1 - o2) <= 1.
Proof.
  intros N H. assert (E : o1 / (o1 - o2) * (o1 - o2) = o1) by (field; lra). set (s := o1 / (o1 - o2)) in *. clearbody s.
  assert (D : (o1 - o2) * (o1 - o2) > 0) by nra. assert (E2 : s * ((o1 - o2) * (o1 - o2)) = o1 * o1 - o1 * o2) by (rewrite <- Rmult_assoc, E; ring). split; nra.
Qed.
Lemma straddle_meet a b c d : tri_area2 c d a * tri_area2 c d b <= 0 -> tri_area2 a b c * tri_area2 a b d <= 0 -> tri_area2 c d a <> tri_area2 c d b -> segments_meet a b c d.
Proof.
  intros H1 H2 N.
  assert (I1 : tri_area2 c d a - tri_area2 c d b = (x2 b - x2 a) * (y2 d - y2 c) - (x2 d - x2 c) * (y2 b - y2 a)) by (unfold tri_area2; ring).
  assert (I2 : tri_area2 a b c - tri_area2 a b d = - ((x2 b - x2 a) * (y2 d - y2 c) - (x2 d - x2 c) * (y2 b - y2 a))) by (unfold tri_area2; ring).
  assert (N2 : tri_area2 a b c <> tri_area2 a b d) by lra.
  pose proof (straddle_param _ _ N H1) as P1. pose proof (straddle_param _ _ N2 H2) as P2.
  set (D := (x2 b - x2 a) * (y2 d - y2 c) - (x2 d - x2 c) * (y2 b - y2 a)) in *. assert (ND : D <> 0) by lra.
  rewrite I1 in P1. rewrite I2 in P2. set (s := tri_area2 c d a / D) in *. set (t := tri_area2 a b c / - D) in *.
  exists (V2 (x2 a + s * (x2 b - x2 a)) (y2 a + s * (y2 b - y2 a))). split; [exists s; cbn [x2 y2]; auto|]. exists t. split; [exact P2|]. cbn [x2 y2].
  assert (Es : D * s = tri_area2 c d a) by (unfold s; field; exact ND). assert (Et : D * t = - tri_area2 a b c) by (unfold t; field; exact ND).
  split; (apply (Rmult_eq_reg_l D); [|exact ND]).
  - replace (D * (x2 a + s * (x2 b - x2 a))) with (D * x2 a + (D * s) * (x2 b - x2 a)) by ring. replace (D * (x2 c + t * (x2 d - x2 c))) with (D * x2 c + (D * t) * (x2 d - x2 c)) by ring.
    rewrite Es, Et. unfold D, tri_area2. ring.
  - replace (D * (y2 a + s * (y2 b - y2 a))) with (D * y2 a + (D * s) * (y2 b - y2 a)) by ring. replace (D * (y2 c + t * (y2 d - y2 c))) with (D * y2 c + (D * t) * (y2 d - y2 c)) by ring.
    rewrite Es, Et. unfold D, tri_area2. ring.
Qed.
Lemma fmin_R (x y : R) : fmin x y = Rmin x y.
Proof. unfold fmin. rewrite !fisnan_R. rnum. unfold Rmin. destruct (Rleb_spec x y), (Rle_dec x y); lra. Qed.
Lemma fmax_R (x y : R) : fmax x y = Rmax x y.
Proof. unfold fmax. rewrite !fisnan_R. rnum. unfold Rmax. destruct (Rleb_spec y x), (Rle_dec x y); lra. Qed.
Theorem C43_segments_intersect (a b c d : vec2 R) : is_segments_intersect a b c d = true <-> segments_meet a b c d.
Proof.
  unfold is_segments_intersect. cbv zeta.
  replace (perp_dot (vsub c a) (vsub d a) * perp_dot (vsub d b) (vsub c b))%num with (- (tri_area2 c d a * tri_area2 c d b)) by (unfold tri_area2, perp_dot; vsimp; rnum; ring).
  replace (perp_dot (vsub c a) (vsub c b) * perp_dot (vsub d b) (vsub d a))%num with (- (tri_area2 a b c * tri_area2 a b d)) by (unfold tri_area2, perp_dot; vsimp; rnum; ring).
  set (boxes := (_ || _)%bool).
  assert (HB : boxes = false <-> overlap (x2 a) (x2 b) (x2 c) (x2 d) /\ overlap (y2 a) (y2 b) (y2 c) (y2 d)).
  { unfold boxes, overlap. clear. rewrite !orb_false_iff. 
    assert (E : forall p q r s : R, (fmax r s <? fmin p q)%num = false <-> ~ Rmax r s < Rmin p q).
    { intros p q r s. rewrite fmin_R, fmax_R. rnum. destruct (Rltb_spec (Rmax r s) (Rmin p q)); split; intros; try reflexivity; try discriminate; lra. }
    rewrite !E. tauto. }
  change (@fltb R RNum) with Rltb. change (@f0 R RNum) with 0. split.
  - destruct boxes; [discriminate|]. destruct (proj1 HB eq_refl) as [OX OY].
    destruct (Rltb_spec (- (tri_area2 c d a * tri_area2 c d b)) 0) as [Q1|Q1]; [discriminate|]. destruct (Rltb_spec (- (tri_area2 a b c * tri_area2 a b d)) 0) as [Q2|Q2]; [discriminate|]. intros _.
    destruct (Req_dec (tri_area2 c d a) (tri_area2 c d b)) as [E|N]; [|apply straddle_meet; lra].
    assert (I : tri_area2 c d a - tri_area2 c d b = - (tri_area2 a b c - tri_area2 a b d)) by (unfold tri_area2; ring).
    assert (E2 : tri_area2 a b c = tri_area2 a b d) by lra.
    apply collinear_meet; try assumption; nra.
  - intros (q & (s & Hs & Qx & Qy) & (t & Ht & Rx & Ry)).
    assert (OX : overlap (x2 a) (x2 b) (x2 c) (x2 d)).
    { split; unfold Rmin, Rmax; destruct (Rle_dec (x2 a) (x2 b)), (Rle_dec (x2 c) (x2 d)); nra. }
    assert (OY : overlap (y2 a) (y2 b) (y2 c) (y2 d)).
    { split; unfold Rmin, Rmax; destruct (Rle_dec (y2 a) (y2 b)), (Rle_dec (y2 c) (y2 d)); nra. }
    rewrite (proj2 HB (conj OX OY)).
    assert (Z1 : (1 - s) * tri_area2 c d a + s * tri_area2 c d b = 0).
    { replace 0 with (tri_area2 c d q); [unfold tri_area2; rewrite Qx, Qy; ring|unfold tri_area2; rewrite Rx, Ry; ring]. }
    assert (Z2 : (1 - t) * tri_area2 a b c + t * tri_area2 a b d = 0).
    { replace 0 with (tri_area2 a b q); [unfold tri_area2; rewrite Rx, Ry; ring|unfold tri_area2; rewrite Qx, Qy; ring]. }
    assert (P : forall u v r, 0 <= r <= 1 -> (1 - r) * u + r * v = 0 -> u * v <= 0).
    { clear. intros u v r Hr Z. destruct (Rle_dec (u * v) 0) as [H|H]; [exact H|exfalso]. assert (0 < u * v) by lra. assert (u <> 0) by nra. assert (v <> 0) by nra.
      destruct (Rdichotomy u 0 H1), (Rdichotomy v 0 H2); nra. }
    specialize (P _ _ s Hs Z1) as P1. specialize (P _ _ t Ht Z2) as P2.
    destruct (Rltb_spec (- (tri_area2 c d a * tri_area2 c d b)) 0); [lra|]. destruct (Rltb_spec (- (tri_area2 a b c * tri_area2 a b d)) 0); [lra|]. reflexivity.
Qed.
Example C43_nonvacuous : is_segments_intersect (V2 0 0) (V2 4 4) (V2 0 4) (V2 4 0) = true /\ is_segments_intersect (V2 0 0) (V2 4 0) (V2 1 1) (V2 3 2) = false.
Proof.
  split; [apply C43_segments_intersect; exists (V2 2 2); split; exists (1/2); cbn; lra|].
  apply not_true_iff_false. rewrite C43_segments_intersect. intros (q & (s & Hs & X & Y) & (t & Ht & X' & Y')). cbn in *. lra.
Qed.
(** In floating point the products can underflow: two parallel diagonals a hundred orders of magnitude below one are said to meet. *)
Theorem C43_underflow_refuted : let e (k : Z) := SFdiv p64 e64 (f64_of_Z k) (f64_of_Z (2 ^ 600)%Z) in
  is_segments_intersect (NF := F64Num) (V2 (e 0%Z) (e 0%Z)) (V2 (e 4%Z) (e 4%Z)) (V2 (e 0%Z) (e 1%Z)) (V2 (e 3%Z) (e 4%Z)) = true.
Proof. vm_compute. reflexivity. Qed.
