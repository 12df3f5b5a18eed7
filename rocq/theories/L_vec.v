(** Linear functionals of points, weighted sums, elementary vector algebra over R. *)
From Coq Require Import Reals Lra Psatz.
From Verif Require Import Prelude Num M_vec M_utils M_curve L_base.
Open Scope R_scope.

Ltac vsimp :=
  cbn [vzero vadd vsub vmulr vmull VecOps2 VecOps3 VecOps4 x2 y2 x3 y3 z3 x4 y4 z4 w4
       dot2 perp_dot perp length_squared2 dot3 cross3 length_squared3 neg3 truncate4 divs2 divs3 lerp3] in *; rnum.

Lemma vec3_ext (a b : vec3 R) : x3 a = x3 b -> y3 a = y3 b -> z3 a = z3 b -> a = b.
Proof. destruct a, b; cbn; congruence. Qed.
Lemma vec2_ext (a b : vec2 R) : x2 a = x2 b -> y2 a = y2 b -> a = b.
Proof. destruct a, b; cbn; congruence. Qed.
Lemma vec4_ext (a b : vec4 R) : x4 a = x4 b -> y4 a = y4 b -> z4 a = z4 b -> w4 a = w4 b -> a = b.
Proof. destruct a, b; cbn; congruence. Qed.

(** A linear functional on points. *)
Record linear {P : Type} {VP : VecOps R P} (c : P -> R) : Prop := {
  lin_zero : c vzero = 0;
  lin_add : forall a b, c (vadd a b) = c a + c b;
  lin_sub : forall a b, c (vsub a b) = c a - c b;
  lin_mulr : forall a s, c (vmulr a s) = c a * s;
  lin_mull : forall s a, c (vmull s a) = s * c a;
}.
Arguments lin_zero {P VP c} _. Arguments lin_add {P VP c} _ _ _. Arguments lin_sub {P VP c} _ _ _.
Arguments lin_mulr {P VP c} _ _ _. Arguments lin_mull {P VP c} _ _ _.

Lemma linear_x3 : linear (P := vec3 R) x3.
Proof. split; intros; vsimp; ring. Qed.
Lemma linear_y3 : linear (P := vec3 R) y3.
Proof. split; intros; vsimp; ring. Qed.
Lemma linear_z3 : linear (P := vec3 R) z3.
Proof. split; intros; vsimp; ring. Qed.
Lemma linear_dot3 v : linear (P := vec3 R) (fun p => dot3 v p).
Proof. split; intros; unfold dot3; vsimp; ring. Qed.
Lemma linear_x4 : linear (P := vec4 R) x4.
Proof. split; intros; vsimp; ring. Qed.
Lemma linear_y4 : linear (P := vec4 R) y4.
Proof. split; intros; vsimp; ring. Qed.
Lemma linear_z4 : linear (P := vec4 R) z4.
Proof. split; intros; vsimp; ring. Qed.
Lemma linear_w4 : linear (P := vec4 R) w4.
Proof. split; intros; vsimp; ring. Qed.
#[global] Hint Resolve linear_x3 linear_y3 linear_z3 linear_dot3 linear_x4 linear_y4 linear_z4 linear_w4 : linear.

Lemma ws_fold_coord {P} {VP : VecOps R P} (c : P -> R) (Hc : linear c) (l : list (R * P)) (acc : P) :
  c (fold_left (fun point '(b, p) => vadd point (vmull b p)) l acc)
  = c acc + fold_right Rplus 0 (map (fun '(b, p) => b * c p) l).
Proof.
  revert acc. induction l as [|[b p] l IH]; intros acc; cbn [fold_left map fold_right]; [lra|].
  rewrite IH, (lin_add Hc), (lin_mull Hc). lra.
Qed.

Lemma sum_map_nth {A} (f : A -> R) (l : list A) d : fold_right Rplus 0 (map f l) = sumf (fun i => f (nth i l d)) (length l).
Proof.
  induction l as [|a l IH]; [reflexivity|].
  cbn [length map fold_right]. rewrite sumf_S_first. cbn [nth]. now rewrite IH.
Qed.

Lemma weighted_sum_coord {P} {VP : VecOps R P} (c : P -> R) (Hc : linear c) (basis : list R) (cps : list P) :
  c (weighted_sum basis cps) = sumf (fun i => nth i basis 0 * c (nth i cps vzero)) (Nat.min (length basis) (length cps)).
Proof.
  unfold weighted_sum. rewrite (ws_fold_coord c Hc), (lin_zero Hc), Rplus_0_l.
  rewrite (sum_map_nth _ _ (0, vzero)), combine_length.
  apply sumf_ext. intros i Hi.
  assert (E : nth i (combine basis cps) (0, vzero) = (nth i basis 0, nth i cps vzero)).
  { clear - Hi. revert cps i Hi. induction basis as [|b basis IH]; intros [|p cps] [|i] Hi; cbn in *; try lia; auto.
    apply IH. lia. }
  rewrite E. reflexivity.
Qed.

(** The linear combination of the points of a list with the weights [w i]: specification. *)
Definition comb3 (w : nat -> R) (cps : list (vec3 R)) : vec3 R :=
  V3 (sumf (fun i => w i * x3 (nth i cps vzero)) (length cps))
     (sumf (fun i => w i * y3 (nth i cps vzero)) (length cps))
     (sumf (fun i => w i * z3 (nth i cps vzero)) (length cps)).

Lemma comb3_coord (c : vec3 R -> R) (Hc : linear c) w cps :
  c (comb3 w cps) = sumf (fun i => w i * c (nth i cps vzero)) (length cps).
Proof.
  assert (Hx : forall p, c p = c (V3 1 0 0) * x3 p + c (V3 0 1 0) * y3 p + c (V3 0 0 1) * z3 p).
  { intros p. assert (E : p = vadd (vadd (vmull (x3 p) (V3 1 0 0)) (vmull (y3 p) (V3 0 1 0))) (vmull (z3 p) (V3 0 0 1))).
    { apply vec3_ext; vsimp; ring. }
    rewrite E at 1. rewrite !(lin_add Hc), !(lin_mull Hc). ring. }
  rewrite (Hx (comb3 w cps)). unfold comb3. cbn [x3 y3 z3].
  rewrite <- !sumf_scal, <- !sumf_plus. apply sumf_ext. intros i _.
  rewrite (Hx (nth i cps vzero)). ring.
Qed.

Lemma weighted_sum_comb3 basis cps : length basis = length cps ->
  weighted_sum basis cps = comb3 (fun i => nth i basis 0) cps.
Proof.
  intros H. apply vec3_ext; rewrite weighted_sum_coord by auto with linear; rewrite H, Nat.min_id; reflexivity.
Qed.

Lemma comb3_ext w w' cps : (forall i, (i < length cps)%nat -> w i = w' i) -> comb3 w cps = comb3 w' cps.
Proof.
  intros H. unfold comb3. f_equal; apply sumf_ext; intros i Hi; now rewrite H.
Qed.

(** Convex combinations stay in every half space containing the points. *)
Lemma sumf_convex_le (w a : nat -> R) n b :
  (forall i, (i < n)%nat -> 0 <= w i) -> sumf w n = 1 ->
  (forall i, (i < n)%nat -> a i <= b) -> sumf (fun i => w i * a i) n <= b.
Proof.
  intros Hw Hs Ha. replace b with (sumf (fun i => w i * b) n).
  - apply sumf_le. intros i Hi. specialize (Hw i Hi). specialize (Ha i Hi). nra.
  - rewrite sumf_scal_r, Hs. lra.
Qed.

Lemma nth_map_default {A B} (f : A -> B) l i d d' : (i < length l)%nat -> nth i (map f l) d' = f (nth i l d).
Proof.
  intros H. rewrite (nth_indep _ d' (f d)) by now rewrite map_length. apply map_nth.
Qed.

(** Euclidean length *)
Lemma dot3_nonneg (a : vec3 R) : 0 <= dot3 a a.
Proof. unfold dot3; rnum. pose proof (Rle_0_sqr (x3 a)); pose proof (Rle_0_sqr (y3 a)); pose proof (Rle_0_sqr (z3 a)). unfold Rsqr in *. lra. Qed.
Lemma dot2_nonneg (a : vec2 R) : 0 <= dot2 a a.
Proof. unfold dot2; rnum. pose proof (Rle_0_sqr (x2 a)); pose proof (Rle_0_sqr (y2 a)). unfold Rsqr in *. lra. Qed.
Lemma length3_nonneg (a : vec3 R) : 0 <= length3 a.
Proof. apply sqrt_pos. Qed.
Lemma length3_sq (a : vec3 R) : length3 a * length3 a = dot3 a a.
Proof. apply sqrt_sqrt, dot3_nonneg. Qed.
Lemma length2_sq (a : vec2 R) : length2 a * length2 a = dot2 a a.
Proof. apply sqrt_sqrt, dot2_nonneg. Qed.
Lemma dot3_zero (a : vec3 R) : dot3 a a = 0 -> a = vzero.
Proof.
  intros H. unfold dot3 in H; rnum.
  apply vec3_ext; vsimp; nra.
Qed.
