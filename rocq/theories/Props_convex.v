(** Property C82: curves of convex control polygons are convex. *)
From Coq Require Import Reals Lra Psatz Lia Arith ZArith List SpecFloat.
From Verif Require Import Prelude Num M_vec M_utils M_curve L_base L_vec L_bezier L_cdb L_insert L_knot L_bspline L_split Props_knot Props_bspline Props_split Props_bezier Props_utils Props_sampling Props_variation Props_rational.
Import ListNotations.
Open Scope R_scope.

(** ** Specification *)
(** twice the signed area of the triangle as seen with [ex] to the right and [ey] upwards: positive when the corners go round to the left *)
Definition turn (ex ey p q r : vec3 R) : R := (dot3 ex q - dot3 ex p) * (dot3 ey r - dot3 ey p) - (dot3 ey q - dot3 ey p) * (dot3 ex r - dot3 ex p).
(** the polygon goes to the right and never turns to the right: it is the graph of a convex function *)
Definition hanging (ex ey : vec3 R) (cps : list (vec3 R)) : Prop :=
  (forall i j, (i < j < length cps)%nat -> dot3 ex (nth i cps vzero) < dot3 ex (nth j cps vzero)) /\
  (forall i j k, (i < j)%nat -> (j < k < length cps)%nat -> 0 <= turn ex ey (nth i cps vzero) (nth j cps vzero) (nth k cps vzero)).
(** all triangles of corners, taken in order, go round to the left: a convex polygon passed once *)
Definition convex_polygon (ex ey : vec3 R) (cps : list (vec3 R)) : Prop :=
  forall i j k, (i < j)%nat -> (j < k < length cps)%nat -> 0 < turn ex ey (nth i cps vzero) (nth j cps vzero) (nth k cps vzero).
(** the line at height [d] of the linear form with the coefficients [a] and [b] in the picture *)
Definition in_picture (ex ey : vec3 R) (a b : R) : vec3 R := V3 (a * x3 ex + b * x3 ey) (a * y3 ex + b * y3 ey) (a * z3 ex + b * z3 ey).

Lemma dot_picture ex ey a b p : dot3 (in_picture ex ey a b) p = a * dot3 ex p + b * dot3 ey p.
Proof. unfold dot3, in_picture. cbn [x3 y3 z3]. rnum. ring. Qed.

(** ** Curves that hang *)
Theorem C82_convex gp cps lo hi ex ey : crossings_bounded gp cps lo hi -> hanging ex ey cps ->
  forall t1 t2 t3 p1 p2 p3, lo <= t1 -> t1 < t2 -> t2 < t3 -> t3 <= hi -> gp t1 = Ok p1 -> gp t2 = Ok p2 -> gp t3 = Ok p3 -> dot3 ex p1 <= dot3 ex p2 <= dot3 ex p3 /\ 0 <= turn ex ey p1 p2 p3.
Proof.
  intros H (M & T) t1 t2 t3 p1 p2 p3 H1 H12 H23 H3 E1 E2 E3.
  assert (M' : forall i j, (i < j < length cps)%nat -> dot3 ex (nth i cps vzero) <= dot3 ex (nth j cps vzero)) by (intros; left; now apply M).
  pose proof (C79_monotone gp cps lo hi ex H M' t1 t2 p1 p2 H1 H12 ltac:(lra) E1 E2) as X12. pose proof (C79_monotone gp cps lo hi ex H M' t2 t3 p2 p3 ltac:(lra) H23 H3 E2 E3) as X23. split; [lra|].
  destruct (Rle_dec 0 (turn ex ey p1 p2 p3)) as [|N]; [assumption|exfalso]. apply Rnot_le_lt in N.
  set (X := dot3 ex) in *. set (Y := dot3 ey). assert (X13 : X p1 < X p3). { destruct (Rle_lt_or_eq_dec (X p1) (X p3)) as [|Q]; [lra|assumption|exfalso]. unfold turn in N. fold X Y in N. replace (X p2) with (X p1) in N by lra. rewrite <- Q in N. lra. }
  (* the height above the line through p1 and p3, times the width *)
  set (a := - (Y p3 - Y p1)). set (b := X p3 - X p1). set (h := fun p => a * X p + b * Y p). assert (Eh : forall p, dot3 (in_picture ex ey a b) p = h p) by (intros; apply dot_picture).
  assert (A1 : h p3 = h p1) by (unfold h, a, b; ring). assert (A2 : h p2 - h p1 = - turn ex ey p1 p2 p3) by (unfold h, a, b, turn; fold X Y; ring).
  destruct (H (in_picture ex ey a b) ((h p1 + h p2) / 2) (-1) [t1; t2; t3]) as (is & L & F & Z).
  - repeat (constructor; [lra|]). constructor.
  - cbn [zigzag]. unfold side. rewrite E1, E2, E3, !Eh, A1. repeat split; try lra.
  - destruct is as [|i [|j [|k [|? ?]]]]; try discriminate L. cbn [zigzag] in Z. destruct Z as (Zi & Lij & Zj & Ljk & Zk & _ & _). rewrite Eh in Zi, Zj, Zk.
    assert (Hk : (k < length cps)%nat) by (inversion F as [|? ? _ F1]; inversion F1 as [|? ? _ F2]; inversion F2; assumption).
    pose proof (T i j k Lij ltac:(lia)) as Tt. pose proof (M i j ltac:(lia)) as Mij. pose proof (M j k ltac:(lia)) as Mjk.
    set (P := nth i cps vzero) in *. set (Q := nth j cps vzero) in *. set (S := nth k cps vzero) in *. set (d := (h p1 + h p2) / 2) in *.
    assert (I : (X S - X P) * (h Q - d) = (X S - X Q) * (h P - d) + (X Q - X P) * (h S - d) - b * turn ex ey P Q S) by (unfold h, turn; fold X Y; ring).
    assert (0 < b) by (unfold b; lra). assert (0 <= b * turn ex ey P Q S) by (apply Rmult_le_pos; lra).
    assert (K1 : 0 < (X S - X P) * (h Q - d)) by (apply Rmult_lt_0_compat; lra). assert (K2 : 0 < (X S - X Q) * (d - h P)) by (apply Rmult_lt_0_compat; lra). assert (K3 : 0 < (X Q - X P) * (d - h S)) by (apply Rmult_lt_0_compat; lra). lra.
Qed.

(** ** Convex polygons: no line is crossed more than twice *)
Lemma four_corners ex ey a b d (P Q S T : vec3 R) : 0 < turn ex ey P Q S -> 0 < turn ex ey P Q T -> 0 < turn ex ey P S T -> 0 < turn ex ey Q S T ->
  forall w, 0 < w * (dot3 (in_picture ex ey a b) P - d) -> 0 < - w * (dot3 (in_picture ex ey a b) Q - d) -> 0 < - - w * (dot3 (in_picture ex ey a b) S - d) -> 0 < - - - w * (dot3 (in_picture ex ey a b) T - d) -> False.
Proof.
  intros D4 D2 D3 D1 w. rewrite !dot_picture. set (X := dot3 ex). set (Y := dot3 ey). set (h := fun p => w * (a * X p + b * Y p - d)). intros HP HQ HS HT.
  assert (I : turn ex ey Q S T * h P + turn ex ey P Q T * h S = turn ex ey P S T * h Q + turn ex ey P Q S * h T) by (unfold h, turn; fold X Y; ring).
  assert (GP : 0 < h P) by exact HP. assert (GQ : h Q < 0) by (unfold h; lra). assert (GS : 0 < h S) by (unfold h; lra). assert (GT : h T < 0) by (unfold h; lra). clearbody h.
  pose proof (Rmult_lt_0_compat _ _ D1 GP). pose proof (Rmult_lt_0_compat _ _ D2 GS). assert (0 < turn ex ey P S T * (- h Q)) by (apply Rmult_lt_0_compat; lra). assert (0 < turn ex ey P Q S * (- h T)) by (apply Rmult_lt_0_compat; lra). lra.
Qed.
Theorem C82_two_crossings gp cps lo hi ex ey : crossings_bounded gp cps lo hi -> convex_polygon ex ey cps ->
  forall a b d s ts, Forall (fun t => lo <= t <= hi) ts -> zigzag Rlt (side gp (in_picture ex ey a b) d) s ts -> (length ts <= 3)%nat.
Proof.
  intros H C a b d s ts F Z. destruct (le_lt_dec (length ts) 3) as [|N]; [assumption|exfalso]. destruct (H _ d s ts F Z) as (is & L & Fi & Zi).
  destruct is as [|i [|j [|k [|l is]]]]; cbn [length] in L; try lia. cbn [zigzag] in Zi. destruct Zi as (Z1 & L1 & Z2 & L2 & Z3 & L3 & Z4 & _).
  assert (Hl : (l < length cps)%nat) by (inversion Fi as [|? ? _ F1]; inversion F1 as [|? ? _ F2]; inversion F2 as [|? ? _ F3]; inversion F3; assumption).
  exact (four_corners ex ey a b d _ _ _ _ (C i j k L1 ltac:(lia)) (C i j l L1 ltac:(lia)) (C i k l ltac:(lia) ltac:(lia)) (C j k l L2 ltac:(lia)) s Z1 Z2 Z3 Z4).
Qed.

(** ** The four kinds of curves *)
Definition convex_like gp cps lo hi : Prop := forall ex ey,
  (hanging ex ey cps -> forall t1 t2 t3 p1 p2 p3, lo <= t1 -> t1 < t2 -> t2 < t3 -> t3 <= hi -> gp t1 = Ok p1 -> gp t2 = Ok p2 -> gp t3 = Ok p3 -> 0 <= turn ex ey p1 p2 p3) /\
  (convex_polygon ex ey cps -> forall a b d s ts, Forall (fun t => lo <= t <= hi) ts -> zigzag Rlt (side gp (in_picture ex ey a b) d) s ts -> (length ts <= 3)%nat).
Lemma convex_like_of gp cps lo hi : crossings_bounded gp cps lo hi -> convex_like gp cps lo hi.
Proof. intros H ex ey. split; [intros K t1 t2 t3 p1 p2 p3 H1 H2 H3 H4 E1 E2 E3; exact (proj2 (C82_convex gp cps lo hi ex ey H K t1 t2 t3 p1 p2 p3 H1 H2 H3 H4 E1 E2 E3))|now apply C82_two_crossings]. Qed.
Theorem C82_bezier cps : convex_like (bezier3_get_point cps) cps 0 1.
Proof. apply convex_like_of, C79_bezier_crossings. Qed.
Theorem C82_rational_bezier (cps : list (vec4 R)) : (forall q, In q cps -> 0 < w4 q) -> convex_like (bezier4_get_point cps) (map place cps) 0 1.
Proof. intros H. now apply convex_like_of, C79_rational_bezier_crossings. Qed.
Theorem C82_bspline (c : BSpline R (vec3 R)) : valid_bspline c -> nth (length (bs_cps c)) (bs_knots c) 0 = last_knot (bs_knots c) -> nth (bs_degree c) (bs_knots c) 0 < last_knot (bs_knots c) ->
  convex_like (bspline3_get_point c) (bs_cps c) (nth (bs_degree c) (bs_knots c) 0) (last_knot (bs_knots c)).
Proof. intros V He Hl. apply convex_like_of. now apply C79_bspline_crossings. Qed.
Theorem C82_rational_bspline (c : BSpline R (vec4 R)) : valid_rational c -> weighted c -> inside c (last_knot (bs_knots c)) ->
  convex_like (bspline4_get_point c) (map place (bs_cps c)) (nth (bs_degree c) (bs_knots c) 0) (last_knot (bs_knots c)).
Proof. intros V W I. apply convex_like_of. now apply C80_rational_crossings. Qed.
(** a hanging quartic and a quartic round a pentagon; the wave of C79, not convex, crosses a line three times *)
Definition bowl : list (vec3 R) := [V3 0 4 0; V3 1 1 0; V3 2 0 0; V3 3 1 0; V3 4 4 0].
Definition pentagon : list (vec3 R) := [V3 0 0 0; V3 2 0 0; V3 3 2 0; V3 1 4 0; V3 (-1) 2 0].
Example C82_nonvacuous : hanging (V3 1 0 0) (V3 0 1 0) bowl /\ convex_polygon (V3 1 0 0) (V3 0 1 0) pentagon /\ ~ hanging (V3 1 0 0) (V3 0 1 0) pentagon.
Proof.
  split; [split|split].
  - intros i j (H1 & H2). cbn [bowl length] in H2. do 5 (destruct j as [|j]; [do 5 (destruct i as [|i]; [try lia; cbn; rnum; lra|]); lia|]). lia.
  - intros i j k H1 (H2 & H3). cbn [bowl length] in H3. do 5 (destruct k as [|k]; [do 5 (destruct j as [|j]; [do 5 (destruct i as [|i]; [try lia; unfold turn, dot3; cbn; rnum; lra|]); lia|]); lia|]). lia.
  - intros i j k H1 (H2 & H3). cbn [pentagon length] in H3. do 5 (destruct k as [|k]; [do 5 (destruct j as [|j]; [do 5 (destruct i as [|i]; [try lia; unfold turn, dot3; cbn; rnum; lra|]); lia|]); lia|]). lia.
  - intros (M & _). specialize (M 2%nat 3%nat ltac:(cbn; lia)). unfold dot3 in M. cbn in M. revert M. rnum. lra.
Qed.
