(** Property C66: [Plane::trim] in doubles. *)
From Coq Require Import ZArith NArith Reals Lra Lia List Bool Arith Floats.SpecFloat Psatz.
From Verif Require Import Prelude Num M_vec M_utils M_curve M_polygon M_meshgen M_surface L_base L_vec L_geom L_cycle L_polygon L_float L_grid L_err L_bserr
  Props_bspline Props_polygon Props_ears L_simple L_sides L_twoears L_earexist L_clip Props_simple Props_segments Props_grid Props_accuracy Props_robust
  Props_merge Props_mesh Props_loops L_convex Props_trim Props_straight Props_lattice Props_trim3 Props_trim4 Props_solid.
Open Scope R_scope.

(** ** Specification *)
Definition val3 (p : vec3 f64) : vec3 R := V3 (val (x3 p)) (val (y3 p)) (val (z3 p)).
Definition val_plane (s : Plane f64) : Plane R := {| p_origin := val3 (p_origin s); p_normal := val3 (p_normal s); p_u_axis := val3 (p_u_axis s); p_v_axis := val3 (p_v_axis s) |}.
Definition bounded3 (M : R) (p : vec3 f64) : Prop := num64 (x3 p) /\ num64 (y3 p) /\ num64 (z3 p) /\ Rabs (val (x3 p)) <= M /\ Rabs (val (y3 p)) <= M /\ Rabs (val (z3 p)) <= M.
(** the corners, projected without rounding *)
Definition exact_flat (s : Plane f64) (vs : list (vec3 f64)) : list (vec2 R) := map (plane_project (val_plane s)) (map val3 vs).
(** finite coordinates up to [M], axes with coordinates up to 1, and three corners always span twice an area of more than 1e-7 + n 2^-40 M^2 *)
Definition clear_face (M : R) (s : Plane f64) (vs : list (vec3 f64)) : Prop :=
  1 <= M <= pow2 490 /\ (forall p, In p vs -> bounded3 M p) /\ bounded3 M (p_origin s) /\ bounded3 1 (p_u_axis s) /\ bounded3 1 (p_v_axis s) /\ (Z.of_nat (length vs) <= 2 ^ 20)%Z /\
  let rs := exact_flat s vs in let n := length vs in
  forall i j k, (i < n)%nat -> (j < n)%nat -> (k < n)%nat -> i <> j -> j <> k -> i <> k -> TOL + INR n * (pow2 (-40) * (M * M)) < Rabs (tri_area2 (pt rs i) (pt rs j) (pt rs k)).

(** ** The projection *)
Lemma eps_tiny : 0 < eps <= / 1000000000000. Proof. unfold eps. lra. Qed.
Section Project.
Variable M : R.
Hypothesis HM : 1 <= M <= pow2 490.
Lemma M500 : 1 <= M <= pow2 500.
Proof. split; [apply HM|]. eapply Rle_trans; [apply HM|apply pow2_le; lia]. Qed.
Lemma M7 : 1 <= 7 * M <= pow2 500.
Proof. split; [destruct HM; lra|]. assert (E : pow2 500 = pow2 490 * 1024) by (replace 500%Z with (490 + 10)%Z by lia; rewrite pow2_add; f_equal; rewrite <- pow2_Z by lia; reflexivity). pose proof (pow2_pos 490). destruct HM. rewrite E. lra. Qed.
Lemma M_big : 1000 * M < pow2 1023.
Proof. assert (E : pow2 500 = pow2 490 * 1024) by (replace 500%Z with (490 + 10)%Z by lia; rewrite pow2_add; f_equal; rewrite <- pow2_Z by lia; reflexivity). pose proof (pow2_pos 490). pose proof (pow2_le 501 1023 ltac:(lia)). assert (pow2 501 = pow2 500 * 2) by (replace 501%Z with (500 + 1)%Z by lia; rewrite pow2_add; f_equal; rewrite <- pow2_Z by lia; reflexivity). destruct HM. lra. Qed.
Lemma eta_M : eta <= eps * (M * / 1000).
Proof. pose proof eta_small. pose proof eps_tiny as [E1 E2]. destruct HM as [H1 _]. assert (eps * eps <= eps * (M * / 1000)) by (apply Rmult_le_compat_l; lra). lra. Qed.
Lemma prod_err (x y : f64) X : num64 x -> num64 y -> Rabs (val x - X) <= 3 * eps * M -> Rabs X <= 2 * M -> Rabs (val y) <= 1 ->
  num64 (fmul x y) /\ Rabs (val (fmul x y) - X * val y) <= 6 * (eps * M) /\ Rabs (X * val y) <= 2 * M.
Proof.
  intros Nx Ny Ex BX By. pose proof eps_tiny as [E1 E2]. pose proof eta_M as E3. pose proof M_big as MB. destruct HM as [H1 _].
  assert (B1 : Rabs (X * val y) <= 2 * M) by (rewrite Rabs_mult; apply Rle_trans with (2 * M * 1); [apply Rmult_le_compat; auto using Rabs_pos|lra]).
  assert (B2 : Rabs ((val x - X) * val y) <= 3 * (eps * M)) by (rewrite Rabs_mult; apply Rle_trans with (3 * eps * M * 1); [apply Rmult_le_compat; auto using Rabs_pos|lra]).
  assert (EM : eps * M <= / 1000000000000 * M) by (apply Rmult_le_compat_r; lra).
  assert (B3 : Rabs (val x * val y) <= 21 / 10 * M) by (replace (val x * val y) with ((val x - X) * val y + X * val y) by ring; eapply Rle_trans; [apply Rabs_triang|lra]).
  destruct (mul64 x y Nx Ny) as [N [E _]]; [lra|]. split; [exact N|]. split; [|exact B1].
  assert (B4 : eps * Rabs (val x * val y) <= eps * (21 / 10 * M)) by (apply Rmult_le_compat_l; lra).
  replace (val (fmul x y) - X * val y) with ((val (fmul x y) - val x * val y) + (val x - X) * val y) by ring. assert (P : 0 <= eps * M) by (apply Rmult_le_pos; lra). eapply Rle_trans; [apply Rabs_triang|]. lra.
Qed.
Lemma add_err (x y : f64) X Y a b c d : num64 x -> num64 y -> Rabs (val x - X) <= a * (eps * M) -> Rabs (val y - Y) <= b * (eps * M) -> Rabs X <= c * M -> Rabs Y <= d * M -> a <= 20 -> b <= 20 -> c + d <= 20 ->
  num64 (fadd x y) /\ Rabs (val (fadd x y) - (X + Y)) <= (a + b + (c + d) + / 10) * (eps * M) /\ Rabs (X + Y) <= (c + d) * M.
Proof.
  intros Nx Ny Ex Ey BX BY Ha Hb Hc. pose proof eps_tiny as [E1 E2]. pose proof eta_M as E3. pose proof M_big as MB. destruct HM as [H1 _].
  assert (P : 0 <= eps * M) by (apply Rmult_le_pos; lra).
  assert (B1 : Rabs (X + Y) <= (c + d) * M) by (eapply Rle_trans; [apply Rabs_triang|lra]).
  assert (B2 : Rabs ((val x - X) + (val y - Y)) <= (a + b) * (eps * M)) by (eapply Rle_trans; [apply Rabs_triang|lra]).
  assert (EM : eps * M <= / 1000000000000 * M) by (apply Rmult_le_compat_r; lra).
  assert (C1 : a * (eps * M) <= 20 * (eps * M)) by (apply Rmult_le_compat_r; lra). assert (C2 : b * (eps * M) <= 20 * (eps * M)) by (apply Rmult_le_compat_r; lra).
  assert (C3 : (c + d) * M <= 20 * M) by (apply Rmult_le_compat_r; lra).
  assert (B3 : Rabs (val x + val y) <= (c + d) * M + 40 * (eps * M)) by (replace (val x + val y) with (((val x - X) + (val y - Y)) + (X + Y)) by ring; eapply Rle_trans; [apply Rabs_triang|lra]).
  destruct (add64 x y Nx Ny) as [N [E _]]; [lra|]. split; [exact N|]. split; [|exact B1].
  assert (B4 : eps * Rabs (val x + val y) <= eps * ((c + d) * M + 40 * (eps * M))) by (apply Rmult_le_compat_l; lra).
  assert (B5 : eps * (40 * (eps * M)) <= / 100 * (eps * M)) by (assert (40 * eps * (eps * M) <= / 100 * (eps * M)) by (apply Rmult_le_compat_r; lra); lra).
  replace (val (fadd x y) - (X + Y)) with ((val (fadd x y) - (val x + val y)) + ((val x - X) + (val y - Y))) by ring. eapply Rle_trans; [apply Rabs_triang|]. lra.
Qed.
Lemma dot_err (v : vec3 f64) (V : vec3 R) (a : vec3 f64) : num64 (x3 v) -> num64 (y3 v) -> num64 (z3 v) ->
  Rabs (val (x3 v) - x3 V) <= 3 * eps * M -> Rabs (val (y3 v) - y3 V) <= 3 * eps * M -> Rabs (val (z3 v) - z3 V) <= 3 * eps * M -> Rabs (x3 V) <= 2 * M -> Rabs (y3 V) <= 2 * M -> Rabs (z3 V) <= 2 * M ->
  bounded3 1 a -> num64 (dot3 v a) /\ Rabs (val (dot3 v a) - dot3 V (val3 a)) <= 32 * (eps * M) /\ Rabs (dot3 V (val3 a)) <= 6 * M.
Proof.
  intros Nx Ny Nz Ex Ey Ez Bx By Bz (Ax & Ay & Az & Cx & Cy & Cz).
  destruct (prod_err _ _ _ Nx Ax Ex Bx Cx) as (N1 & E1 & B1). destruct (prod_err _ _ _ Ny Ay Ey By Cy) as (N2 & E2 & B2). destruct (prod_err _ _ _ Nz Az Ez Bz Cz) as (N3 & E3 & B3).
  destruct (add_err _ _ _ _ 6 6 2 2 N1 N2 E1 E2 B1 B2) as (N4 & E4 & B4); try lra. destruct (add_err _ _ _ _ (6 + 6 + (2 + 2) + / 10) 6 4 2 N4 N3 E4 E3 ltac:(lra) B3) as (N5 & E5 & B5); try lra.
  split; [exact N5|]. assert (P : 0 <= eps * M) by (pose proof eps_tiny; destruct HM; apply Rmult_le_pos; lra). change (dot3 v a) with (fadd (fadd (fmul (x3 v) (x3 a)) (fmul (y3 v) (y3 a))) (fmul (z3 v) (z3 a))).
  change (dot3 V (val3 a)) with (x3 V * val (x3 a) + y3 V * val (y3 a) + z3 V * val (z3 a)). split; lra.
Qed.
(** the projection in doubles is off by at most 32 eps M in each coordinate *)
Lemma project_err (s : Plane f64) (p : vec3 f64) : bounded3 M p -> bounded3 M (p_origin s) -> bounded3 1 (p_u_axis s) -> bounded3 1 (p_v_axis s) ->
  let q := plane_project s p in let r := plane_project (val_plane s) (val3 p) in
  num64 (x2 q) /\ num64 (y2 q) /\ Rabs (val (x2 q) - x2 r) <= 32 * (eps * M) /\ Rabs (val (y2 q) - y2 r) <= 32 * (eps * M) /\ Rabs (x2 r) <= 6 * M /\ Rabs (y2 r) <= 6 * M.
Proof.
  intros (Px & Py & Pz & Bx & By & Bz) (Ox & Oy & Oz & Cx & Cy & Cz) HU HV. cbv zeta. unfold plane_project. cbn [x2 y2].
  destruct (diff_err M M500 _ _ Px Ox Bx Cx) as (N1 & E1 & B1). destruct (diff_err M M500 _ _ Py Oy By Cy) as (N2 & E2 & B2). destruct (diff_err M M500 _ _ Pz Oz Bz Cz) as (N3 & E3 & B3).
  pose (w := vsub p (p_origin s) : vec3 f64). pose (W := vsub (val3 p) (val3 (p_origin s)) : vec3 R). destruct (dot_err w W (p_u_axis s) N1 N2 N3 E1 E2 E3 B1 B2 B3 HU) as (U1 & U2 & U3).
  destruct (dot_err w W (p_v_axis s) N1 N2 N3 E1 E2 E3 B1 B2 B3 HV) as (V1 & V2 & V3).
  exact (conj U1 (conj V1 (conj U2 (conj V2 (conj U3 V3))))) .
Qed.
(** areas of nearby triangles *)
Lemma area_close (a b c a' b' c' : vec2 R) : 
  (forall p p', In (p, p') [(a, a'); (b, b'); (c, c')] -> Rabs (x2 p - x2 p') <= 32 * (eps * M) /\ Rabs (y2 p - y2 p') <= 32 * (eps * M) /\ Rabs (x2 p') <= 6 * M /\ Rabs (y2 p') <= 6 * M) ->
  Rabs (tri_area2 a b c - tri_area2 a' b' c') <= 3100 * (eps * (M * M)).
Proof.
  intros H. destruct (H a a' ltac:(cbn; auto)) as (Ax & Ay & A1 & A2). destruct (H b b' ltac:(cbn; auto)) as (Bx & By & B1 & B2). destruct (H c c' ltac:(cbn; auto)) as (Cx & Cy & C1 & C2). clear H.
  pose proof eps_tiny as [E1 E2]. destruct HM as [H1 _]. assert (P : 0 <= eps * M) by (apply Rmult_le_pos; lra). assert (Q : 0 <= M * M) by (apply Rmult_le_pos; lra).
  assert (D : forall x y x' y', Rabs (x - x') <= 32 * (eps * M) -> Rabs (y - y') <= 32 * (eps * M) -> Rabs x' <= 6 * M -> Rabs y' <= 6 * M -> Rabs ((x - y) - (x' - y')) <= 64 * (eps * M) /\ Rabs (x' - y') <= 12 * M).
  { intros x y x' y' G1 G2 G3 G4. split; [replace ((x - y) - (x' - y')) with ((x - x') - (y - y')) by ring|]; (eapply Rle_trans; [apply Rabs_minus_triang|lra]). }
  assert (K : forall x y X Y, Rabs (x - X) <= 64 * (eps * M) -> Rabs X <= 12 * M -> Rabs (y - Y) <= 64 * (eps * M) -> Rabs Y <= 12 * M -> Rabs (x * y - X * Y) <= 1550 * (eps * (M * M))).
  { intros x y X Y G1 G2 G3 G4. replace (x * y - X * Y) with ((x - X) * (y - Y) + (x - X) * Y + X * (y - Y)) by ring. eapply Rle_trans; [apply Rabs_triang|]. eapply Rle_trans; [apply Rplus_le_compat_r, Rabs_triang|]. rewrite !Rabs_mult.
    assert (A3 : Rabs (x - X) * Rabs (y - Y) <= 64 * (eps * M) * (64 * (eps * M))) by (apply Rmult_le_compat; auto using Rabs_pos).
    assert (A4 : Rabs (x - X) * Rabs Y <= 64 * (eps * M) * (12 * M)) by (apply Rmult_le_compat; auto using Rabs_pos).
    assert (A5 : Rabs X * Rabs (y - Y) <= 12 * M * (64 * (eps * M))) by (apply Rmult_le_compat; auto using Rabs_pos).
    assert (A6 : 4096 * eps * (eps * (M * M)) <= 1 * (eps * (M * M))) by (apply Rmult_le_compat_r; [apply Rmult_le_pos; lra|lra]). assert (0 <= eps * (M * M)) by (apply Rmult_le_pos; lra). lra. }
  unfold tri_area2. destruct (D _ _ _ _ Bx Ax B1 A1) as [D1 D1']. destruct (D _ _ _ _ Cy Ay C2 A2) as [D2 D2']. destruct (D _ _ _ _ By Ay B2 A2) as [D3 D3']. destruct (D _ _ _ _ Cx Ax C1 A1) as [D4 D4'].
  pose proof (K _ _ _ _ D1 D1' D2 D2') as K1. pose proof (K _ _ _ _ D3 D3' D4 D4') as K2. 
  match goal with |- Rabs ?e <= _ => replace e with (((x2 b - x2 a) * (y2 c - y2 a) - (x2 b' - x2 a') * (y2 c' - y2 a')) - ((y2 b - y2 a) * (x2 c - x2 a) - (y2 b' - y2 a') * (x2 c' - x2 a'))) by ring end.
  eapply Rle_trans; [apply Rabs_minus_triang|]. lra.
Qed.
End Project.

(** ** Two polygons with the same turns *)
(** both areas zero, or both clear of the tolerance on the same side *)
Definition same_side (t T : R) : Prop := (t = 0 /\ T = 0) \/ (TOL < t /\ TOL < T) \/ (t < - TOL /\ T < - TOL).
Lemma same_side_opp t T : same_side t T -> same_side (- t) (- T).
Proof. unfold same_side. intros [[-> ->]|[[? ?]|[? ?]]]; [left; split; lra|right; right; split; lra|right; left; split; lra]. Qed.
Lemma same_side_ge t T : same_side t T -> Rleb 0 t = Rleb 0 T.
Proof. pose proof TOL_pos. intros H'. apply eq_true_iff_eq. rewrite !Rleb_true. unfold same_side in H'. lra. Qed.
Lemma convexity_same (a b c a' b' c' : vec2 R) : same_side (tri_area2 a b c) (tri_area2 a' b' c') -> compute_convexity a b c = compute_convexity a' b' c'.
Proof.
  pose proof TOL_pos as TP. intros H. unfold compute_convexity. cbv zeta. assert (E : forall x y z : vec2 R, perp_dot (vsub y x) (vsub z y) = tri_area2 x y z) by (intros; unfold perp_dot, tri_area2; vsimp; rnum; ring). rewrite !E.
  assert (NR : forall x, near x 0 = Rleb (Rabs x) TOL) by (intros; unfold near, abs_diff_eq, ftol; rnum; now rewrite Rminus_0_r). change (@f0 R RNum) with 0. rewrite !NR. change (@fltb R RNum) with Rltb.
  destruct H as [[-> ->]|[[? ?]|[? ?]]]; [reflexivity| |].
  - destruct (Rleb_spec (Rabs (tri_area2 a b c)) TOL), (Rleb_spec (Rabs (tri_area2 a' b' c')) TOL); rewrite ?Rabs_right in * by lra; try lra. destruct (Rltb_spec 0 (tri_area2 a b c)), (Rltb_spec 0 (tri_area2 a' b' c')); try lra; reflexivity.
  - destruct (Rleb_spec (Rabs (tri_area2 a b c)) TOL), (Rleb_spec (Rabs (tri_area2 a' b' c')) TOL); rewrite ?Rabs_left in * by lra; try lra. destruct (Rltb_spec 0 (tri_area2 a b c)), (Rltb_spec 0 (tri_area2 a' b' c')); try lra; reflexivity.
Qed.
Lemma inside_same (a b c p a' b' c' p' : vec2 R) : same_side (tri_area2 a b p) (tri_area2 a' b' p') -> same_side (tri_area2 b c p) (tri_area2 b' c' p') -> same_side (tri_area2 c a p) (tri_area2 c' a' p') ->
  is_inside_triangle a b c p = is_inside_triangle a' b' c' p'.
Proof.
  intros H1 H2 H3. unfold is_inside_triangle. assert (E : forall x y z : vec2 R, perp_dot (vsub x z) (vsub y z) = tri_area2 x y z) by (intros; unfold perp_dot, tri_area2; vsimp; rnum; ring). rewrite !E.
  change (@fleb R RNum) with Rleb. change (@f0 R RNum) with 0. now rewrite (same_side_ge _ _ H1), (same_side_ge _ _ H2), (same_side_ge _ _ H3).
Qed.
Lemma same_place {A B} (dec : forall x y : A, {x = y} + {x <> y}) (l : list A) : forall l' : list B, NoDup l -> length l = length l' -> l' <> [] -> exists f, map f l = l'.
Proof.
  induction l as [|a l IH]; intros [|b l'] ND HL HN; try discriminate; [congruence|]. inversion ND as [|? ? N1 N2]; subst. injection HL as HL.
  assert (K : exists f, map f l = l'). { destruct l' as [|b' l']; [destruct l; [exists (fun _ => b); reflexivity|discriminate]|]. apply IH; auto. discriminate. }
  destruct K as (f & E). exists (fun x => if dec x a then b else f x). cbn [map]. destruct (dec a a) as [_|]; [|congruence]. f_equal. rewrite <- E. apply map_ext_in. intros x Hx. destruct (dec x a) as [->|]; [contradiction|reflexivity].
Qed.
Lemma f64_dec (x y : f64) : {x = y} + {x <> y}.
Proof. decide equality; auto using Z.eq_dec, Pos.eq_dec, Bool.bool_dec. Qed.
Lemma p64_dec (p q : vec2 f64) : {p = q} + {p <> q}.
Proof. destruct p as [a b], q as [c d]. destruct (f64_dec a c) as [<-|N]; [|right; congruence]. destruct (f64_dec b d) as [<-|N]; [left; reflexivity|right; congruence]. Qed.
Section Same.
Context (M : R) (ps : list (vec2 f64)) (rs : list (vec2 R)).
Hypothesis HC : clear_polygon M ps.
Hypothesis HL : length rs = length ps.
Hypothesis H3 : (3 <= length ps)%nat.
Hypothesis HS : forall i j k, (i < length ps)%nat -> (j < length ps)%nat -> (k < length ps)%nat -> i <> j -> j <> k -> i <> k ->
  same_side (tri_area2 (pt rs i) (pt rs j) (pt rs k)) (tri_area2 (pt (map val2 ps) i) (pt (map val2 ps) j) (pt (map val2 ps) k)).
Lemma same_all i j k : (i < length ps)%nat -> (j < length ps)%nat -> (k < length ps)%nat ->
  same_side (tri_area2 (pt rs i) (pt rs j) (pt rs k)) (tri_area2 (pt (map val2 ps) i) (pt (map val2 ps) j) (pt (map val2 ps) k)).
Proof.
  intros Hi Hj Hk. assert (Z : forall a b : vec2 R, tri_area2 a a b = 0 /\ tri_area2 a b b = 0 /\ tri_area2 a b a = 0) by (intros a b; unfold tri_area2; repeat split; ring).
  destruct (Nat.eq_dec i j) as [->|N1]; [left; split; apply Z|]. destruct (Nat.eq_dec j k) as [->|N2]; [left; split; apply Z|]. destruct (Nat.eq_dec i k) as [->|N3]; [left; split; apply Z|]. now apply HS.
Qed.
Lemma clear_nodup : NoDup ps.
Proof.
  apply (NoDup_nth ps (V2 f0 f0)). intros i j Hi Hj E. destruct (Nat.eq_dec i j) as [|N]; [assumption|exfalso].
  assert (K : exists k, (k < length ps)%nat /\ k <> i /\ k <> j).
  { destruct (Nat.eq_dec i 0), (Nat.eq_dec j 0); try lia; [destruct (Nat.eq_dec j 1); [exists 2%nat|exists 1%nat]|destruct (Nat.eq_dec i 1); [exists 2%nat|exists 1%nat]|exists 0%nat]; lia. }
  destruct K as (k & Hk & N1 & N2). destruct HC as (HM & _ & H). specialize (H i j k Hi Hj Hk N (not_eq_sym N2) (not_eq_sym N1)). rewrite !val2_pt, E in H by assumption.
  replace (tri_area2 _ _ _) with 0 in H by (unfold tri_area2; ring). rewrite Rabs_R0 in H. pose proof TOL_pos. assert (0 <= pow2 (-47) * (M * M)) by (apply Rmult_le_pos; [left; apply pow2_pos|nra]). lra.
Qed.
Lemma same_results : compute_vertex_convexity ps = compute_vertex_convexity rs /\ forall vs conc, trianglate_polygon ps vs conc = trianglate_polygon rs vs conc.
Proof.
  destruct (same_place p64_dec ps rs clear_nodup) as (f & E); [now symmetry|destruct rs; [cbn in HL; lia|discriminate]|].
  assert (P : forall i, (i < length ps)%nat -> f (nth i ps (V2 f0 f0)) = pt rs i).
  { intros i Hi. rewrite <- E. unfold pt. rewrite (nth_indep _ _ (f (V2 f0 f0))) by (rewrite map_length; exact Hi). symmetry. apply map_nth. }
  pose proof HC as (HM & HB & _).
  assert (C : forall a b c, In a ps -> In b ps -> In c ps -> compute_convexity (f a) (f b) (f c) = compute_convexity a b c).
  { intros a b c Ha Hb Hc. rewrite <- (convexity_clear M HM a b c) by (auto; now apply (clear_triples M ps)). apply (In_nth _ _ (V2 f0 f0)) in Ha, Hb, Hc. destruct Ha as (i & Hi & <-), Hb as (j & Hj & <-), Hc as (k & Hk & <-).
    rewrite !P, <- !val2_pt by assumption. apply convexity_same. now apply same_all. }
  assert (I : forall a b c p, In a ps -> In b ps -> In c ps -> In p ps -> is_inside_triangle (f a) (f b) (f c) (f p) = is_inside_triangle a b c p).
  { intros a b c p Ha Hb Hc Hp. rewrite <- (inside_clear M HM a b c p) by (auto; now apply (clear_triples M ps)). apply (In_nth _ _ (V2 f0 f0)) in Ha, Hb, Hc, Hp. destruct Ha as (i & Hi & <-), Hb as (j & Hj & <-), Hc as (k & Hk & <-), Hp as (l & Hl & <-).
    rewrite !P, <- !val2_pt by assumption. apply inside_same; now apply same_all. }
  rewrite <- E. split; [symmetry; now apply convexity_transfer|]. intros vs conc. symmetry. now apply trianglate_transfer.
Qed.
End Same.

(** ** The mean of the corners *)
Section Mean.
Variable M : R.
Hypothesis HM : 1 <= M <= pow2 490.
Lemma sum_err (l : list f64) : (Z.of_nat (length l) <= 2 ^ 20)%Z -> (forall x, In x l -> num64 x /\ Rabs (val x) <= M) ->
  let k := INR (length l) in num64 (fold_left fadd l f0) /\ Rabs (val (fold_left fadd l f0) - sumR val l) <= k * (k + 1) * (eps * M) /\ Rabs (sumR val l) <= k * M.
Proof.
  induction l as [|x l IH] using rev_ind; intros HL HB; cbv zeta.
  - cbn [fold_left length]. split; [apply f0_num|]. rewrite f0_val. unfold sumR. cbn [map fold_right INR]. rewrite Rminus_0_r, Rabs_R0. lra.
  - rewrite app_length in *. cbn [length] in *. destruct IH as (N & E & B); [lia|intros y Hy; apply HB, in_or_app; now left|]. destruct (HB x) as [Nx Bx]; [apply in_or_app; right; now left|].
    rewrite fold_left_app, sumR_app. cbn [fold_left]. set (S := fold_left fadd l f0) in *. set (k := INR (length l)) in *. replace (INR (length l + 1)) with (k + 1) by (rewrite plus_INR; cbn; unfold k; ring).
    assert (E1 : sumR val [x] = val x) by (unfold sumR; cbn; ring). rewrite E1. pose proof eps_tiny as [P1 P2]. pose proof (M_big M HM) as MB. pose proof (eta_M M HM) as ET. destruct HM as [H1 _].
    assert (K0 : 0 <= k) by apply pos_INR. assert (K1 : k <= 1048576) by (unfold k; rewrite INR_IZR_INZ; apply IZR_le; lia).
    assert (P : 0 <= eps * M) by (apply Rmult_le_pos; lra). assert (EK : k * eps <= / 1000) by (apply Rle_trans with (1048576 * / 1000000000000); [apply Rmult_le_compat; lra|lra]).
    assert (BS : Rabs (sumR val l + val x) <= (k + 1) * M) by (eapply Rle_trans; [apply Rabs_triang|lra]).
    assert (EE : eps * (k * (k + 1) * (eps * M)) <= / 1000 * ((k + 1) * (eps * M))).
    { replace (eps * (k * (k + 1) * (eps * M))) with (k * eps * ((k + 1) * (eps * M))) by ring. apply Rmult_le_compat_r; [|exact EK]. apply Rmult_le_pos; lra. }
    assert (EB : k * (k + 1) * (eps * M) <= (k + 1) * M). { replace (k * (k + 1) * (eps * M)) with (k * eps * ((k + 1) * M)) by ring. assert (0 <= (k + 1) * M) by (apply Rmult_le_pos; lra). assert (k * eps * ((k + 1) * M) <= / 1000 * ((k + 1) * M)) by (apply Rmult_le_compat_r; lra). lra. }
    assert (BB : Rabs (val S + val x) <= (k + 1) * M + k * (k + 1) * (eps * M)) by (replace (val S + val x) with ((val S - sumR val l) + (sumR val l + val x)) by ring; eapply Rle_trans; [apply Rabs_triang|lra]).
    destruct (add64 S x N Nx) as [N2 [E2 _]].
    { assert (KM : (k + 1) * M <= 1048577 * M) by (apply Rmult_le_compat_r; lra). assert (EP : pow2 490 * 4194304 < pow2 1023). { replace 4194304 with (pow2 22) by (rewrite <- pow2_Z by lia; reflexivity). rewrite <- pow2_add. apply pow2_lt. lia. } destruct HM. lra. }
    split; [exact N2|]. split; [|exact BS]. assert (B4 : eps * Rabs (val S + val x) <= eps * ((k + 1) * M + k * (k + 1) * (eps * M))) by (apply Rmult_le_compat_l; lra).
    replace (val (fadd S x) - (sumR val l + val x)) with ((val (fadd S x) - (val S + val x)) + (val S - sumR val l)) by ring. eapply Rle_trans; [apply Rabs_triang|].
    assert (T1 : eps * (M * / 1000) <= / 1000 * ((k + 1) * (eps * M))) by (assert (0 <= k * (eps * M)) by (apply Rmult_le_pos; lra); lra). 
    assert (T2 : (k + 1) * (k + 1 + 1) * (eps * M) = k * (k + 1) * (eps * M) + 2 * ((k + 1) * (eps * M))) by ring. assert (0 <= (k + 1) * (eps * M)) by (apply Rmult_le_pos; lra). lra.
Qed.
Lemma sum3_parts (vs : list (vec3 f64)) : sum3 vs = V3 (fold_left fadd (map (@x3 f64) vs) f0) (fold_left fadd (map (@y3 f64) vs) f0) (fold_left fadd (map (@z3 f64) vs) f0).
Proof.
  unfold sum3. change (vzero : vec3 f64) with (V3 f0 f0 f0 : vec3 f64). generalize (f0 : f64) at 1 4 as a. generalize (f0 : f64) at 1 3 as b. generalize (f0 : f64) at 1 2 as c.
  induction vs as [|[x y z] vs IH]; intros c b a; cbn [fold_left map]; [reflexivity|]. apply IH.
Qed.
Lemma mean_coord (l : list f64) : l <> [] -> (Z.of_nat (length l) <= 2 ^ 20)%Z -> (forall x, In x l -> num64 x /\ Rabs (val x) <= M) ->
  let n := INR (length l) in let c := fdiv (fold_left fadd l f0) (fofnat (length l)) in num64 c /\ Rabs (val c - sumR val l / n) <= (n + 4) * (eps * M).
Proof.
  intros HN HL HB. cbv zeta. destruct (sum_err l HL HB) as (N & E & B). set (S := fold_left fadd l f0) in *. set (n := INR (length l)) in *.
  destruct (int_grid (Z.of_nat (length l)) (2 ^ 20)) as [G V]; [lia|]. assert (V' : val (fofnat (length l) : f64) = n) by (change (fofnat (length l) : f64) with (f64_of_Z (Z.of_nat (length l))); rewrite V; unfold n; now rewrite INR_IZR_INZ).
  assert (NN : num64 (fofnat (length l))) by (apply G). pose proof eps_tiny as [P1 P2]. pose proof (M_big M HM) as MB. pose proof (eta_M M HM) as ET. destruct HM as [H1 _].
  assert (N1 : 1 <= n). { unfold n. change 1 with (INR 1). apply le_INR. destruct l; [congruence|cbn; lia]. } assert (K1 : n <= 1048576) by (unfold n; rewrite INR_IZR_INZ; apply IZR_le; lia).
  assert (P : 0 <= eps * M) by (apply Rmult_le_pos; lra). assert (Q : 0 < / n <= 1) by (split; [apply Rinv_0_lt_compat; lra|rewrite <- Rinv_1; apply Rinv_le_contravar; lra]).
  assert (D1 : Rabs (val S / n - sumR val l / n) <= (n + 1) * (eps * M)).
  { replace (val S / n - sumR val l / n) with ((val S - sumR val l) * / n) by (field; lra). rewrite Rabs_mult, (Rabs_right (/ n)) by lra. apply (Rmult_le_compat_r (/ n)) in E; [|lra]. eapply Rle_trans; [exact E|]. right. field. lra. }
  assert (D2 : Rabs (sumR val l / n) <= M). { unfold Rdiv. rewrite Rabs_mult, (Rabs_right (/ n)) by lra. apply (Rmult_le_compat_r (/ n)) in B; [|lra]. eapply Rle_trans; [exact B|]. right. field. lra. }
  assert (NE : (n + 1) * eps <= 1) by (apply Rle_trans with (1048577 * / 1000000000000); [apply Rmult_le_compat; lra|lra]).
  assert (D4 : (n + 1) * (eps * M) <= 1 * M) by (replace ((n + 1) * (eps * M)) with ((n + 1) * eps * M) by ring; apply Rmult_le_compat_r; lra).
  assert (D3 : Rabs (val S / n) <= 2 * M) by (replace (val S / n) with ((val S / n - sumR val l / n) + sumR val l / n) by ring; eapply Rle_trans; [apply Rabs_triang|lra]).
  destruct (div64 S (fofnat (length l)) N NN) as [N2 [E2 _]]; rewrite ?V'; [lra|lra|]. rewrite V' in E2. split; [exact N2|].
  assert (D5 : eps * Rabs (val S / n) <= eps * (2 * M)) by (apply Rmult_le_compat_l; lra).
  replace (val (fdiv S (fofnat (length l))) - sumR val l / n) with ((val (fdiv S (fofnat (length l))) - val S / n) + (val S / n - sumR val l / n)) by ring. eapply Rle_trans; [apply Rabs_triang|]. lra.
Qed.
(** [c] is the mean of the points up to [e] in each coordinate *)
Definition near_mean (e : R) (vs : list (vec3 f64)) (c : vec3 f64) : Prop := num64 (x3 c) /\ num64 (y3 c) /\ num64 (z3 c) /\
  exists C, mean_of (map val3 vs) C /\ Rabs (val (x3 c) - x3 C) <= e /\ Rabs (val (y3 c) - y3 C) <= e /\ Rabs (val (z3 c) - z3 C) <= e.
Lemma mean_err (vs : list (vec3 f64)) : vs <> [] -> (Z.of_nat (length vs) <= 2 ^ 20)%Z -> (forall p, In p vs -> bounded3 M p) ->
  near_mean ((INR (length vs) + 4) * (eps * M)) vs (divs3 (sum3 vs) (fofnat (length vs))).
Proof.
  intros HN HL HB. rewrite sum3_parts. unfold divs3. cbn [x3 y3 z3].
  assert (G : forall f : vec3 f64 -> f64, (forall p, In p vs -> num64 (f p) /\ Rabs (val (f p)) <= M) -> let c := fdiv (fold_left fadd (map f vs) f0) (fofnat (length vs)) in num64 c /\ Rabs (val c - sumR val (map f vs) / INR (length vs)) <= (INR (length vs) + 4) * (eps * M)).
  { intros f Hf. pose proof (mean_coord (map f vs)) as K. rewrite map_length in K. apply K; [intros E; apply map_eq_nil in E; contradiction|exact HL|]. intros x Hx. apply in_map_iff in Hx as (p & <- & Hp). now apply Hf. }
  destruct (G (@x3 f64)) as [Nx Ex]; [intros p Hp; destruct (HB p Hp) as (? & ? & ? & ? & ? & ?); now split|]. destruct (G (@y3 f64)) as [Ny Ey]; [intros p Hp; destruct (HB p Hp) as (? & ? & ? & ? & ? & ?); now split|]. destruct (G (@z3 f64)) as [Nz Ez]; [intros p Hp; destruct (HB p Hp) as (? & ? & ? & ? & ? & ?); now split|].
  split; [exact Nx|]. split; [exact Ny|]. split; [exact Nz|].
  exists (V3 (sumR val (map (@x3 f64) vs) / INR (length vs)) (sumR val (map (@y3 f64) vs) / INR (length vs)) (sumR val (map (@z3 f64) vs) / INR (length vs))). cbn [x3 y3 z3].
  split; [|split; [exact Ex|split; [exact Ey|exact Ez]]]. assert (N0 : INR (length vs) <> 0) by (destruct vs; [congruence|apply not_0_INR; discriminate]).
  unfold mean_of. rewrite map_length. cbn [x3 y3 z3]. rewrite !sumR_map. cbn [val3 x3 y3 z3]. repeat split; field; exact N0.
Qed.
(** the projection of a nearby point, and the triangle over a side *)
Lemma apex_close (s : Plane f64) (c : vec3 f64) (C : vec3 R) e (P Q : vec2 R) : 0 <= e -> Rabs (val (x3 c) - x3 C) <= e -> Rabs (val (y3 c) - y3 C) <= e -> Rabs (val (z3 c) - z3 C) <= e ->
  bounded3 1 (p_u_axis s) -> bounded3 1 (p_v_axis s) -> Rabs (x2 P) <= 6 * M -> Rabs (y2 P) <= 6 * M -> Rabs (x2 Q) <= 6 * M -> Rabs (y2 Q) <= 6 * M ->
  Rabs (tri_area2 (plane_project (val_plane s) (val3 c)) P Q - tri_area2 (plane_project (val_plane s) C) P Q) <= 72 * (e * M).
Proof.
  intros H0 Ex Ey Ez (_ & _ & _ & Ux & Uy & Uz) (_ & _ & _ & Vx & Vy & Vz) P1 P2 Q1 Q2. destruct HM as [H1 _].
  assert (D : forall a b c' x y z, Rabs a <= 1 -> Rabs b <= 1 -> Rabs c' <= 1 -> Rabs x <= e -> Rabs y <= e -> Rabs z <= e -> Rabs (x * a + y * b + z * c') <= 3 * e).
  { intros a b c' x y z A1 A2 A3 X1 X2 X3. assert (K : forall t w, Rabs t <= e -> Rabs w <= 1 -> Rabs (t * w) <= e) by (intros t w T1 T2; rewrite Rabs_mult; apply Rle_trans with (e * 1); [apply Rmult_le_compat; auto using Rabs_pos|lra]).
    eapply Rle_trans; [apply Rabs_triang|]. pose proof (Rabs_triang (x * a) (y * b)). pose proof (K x a X1 A1). pose proof (K y b X2 A2). pose proof (K z c' X3 A3). lra. }
  pose proof (D _ _ _ _ _ _ Ux Uy Uz Ex Ey Ez) as DU. pose proof (D _ _ _ _ _ _ Vx Vy Vz Ex Ey Ez) as DV. set (du := _ + _ + _) in DU. set (dv := _ + _ + _) in DV.
  assert (E : tri_area2 (plane_project (val_plane s) (val3 c)) P Q - tri_area2 (plane_project (val_plane s) C) P Q = du * (y2 P - y2 Q) + dv * (x2 Q - x2 P)).
  { unfold tri_area2, plane_project, dot3, val_plane, val3, du, dv. vsimp. cbn [p_origin p_u_axis p_v_axis x2 y2 x3 y3 z3]. rnum. ring. }
  rewrite E. assert (B1 : Rabs (y2 P - y2 Q) <= 12 * M) by (eapply Rle_trans; [apply Rabs_minus_triang|lra]). assert (B2 : Rabs (x2 Q - x2 P) <= 12 * M) by (eapply Rle_trans; [apply Rabs_minus_triang|lra]).
  eapply Rle_trans; [apply Rabs_triang|]. rewrite !Rabs_mult. assert (K : Rabs du * Rabs (y2 P - y2 Q) <= 3 * e * (12 * M)) by (apply Rmult_le_compat; auto using Rabs_pos). assert (K' : Rabs dv * Rabs (x2 Q - x2 P) <= 3 * e * (12 * M)) by (apply Rmult_le_compat; auto using Rabs_pos). lra.
Qed.
End Mean.

(** ** Faces *)
Lemma sum_skip (f : nat -> R) m n i j : 0 <= m -> (i < n)%nat -> (j < n)%nat -> (forall k, (k < n)%nat -> 0 <= f k) -> (forall k, (k < n)%nat -> k <> i -> k <> j -> m <= f k) -> (INR n - 2) * m <= sumR f (seq 0 n).
Proof.
  intros Hm Hi Hj H0 H1. set (d := fun a k : nat => if Nat.eq_dec k a then m else 0).
  assert (D : forall a l s, sumR (d a) (seq s l) <= m).
  { intros a l. induction l as [|l IH]; intros s; unfold sumR in *; cbn [seq map fold_right]; [lra|]. unfold d at 1. destruct (Nat.eq_dec s a) as [E|N]; [|specialize (IH (S s)); lra].
    assert (Z : fold_right Rplus 0 (map (d a) (seq (S s) l)) = 0); [|lra]. clear IH. assert (L : (a < S s)%nat) by lia. revert L. generalize (S s) as t. induction l as [|l IH]; intros t L; cbn [seq map fold_right]; [reflexivity|]. unfold d at 1. destruct (Nat.eq_dec t a); [lia|]. rewrite IH by lia. ring. }
  assert (B : sumR (fun k => m - d i k - d j k) (seq 0 n) <= sumR f (seq 0 n)).
  { assert (G : forall l, (forall k, In k l -> (k < n)%nat) -> sumR (fun k => m - d i k - d j k) l <= sumR f l).
    { induction l as [|k l IH]; intros HI; unfold sumR in *; cbn [map fold_right]; [lra|]. specialize (IH (fun y Hy => HI y (or_intror Hy))). specialize (HI k (or_introl eq_refl)). unfold d at 1 2.
      destruct (Nat.eq_dec k i), (Nat.eq_dec k j); try (specialize (H0 k HI); lra). specialize (H1 k HI ltac:(assumption) ltac:(assumption)). lra. }
    apply G. intros k Hk. apply in_seq in Hk. lia. }
  assert (E : sumR (fun k => m - d i k - d j k) (seq 0 n) = INR n * m - sumR (d i) (seq 0 n) - sumR (d j) (seq 0 n)).
  { rewrite !sumR_sub, sumR_const, seq_length. reflexivity. }
  pose proof (D i n 0%nat). pose proof (D j n 0%nat). lra.
Qed.
Lemma eps_13 : pow2 (-40) = 8192 * eps.
Proof. rewrite <- eps_pow2. replace 8192 with (pow2 13) by (rewrite <- pow2_Z by lia; reflexivity). rewrite <- pow2_add. reflexivity. Qed.
Lemma Rabs_le_inv x a : Rabs x <= a -> - a <= x <= a.
Proof. unfold Rabs. destruct (Rcase_abs x); lra. Qed.
Section ClearFace.
Context (M : R) (s : Plane f64) (vs : list (vec3 f64)).
Hypothesis HC : clear_face M s vs.
Hypothesis H3 : (3 <= length vs)%nat.
Let n := length vs.
Let rs := exact_flat s vs.
Let ps := map (plane_project s) vs.
Lemma cf_M : 1 <= M <= pow2 490. Proof. apply HC. Qed.
Lemma cf_len : length rs = n /\ length ps = n.
Proof. unfold rs, ps, exact_flat, n. now rewrite !map_length. Qed.
Lemma cf_pt i : (i < n)%nat -> pt rs i = plane_project (val_plane s) (val3 (nth i vs vzero)).
Proof. intros Hi. unfold pt, rs, exact_flat. rewrite map_map. rewrite (nth_indep _ _ ((fun p => plane_project (val_plane s) (val3 p)) vzero)) by (rewrite map_length; exact Hi). apply (map_nth (fun p => plane_project (val_plane s) (val3 p))). Qed.
Lemma cf_val i : (i < n)%nat -> pt (map val2 ps) i = val2 (plane_project s (nth i vs vzero)).
Proof. intros Hi. unfold pt, ps. rewrite map_map. rewrite (nth_indep _ _ ((fun p => val2 (plane_project s p)) vzero)) by (rewrite map_length; exact Hi). apply (map_nth (fun p => val2 (plane_project s p))). Qed.
Lemma cf_project i : (i < n)%nat -> let q := plane_project s (nth i vs vzero) in let r := pt rs i in
  num64 (x2 q) /\ num64 (y2 q) /\ Rabs (val (x2 q) - x2 r) <= 32 * (eps * M) /\ Rabs (val (y2 q) - y2 r) <= 32 * (eps * M) /\ Rabs (x2 r) <= 6 * M /\ Rabs (y2 r) <= 6 * M.
Proof. intros Hi. cbv zeta. rewrite cf_pt by exact Hi. destruct HC as (HM & HB & HO & HU & HV & _). apply project_err; auto. apply HB, nth_In. exact Hi. Qed.
Lemma cf_small : 0 <= eps * (M * M) /\ eps * M <= / 100 * M.
Proof. pose proof eps_tiny. pose proof cf_M as [H1 _]. split; [apply Rmult_le_pos; [lra|]; apply Rmult_le_pos; lra|apply Rmult_le_compat_r; lra]. Qed.
Lemma cf_close i j k : (i < n)%nat -> (j < n)%nat -> (k < n)%nat -> Rabs (tri_area2 (pt (map val2 ps) i) (pt (map val2 ps) j) (pt (map val2 ps) k) - tri_area2 (pt rs i) (pt rs j) (pt rs k)) <= 3100 * (eps * (M * M)).
Proof.
  intros Hi Hj Hk. apply (area_close M cf_M). rewrite !cf_val by assumption. intros p p' I. 
  assert (G : forall l, (l < n)%nat -> (p, p') = (val2 (plane_project s (nth l vs vzero)), pt rs l) -> Rabs (x2 p - x2 p') <= 32 * (eps * M) /\ Rabs (y2 p - y2 p') <= 32 * (eps * M) /\ Rabs (x2 p') <= 6 * M /\ Rabs (y2 p') <= 6 * M).
  { intros l Hl E. injection E as -> ->. pose proof (cf_project l Hl) as K. cbv zeta in K. cbn [val2 x2 y2]. tauto. }
  destruct I as [I|[I|[I|[]]]]; symmetry in I; [apply (G i)|apply (G j)|apply (G k)]; assumption.
Qed.
Lemma cf_far i j k : (i < n)%nat -> (j < n)%nat -> (k < n)%nat -> i <> j -> j <> k -> i <> k -> TOL + INR n * (8192 * (eps * (M * M))) < Rabs (tri_area2 (pt rs i) (pt rs j) (pt rs k)).
Proof. intros Hi Hj Hk N1 N2 N3. destruct HC as (_ & _ & _ & _ & _ & _ & H). specialize (H i j k Hi Hj Hk N1 N2 N3). rewrite eps_13, Rmult_assoc in H. exact H. Qed.
Lemma cf_n : 3 <= INR n.
Proof. change 3 with (IZR (Z.of_nat 3)). rewrite <- INR_IZR_INZ. apply le_INR. exact H3. Qed.
Lemma cf_wide i j k : (i < n)%nat -> (j < n)%nat -> (k < n)%nat -> i <> j -> j <> k -> i <> k -> TOL + 24576 * (eps * (M * M)) < Rabs (tri_area2 (pt rs i) (pt rs j) (pt rs k)).
Proof.
  intros Hi Hj Hk N1 N2 N3. pose proof (cf_far i j k Hi Hj Hk N1 N2 N3). pose proof cf_n. destruct cf_small as [P _].
  assert (3 * (8192 * (eps * (M * M))) <= INR n * (8192 * (eps * (M * M)))) by (apply Rmult_le_compat_r; lra). lra.
Qed.
Lemma flat_clear : clear_polygon (7 * M) ps.
Proof.
  destruct cf_len as [_ Lp]. destruct cf_small as [P Q]. split; [apply M7, cf_M|]. split.
  - intros p I. apply in_map_iff in I as (v & <- & Iv). apply (In_nth _ _ vzero) in Iv as (i & Hi & <-). pose proof (cf_project i Hi) as K. cbv zeta in K. destruct K as (K1 & K2 & K3 & K4 & K5 & K6).
    pose proof cf_M as [M1 _]. assert (G : forall x y, Rabs (x - y) <= 32 * (eps * M) -> Rabs y <= 6 * M -> Rabs x <= 7 * M) by (intros x y X1 X2; replace x with ((x - y) + y) by ring; eapply Rle_trans; [apply Rabs_triang|]; lra).
    exact (conj K1 (conj K2 (conj (G _ _ K3 K5) (G _ _ K4 K6)))).
  - rewrite Lp. intros i j k Hi Hj Hk N1 N2 N3. pose proof (cf_wide i j k Hi Hj Hk N1 N2 N3) as W. pose proof (cf_close i j k Hi Hj Hk) as K.
    assert (E : pow2 (-47) * (7 * M * (7 * M)) = 3136 * (eps * (M * M))). { replace (pow2 (-47)) with (64 * eps); [ring|]. rewrite <- eps_pow2. replace 64 with (pow2 6) by (rewrite <- pow2_Z by lia; reflexivity). rewrite <- pow2_add. reflexivity. }
    rewrite E. set (a := tri_area2 (pt (map val2 ps) i) _ _) in *. set (b := tri_area2 (pt rs i) _ _) in *. pose proof (Rabs_triang (b - a) a) as TR. replace (b - a + a) with b in TR by ring. rewrite Rabs_minus_sym in K. lra.
Qed.
Lemma flat_same : compute_vertex_convexity ps = compute_vertex_convexity rs /\ forall vl conc, trianglate_polygon ps vl conc = trianglate_polygon rs vl conc.
Proof.
  destruct cf_len as [Lr Lp]. destruct cf_small as [P _]. apply (same_results (7 * M) ps rs flat_clear); [congruence|rewrite Lp; exact H3|]. rewrite Lp. intros i j k Hi Hj Hk N1 N2 N3.
  pose proof (cf_wide i j k Hi Hj Hk N1 N2 N3) as W. pose proof (cf_close i j k Hi Hj Hk) as K. set (a := tri_area2 (pt (map val2 ps) i) _ _) in *. set (b := tri_area2 (pt rs i) _ _) in *. pose proof TOL_pos. apply Rabs_le_inv in K. right.
  destruct (Rle_lt_dec 0 b); [left; rewrite Rabs_right in W by lra|right; rewrite Rabs_left in W by lra]; lra.
Qed.
Lemma cf_resolved : resolved rs.
Proof.
  intros i j k Hi Hj Hk. destruct cf_len as [Lr _]. rewrite Lr in *. assert (Z : forall a b : vec2 R, tri_area2 a a b = 0 /\ tri_area2 a b b = 0 /\ tri_area2 a b a = 0) by (intros a b; unfold tri_area2; repeat split; ring).
  destruct (Nat.eq_dec i j) as [->|N1]; [left; apply Z|]. destruct (Nat.eq_dec j k) as [->|N2]; [left; apply Z|]. destruct (Nat.eq_dec i k) as [->|N3]; [left; apply Z|]. right.
  pose proof (cf_wide i j k Hi Hj Hk N1 N2 N3). destruct cf_small. lra.
Qed.
Lemma cf_proper : simple_polygon rs -> proper_polygon rs.
Proof.
  intros HS. destruct cf_len as [Lr _]. apply simple_proper; [rewrite Lr; exact H3|exact HS|]. rewrite Lr. intros i j k Hi Hj Hk N1 N2 N3 E. pose proof (cf_wide i j k Hi Hj Hk N1 N2 N3) as W. rewrite E, Rabs_R0 in W. pose proof TOL_pos. destruct cf_small. lra.
Qed.
Lemma cf_turn i : (i < n)%nat -> turn rs i <> 0.
Proof.
  intros Hi E. destruct cf_len as [Lr _]. unfold turn in E. rewrite Lr in E. assert (Lt : forall k, (k mod n < n)%nat) by (intros; apply Nat.mod_upper_bound; lia).
  assert (X1 : ((i + n - 1) mod n <> i)%nat). { intros X. rewrite (Nat.add_comm i n), prev_pos_mod in X by exact Hi. unfold prev_pos in X. destruct (Nat.eqb_spec i 0); lia. }
  assert (X2 : ((i + 1) mod n <> i)%nat). { intros X. rewrite next_pos_mod in X by exact Hi. unfold next_pos in X. destruct (Nat.eqb_spec i (n - 1)); lia. }
  assert (X3 : ((i + n - 1) mod n <> (i + 1) mod n)%nat). { intros X. rewrite (Nat.add_comm i n), prev_pos_mod, next_pos_mod in X by exact Hi. unfold prev_pos, next_pos in X. destruct (Nat.eqb_spec i 0), (Nat.eqb_spec i (n - 1)); lia. }
  pose proof (cf_wide _ i _ (Lt (i + n - 1)%nat) Hi (Lt (i + 1)%nat) X1 (not_eq_sym X2) X3) as W. rewrite E, Rabs_R0 in W. pose proof TOL_pos. destruct cf_small. lra.
Qed.
Lemma cf_no_between v : ~ reflex_between rs v.
Proof.
  destruct cf_len as [Lr _]. unfold reflex_between. rewrite Lr. intros (Hv & Ht & a & b & Ha & Hb & Na & Nb & t & Ht2 & E). pose proof TOL_pos as TP. destruct cf_small as [P _].
  assert (Z : tri_area2 (pt rs a) (pt rs b) (pt rs v) = 0) by (unfold tri_area2; destruct E as [E1 E2]; rewrite E1, E2; ring).
  destruct (Nat.eq_dec a b) as [<-|N]; [|pose proof (cf_wide a b v Ha Hb Hv N Nb Na) as W; rewrite Z, Rabs_R0 in W; lra].
  (* a third corner, with two equal ones *)
  assert (K : exists k, (k < n)%nat /\ k <> a /\ k <> v).
  { destruct (Nat.eq_dec a 0), (Nat.eq_dec v 0); try lia; [destruct (Nat.eq_dec v 1); [exists 2%nat|exists 1%nat]|destruct (Nat.eq_dec a 1); [exists 2%nat|exists 1%nat]|exists 0%nat]; lia. }
  destruct K as (k & Hk & K1 & K2). pose proof (cf_wide a v k Ha Hv Hk Na (not_eq_sym K2) (not_eq_sym K1)) as W. assert (PE : pt rs v = pt rs a) by (apply v2_ext; [destruct E as [E1 _]; rewrite E1|destruct E as [_ E2]; rewrite E2]; ring).
  rewrite PE in W. replace (tri_area2 _ _ _) with 0 in W by (unfold tri_area2; ring). rewrite Rabs_R0 in W. lra.
Qed.
(** seen from the mean point in doubles, the sides of a convex loop go round counter-clockwise *)
Lemma mean_sees c : near_mean ((INR n + 4) * (eps * M)) vs c -> convex_loop rs -> forall i, (i < n)%nat -> 0 < tri_area2 (plane_project (val_plane s) (val3 c)) (pt rs i) (pt rs (next_pos n i)).
Proof.
  intros (_ & _ & _ & C & HMn & Ex & Ey & Ez) HV i Hi. destruct cf_len as [Lr _]. destruct cf_small as [P _]. pose proof cf_M as [M1 _]. pose proof eps_tiny as [P1 _]. pose proof cf_n as N3. pose proof TOL_pos as TP.
  assert (Hj : (next_pos n i < n)%nat) by (unfold next_pos; destruct (Nat.eqb_spec i (n - 1)); lia). assert (Nij : i <> next_pos n i) by (unfold next_pos; destruct (Nat.eqb_spec i (n - 1)); lia).
  pose proof (cf_project i Hi) as K1. pose proof (cf_project _ Hj) as K2. cbv zeta in K1, K2. destruct K1 as (_ & _ & _ & _ & A1 & A2), K2 as (_ & _ & _ & _ & A3 & A4). destruct HC as (_ & _ & _ & HU & HW & _).
  set (j := next_pos n i) in *. assert (E0 : 0 <= (INR n + 4) * (eps * M)) by (apply Rmult_le_pos; [lra|apply Rmult_le_pos; lra]).
  pose proof (apex_close M cf_M s c C _ (pt rs i) (pt rs j) E0 Ex Ey Ez HU HW A1 A2 A3 A4) as AC.
  assert (B : (INR n - 2) * (8192 * (eps * (M * M))) <= tri_area2 (plane_project (val_plane s) C) (pt rs i) (pt rs j)).
  { pose proof (mean_area (val_plane s) (map val3 vs) C (pt rs i) (pt rs j) HMn) as MA. rewrite map_length in MA. fold n in MA. rewrite sumR_map in MA.
    assert (SS : sumR (fun v => tri_area2 (plane_project (val_plane s) (val3 v)) (pt rs i) (pt rs j)) vs = sumR (fun k => tri_area2 (pt rs k) (pt rs i) (pt rs j)) (seq 0 n)).
    { transitivity (sumR (fun v => tri_area2 (plane_project (val_plane s) (val3 v)) (pt rs i) (pt rs j)) (map (fun k => nth k vs vzero) (seq 0 n))).
      - f_equal. symmetry. pose proof (seq_nth_self vs [] vzero) as K. rewrite app_nil_r in K. exact K.
      - rewrite sumR_map. apply Props_trim.sumR_ext. intros k Ik. apply in_seq in Ik. now rewrite (cf_pt k) by lia. }
    rewrite SS in MA. assert (K : (INR n - 2) * (INR n * (8192 * (eps * (M * M)))) <= sumR (fun k => tri_area2 (pt rs k) (pt rs i) (pt rs j)) (seq 0 n)).
    { apply (sum_skip _ _ n i j); auto.
      - apply Rmult_le_pos; lra.
      - intros k Hk. pose proof (convex_sees rs i k HV) as CS. rewrite Lr in CS. now apply CS.
      - intros k Hk Nk1 Nk2. pose proof (convex_sees rs i k HV) as CS. rewrite Lr in CS. specialize (CS Hi Hk). pose proof (cf_far k i j Hk Hi Hj Nk1 Nij Nk2) as W. fold j in CS. rewrite Rabs_right in W by lra. lra. }
    rewrite <- MA in K. apply (Rmult_le_reg_l (INR n)); lra. }
  assert (L : 72 * ((INR n + 4) * (eps * M) * M) < (INR n - 2) * (8192 * (eps * (M * M)))).
  { assert (PP : 0 < eps * (M * M)) by (apply Rmult_lt_0_compat; [lra|apply Rmult_lt_0_compat; lra]). replace (72 * ((INR n + 4) * (eps * M) * M)) with (72 * (INR n + 4) * (eps * (M * M))) by ring. replace ((INR n - 2) * (8192 * (eps * (M * M)))) with ((INR n - 2) * 8192 * (eps * (M * M))) by ring. apply Rmult_lt_compat_r; lra. }
  apply Rabs_le_inv in AC. lra.
Qed.
End ClearFace.
(** C66: in doubles, a loop clear of the tolerance is filled by triangles that, without rounding, are all counter-clockwise and tile it. *)
Theorem C66_face (s : Plane f64) fuel rnd bounds vs M : proper_loops fuel rnd bounds [vs] -> clear_face M s vs -> let rs := exact_flat s vs in let n := length vs in
  (3 <= n)%nat -> simple_polygon rs -> 0 < area2 rs ->
  exists m extra T, plane_trim s fuel rnd bounds = Ok m /\ m_vertices m = vs ++ extra /\ m_normals m = [] /\ m_triangles m = emit T /\
    ((forall i, (i < n)%nat -> 0 < turn rs i) /\ length T = n /\ (exists c, extra = [c] /\ near_mean ((INR n + 4) * (eps * M)) vs c) \/
     (exists i, (i < n)%nat /\ turn rs i < 0) /\ length T = (n - 2)%nat /\ extra = []) /\
    let V := exact_flat s (m_vertices m) in
    Forall (fun '(i, j, k) => (i < length V)%nat /\ (j < length V)%nat /\ (k < length V)%nat /\ 0 < tri_area2 (pt V i) (pt V j) (pt V k)) T /\
    total_area2 V T = area2 rs /\ (forall w, antisym w -> sumw w (map (fun '(a, b, c) => [a; b; c]) T) = cyc w (seq 0 n)) /\
    forall q, off_all_lines V T q -> INR (covering V T q) = winding rs q /\ (covering V T q <= 1)%nat.
Proof.
  intros HL HC rs n H3 HS HA. destruct (cf_len s vs) as [Lr Lp]. fold rs in Lr. fold n in Lr, Lp. pose proof (cf_proper M s vs HC H3 HS) as HP. fold rs in HP.
  destruct (proper_cases rs ltac:(lia) HP (cf_resolved M s vs HC H3) HA (cf_no_between M s vs HC H3)) as (G & kept & conc & EC & NE & SK & IV & CS). pose proof (good_once rs G) as W1. rewrite Lr in *.
  assert (kept = seq 0 n) as ->. { apply sublist_full; [exact SK|apply seq_NoDup|]. intros i Hi. apply in_seq in Hi. apply IV. split; [lia|]. apply (cf_turn M s vs HC H3). fold n. lia. }
  assert (HN : (N.of_nat n < 2 ^ 32)%N). { destruct HC as (_ & _ & _ & _ & _ & HN & _). fold n in HN. lia. }
  destruct (flat_same M s vs HC H3) as [S1 S2]. fold rs in S1, S2. rewrite (plane_trim_single _ _ _ _ _ HL). unfold plane_trim_polygons. cbn [length Nat.eqb]. rewrite S1, EC. cbn [obind]. apply Nat.eqb_neq in NE. rewrite NE.
  destruct CS as [(-> & Pos & CL)|(NC & I0 & T & ET & HLn & FT & A & X & W)].
  - cbn [length Nat.eqb]. fold n. rewrite plane_fan_emit by (auto; lia). cbn [obind]. set (c := divs3 (sum3 vs) (fofnat n)).
    assert (NM : near_mean ((INR n + 4) * (eps * M)) vs c). { destruct HC as (HM & HB & _ & _ & _ & HZ & _). apply (mean_err M HM vs); auto. intros E. unfold n in H3. rewrite E in H3. cbn in H3. lia. }
    exists (mkTM (vs ++ [c]) [] (emit (fan n))), [c], (fan n). cbn [m_vertices m_triangles m_normals]. split; [reflexivity|]. split; [reflexivity|]. split; [reflexivity|]. split; [reflexivity|].
    split. { left. split; [|split; [unfold fan; rewrite app_length, map_length, seq_length; cbn [length]; lia|now exists c]]. intros i Hi. specialize (Pos i Hi). pose proof (cf_turn M s vs HC H3 i Hi). fold rs in H. lra. }
    cbv zeta. set (C := plane_project (val_plane s) (val3 c)). assert (EV : exact_flat s (vs ++ [c]) = rs ++ [C]) by (unfold exact_flat; rewrite !map_app; reflexivity). rewrite EV.
    assert (PV : forall i, (i < n)%nat -> pt (rs ++ [C]) i = pt rs i) by (intros i Hi; unfold pt; apply app_nth1; lia).
    assert (PC : pt (rs ++ [C]) n = C) by (unfold pt; rewrite app_nth2, Lr, Nat.sub_diag by lia; reflexivity).
    pose proof (mean_sees M s vs HC H3 c NM CL) as Sees. fold n rs C in Sees.
    assert (FP : Forall (fun '(i, j, k) => i = n /\ (j < n)%nat /\ k = next_pos n j) (fan n)).
    { unfold fan. apply Forall_app. split.
      - apply Forall_forall. intros t Ht. apply in_map_iff in Ht as (i & <- & Hi). apply in_seq in Hi. split; [reflexivity|]. split; [lia|]. unfold next_pos. destruct (Nat.eqb_spec i (n - 1)); lia.
      - constructor; [|constructor]. split; [reflexivity|]. split; [lia|]. unfold next_pos. now rewrite Nat.eqb_refl. }
    assert (NP : forall j, (j < n)%nat -> (next_pos n j < n)%nat) by (intros j Hj; unfold next_pos; destruct (Nat.eqb_spec j (n - 1)); lia).
    assert (FS : forall w, antisym w -> sumw w (map (fun '(a, b, c) => [a; b; c]) (fan n)) = cyc w (seq 0 n)) by (intros w Hw; apply fan_sum; [exact Hw|lia]).
    split; [|destruct (tiles_loop rs [C] (fan n)) as [TA TW]; [rewrite Lr; exact FS| |split; [exact TA|split; [exact FS|]]]].
    + eapply Forall_impl; [|exact FP]. intros [[i j] k] (-> & Hj & ->). rewrite app_length, Lr. cbn [length]. split; [lia|]. split; [lia|]. split; [specialize (NP j Hj); lia|]. rewrite PC, !PV by auto. now apply Sees.
    + eapply Forall_impl; [|exact FP]. intros [[i j] k] (-> & Hj & ->). pose proof CL as (_ & HD & _). rewrite Lr in HD. unfold positive. split; [lia|]. split; [intros E; apply (HD j Hj); now rewrite <- E|]. split; [specialize (NP j Hj); lia|]. rewrite PC, !PV by auto. now apply Sees.
    + intros q Hq. split; [now apply TW|]. eapply W1. now apply TW.
  - destruct conc as [|i0 conc0]; [congruence|]. cbn [length Nat.eqb]. rewrite S2, ET. cbn [obind].
    exists (mkTM vs [] (emit T)), [], T. cbn [m_vertices m_triangles m_normals]. rewrite app_nil_r. split; [reflexivity|]. split; [reflexivity|]. split; [reflexivity|]. split; [reflexivity|].
    rewrite seq_length in HLn. split; [right; split; [exact I0|]; split; [lia|reflexivity]|]. cbv zeta. fold rs. rewrite Lr. split; [exact FT|]. split; [exact A|]. split; [exact X|].
    intros q Hq. split; [now apply W|]. eapply W1. now apply W.
Qed.
(** C66: the projection alone. *)
Theorem C66_projection M (s : Plane f64) (p : vec3 f64) : 1 <= M <= pow2 490 -> bounded3 M p -> bounded3 M (p_origin s) -> bounded3 1 (p_u_axis s) -> bounded3 1 (p_v_axis s) ->
  let q := plane_project s p in let r := plane_project (val_plane s) (val3 p) in
  num64 (x2 q) /\ num64 (y2 q) /\ Rabs (val (x2 q) - x2 r) <= 32 * (eps * M) /\ Rabs (val (y2 q) - y2 r) <= 32 * (eps * M).
Proof. intros HM HP HO HU HV. pose proof (project_err M HM s p HP HO HU HV) as K. cbv zeta in *. tauto. Qed.

(** ** Meshes of several faces in doubles *)
Record Face64 := { f6_plane : Plane f64; f6_fuel : nat; f6_rnd : nat -> nat -> list bool -> f64; f6_edges : list (CurveSegment f64); f6_corners : list (vec3 f64) }.
Definition f6_mesh (f : Face64) : outcome (TriangleMesh f64) := plane_trim (f6_plane f) (f6_fuel f) (f6_rnd f) [f6_edges f].
Definition face64_ok (f : Face64) : Prop := proper_loops (f6_fuel f) (f6_rnd f) [f6_edges f] [f6_corners f] /\ (3 <= length (f6_corners f))%nat /\
  (exists M, clear_face M (f6_plane f) (f6_corners f)) /\ simple_polygon (exact_flat (f6_plane f) (f6_corners f)) /\ 0 < area2 (exact_flat (f6_plane f) (f6_corners f)).
(** the mesh with the values of its vertices *)
Definition val_mesh (m : TriangleMesh f64) : TriangleMesh R := {| m_vertices := map val3 (m_vertices m); m_normals := map val3 (m_normals m); m_triangles := m_triangles m |}.
Definition f6_border (f : Face64) : list edge3 := border (map val3 (f6_corners f)).
Lemma face64_mesh f : face64_ok f -> exists m, f6_mesh f = Ok m /\ forall p q, net (mesh_edges (val_mesh m)) p q = net (f6_border f) p q.
Proof.
  destruct f as [s fuel rnd edges vs]. unfold face64_ok, f6_mesh, f6_border. cbn [f6_plane f6_fuel f6_rnd f6_edges f6_corners]. intros (HL & H3 & (M & HC) & HS & HA).
  destruct (C66_face s fuel rnd [edges] vs M HL HC H3 HS HA) as (m & extra & L & E & EV & _ & ET & C & F & _ & X & _). cbv zeta in F.
  exists m. split; [exact E|]. assert (LV : (length (m_vertices m) <= length vs + 1)%nat). { rewrite EV, app_length. destruct C as [(_ & _ & c & -> & _)|(_ & _ & ->)]; cbn; lia. }
  rewrite Forall_forall in F. unfold exact_flat in F. rewrite !map_length in F. destruct HC as (_ & _ & _ & _ & _ & HN & _).
  assert (Small : forall i, In i L -> let '(a, b, c) := i in (N.of_nat a < 2 ^ 32)%N /\ (N.of_nat b < 2 ^ 32)%N /\ (N.of_nat c < 2 ^ 32)%N).
  { intros [[a b] c] I. destruct (F _ I) as (Ha & Hb & Hc & _). lia. }
  set (V := map val3 (m_vertices m)). assert (ETr : mesh_tris (val_mesh m) = map (fun '(a, b, c) => (nth a V (V3 0 0 0), nth b V (V3 0 0 0), nth c V (V3 0 0 0))) L) by (unfold mesh_tris, val_mesh; cbn [m_vertices m_triangles]; fold V; rewrite ET; now apply emit_tris).
  intros p q. apply eq_IZR. rewrite !net_flow, border_sum. unfold mesh_edges. rewrite ETr, tris_sum. rewrite X by (intros a b; apply flow_antisym). rewrite <- (cyc_map (fun i => nth i V (V3 0 0 0))). f_equal.
  unfold V. rewrite EV, map_app. rewrite <- (map_length val3 vs). apply seq_nth_self.
Qed.
(** C66: if every side of every face is, as a pair of points, also a side of another face in the other direction, the meshes made in doubles have no border. *)
Theorem C66_watertight (fs : list Face64) : Forall face64_ok fs -> exists ms, mapM f6_mesh fs = Ok ms /\
  (forall p q, net (flat_map mesh_edges (map val_mesh ms)) p q = net (flat_map f6_border fs) p q) /\
  (closed_edges (flat_map f6_border fs) -> closed_edges (flat_map mesh_edges (map val_mesh ms))).
Proof.
  intros H. assert (K : exists ms, mapM f6_mesh fs = Ok ms /\ forall p q, net (flat_map mesh_edges (map val_mesh ms)) p q = net (flat_map f6_border fs) p q).
  { induction H as [|f fs Hf _ (ms & E & IH)]; [exists []; split; reflexivity|]. destruct (face64_mesh f Hf) as (m & Em & HE). exists (m :: ms). cbn [mapM]. rewrite Em. cbn [obind]. rewrite E. cbn [obind]. split; [reflexivity|].
    intros p q. cbn [flat_map map]. now rewrite !net_app, IH, HE. }
  destruct K as (ms & E & K). exists ms. split; [exact E|]. split; [exact K|]. intros HC p q. rewrite K. apply HC.
Qed.

(** ** Examples *)
(** a dart in a plane through the z axis, its horizontal axis (3/5, 4/5, 0) rounded *)
Definition tilted64 : Plane f64 := {| p_origin := v64 0 0 0; p_normal := V3 (flit 4 5) (flit (-3) 5) (f64_of_Z 0); p_u_axis := V3 (flit 3 5) (flit 4 5) (f64_of_Z 0); p_v_axis := v64 0 0 1 |}.
Definition dart64 : list (vec3 f64) := [v64 0 0 0; v64 12 16 0; v64 3 4 1; v64 0 0 4].
Definition sides64 (l : list (vec3 f64)) : list (CurveSegment f64) := map (fun '(a, b) => seg64 a b) (pairs (l ++ firstn 1 l)).
Lemma int_val z : (Z.abs z <= 1000)%Z -> num64 (f64_of_Z z) /\ val (f64_of_Z z) = IZR z.
Proof. intros H. destruct (int_grid z 1000) as [G V]; [lia|]. split; [apply G|exact V]. Qed.
Lemma v64_val a b c : (Z.abs a <= 1000)%Z -> (Z.abs b <= 1000)%Z -> (Z.abs c <= 1000)%Z -> val3 (v64 a b c) = V3 (IZR a) (IZR b) (IZR c).
Proof. intros Ha Hb Hc. unfold val3, v64. cbn [x3 y3 z3]. rewrite (proj2 (int_val a Ha)), (proj2 (int_val b Hb)), (proj2 (int_val c Hc)). reflexivity. Qed.
Lemma v64_bounded a b c K : (K <= 1000)%Z -> (Z.abs a <= K)%Z -> (Z.abs b <= K)%Z -> (Z.abs c <= K)%Z -> bounded3 (IZR K) (v64 a b c).
Proof.
  intros HK Ha Hb Hc. unfold bounded3, v64. cbn [x3 y3 z3]. destruct (int_val a ltac:(lia)) as [Na Va]. destruct (int_val b ltac:(lia)) as [Nb Vb]. destruct (int_val c ltac:(lia)) as [Nc Vc]. rewrite Va, Vb, Vc, <- !abs_IZR.
  exact (conj Na (conj Nb (conj Nc (conj (IZR_le _ _ Ha) (conj (IZR_le _ _ Hb) (IZR_le _ _ Hc)))))).
Qed.
Lemma three_fifths : num64 (flit 3 5) /\ val (flit 3 5 : f64) = 5404319552844595 * eps.
Proof. assert (E : (flit 3 5 : f64) = S754_finite false 5404319552844595 (-53)) by (vm_compute; reflexivity). rewrite E. split; [split; reflexivity|]. unfold val. rewrite eps_pow2. cbn. ring. Qed.
Lemma four_fifths : num64 (flit 4 5) /\ val (flit 4 5 : f64) = 7205759403792794 * eps.
Proof. assert (E : (flit 4 5 : f64) = S754_finite false 7205759403792794 (-53)) by (vm_compute; reflexivity). rewrite E. split; [split; reflexivity|]. unfold val. rewrite eps_pow2. cbn. ring. Qed.
Lemma f64_zero : num64 (f64_of_Z 0) /\ val (f64_of_Z 0) = 0. Proof. apply (int_val 0). cbn. lia. Qed.
Lemma dart64_flat : let s := 3 * val (flit 3 5 : f64) + 4 * val (flit 4 5 : f64) in exact_flat tilted64 dart64 = [V2 0 0; V2 (4 * s) 0; V2 s 1; V2 0 4] /\ 4 < s < 6.
Proof.
  cbv zeta. split.
  - unfold exact_flat, dart64. cbn [map]. rewrite !v64_val by (cbn; lia). unfold plane_project, dot3, tilted64, val_plane. cbn [p_origin p_u_axis p_v_axis]. rewrite !v64_val by (cbn; lia). unfold val3. cbn [x3 y3 z3]. vsimp. cbn [x3 y3 z3]. rewrite ?(proj2 f64_zero). rnum. repeat (f_equal; try ring).
  - rewrite (proj2 three_fifths), (proj2 four_fifths). unfold eps. lra.
Qed.
Lemma quad_clear s : 4 < s < 6 -> forall i j k, (i < 4)%nat -> (j < 4)%nat -> (k < 4)%nat -> i <> j -> j <> k -> i <> k -> 1 < Rabs (tri_area2 (pt [V2 0 0; V2 (4 * s) 0; V2 s 1; V2 0 4] i) (pt [V2 0 0; V2 (4 * s) 0; V2 s 1; V2 0 4] j) (pt [V2 0 0; V2 (4 * s) 0; V2 s 1; V2 0 4] k)).
Proof.
  intros Hs i j k Hi Hj Hk N1 N2 N3. unfold pt.
  destruct i as [|[|[|[|]]]]; [| | | |lia]; (destruct j as [|[|[|[|]]]]; [| | | |lia]); try (exfalso; lia); (destruct k as [|[|[|[|]]]]; [| | | |lia]); try (exfalso; lia);
    cbn; unfold tri_area2; cbn [x2 y2]; unfold Rabs; destruct (Rcase_abs _); lra.
Qed.
Lemma dart64_clear : clear_face 16 tilted64 dart64.
Proof.
  destruct dart64_flat as [E Hs]. set (s := 3 * _ + _) in *. split; [split; [lra|]|].
  { apply Rle_trans with (pow2 4); [rewrite <- pow2_Z by lia; cbn; lra|apply pow2_le; lia]. }
  split; [|split; [apply v64_bounded; cbn; lia|split; [|split; [apply (v64_bounded 0 0 1 1); cbn; lia|split; [cbn; lia|]]]]].
  - intros p I. unfold dart64 in I. cbn [In] in I. destruct I as [<-|[<-|[<-|[<-|[]]]]]; apply (v64_bounded _ _ _ 16); cbn; lia.
  - unfold bounded3, tilted64. cbn [p_u_axis x3 y3 z3]. destruct three_fifths as [N1 V1]. destruct four_fifths as [N2 V2]. rewrite V1, V2, (proj2 f64_zero), Rabs_R0. rewrite !Rabs_right by (unfold eps; lra).
    refine (conj N1 (conj N2 (conj (proj1 f64_zero) (conj _ (conj _ _))))); unfold eps; lra.
  - cbv zeta. rewrite E. cbn [length dart64]. intros i j k Hi Hj Hk N1 N2 N3. pose proof (quad_clear s Hs i j k Hi Hj Hk N1 N2 N3) as K. rewrite eps_13. unfold eps, TOL. cbn [INR]. lra.
Qed.
Lemma dart64_loop : proper_loops (NF := F64Num) 1 (fun _ _ _ => f0) [sides64 dart64] [dart64].
Proof.
  exists [dart64]. split; [|reflexivity]. split; [reflexivity|]. intros k b p. destruct k as [|[|k]]; cbn [nth_error]; try discriminate. intros E1 E2. injection E1 as <-. injection E2 as <-. vm_compute. reflexivity.
Qed.
(** the dart has area2 8 s with s = 5 up to rounding, in two triangles *)
Example C66_nonvacuous : exists m T, plane_trim (NF := F64Num) tilted64 1 (fun _ _ _ => f0) [sides64 dart64] = Ok m /\ m_vertices m = dart64 /\ m_triangles m = emit T /\ length T = 2%nat /\
  total_area2 (exact_flat tilted64 dart64) T = 8 * (3 * val (flit 3 5 : f64) + 4 * val (flit 4 5 : f64)).
Proof.
  destruct dart64_flat as [E Hs]. set (s := 3 * _ + _) in *.
  assert (HA : area2 [V2 0 0; V2 (4 * s) 0; V2 s 1; V2 0 4] = 8 * s) by (unfold area2, cyc, chain, cross2; cbn; ring).
  destruct (C66_face tilted64 1 (fun _ _ _ => f0) [sides64 dart64] dart64 16 dart64_loop dart64_clear) as (m & extra & T & EM & EV & _ & ET & C & F & A & _).
  - cbn; lia.
  - rewrite E. unfold simple_polygon, segments_cross. cbn [length]. intros i j Hi Hj [K1 K2]. unfold pt in K1, K2.
    destruct i as [|[|[|[|]]]]; [| | | |lia]; (destruct j as [|[|[|[|]]]]; [| | | |lia]); cbn in K1, K2; unfold tri_area2 in *; cbn [x2 y2] in *; nra.
  - rewrite E, HA. lra.
  - exists m, T. split; [exact EM|]. destruct C as [(P & _)|(_ & LT & ->)].
    + exfalso. specialize (P 2%nat ltac:(cbn; lia)). rewrite E in P. unfold turn, pt in P. cbn in P. unfold tri_area2 in P. cbn [x2 y2] in P. lra.
    + rewrite app_nil_r in EV. split; [exact EV|]. split; [exact ET|]. split; [exact LT|]. cbv zeta in A. rewrite EV, E, HA in A. rewrite E. exact A.
Qed.

(** the prism of height 1 over an L in doubles: faces with integer corners and axes *)
Definition Z3 := (Z * Z * Z)%type.
Definition z64 (p : Z3) : vec3 f64 := let '(x, y, z) := p in v64 x y z.
Definition zdot3 (p q : Z3) : Z := let '(a, b, c) := p in let '(d, e, f) := q in (a * d + b * e + c * f)%Z.
Definition zsub3 (p q : Z3) : Z3 := let '(a, b, c) := p in let '(d, e, f) := q in (a - d, b - e, c - f)%Z.
Definition zflat (o u v : Z3) (l : list Z3) : list (Z * Z) := map (fun p => (zdot3 (zsub3 p o) u, zdot3 (zsub3 p o) v)) l.
Definition box64 (o u v : Z3) : Plane f64 := {| p_origin := z64 o; p_normal := cross3 (z64 u) (z64 v); p_u_axis := z64 u; p_v_axis := z64 v |}.
Definition face64 (o u v : Z3) (l : list Z3) : Face64 := {| f6_plane := box64 o u v; f6_fuel := 1; f6_rnd := fun _ _ _ => f0; f6_edges := sides64 (map z64 l); f6_corners := map z64 l |}.
Definition zbound (K : Z) (p : Z3) : bool := let '(x, y, z) := p in ((Z.abs x <=? K) && (Z.abs y <=? K) && (Z.abs z <=? K))%Z.
(** three corners are never on a line, and sides do not cross *)
Definition zgeneral (zs : list (Z * Z)) : bool := let n := length zs in
  forallb (fun i => forallb (fun j => forallb (fun k => (i =? j)%nat || (j =? k)%nat || (i =? k)%nat || negb (zarea (zpt zs i) (zpt zs j) (zpt zs k) =? 0)%Z) (seq 0 n)) (seq 0 n)) (seq 0 n).
Definition zsimple (zs : list (Z * Z)) : bool := let n := length zs in
  forallb (fun i => forallb (fun j => let a := zpt zs i in let b := zpt zs ((i + 1) mod n) in let c := zpt zs j in let d := zpt zs ((j + 1) mod n) in
    negb ((zarea a b c * zarea a b d <? 0) && (zarea c d a * zarea c d b <? 0))%Z) (seq 0 n)) (seq 0 n).
Definition r3 (p : Z3) : vec3 R := let '(x, y, z) := p in V3 (IZR x) (IZR y) (IZR z).
Lemma z64_bounded K p : (K <= 1000)%Z -> zbound K p = true -> bounded3 (IZR K) (z64 p) /\ val3 (z64 p) = r3 p.
Proof. destruct p as [[x y] z]. unfold zbound, z64, r3. rewrite !andb_true_iff, !Z.leb_le. intros HK [[Hx Hy] Hz]. split; [now apply v64_bounded|apply v64_val; lia]. Qed.
Lemma face64_checked o u v l : (zbound 16 o && zbound 1 u && zbound 1 v && forallb (zbound 16) l && (3 <=? length l)%nat && (length l <=? 100)%nat)%bool = true ->
  let zs := zflat o u v l in (zgeneral zs && zsimple zs)%bool = true -> 0 < area2 (map rz zs) -> to_polygon (NF := F64Num) 1 (fun _ _ => f0) (sides64 (map z64 l)) = Ok (map z64 l) -> face64_ok (face64 o u v l).
Proof.
  intros H1 zs H2 HA HP. rewrite !andb_true_iff, !Nat.leb_le in H1. rewrite andb_true_iff in H2. destruct H1 as [[[[[Ho Hu] Hv] Hl] H3] H100], H2 as [HG HS].
  destruct (z64_bounded 16 o ltac:(lia) Ho) as [Bo Eo]. destruct (z64_bounded 1 u ltac:(lia) Hu) as [Bu Eu]. destruct (z64_bounded 1 v ltac:(lia) Hv) as [Bv Ev].
  assert (Bl : forall p, In p l -> bounded3 16 (z64 p) /\ val3 (z64 p) = r3 p) by (intros p I; apply z64_bounded; [lia|]; rewrite forallb_forall in Hl; now apply Hl).
  assert (EF : exact_flat (box64 o u v) (map z64 l) = map rz zs).
  { unfold exact_flat, zs, zflat. rewrite !map_map. apply map_ext_in. intros p I. rewrite (proj2 (Bl p I)). unfold plane_project, val_plane, box64. cbn [p_origin p_u_axis p_v_axis]. rewrite Eo, Eu, Ev.
    destruct p as [[p1 p2] p3], o as [[o1 o2] o3], u as [[u1 u2] u3], v as [[v1 v2] v3]. unfold r3, rz, zdot3, zsub3, dot3. vsimp. cbn [x3 y3 z3 fst snd]. rnum. rewrite !plus_IZR, !mult_IZR, !minus_IZR. reflexivity. }
  assert (Ln : length zs = length l) by apply map_length. unfold face64_ok. cbn [face64 f6_plane f6_fuel f6_rnd f6_edges f6_corners]. rewrite EF. rewrite map_length.
  split; [|split; [exact H3|split; [|split; [|exact HA]]]].
  - exists [map z64 l]. split; [|cbn [filter nonempty]; destruct l; [cbn in H3; lia|reflexivity]]. split; [reflexivity|]. intros k b p. destruct k as [|[|k]]; cbn [nth_error]; try discriminate. intros E1 E2. injection E1 as <-. injection E2 as <-. exact HP.
  - exists 16. split; [split; [lra|]|]. { apply Rle_trans with (pow2 4); [rewrite <- pow2_Z by lia; cbn; lra|apply pow2_le; lia]. }
    split; [intros p I; apply in_map_iff in I as (q & <- & Iq); now apply Bl|]. split; [exact Bo|]. split; [exact Bu|]. split; [exact Bv|]. rewrite map_length. split; [lia|].
    cbv zeta. rewrite EF. intros i j k Hi Hj Hk N1 N2 N3. unfold zgeneral in HG. rewrite forallb_forall in HG. rewrite Ln in HG. specialize (HG i ltac:(apply in_seq; lia)). rewrite forallb_forall in HG. specialize (HG j ltac:(apply in_seq; lia)). rewrite forallb_forall in HG. specialize (HG k ltac:(apply in_seq; lia)).
    apply Nat.eqb_neq in N1, N2, N3. rewrite N1, N2, N3 in HG. cbn [orb] in HG. apply negb_true_iff, Z.eqb_neq in HG. rewrite !pt_rz, rz_area, <- abs_IZR.
    assert (B : 1 <= IZR (Z.abs (zarea (zpt zs i) (zpt zs j) (zpt zs k)))) by (apply IZR_le; lia). assert (LN : INR (length l) <= 100) by (rewrite INR_IZR_INZ; apply IZR_le; lia). pose proof (pos_INR (length l)).
    rewrite eps_13. assert (INR (length l) * (8192 * eps * (16 * 16)) <= 100 * (8192 * eps * (16 * 16))) by (apply Rmult_le_compat_r; [unfold eps; lra|exact LN]). unfold eps, TOL in *. lra.
  - unfold simple_polygon, segments_cross. rewrite map_length, Ln. intros i j Hi Hj [K1 K2]. unfold zsimple in HS. rewrite forallb_forall in HS. rewrite Ln in HS. specialize (HS i ltac:(apply in_seq; lia)). rewrite forallb_forall in HS. specialize (HS j ltac:(apply in_seq; lia)). cbv zeta in HS.
    rewrite !pt_rz, !rz_area, <- !mult_IZR in K1, K2. apply lt_IZR in K1, K2. apply negb_true_iff, andb_false_iff in HS. rewrite !Z.ltb_ge in HS. lia.
Qed.
Section Ell64.
Open Scope Z_scope.
Definition d0 := (0, 0, 0). Definition d1 := (4, 0, 0). Definition d2 := (4, 1, 0). Definition d3 := (1, 1, 0). Definition d4 := (1, 4, 0). Definition d5 := (0, 4, 0).
Definition e0 := (0, 0, 1). Definition e1 := (4, 0, 1). Definition e2 := (4, 1, 1). Definition e3 := (1, 1, 1). Definition e4 := (1, 4, 1). Definition e5 := (0, 4, 1).
Definition ell64 : list Face64 :=
  [face64 e0 (1, 0, 0) (0, 1, 0) [e0; e1; e2; e3; e4; e5]; face64 d0 (0, 1, 0) (1, 0, 0) [d0; d5; d4; d3; d2; d1];
   face64 d0 (1, 0, 0) (0, 0, 1) [d0; d1; e1; e0]; face64 d1 (0, 1, 0) (0, 0, 1) [d1; d2; e2; e1]; face64 d2 (-1, 0, 0) (0, 0, 1) [d2; d3; e3; e2];
   face64 d3 (0, 1, 0) (0, 0, 1) [d3; d4; e4; e3]; face64 d4 (-1, 0, 0) (0, 0, 1) [d4; d5; e5; e4]; face64 d5 (0, -1, 0) (0, 0, 1) [d5; d0; e0; e5]].
Lemma ell64_ok : Forall face64_ok ell64.
Proof.
  unfold ell64. repeat (constructor; [apply face64_checked; [reflexivity|reflexivity|unfold area2, cyc, chain, cross2, rz; cbn; lra|vm_compute; reflexivity]|]). constructor.
Qed.
Lemma border_map (f : Z3 -> vec3 f64) l : border (map val3 (map f l)) = map (fun '(a, b) => (val3 (f a), val3 (f b))) (pairs (l ++ firstn 1 l)).
Proof.
  unfold border. rewrite map_map, firstn_map, <- map_app. generalize (l ++ firstn 1 l) as k. induction k as [|a [|b k] IH]; [reflexivity|reflexivity|]. change (pairs (a :: b :: k)) with ((a, b) :: pairs (b :: k)). cbn [map]. rewrite <- IH. reflexivity.
Qed.
Example C66_watertight_nonvacuous : exists ms, mapM f6_mesh ell64 = Ok ms /\ length ms = 8%nat /\ closed_edges (flat_map mesh_edges (map val_mesh ms)).
Proof.
  destruct (C66_watertight ell64 ell64_ok) as (ms & E & _ & K). exists ms. split; [exact E|]. split; [now rewrite (mapM_length _ _ _ E)|]. apply K. intros p q. apply eq_IZR. rewrite net_flow.
  unfold ell64. cbn [flat_map face64 f6_border f6_corners]. unfold f6_border. cbn [face64 f6_corners]. rewrite !border_map. unfold esum3, sumR. cbn [app firstn pairs combine map tl fold_right fst snd].
  set (w := fun a b => flow p q (val3 (z64 a)) (val3 (z64 b))).
  assert (A : forall a b, flow p q (val3 (z64 b)) (val3 (z64 a)) = (- flow p q (val3 (z64 a)) (val3 (z64 b)))%R) by (intros; apply flow_antisym).
  pose proof (A d0 d1). pose proof (A d1 d2). pose proof (A d2 d3). pose proof (A d3 d4). pose proof (A d4 d5). pose proof (A d5 d0). pose proof (A e0 e1). pose proof (A e1 e2). pose proof (A e2 e3). pose proof (A e3 e4). pose proof (A e4 e5). pose proof (A e5 e0).
  pose proof (A d0 e0). pose proof (A d1 e1). pose proof (A d2 e2). pose proof (A d3 e3). pose proof (A d4 e4). pose proof (A d5 e5). lra.
Qed.
End Ell64.
(** C66, refuted for edges that are lines: the end of a line in doubles need not be the corner it was made for, so two triangles on the same edge need not share it. *)
Definition lineseg64 (a b : vec3 f64) : CurveSegment f64 := {| s_curve := line_curve {| l_origin := a; l_direction := vsub b a |}; s_range := (f0, f1); s_tolerance := flit 1 100; s_division := 16 |}.
Definition linesides64 (l : list (vec3 f64)) : list (CurveSegment f64) := map (fun '(a, b) => lineseg64 a b) (pairs (l ++ firstn 1 l)).
Theorem C66_lines_refuted : let p : vec3 f64 := v64 1 0 0 in let q : vec3 f64 := V3 (flit 1 10) (f64_of_Z 0) (f64_of_Z 0) in let r := v64 0 (-1) 0 in let s := v64 1 1 0 in
  exists A B, to_polygon (NF := F64Num) 1 (fun _ _ => f0) (linesides64 [q; r; p]) = Ok A /\ to_polygon (NF := F64Num) 1 (fun _ _ => f0) (linesides64 [p; s; q]) = Ok B /\
    In (val3 p, val3 q) (border (map val3 A)) /\ ~ In (val3 q, val3 p) (border (map val3 B)).
Proof.
  cbv zeta. set (q' := V3 (S754_finite false 7205759403792792 (-56)) (f64_of_Z 0) (f64_of_Z 0) : vec3 f64).
  exists [V3 (flit 1 10) (f64_of_Z 0) (f64_of_Z 0); v64 0 (-1) 0; v64 1 0 0], [v64 1 0 0; v64 1 1 0; q'].
  split; [vm_compute; reflexivity|]. split; [vm_compute; reflexivity|].
  assert (E : (flit 1 10 : f64) = S754_finite false 7205759403792794 (-56)) by (vm_compute; reflexivity).
  unfold border. cbn [map app firstn pairs]. split; [right; right; left; reflexivity|]. 
  assert (E56 : pow2 (-56) = eps / 8). { assert (E8 : pow2 (-53) = pow2 (-56) * 8). { replace 8 with (pow2 3) by (rewrite <- pow2_Z by lia; reflexivity). rewrite <- pow2_add. reflexivity. } rewrite <- eps_pow2. lra. }
  assert (VQ : val (flit 1 10 : f64) = 7205759403792794 * (eps / 8)) by (rewrite E; unfold val; rewrite <- E56; cbn; ring).
  assert (VQ' : val (x3 q') = 7205759403792792 * (eps / 8)) by (unfold q'; cbn [x3]; unfold val; rewrite <- E56; cbn; ring).
  intros I. cbn [In pairs combine tl] in I. assert (X : forall a b, (a, b) = (val3 (V3 (flit 1 10) (f64_of_Z 0) (f64_of_Z 0)), val3 (v64 1 0 0)) -> x3 a = 7205759403792794 * (eps / 8)) by (intros a b Q; injection Q as -> _; cbn [val3 x3]; exact VQ).
  destruct I as [I|[I|[I|[]]]]; apply X in I; [rewrite v64_val in I by (cbn; lia); cbn [x3] in I; unfold eps in I; lra|rewrite v64_val in I by (cbn; lia); cbn [x3] in I; unfold eps in I; lra|].
  unfold val3 in I. cbn [x3] in I. rewrite VQ' in I. unfold eps in I. lra.
Qed.
