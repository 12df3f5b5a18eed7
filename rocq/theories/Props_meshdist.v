(** Property C75: how far the mesh of a Bezier patch is from the patch. *)
From Coq Require Import Reals Lra Psatz Lia Arith ZArith NArith List SpecFloat.
From Verif Require Import Prelude Num M_vec M_utils M_curve M_polygon M_meshgen M_surface L_base L_vec L_bezier L_surface L_geom L_polygon Props_utils Props_bezier Props_surface Props_gridmesh Props_solid L_float L_grid L_err L_cdb Props_robust Props_accuracy Props_grid Props_points Props_plane64 Props_teapot Props_teapot2 Props_teapot4.
Import ListNotations.
Open Scope R_scope.

(** ** Taylor's formula to first order, and linear interpolation on a triangle *)
Lemma mvt g g' x y : (forall t, Rmin x y <= t <= Rmax x y -> derivable_pt_lim g t (g' t)) -> exists t, Rmin x y <= t <= Rmax x y /\ g y - g x = g' t * (y - x).
Proof.
  intros H. destruct (Rtotal_order x y) as [L|[E|G]].
  - destruct (MVT_cor2 g g' x y L) as (t & E & B). { intros t Ht. apply H. rewrite Rmin_left, Rmax_right by lra. exact Ht. } exists t. rewrite Rmin_left, Rmax_right by lra. split; [lra|exact E].
  - subst. exists y. rewrite Rmin_left, Rmax_left by lra. split; [lra|ring].
  - destruct (MVT_cor2 g g' y x G) as (t & E & B). { intros t Ht. apply H. rewrite Rmin_right, Rmax_left by lra. exact Ht. } exists t. rewrite Rmin_right, Rmax_left by lra. split; [lra|lra].
Qed.
Lemma lipschitz g g' A x y : (forall t, Rmin x y <= t <= Rmax x y -> derivable_pt_lim g t (g' t) /\ Rabs (g' t) <= A) -> Rabs (g y - g x) <= A * Rabs (y - x).
Proof.
  intros H. destruct (mvt g g' x y) as (t & Ht & E); [intros t Ht; now apply H|]. rewrite E, Rabs_mult. apply Rmult_le_compat_r; [apply Rabs_pos|]. now apply H.
Qed.
Lemma lim_val f u a b : a = b -> derivable_pt_lim f u a -> derivable_pt_lim f u b.
Proof. now intros ->. Qed.
Lemma half_square x t : derivable_pt_lim (fun t => (t - x) * (t - x) / 2) t (t - x).
Proof.
  replace (t - x) with ((1 * (t - x) + (t - x) * 1) / 2) at 1 by field.
  apply (derivable_pt_lim_ext (fun t => ((t - x) * (t - x)) * / 2)); [reflexivity|].
  assert (D : derivable_pt_lim (fun t => t - x) t 1). { replace 1 with (1 - 0) by ring. apply (derivable_pt_lim_minus id (fun _ => x)); [apply derivable_pt_lim_id|apply derivable_pt_lim_const]. }
  replace ((1 * (t - x) + (t - x) * 1) / 2) with ((1 * (t - x) + (t - x) * 1) * / 2 + ((t - x) * (t - x)) * 0) by field.
  apply (derivable_pt_lim_mult (fun t => (t - x) * (t - x)) (fun _ => / 2)); [|apply derivable_pt_lim_const]. now apply (derivable_pt_lim_mult (fun t => t - x) (fun t => t - x)).
Qed.
Lemma taylor g g1 g2 A x y : (forall t, Rmin x y <= t <= Rmax x y -> derivable_pt_lim g t (g1 t) /\ derivable_pt_lim g1 t (g2 t) /\ Rabs (g2 t) <= A) ->
  Rabs (g y - g x - (y - x) * g1 x) <= A * ((y - x) * (y - x)) / 2.
Proof.
  intros H.
  (* both signs at once: k = 1 and k = -1 *)
  assert (P : forall k, (k = 1 \/ k = -1) -> k * (g y - g x - (y - x) * g1 x) <= A * ((y - x) * (y - x)) / 2).
  { intros k Hk. set (F := fun t => A * ((t - x) * (t - x) / 2) - k * (g t - g x - (t - x) * g1 x)).
    destruct (mvt F (fun t => A * (t - x) - k * (g1 t - g1 x)) x y) as (t & Ht & E).
    { intros t Ht. destruct (H t Ht) as (D1 & _). unfold F.
      apply (derivable_pt_lim_minus (fun t => A * ((t - x) * (t - x) / 2)) (fun t => k * (g t - g x - (t - x) * g1 x))).
      - apply (derivable_pt_lim_scal (fun t => (t - x) * (t - x) / 2)). apply half_square.
      - apply (derivable_pt_lim_scal (fun t => g t - g x - (t - x) * g1 x)). apply (derivable_pt_lim_minus (fun t => g t - g x) (fun t => (t - x) * g1 x)).
        + replace (g1 t) with (g1 t - 0) by ring. apply (derivable_pt_lim_minus g (fun _ => g x)); [exact D1|apply derivable_pt_lim_const].
        + apply (lim_val _ _ (1 * g1 x + (t - x) * 0)); [ring|]. apply (derivable_pt_lim_mult (fun t => t - x) (fun _ => g1 x)); [|apply derivable_pt_lim_const]. replace 1 with (1 - 0) by ring. apply (derivable_pt_lim_minus id (fun _ => x)); [apply derivable_pt_lim_id|apply derivable_pt_lim_const]. }
    assert (F0 : F x = 0) by (unfold F; replace (x - x) with 0 by ring; lra).
    assert (S : 0 <= (A * (t - x) - k * (g1 t - g1 x)) * (y - x)).
    { assert (L : Rabs (g1 t - g1 x) <= A * Rabs (t - x)).
      { apply (lipschitz g1 g2). intros s Hs. assert (Hs' : Rmin x y <= s <= Rmax x y). { revert Ht Hs. unfold Rmin, Rmax. repeat destruct Rle_dec; lra. } split; apply H; exact Hs'. }
      assert (L1 : - (A * Rabs (t - x)) <= g1 t - g1 x <= A * Rabs (t - x)) by (revert L; unfold Rabs at 1; destruct Rcase_abs; lra).
      clear - Ht L1 Hk. destruct (Rle_dec x y) as [Le|Gt].
      - rewrite Rmin_left, Rmax_right in Ht by lra. rewrite Rabs_pos_eq in L1 by lra. apply Rmult_le_pos; [destruct Hk as [-> | ->]; lra|lra].
      - rewrite Rmin_right, Rmax_left in Ht by lra. rewrite Rabs_left1 in L1 by lra. rewrite <- Rmult_opp_opp. apply Rmult_le_pos; [destruct Hk as [-> | ->]; lra|lra]. }
    rewrite <- E, F0 in S. unfold F in S. lra. }
  pose proof (P 1 (or_introl eq_refl)). pose proof (P (-1) (or_intror eq_refl)). apply Rabs_le. lra.
Qed.

(** three values between lo and lo + h, with weights: the spread around the mean *)
Lemma spread a b c l m n lo h : 0 <= l -> 0 <= m -> 0 <= n -> l + m + n = 1 -> lo <= a <= lo + h -> lo <= b <= lo + h -> lo <= c <= lo + h ->
  let x := l * a + m * b + n * c in lo <= x <= lo + h /\ l * ((a - x) * (a - x)) + m * ((b - x) * (b - x)) + n * ((c - x) * (c - x)) <= h * h / 4.
Proof.
  intros Hl Hm Hn E Ha Hb Hc x. assert (Ex : x = l * a + m * b + n * c) by reflexivity. clearbody x.
  assert (P : forall w z, 0 <= w -> lo <= z <= lo + h -> w * lo <= w * z <= w * (lo + h)) by (intros w z Hw Hz; split; apply Rmult_le_compat_l; lra).
  assert (Q : forall w z, 0 <= w -> lo <= z <= lo + h -> 0 <= w * ((z - lo) * (lo + h - z))) by (intros w z Hw Hz; apply Rmult_le_pos; [lra|apply Rmult_le_pos; lra]).
  pose proof (P l a Hl Ha). pose proof (P m b Hm Hb). pose proof (P n c Hn Hc). pose proof (Q l a Hl Ha). pose proof (Q m b Hm Hb). pose proof (Q n c Hn Hc).
  assert (El : l = 1 - m - n) by lra. split.
  - assert (l * lo + m * lo + n * lo = lo) by (rewrite <- !Rmult_plus_distr_r, E; ring). assert (l * (lo + h) + m * (lo + h) + n * (lo + h) = lo + h) by (rewrite <- !Rmult_plus_distr_r, E; ring). lra.
  - assert (V : l * ((a - x) * (a - x)) + m * ((b - x) * (b - x)) + n * ((c - x) * (c - x)) = (x - lo) * (lo + h - x) - (l * ((a - lo) * (lo + h - a)) + m * ((b - lo) * (lo + h - b)) + n * ((c - lo) * (lo + h - c)))) by (rewrite Ex, El; ring).
    pose proof (Rle_0_sqr (2 * (x - lo) - h)) as S. unfold Rsqr in S. lra.
Qed.
Section Interpolation.
Variables (f fu fv fuu fuv fvv : R -> R -> R) (u0 u1 v0 v1 A B C : R).
Hypothesis Du : forall u v, u0 <= u <= u1 -> v0 <= v <= v1 -> derivable_pt_lim (fun t => f t v) u (fu u v).
Hypothesis Dv : forall u v, u0 <= u <= u1 -> v0 <= v <= v1 -> derivable_pt_lim (fun t => f u t) v (fv u v).
Hypothesis Duu : forall u v, u0 <= u <= u1 -> v0 <= v <= v1 -> derivable_pt_lim (fun t => fu t v) u (fuu u v).
Hypothesis Duv : forall u v, u0 <= u <= u1 -> v0 <= v <= v1 -> derivable_pt_lim (fun t => fu u t) v (fuv u v).
Hypothesis Dvv : forall u v, u0 <= u <= u1 -> v0 <= v <= v1 -> derivable_pt_lim (fun t => fv u t) v (fvv u v).
Hypothesis BA : forall u v, u0 <= u <= u1 -> v0 <= v <= v1 -> Rabs (fuu u v) <= A.
Hypothesis BB : forall u v, u0 <= u <= u1 -> v0 <= v <= v1 -> Rabs (fuv u v) <= B.
Hypothesis BC : forall u v, u0 <= u <= u1 -> v0 <= v <= v1 -> Rabs (fvv u v) <= C.
Lemma in_between a b x lo hi : lo <= a <= hi -> lo <= b <= hi -> Rmin a b <= x <= Rmax a b -> lo <= x <= hi.
Proof. unfold Rmin, Rmax. repeat destruct Rle_dec; lra. Qed.
Lemma taylor2 x y x' y' : u0 <= x <= u1 -> v0 <= y <= v1 -> u0 <= x' <= u1 -> v0 <= y' <= v1 ->
  Rabs (f x' y' - f x y - (x' - x) * fu x y - (y' - y) * fv x y) <= A * ((x' - x) * (x' - x)) / 2 + B * Rabs ((x' - x) * (y' - y)) + C * ((y' - y) * (y' - y)) / 2.
Proof.
  intros Hx Hy Hx' Hy'.
  assert (T1 : Rabs (f x' y' - f x y' - (x' - x) * fu x y') <= A * ((x' - x) * (x' - x)) / 2).
  { apply (taylor (fun t => f t y') (fun t => fu t y') (fun t => fuu t y')). intros t Ht. pose proof (in_between _ _ _ _ _ Hx Hx' Ht). auto. }
  assert (T2 : Rabs (f x y' - f x y - (y' - y) * fv x y) <= C * ((y' - y) * (y' - y)) / 2).
  { apply (taylor (fun t => f x t) (fun t => fv x t) (fun t => fvv x t)). intros t Ht. pose proof (in_between _ _ _ _ _ Hy Hy' Ht). auto. }
  assert (T3 : Rabs (fu x y' - fu x y) <= B * Rabs (y' - y)).
  { apply (lipschitz (fun t => fu x t) (fun t => fuv x t)). intros t Ht. pose proof (in_between _ _ _ _ _ Hy Hy' Ht). auto. }
  assert (T4 : Rabs ((x' - x) * (fu x y' - fu x y)) <= B * Rabs ((x' - x) * (y' - y))).
  { rewrite !Rabs_mult. replace (B * (Rabs (x' - x) * Rabs (y' - y))) with (Rabs (x' - x) * (B * Rabs (y' - y))) by ring. apply Rmult_le_compat_l; [apply Rabs_pos|exact T3]. }
  replace (f x' y' - f x y - (x' - x) * fu x y - (y' - y) * fv x y) with ((f x' y' - f x y' - (x' - x) * fu x y') + (x' - x) * (fu x y' - fu x y) + (f x y' - f x y - (y' - y) * fv x y)) by ring.
  eapply Rle_trans; [apply Rabs_triang|]. apply Rplus_le_compat; [|exact T2]. eapply Rle_trans; [apply Rabs_triang|]. now apply Rplus_le_compat.
Qed.
(** the value in a triangle of extent h by k differs little from the interpolated one *)
Lemma interpolated a b c a' b' c' l m n lo lo' h k : 0 <= l -> 0 <= m -> 0 <= n -> l + m + n = 1 -> 0 < h -> 0 < k ->
  u0 <= lo -> lo + h <= u1 -> v0 <= lo' -> lo' + k <= v1 ->
  lo <= a <= lo + h -> lo <= b <= lo + h -> lo <= c <= lo + h -> lo' <= a' <= lo' + k -> lo' <= b' <= lo' + k -> lo' <= c' <= lo' + k ->
  Rabs (l * f a a' + m * f b b' + n * f c c' - f (l * a + m * b + n * c) (l * a' + m * b' + n * c')) <= (A * (h * h) + 2 * B * (h * k) + C * (k * k)) / 8.
Proof.
  intros Hl Hm Hn E Hh Hk U0 U1 V0 V1 Ha Hb Hc Ha' Hb' Hc'.
  pose proof (spread a b c l m n lo h Hl Hm Hn E Ha Hb Hc) as (Rx & Sx). pose proof (spread a' b' c' l m n lo' k Hl Hm Hn E Ha' Hb' Hc') as (Ry & Sy).
  set (x := l * a + m * b + n * c) in *. set (y := l * a' + m * b' + n * c') in *.
  assert (A0 : 0 <= A) by (eapply Rle_trans; [apply Rabs_pos|apply (BA x y); lra]).
  assert (B0 : 0 <= B) by (eapply Rle_trans; [apply Rabs_pos|apply (BB x y); lra]).
  assert (C0 : 0 <= C) by (eapply Rle_trans; [apply Rabs_pos|apply (BC x y); lra]).
  pose proof (taylor2 x y a a' ltac:(lra) ltac:(lra) ltac:(lra) ltac:(lra)) as Ta. pose proof (taylor2 x y b b' ltac:(lra) ltac:(lra) ltac:(lra) ltac:(lra)) as Tb. pose proof (taylor2 x y c c' ltac:(lra) ltac:(lra) ltac:(lra) ltac:(lra)) as Tc.
  assert (E1 : l * f a a' + m * f b b' + n * f c c' - f x y = l * (f a a' - f x y - (a - x) * fu x y - (a' - y) * fv x y) + m * (f b b' - f x y - (b - x) * fu x y - (b' - y) * fv x y) + n * (f c c' - f x y - (c - x) * fu x y - (c' - y) * fv x y)).
  { assert (X0 : l * (a - x) + m * (b - x) + n * (c - x) = 0) by (transitivity (x - (l + m + n) * x); [unfold x; ring|rewrite E; ring]). assert (Y0 : l * (a' - y) + m * (b' - y) + n * (c' - y) = 0) by (transitivity (y - (l + m + n) * y); [unfold y; ring|rewrite E; ring]).
    assert (F0 : (l + m + n) * f x y = f x y) by (rewrite E; ring). transitivity (l * f a a' + m * f b b' + n * f c c' - (l + m + n) * f x y - (l * (a - x) + m * (b - x) + n * (c - x)) * fu x y - (l * (a' - y) + m * (b' - y) + n * (c' - y)) * fv x y); [rewrite F0, X0, Y0; ring|ring]. }
  assert (M : forall p q, Rabs (p * q) <= (p * p * (k / h) + q * q * (h / k)) / 2).
  { intros p q. assert (Hs : 0 < k / h) by (apply Rdiv_lt_0_compat; assumption). pose proof (Rle_0_sqr (p * k - q * h)) as S1. pose proof (Rle_0_sqr (p * k + q * h)) as S2. unfold Rsqr in *.
    assert (I : 0 < / (h * k)) by (apply Rinv_0_lt_compat, Rmult_lt_0_compat; assumption).
    assert (G1 : 0 <= (p * k - q * h) * (p * k - q * h) * / (h * k)) by (apply Rmult_le_pos; lra). assert (G2 : 0 <= (p * k + q * h) * (p * k + q * h) * / (h * k)) by (apply Rmult_le_pos; lra).
    replace ((p * k - q * h) * (p * k - q * h) * / (h * k)) with (p * p * (k / h) - 2 * (p * q) + q * q * (h / k)) in G1 by (field; lra). replace ((p * k + q * h) * (p * k + q * h) * / (h * k)) with (p * p * (k / h) + 2 * (p * q) + q * q * (h / k)) in G2 by (field; lra).
    apply Rabs_le. lra. }
  assert (W : forall w p q, 0 <= w -> w * (A * (p * p) / 2 + B * Rabs (p * q) + C * (q * q) / 2) <= (A / 2 + B / 2 * (k / h)) * (w * (p * p)) + (C / 2 + B / 2 * (h / k)) * (w * (q * q))).
  { intros w p q Hw. assert (B * Rabs (p * q) <= B * ((p * p * (k / h) + q * q * (h / k)) / 2)) by (apply Rmult_le_compat_l; [exact B0|apply M]). apply Rle_trans with (w * (A * (p * p) / 2 + B * ((p * p * (k / h) + q * q * (h / k)) / 2) + C * (q * q) / 2)); [apply Rmult_le_compat_l; lra|right; field; lra]. }
  assert (Z : forall w z bnd, 0 <= w -> Rabs z <= bnd -> Rabs (w * z) <= w * bnd) by (intros w z bnd Hw Hz; rewrite Rabs_mult, (Rabs_pos_eq w) by lra; now apply Rmult_le_compat_l).
  rewrite E1. eapply Rle_trans; [apply Rabs_triang|]. eapply Rle_trans; [apply Rplus_le_compat_r, Rabs_triang|].
  pose proof (Z _ _ _ Hl Ta) as Za. pose proof (Z _ _ _ Hm Tb) as Zb. pose proof (Z _ _ _ Hn Tc) as Zc.
  pose proof (W l (a - x) (a' - y) Hl) as Wa. pose proof (W m (b - x) (b' - y) Hm) as Wb. pose proof (W n (c - x) (c' - y) Hn) as Wc.
  set (KA := A / 2 + B / 2 * (k / h)) in *. set (KC := C / 2 + B / 2 * (h / k)) in *.
  assert (KA0 : 0 <= KA). { unfold KA. assert (0 <= B / 2 * (k / h)) by (apply Rmult_le_pos; [lra|apply Rlt_le, Rdiv_lt_0_compat; assumption]). lra. }
  assert (KC0 : 0 <= KC). { unfold KC. assert (0 <= B / 2 * (h / k)) by (apply Rmult_le_pos; [lra|apply Rlt_le, Rdiv_lt_0_compat; assumption]). lra. }
  pose proof (Rmult_le_compat_l KA _ _ KA0 Sx) as GA. pose proof (Rmult_le_compat_l KC _ _ KC0 Sy) as GC.
  replace ((A * (h * h) + 2 * B * (h * k) + C * (k * k)) / 8) with (KA * (h * h / 4) + KC * (k * k / 4)) by (unfold KA, KC; field; lra). lra.
Qed.
End Interpolation.

(** ** Tensor product Bernstein polynomials *)
Definition tens (d e : nat) (P : nat -> nat -> R) (u v : R) : R := sumf (fun i => sumf (fun j => Bern d i u * Bern e j v * P i j) (S e)) (S d).
Definition diff_u (d : nat) (P : nat -> nat -> R) (i j : nat) : R := INR d * (P (S i) j - P i j).
Definition diff_v (e : nat) (P : nat -> nat -> R) (i j : nat) : R := INR e * (P i (S j) - P i j).
Lemma tens_rows d e P u v : tens d e P u v = sumf (fun i => Bern d i u * sumf (fun j => Bern e j v * P i j) (S e)) (S d).
Proof. unfold tens. apply sumf_ext. intros i _. rewrite <- sumf_scal. apply sumf_ext. intros j _. ring. Qed.
Lemma tens_flip d e P u v : tens d e P u v = tens e d (fun i j => P j i) v u.
Proof. unfold tens. rewrite sumf_swap. apply sumf_ext. intros j _. apply sumf_ext. intros i _. ring. Qed.
Lemma Bern_comb_deriv d (w : nat -> R) u : derivable_pt_lim (fun u => sumf (fun i => Bern d i u * w i) (S d)) u (sumf (fun i => Bern (d - 1) i u * (INR d * (w (S i) - w i))) (S (d - 1))).
Proof.
  destruct d as [|d].
  - apply (lim_val _ _ 0). { symmetry. apply sumf_zero. intros i _. cbn [INR]. ring. } apply (derivable_pt_lim_ext (fun _ => w 0%nat)); [|apply derivable_pt_lim_const]. intros x. rewrite sumf_S, sumf_0, Bern_00. ring.
  - cbn [Nat.sub]. rewrite Nat.sub_0_r. apply (lim_val _ _ (sumf (fun i => INR (S d) * ((match i with O => 0 | S i' => Bern d i' u end) - Bern d i u) * w i) (S (S d)))).
    + rewrite (sumf_ext (fun i => Bern d i u * (INR (S d) * (w (S i) - w i))) (fun i => INR (S d) * (Bern d i u * w (S i)) - INR (S d) * (Bern d i u * w i))) by (intros; ring).
      rewrite (sumf_ext _ (fun i => INR (S d) * ((match i with O => 0 | S i' => Bern d i' u end) * w i) - INR (S d) * (Bern d i u * w i))) by (intros; ring).
      rewrite !sumf_minus. f_equal; [rewrite sumf_S_first; ring|rewrite sumf_S, (Bern_above d (S d)) by lia; ring].
    + apply derivable_sumf. intros i Hi. apply (lim_val _ _ (INR (S d) * ((match i with O => 0 | S i' => Bern d i' u end) - Bern d i u) * w i + Bern (S d) i u * 0)); [ring|].
      apply (derivable_pt_lim_mult (Bern (S d) i) (fun _ => w i)); [apply Bern_deriv|apply derivable_pt_lim_const].
Qed.
Lemma tens_du d e P u v : derivable_pt_lim (fun t => tens d e P t v) u (tens (d - 1) e (diff_u d P) u v).
Proof.
  apply (derivable_pt_lim_ext (fun t => sumf (fun i => Bern d i t * sumf (fun j => Bern e j v * P i j) (S e)) (S d))); [intros t; symmetry; apply tens_rows|].
  eapply lim_val; [|apply Bern_comb_deriv]. rewrite tens_rows. apply sumf_ext. intros i _. f_equal. rewrite <- sumf_minus, <- sumf_scal. apply sumf_ext. intros j _. unfold diff_u. ring.
Qed.
Lemma tens_dv d e P u v : derivable_pt_lim (fun t => tens d e P u t) v (tens d (e - 1) (diff_v e P) u v).
Proof.
  apply (derivable_pt_lim_ext (fun t => tens e d (fun i j => P j i) t u)); [intros t; symmetry; apply tens_flip|]. rewrite tens_flip. exact (tens_du e d (fun i j => P j i) v u).
Qed.
Lemma tens_bound d e P u v K : 0 <= u <= 1 -> 0 <= v <= 1 -> (forall i j, (i <= d)%nat -> (j <= e)%nat -> Rabs (P i j) <= K) -> Rabs (tens d e P u v) <= K.
Proof.
  intros Hu Hv HP.
  assert (T : forall b, (forall i j, (i <= d)%nat -> (j <= e)%nat -> P i j <= b i j) -> tens d e P u v <= tens d e b u v).
  { intros b Hb. unfold tens. apply sumf_le. intros i Hi. apply sumf_le. intros j Hj. apply Rmult_le_compat_l; [apply Rmult_le_pos; now apply Bern_nonneg|apply Hb; lia]. }
  assert (T' : forall b, (forall i j, (i <= d)%nat -> (j <= e)%nat -> b i j <= P i j) -> tens d e b u v <= tens d e P u v).
  { intros b Hb. unfold tens. apply sumf_le. intros i Hi. apply sumf_le. intros j Hj. apply Rmult_le_compat_l; [apply Rmult_le_pos; now apply Bern_nonneg|apply Hb; lia]. }
  assert (K1 : forall k, tens d e (fun _ _ => k) u v = k). { intros k. rewrite tens_rows. rewrite (sumf_ext _ (fun i => Bern d i u * k)); [rewrite sumf_scal_r, Bern_sum; ring|]. intros i _. rewrite sumf_scal_r, Bern_sum. ring. }
  apply Rabs_le. split.
  - rewrite <- (K1 (- K)). apply T'. intros i j Hi Hj. specialize (HP i j Hi Hj). revert HP. unfold Rabs. destruct Rcase_abs; lra.
  - rewrite <- (K1 K). apply T. intros i j Hi Hj. specialize (HP i j Hi Hj). revert HP. unfold Rabs. destruct Rcase_abs; lra.
Qed.
(** bounds on the second differences of the net *)
Definition net_bounds (d e : nat) (P : nat -> nat -> R) (A B C : R) : Prop :=
  (forall i j, (i + 2 <= d)%nat -> (j <= e)%nat -> Rabs (P (i + 2)%nat j - 2 * P (i + 1)%nat j + P i j) <= A) /\
  (forall i j, (i + 1 <= d)%nat -> (j + 1 <= e)%nat -> Rabs (P (i + 1)%nat (j + 1)%nat - P (i + 1)%nat j - P i (j + 1)%nat + P i j) <= B) /\
  (forall i j, (i <= d)%nat -> (j + 2 <= e)%nat -> Rabs (P i (j + 2)%nat - 2 * P i (j + 1)%nat + P i j) <= C).
Definition sag (d e : nat) (A B C h k : R) : R :=
  (INR d * INR (d - 1) * A * (h * h) + 2 * (INR d * INR e * B) * (h * k) + INR e * INR (e - 1) * C * (k * k)) / 8.
Lemma tens_interpolated d e P A B C a b c a' b' c' l m n lo lo' h k : net_bounds d e P A B C ->
  0 <= l -> 0 <= m -> 0 <= n -> l + m + n = 1 -> 0 < h -> 0 < k -> 0 <= lo -> lo + h <= 1 -> 0 <= lo' -> lo' + k <= 1 ->
  lo <= a <= lo + h -> lo <= b <= lo + h -> lo <= c <= lo + h -> lo' <= a' <= lo' + k -> lo' <= b' <= lo' + k -> lo' <= c' <= lo' + k ->
  Rabs (l * tens d e P a a' + m * tens d e P b b' + n * tens d e P c c' - tens d e P (l * a + m * b + n * c) (l * a' + m * b' + n * c')) <= sag d e A B C h k.
Proof.
  intros (NA & NB & NC) *. intros. unfold sag.
  assert (Z : forall n z K, 0 <= INR n -> Rabs z <= K -> Rabs (INR n * z) <= INR n * K) by (intros q z K Hq Hz; rewrite Rabs_mult, (Rabs_pos_eq (INR q)) by exact Hq; now apply Rmult_le_compat_l).
  apply (interpolated (tens d e P) (tens (d - 1) e (diff_u d P)) (tens d (e - 1) (diff_v e P)) (tens (d - 1 - 1) e (diff_u (d - 1) (diff_u d P))) (tens (d - 1) (e - 1) (diff_v e (diff_u d P))) (tens d (e - 1 - 1) (diff_v (e - 1) (diff_v e P))) 0 1 0 1) with (lo := lo) (lo' := lo'); try assumption; try (intros; apply tens_du); try (intros; apply tens_dv).
  - intros u v Hu Hv. apply tens_bound; [exact Hu|exact Hv|]. intros i j Hi Hj. unfold diff_u.
    destruct (le_lt_dec 2 d) as [Hd|Hd].
    + replace (INR (d - 1) * (INR d * (P (S (S i)) j - P (S i) j) - INR d * (P (S i) j - P i j))) with (INR d * (INR (d - 1) * (P (i + 2)%nat j - 2 * P (i + 1)%nat j + P i j))) by (replace (i + 2)%nat with (S (S i)) by lia; replace (i + 1)%nat with (S i) by lia; ring).
      rewrite Rmult_assoc. apply Z; [apply pos_INR|]. apply Z; [apply pos_INR|]. apply NA; lia.
    + replace (d - 1)%nat with 0%nat by lia. cbn [INR]. rewrite Rmult_0_l, Rabs_R0. lra.
  - intros u v Hu Hv. apply tens_bound; [exact Hu|exact Hv|]. intros i j Hi Hj. unfold diff_u, diff_v.
    destruct (le_lt_dec 1 d) as [Hd|Hd]; [destruct (le_lt_dec 1 e) as [He|He]|].
    + replace (INR e * (INR d * (P (S i) (S j) - P i (S j)) - INR d * (P (S i) j - P i j))) with (INR d * (INR e * (P (i + 1)%nat (j + 1)%nat - P (i + 1)%nat j - P i (j + 1)%nat + P i j))) by (replace (i + 1)%nat with (S i) by lia; replace (j + 1)%nat with (S j) by lia; ring).
      rewrite Rmult_assoc. apply Z; [apply pos_INR|]. apply Z; [apply pos_INR|]. apply NB; lia.
    + replace e with 0%nat by lia. cbn [INR]. rewrite Rmult_0_l, Rabs_R0. lra.
    + replace d with 0%nat by lia. cbn [INR]. rewrite !Rmult_0_l, Rminus_0_r, Rmult_0_r, Rabs_R0. lra.
  - intros u v Hu Hv. apply tens_bound; [exact Hu|exact Hv|]. intros i j Hi Hj. unfold diff_v.
    destruct (le_lt_dec 2 e) as [Hd|Hd].
    + replace (INR (e - 1) * (INR e * (P i (S (S j)) - P i (S j)) - INR e * (P i (S j) - P i j))) with (INR e * (INR (e - 1) * (P i (j + 2)%nat - 2 * P i (j + 1)%nat + P i j))) by (replace (j + 2)%nat with (S (S j)) by lia; replace (j + 1)%nat with (S j) by lia; ring).
      rewrite Rmult_assoc. apply Z; [apply pos_INR|]. apply Z; [apply pos_INR|]. apply NC; lia.
    + replace (e - 1)%nat with 0%nat by lia. cbn [INR]. rewrite Rmult_0_l, Rabs_R0. lra.
Qed.

(** ** C75 *)
(** coordinates at most [d] apart *)
Definition apart (d : R) (p q : vec3 R) : Prop := Rabs (x3 p - x3 q) <= d /\ Rabs (y3 p - y3 q) <= d /\ Rabs (z3 p - z3 q) <= d.
(** the points of the triangles of a mesh *)
Definition on_mesh (me : TriangleMesh R) (q : vec3 R) : Prop := exists P Q S l m n, In (P, Q, S) (mesh_tris me) /\ 0 <= l /\ 0 <= m /\ 0 <= n /\ l + m + n = 1 /\
  q = vadd (vadd (vmulr P l) (vmulr Q m)) (vmulr S n).
(** all second differences of the control net: along the columns, mixed, and along the rows *)
Definition curved (g : Grid (vec3 R)) (r c : nat) (A B C : R) : Prop :=
  forall co, co = x3 \/ co = y3 \/ co = z3 -> net_bounds (r - 1) (c - 1) (fun i j => co (entry g i j)) A B C.

Definition patch_point (g : Grid (vec3 R)) (r c : nat) (u v : R) : vec3 R :=
  V3 (tens (r - 1) (c - 1) (fun i j => x3 (entry g i j)) u v) (tens (r - 1) (c - 1) (fun i j => y3 (entry g i j)) u v) (tens (r - 1) (c - 1) (fun i j => z3 (entry g i j)) u v).
Lemma patch_point_ok g r c u v : wf_grid g r c -> (1 <= r)%nat -> bezier_surface3_get_point g u v = Ok (patch_point g r c u v).
Proof.
  intros W Hr. pose proof W as (_ & _ & Hc). rewrite (C20_bezier_surface g r c u v W Hr). unfold tensor3, patch_point, tsum, tens. replace (S (r - 1)) with r by lia. replace (S (c - 1)) with c by lia.
  f_equal. f_equal; apply sumf_ext; intros i Hi; apply sumf_ext; intros j Hj; now rewrite !bern_poly_Bern by assumption.
Qed.
Lemma grid_tris_cells ud vd a b d : In (a, b, d) (grid_tris (ud + 1) (vd + 1)) <-> exists i j, (i < ud)%nat /\ (j < vd)%nat /\
  ((a = i * (vd + 1) + j /\ b = (i + 1) * (vd + 1) + j /\ d = i * (vd + 1) + (j + 1)) \/ (a = i * (vd + 1) + (j + 1) /\ b = (i + 1) * (vd + 1) + j /\ d = (i + 1) * (vd + 1) + (j + 1)))%nat.
Proof.
  unfold grid_tris. rewrite in_flat_map. split.
  - intros ([i j] & Hc & H). apply cells_In in Hc. exists i, j. split; [lia|]. split; [lia|]. cbn [cell_tris map] in H. unfold enc in H. cbn [fst snd] in H. destruct H as [H|[H|[]]]; injection H as <- <- <-; [left|right]; repeat split; lia.
  - intros (i & j & Hi & Hj & H). exists (i, j). split; [apply cells_In; lia|]. cbn [cell_tris map]. unfold enc. cbn [fst snd In]. destruct H as [(-> & -> & ->)|(-> & -> & ->)]; [left|right; left]; f_equal.
Qed.
(** ** A mesh over a grid of parameters, its vertices within [del] of the patch *)
Section Nodes.
Variables (g : Grid (vec3 R)) (r c ud vd : nat) (me : TriangleMesh R) (x y : nat -> R) (A B C H K del : R).
Hypothesis Hud : (1 <= ud)%nat.
Hypothesis Hvd : (1 <= vd)%nat.
Hypothesis Hsize : (N.of_nat ((ud + 1) * (vd + 1)) < 2 ^ 32)%N.
Hypothesis Htris : m_triangles me = emit (grid_tris (ud + 1) (vd + 1)).
Hypothesis Hx : 0 <= x 0%nat /\ x ud <= 1 /\ forall i, (i < ud)%nat -> 0 < x (i + 1)%nat - x i <= H.
Hypothesis Hy : 0 <= y 0%nat /\ y vd <= 1 /\ forall j, (j < vd)%nat -> 0 < y (j + 1)%nat - y j <= K.
Hypothesis Hcurved : curved g r c A B C.
Hypothesis Hpos : 0 <= A /\ 0 <= B /\ 0 <= C.
Let V (i j : nat) := nth (i * (vd + 1) + j) (m_vertices me) (V3 0 0 0).
Hypothesis Hvert : forall i j, (i <= ud)%nat -> (j <= vd)%nat -> apart del (V i j) (patch_point g r c (x i) (y j)).
Let E := sag (r - 1) (c - 1) A B C H K + del.
Lemma mesh_cells P Q S : In (P, Q, S) (mesh_tris me) <-> exists i j, (i < ud)%nat /\ (j < vd)%nat /\
  ((P = V i j /\ Q = V (i + 1) j /\ S = V i (j + 1)) \/ (P = V i (j + 1) /\ Q = V (i + 1) j /\ S = V (i + 1) (j + 1)))%nat.
Proof.
  unfold mesh_tris. rewrite Htris, emit_tris.
  - rewrite in_map_iff. split.
    + intros ([[a b] d] & EQ & Hin). apply grid_tris_cells in Hin as (i & j & Hi & Hj & HH). exists i, j. split; [exact Hi|]. split; [exact Hj|]. injection EQ as <- <- <-. destruct HH as [(-> & -> & ->)|(-> & -> & ->)]; [left|right]; repeat split.
    + intros (i & j & Hi & Hj & HH). destruct HH as [(-> & -> & ->)|(-> & -> & ->)].
      * exists (i * (vd + 1) + j, (i + 1) * (vd + 1) + j, i * (vd + 1) + (j + 1))%nat. split; [reflexivity|]. apply grid_tris_cells. exists i, j. split; [exact Hi|]. split; [exact Hj|]. left. repeat split.
      * exists (i * (vd + 1) + (j + 1), (i + 1) * (vd + 1) + j, (i + 1) * (vd + 1) + (j + 1))%nat. split; [reflexivity|]. apply grid_tris_cells. exists i, j. split; [exact Hi|]. split; [exact Hj|]. right. repeat split.
  - intros [[a b] d] Hin. apply grid_tris_cells in Hin as (i & j & Hi & Hj & HH).
    assert (Bd : forall x y, (x <= ud)%nat -> (y <= vd)%nat -> (N.of_nat (x * (vd + 1) + y) < 2 ^ 32)%N). { intros m n Hm Hn. assert (m * (vd + 1) + n < (ud + 1) * (vd + 1))%nat by nia. lia. }
    destruct HH as [(-> & -> & ->)|(-> & -> & ->)]; repeat split; apply Bd; lia.
Qed.
Lemma increasing n (z : nat -> R) L : (forall i, (i < n)%nat -> 0 < z (i + 1)%nat - z i <= L) -> forall i j, (i <= j)%nat -> (j <= n)%nat -> z i <= z j.
Proof.
  intros G i j Hij. induction Hij as [|j Hij IH]; [lra|]. intros Hj. specialize (IH ltac:(lia)). specialize (G j ltac:(lia)). rewrite Nat.add_1_r in G. lra.
Qed.
Lemma cell_of n (z : nat -> R) t : (1 <= n)%nat -> z 0%nat <= t <= z n -> exists i, (i < n)%nat /\ z i <= t <= z (i + 1)%nat.
Proof.
  induction n as [|n IH]; [lia|]. intros _ Ht. destruct (Rle_dec (z n) t) as [L|L].
  - exists n. rewrite Nat.add_1_r. split; [lia|lra].
  - destruct n as [|n]; [lra|]. destruct (IH ltac:(lia) ltac:(lra)) as (i & Hi & Bi). exists i. split; [lia|exact Bi].
Qed.
Lemma sag_mono h k : 0 <= h <= H -> 0 <= k <= K -> sag (r - 1) (c - 1) A B C h k <= sag (r - 1) (c - 1) A B C H K.
Proof.
  intros Hh Hk. unfold sag. pose proof (pos_INR (r - 1)). pose proof (pos_INR (c - 1)). pose proof (pos_INR (r - 1 - 1)). pose proof (pos_INR (c - 1 - 1)). destruct Hpos as (PA & PB & PC).
  assert (h * h <= H * H) by nra. assert (k * k <= K * K) by nra. assert (h * k <= H * K) by nra.
  assert (0 <= INR (r - 1) * INR (r - 1 - 1) * A) by (apply Rmult_le_pos; [apply Rmult_le_pos|]; assumption). assert (0 <= INR (c - 1) * INR (c - 1 - 1) * C) by (apply Rmult_le_pos; [apply Rmult_le_pos|]; assumption).
  assert (0 <= 2 * (INR (r - 1) * INR (c - 1) * B)) by (apply Rmult_le_pos; [lra|]; apply Rmult_le_pos; [apply Rmult_le_pos|]; assumption).
  apply Rmult_le_compat_r; [lra|]. apply Rplus_le_compat; [apply Rplus_le_compat|]; apply Rmult_le_compat_l; assumption.
Qed.
(** a point of a triangle whose corners are vertices of one cell *)
Lemma in_cell i j (ia ib id ja jb jd : nat) l m n : (i < ud)%nat -> (j < vd)%nat -> 0 <= l -> 0 <= m -> 0 <= n -> l + m + n = 1 ->
  (i <= ia <= i + 1)%nat -> (i <= ib <= i + 1)%nat -> (i <= id <= i + 1)%nat -> (j <= ja <= j + 1)%nat -> (j <= jb <= j + 1)%nat -> (j <= jd <= j + 1)%nat ->
  let u := l * x ia + m * x ib + n * x id in let v := l * y ja + m * y jb + n * y jd in x 0%nat <= u <= x ud /\ y 0%nat <= v <= y vd /\
  apart E (vadd (vadd (vmulr (V ia ja) l) (vmulr (V ib jb) m)) (vmulr (V id jd) n)) (patch_point g r c u v).
Proof.
  intros Hi Hj Hl Hm Hn Es Ha Hb Hd Ha' Hb' Hd' u v. destruct Hx as (X0 & X1 & XS). destruct Hy as (Y0 & Y1 & YS).
  pose proof (increasing ud x H XS) as IX. pose proof (increasing vd y K YS) as IY.
  set (h := x (i + 1)%nat - x i). set (k := y (j + 1)%nat - y j). pose proof (XS i Hi) as Sh. pose proof (YS j Hj) as Sk. fold h in Sh. fold k in Sk.
  assert (RX : forall a, (i <= a <= i + 1)%nat -> x i <= x a <= x i + h). { intros a Hia. unfold h. split; [apply IX; lia|]. replace (x i + (x (i + 1)%nat - x i)) with (x (i + 1)%nat) by ring. apply IX; lia. }
  assert (RY : forall a, (j <= a <= j + 1)%nat -> y j <= y a <= y j + k). { intros a Hia. unfold k. split; [apply IY; lia|]. replace (y j + (y (j + 1)%nat - y j)) with (y (j + 1)%nat) by ring. apply IY; lia. }
  assert (BU : x 0%nat <= x i /\ x i + h <= x ud). { split; [apply IX; lia|]. unfold h. replace (x i + (x (i + 1)%nat - x i)) with (x (i + 1)%nat) by ring. apply IX; lia. }
  assert (BV : y 0%nat <= y j /\ y j + k <= y vd). { split; [apply IY; lia|]. unfold k. replace (y j + (y (j + 1)%nat - y j)) with (y (j + 1)%nat) by ring. apply IY; lia. }
  pose proof (RX ia Ha) as Xa. pose proof (RX ib Hb) as Xb. pose proof (RX id Hd) as Xd. pose proof (RY ja Ha') as Ya. pose proof (RY jb Hb') as Yb. pose proof (RY jd Hd') as Yd.
  pose proof (spread (x ia) (x ib) (x id) l m n (x i) h Hl Hm Hn Es Xa Xb Xd) as (SU & _). pose proof (spread (y ja) (y jb) (y jd) l m n (y j) k Hl Hm Hn Es Ya Yb Yd) as (SV & _).
  split; [unfold u; lra|]. split; [unfold v; lra|].
  pose proof (sag_mono h k ltac:(lra) ltac:(lra)) as SM.
  assert (G : forall co, co = x3 \/ co = y3 \/ co = z3 -> let T := tens (r - 1) (c - 1) (fun i j => co (entry g i j)) in
    forall a b d, Rabs (a - T (x ia) (y ja)) <= del -> Rabs (b - T (x ib) (y jb)) <= del -> Rabs (d - T (x id) (y jd)) <= del -> Rabs (a * l + b * m + d * n - T u v) <= E).
  { intros co Hco T a b d Da Db Dd.
    assert (TI : Rabs (l * T (x ia) (y ja) + m * T (x ib) (y jb) + n * T (x id) (y jd) - T u v) <= sag (r - 1) (c - 1) A B C h k).
    { unfold T, u, v. apply (tens_interpolated _ _ _ A B C) with (lo := x i) (lo' := y j); try assumption; try lra. now apply Hcurved. }
    replace (a * l + b * m + d * n - T u v) with ((l * T (x ia) (y ja) + m * T (x ib) (y jb) + n * T (x id) (y jd) - T u v) + (l * (a - T (x ia) (y ja)) + m * (b - T (x ib) (y jb)) + n * (d - T (x id) (y jd)))) by ring.
    eapply Rle_trans; [apply Rabs_triang|]. unfold E. apply Rplus_le_compat; [lra|]. clear - Da Db Dd Hl Hm Hn Es.
    replace del with (l * del + m * del + n * del) by (rewrite <- !Rmult_plus_distr_r, Es; ring). eapply Rle_trans; [apply Rabs_triang|]. apply Rplus_le_compat; [eapply Rle_trans; [apply Rabs_triang|]; apply Rplus_le_compat|];
      rewrite Rabs_mult, Rabs_pos_eq by assumption; apply Rmult_le_compat_l; assumption. }
  assert (Va : apart del (V ia ja) (patch_point g r c (x ia) (y ja))) by (apply Hvert; lia). assert (Vb : apart del (V ib jb) (patch_point g r c (x ib) (y jb))) by (apply Hvert; lia). assert (Vd : apart del (V id jd) (patch_point g r c (x id) (y jd))) by (apply Hvert; lia).
  destruct Va as (Ax & Ay & Az), Vb as (Bx & By & Bz), Vd as (Dx & Dy & Dz).
  pose proof (G x3 ltac:(auto) _ _ _ Ax Bx Dx) as GX. pose proof (G y3 ltac:(auto) _ _ _ Ay By Dy) as GY. pose proof (G z3 ltac:(auto) _ _ _ Az Bz Dz) as GZ. split; [|split]; [exact GX|exact GY|exact GZ].
Qed.
Lemma mesh_near q : on_mesh me q -> exists u v, x 0%nat <= u <= x ud /\ y 0%nat <= v <= y vd /\ apart E q (patch_point g r c u v).
Proof.
  intros (P & Q & S & l & m & n & Hin & Hl & Hm & Hn & Es & ->). apply mesh_cells in Hin as (i & j & Hi & Hj & [(-> & -> & ->)|(-> & -> & ->)]).
  - pose proof (in_cell i j i (i + 1) i j j (j + 1) l m n Hi Hj Hl Hm Hn Es ltac:(lia) ltac:(lia) ltac:(lia) ltac:(lia) ltac:(lia) ltac:(lia)) as IC. eexists _, _. exact IC.
  - pose proof (in_cell i j i (i + 1) (i + 1) (j + 1) j (j + 1) l m n Hi Hj Hl Hm Hn Es ltac:(lia) ltac:(lia) ltac:(lia) ltac:(lia) ltac:(lia) ltac:(lia)) as IC. eexists _, _. exact IC.
Qed.
Lemma patch_near u v : x 0%nat <= u <= x ud -> y 0%nat <= v <= y vd -> exists q, on_mesh me q /\ apart E q (patch_point g r c u v).
Proof.
  intros Bu Bv. destruct Hx as (X0 & X1 & XS). destruct Hy as (Y0 & Y1 & YS).
  destruct (cell_of ud x u Hud Bu) as (i & Hi & Xi). destruct (cell_of vd y v Hvd Bv) as (j & Hj & Yj). pose proof (XS i Hi) as Sh. pose proof (YS j Hj) as Sk.
  set (s := (u - x i) / (x (i + 1)%nat - x i)). set (t := (v - y j) / (y (j + 1)%nat - y j)).
  assert (F01 : forall a b d, 0 < b - a -> a <= d <= b -> 0 <= (d - a) / (b - a) <= 1).
  { intros a b d Hab Hd. split; [apply Rmult_le_pos; [lra|apply Rlt_le, Rinv_0_lt_compat; lra]|]. apply Rmult_le_reg_r with (b - a); [lra|]. replace ((d - a) / (b - a) * (b - a)) with (d - a) by (field; lra). lra. }
  assert (Hs : 0 <= s <= 1) by (apply F01; [lra|exact Xi]). assert (Ht : 0 <= t <= 1) by (apply F01; [lra|exact Yj]).
  assert (Eu : u = x i + s * (x (i + 1)%nat - x i)) by (unfold s; field; lra). assert (Ev : v = y j + t * (y (j + 1)%nat - y j)) by (unfold t; field; lra). clearbody s t.
  destruct (Rle_dec (s + t) 1) as [L|L].
  - pose proof (in_cell i j i (i + 1) i j j (j + 1) (1 - s - t) s t Hi Hj ltac:(lra) ltac:(lra) ltac:(lra) ltac:(lra) ltac:(lia) ltac:(lia) ltac:(lia) ltac:(lia) ltac:(lia) ltac:(lia)) as (_ & _ & AP).
    replace ((1 - s - t) * x i + s * x (i + 1)%nat + t * x i) with u in AP by (rewrite Eu; ring). replace ((1 - s - t) * y j + s * y j + t * y (j + 1)%nat) with v in AP by (rewrite Ev; ring).
    eexists. split; [|exact AP]. eexists _, _, _, _, _, _. split; [apply mesh_cells; exists i, j; split; [exact Hi|]; split; [exact Hj|]; left; repeat split|]. repeat split; lra.
  - pose proof (in_cell i j i (i + 1) (i + 1) (j + 1) j (j + 1) (1 - s) (1 - t) (s + t - 1) Hi Hj ltac:(lra) ltac:(lra) ltac:(lra) ltac:(lra) ltac:(lia) ltac:(lia) ltac:(lia) ltac:(lia) ltac:(lia) ltac:(lia)) as (_ & _ & AP).
    replace ((1 - s) * x i + (1 - t) * x (i + 1)%nat + (s + t - 1) * x (i + 1)%nat) with u in AP by (rewrite Eu; ring). replace ((1 - s) * y (j + 1)%nat + (1 - t) * y j + (s + t - 1) * y (j + 1)%nat) with v in AP by (rewrite Ev; ring).
    eexists. split; [|exact AP]. eexists _, _, _, _, _, _. split; [apply mesh_cells; exists i, j; split; [exact Hi|]; split; [exact Hj|]; right; repeat split|]. repeat split; lra.
Qed.
End Nodes.
Theorem C75_mesh_distance (p : SurfacePatch R) g (r c ud vd : nat) me u0 u1 v0 v1 A B C : sp_surface p = bezier3_surface g -> wf_grid g r c -> (1 <= r)%nat ->
  sp_range p = ((u0, u1), (v0, v1)) -> 0 <= u0 /\ u0 < u1 /\ u1 <= 1 -> 0 <= v0 /\ v0 < v1 /\ v1 <= 1 -> sp_division p = (ud, vd) -> patch_get_triangle_mesh p = Ok me ->
  (N.of_nat ((ud + 1) * (vd + 1)) < 2 ^ 32)%N -> curved g r c A B C -> 0 <= A /\ 0 <= B /\ 0 <= C ->
  let E := sag (r - 1) (c - 1) A B C ((u1 - u0) / INR ud) ((v1 - v0) / INR vd) in
  (forall q, on_mesh me q -> exists u v s, u0 <= u <= u1 /\ v0 <= v <= v1 /\ sf_get_point (sp_surface p) u v = Ok s /\ apart E q s) /\
  (forall u v, u0 <= u <= u1 -> v0 <= v <= v1 -> exists s q, sf_get_point (sp_surface p) u v = Ok s /\ on_mesh me q /\ apart E q s).
Proof.
  intros Hsurf W Hr Hrange Hu Hv Hdiv Hme Hsize Hcurved Hpos E.
  pose proof (C48_samples p me 0 Hme) as HS. rewrite Hdiv in HS. destruct HS as (us & vs & Eu & Ev & _ & _ & _ & _ & ET).
  destruct (uniform_length _ _ _ Eu) as [Hud _]. destruct (uniform_length _ _ _ Ev) as [Hvd _].
  set (x := fun i => u0 + INR i * (u1 - u0) / INR ud). set (y := fun i => v0 + INR i * (v1 - v0) / INR vd).
  assert (U : 0 < INR ud) by (apply lt_0_INR; lia). assert (V : 0 < INR vd) by (apply lt_0_INR; lia).
  assert (X0 : x 0%nat = u0) by (unfold x; cbn [INR]; field; lra). assert (X1 : x ud = u1) by (unfold x; field; lra). assert (Y0 : y 0%nat = v0) by (unfold y; cbn [INR]; field; lra). assert (Y1 : y vd = v1) by (unfold y; field; lra).
  assert (XS : forall i, 0 < x (i + 1)%nat - x i <= (u1 - u0) / INR ud). { intros i. replace (x (i + 1)%nat - x i) with ((u1 - u0) / INR ud) by (unfold x; rewrite plus_INR; cbn [INR]; field; lra). split; [apply Rdiv_lt_0_compat; lra|lra]. }
  assert (YS : forall i, 0 < y (i + 1)%nat - y i <= (v1 - v0) / INR vd). { intros i. replace (y (i + 1)%nat - y i) with ((v1 - v0) / INR vd) by (unfold y; rewrite plus_INR; cbn [INR]; field; lra). split; [apply Rdiv_lt_0_compat; lra|lra]. }
  assert (HV : forall i j, (i <= ud)%nat -> (j <= vd)%nat -> apart 0 (nth (i * (vd + 1) + j) (m_vertices me) (V3 0 0 0)) (patch_point g r c (x i) (y j))).
  { intros i j Hi Hj. pose proof (C48_uniform_parameters p me ud vd u0 u1 v0 v1 Hdiv Hrange Hme i j Hi Hj) as HU. rewrite Hsurf in HU. cbn [bezier3_surface sf_get_point] in HU.
    rewrite (patch_point_ok g r c _ _ W Hr) in HU. apply Ok_inj in HU. rewrite <- HU. unfold apart, x, y. rewrite !Rminus_eq_0, Rabs_R0. lra. }
  assert (HX : 0 <= x 0%nat /\ x ud <= 1 /\ forall i, (i < ud)%nat -> 0 < x (i + 1)%nat - x i <= (u1 - u0) / INR ud) by (rewrite X0, X1; repeat split; try lra; apply XS).
  assert (HY : 0 <= y 0%nat /\ y vd <= 1 /\ forall i, (i < vd)%nat -> 0 < y (i + 1)%nat - y i <= (v1 - v0) / INR vd) by (rewrite Y0, Y1; repeat split; try lra; apply YS).
  rewrite Hsurf. cbn [bezier3_surface sf_get_point]. replace E with (E + 0) by ring. split.
  - intros q Hq. destruct (mesh_near g r c ud vd me x y A B C _ _ 0 Hud Hvd Hsize ET HX HY Hcurved Hpos HV q Hq) as (u & v & Bu & Bv & AP).
    rewrite X0, X1 in Bu. rewrite Y0, Y1 in Bv. exists u, v, (patch_point g r c u v). split; [exact Bu|]. split; [exact Bv|]. split; [exact (patch_point_ok g r c u v W Hr)|exact AP].
  - intros u v Bu Bv. rewrite <- X0, <- X1 in Bu. rewrite <- Y0, <- Y1 in Bv. destruct (patch_near g r c ud vd me x y A B C _ _ 0 Hud Hvd Hsize ET HX HY Hcurved Hpos HV u v Bu Bv) as (q & Hq & AP).
    exists (patch_point g r c u v), q. split; [exact (patch_point_ok g r c u v W Hr)|]. split; [exact Hq|exact AP].
Qed.
(** n times as many divisions: n squared times as close *)
Theorem C75_refinement d e A B C ru rv (ud vd n : nat) : (1 <= ud)%nat -> (1 <= vd)%nat -> (1 <= n)%nat ->
  sag d e A B C (ru / INR (n * ud)) (rv / INR (n * vd)) = sag d e A B C (ru / INR ud) (rv / INR vd) / (INR n * INR n).
Proof.
  intros H1 H2 H3. apply (lt_INR 0) in H1, H2, H3. cbn [INR] in *. unfold sag. rewrite !mult_INR. field. lra.
Qed.
(** ** The mesh computed in doubles *)
Lemma unit_steps_below (n : nat) : (1 <= n)%nat -> (Z.of_nat n <= 2 ^ 20)%Z ->
  let st : f64 := fdiv (fsub f1 f0) (fofnat n) in forall i, (i < n)%nat -> INR i * (/ INR n - 4 * eps) <= val (steps f0 st i).
Proof.
  intros Hn Hb st. pose proof (unit_steps64 n Hn Hb) as U. cbv zeta in U. fold st in U.
  assert (Nn : 1 <= INR n) by (replace 1 with (INR 1) by reflexivity; apply le_INR; lia).
  assert (Bn : INR n <= 1048576) by (rewrite INR_IZR_INZ; apply IZR_le; exact Hb).
  destruct (int_grid (Z.of_nat n) (Z.of_nat n)) as [[Ng _] Vg]; [lia|]. rewrite <- INR_IZR_INZ in Vg.
  pose proof eta_pos as E0. pose proof eta_small as E1. pose proof big_pow2 as Big. pose proof big_pow2_max as BigM.
  assert (E2 : eta <= eps / 1000) by (unfold eps in *; lra). assert (T3 : 0 < eps) by (unfold eps; lra).
  assert (In : 0 < / INR n <= 1) by (split; [apply Rinv_0_lt_compat; lra|rewrite <- Rinv_1; apply Rinv_le_contravar; lra]).
  assert (S0 : num64 st /\ / INR n - 2 * eps <= val st <= 1 + 2 * eps).
  { change st with (fdiv (f1 : f64) (f64_of_Z (Z.of_nat n))). destruct (div64 f1 (f64_of_Z (Z.of_nat n)) f1_num Ng) as [Ns [Es Ps]].
    - lra.
    - rewrite f1_val, Vg. unfold Rdiv. rewrite Rmult_1_l, Rabs_pos_eq by lra. lra.
    - rewrite f1_val, Vg in Es, Ps. unfold Rdiv in Es, Ps. rewrite Rmult_1_l in Es, Ps. rewrite (Rabs_pos_eq (/ INR n)) in Es by lra.
      apply abs_both in Es. split; [exact Ns|]. assert (eps * / INR n <= eps) by (unfold eps; lra). lra. }
  destruct S0 as [Ns Bs]. assert (Hin : INR n * / INR n = 1) by (apply Rinv_r; lra).
  induction i as [|i IH]; intros Hi.
  - cbn [steps INR]. rewrite f0_val. lra.
  - specialize (IH ltac:(lia)). destruct (U i ltac:(lia)) as [Na Ba]. cbn [steps]. rewrite S_INR.
    assert (Bi1 : INR (S i) <= INR n) by (apply le_INR; lia). rewrite S_INR in Bi1. pose proof (pos_INR i) as Pi.
    assert (T1 : INR i * / INR n <= 1) by nra. assert (T2 : INR i * (4 * eps) <= 1 / 1000) by (unfold eps in *; lra).
    assert (Sm : Rabs (val (steps f0 st i) + val st) <= 22 / 10) by (apply Rabs_le; unfold eps in *; lra).
    destruct (add64 _ _ Na Ns) as [Nx [Ex Px]]; [lra|]. apply abs_both in Ex. 
    assert (J : / 1048576 <= / INR n) by (apply Rinv_le_contravar; lra). assert (P0 : 0 <= val (steps f0 st i) + val st) by (unfold eps in *; lra). rewrite Rabs_pos_eq in Ex, Sm by exact P0.
    destruct (Rle_dec (val (steps f0 st i) + val st) (11 / 10)) as [L|L].
    + assert (eps * (val (steps f0 st i) + val st) <= eps * (11 / 10)) by (apply Rmult_le_compat_l; lra). lra.
    + (* larger than 1: nothing to show *) unfold eps in *; lra.
Qed.
Lemma unit_nodes (n : nat) (us : list f64) : (Z.of_nat n <= 2 ^ 20)%Z -> uniform_divide (f0, f1) n = Ok us ->
  (1 <= n)%nat /\ val (nth 0 us f0) = 0 /\ val (nth n us f0) = 1 /\ forall i, (i < n)%nat -> 0 < val (nth (i + 1) us f0) - val (nth i us f0) <= / INR n + INR n * pow2 (-50).
Proof.
  intros Hb E. destruct (uniform_length _ _ _ E) as [Hn _]. split; [exact Hn|]. rewrite uniform_divide_list in E by exact Hn. apply Ok_inj in E. subst us.
  set (st := fdiv (fsub f1 f0) (fofnat n)). set (us := map (steps f0 st) (seq 0 n) ++ [f1]).
  assert (N1 : forall i, (i < n)%nat -> nth i us f0 = steps f0 st i). { intros i Hi. unfold us. rewrite app_nth1 by (rewrite map_length, seq_length; lia). rewrite (nth_map_default _ _ _ 0%nat) by now rewrite seq_length. now rewrite seq_nth by lia. }
  assert (N2 : nth n us f0 = f1). { unfold us. rewrite app_nth2 by (rewrite map_length, seq_length; lia). now rewrite map_length, seq_length, Nat.sub_diag. }
  split; [rewrite N1 by lia; apply f0_val|]. split; [rewrite N2; apply f1_val|].
  assert (Nn : 1 <= INR n) by (replace 1 with (INR 1) by reflexivity; apply le_INR; lia). assert (Bn : INR n <= 1048576) by (rewrite INR_IZR_INZ; apply IZR_le; exact Hb).
  assert (Hin : INR n * / INR n = 1) by (apply Rinv_r; lra). assert (T3 : 0 < eps) by (unfold eps; lra).
  assert (J : / 1048576 <= / INR n) by (apply Rinv_le_contravar; lra).
  assert (AB : forall i, (i <= n)%nat -> INR i * (/ INR n - 4 * eps) <= val (nth i us f0) <= INR i * (/ INR n + 4 * eps)).
  { intros i Hi. destruct (Nat.eq_dec i n) as [->|Ne].
    - rewrite N2, f1_val. assert (0 <= INR n * (4 * eps)) by (apply Rmult_le_pos; lra). lra.
    - rewrite N1 by lia. split; [apply (unit_steps_below n Hn Hb i); lia|apply (unit_steps64 n Hn Hb i); lia]. }
  intros i Hi. pose proof (AB i ltac:(lia)) as A0. pose proof (AB (i + 1)%nat ltac:(lia)) as A1. rewrite plus_INR in A1. cbn [INR] in A1. change (-50)%Z with (3 + -53)%Z. rewrite pow2_add, eps_pow2, <- (pow2_Z 3) by lia. change (IZR (2 ^ 3)) with 8.
  assert (Bi : INR (i + 1) <= INR n) by (apply le_INR; lia). rewrite plus_INR in Bi. cbn [INR] in Bi. pose proof (pos_INR i).
  assert ((2 * INR i + 1) * (4 * eps) <= 2 * INR n * (4 * eps)) by (apply Rmult_le_compat_r; lra). assert (2 * INR n * (4 * eps) < / 1048576) by (unfold eps; lra). split; lra.
Qed.
(** the mesh of a Bezier patch over the unit square *)
Theorem C75_mesh_distance64 (p : SurfacePatch f64) g (r c ud vd : nat) (M A B C : R) : bezier_patch p g r c -> moderate (r * c) -> 0 <= M <= pow2 1000 -> (forall p, In p (g_data g) -> finite3 p /\ within M (val3 p)) ->
  sp_division p = (ud, vd) -> (1 <= ud)%nat -> (1 <= vd)%nat -> (Z.of_nat ud <= 2 ^ 20)%Z -> (Z.of_nat vd <= 2 ^ 20)%Z -> (N.of_nat ((ud + 1) * (vd + 1)) < 2 ^ 32)%N -> curved (val_grid g) r c A B C -> 0 <= A /\ 0 <= B /\ 0 <= C ->
  let E := sag (r - 1) (c - 1) A B C (/ INR ud + INR ud * pow2 (-50)) (/ INR vd + INR vd * pow2 (-50)) + INR (r * c) * (pow2 (-48) * M + pow2 (-1073)) in
  exists me, patch_get_triangle_mesh p = Ok me /\ Forall finite3 (m_vertices me) /\
  (forall q, on_mesh (val_mesh me) q -> exists u v s, 0 <= u <= 1 /\ 0 <= v <= 1 /\ bezier_surface3_get_point (val_grid g) u v = Ok s /\ apart E q s) /\
  (forall u v, 0 <= u <= 1 -> 0 <= v <= 1 -> exists s q, bezier_surface3_get_point (val_grid g) u v = Ok s /\ on_mesh (val_mesh me) q /\ apart E q s).
Proof.
  intros BP Hm HM Hp Hdiv Hud Hvd Du Dv Hsize Hcurved Hpos E.
  destruct (bezier_mesh p g r c ud vd BP Hdiv Hud Hvd) as (me & Hme & _ & _ & Lm & _); [lia|]. exists me. split; [exact Hme|].
  destruct BP as (Es & Er & W & Hr). pose proof (val_grid_wf g r c W) as WR. pose proof (C48_samples p me f0 Hme) as HS. rewrite Hdiv, Er, Es in HS. cbn [fst snd bezier3_surface sf_get_point] in HS. destruct HS as (us & vs & Eu & Ev & Lu & Lv & _ & Hpt & ET).
  pose proof (unit_params64 ud us Du Eu) as Pu. pose proof (unit_params64 vd vs Dv Ev) as Pv. rewrite Forall_forall in Pu, Pv.
  destruct (unit_nodes ud us Du Eu) as (_ & X0 & X1 & XS). destruct (unit_nodes vd vs Dv Ev) as (_ & Y0 & Y1 & YS).
  set (x := fun i => val (nth i us f0)). set (y := fun i => val (nth i vs f0)). set (del := INR (r * c) * (pow2 (-48) * M + pow2 (-1073))) in *.
  assert (HV : forall i j, (i <= ud)%nat -> (j <= vd)%nat -> close3 del (nth (i * (vd + 1) + j) (m_vertices me) (V3 f0 f0 f0)) (patch_point (val_grid g) r c (x i) (y j))).
  { intros i j Hi Hj. destruct (Pu (nth i us f0)) as [Nu Ru]; [apply nth_In; lia|]. destruct (Pv (nth j vs f0)) as [Nv Rv]; [apply nth_In; lia|].
    destruct (C62_bezier_surface_f64 g r c (nth i us f0) (nth j vs f0) M W Hr Hm Nu Nv Ru Rv HM Hp) as (a & b & Ea & Eb & Cab). rewrite (Hpt i j Hi Hj) in Ea. apply Ok_inj in Ea. rewrite Ea. rewrite (patch_point_ok _ r c _ _ WR Hr) in Eb. apply Ok_inj in Eb. rewrite <- Eb in Cab. exact Cab. }
  assert (HF : Forall finite3 (m_vertices me)).
  { apply Forall_forall. intros w Hw. destruct (In_nth _ _ (V3 f0 f0 f0) Hw) as (k & Hk & <-). rewrite Lm in Hk. 
    assert (Hk' : k = (k / (vd + 1) * (vd + 1) + k mod (vd + 1))%nat) by (rewrite Nat.mul_comm; apply Nat.div_mod; lia). rewrite Hk'. apply HV.
    - assert (k / (vd + 1) < ud + 1)%nat by (apply Nat.div_lt_upper_bound; [lia|nia]). lia.
    - assert (k mod (vd + 1) < vd + 1)%nat by (apply Nat.mod_upper_bound; lia). lia. }
  assert (HV' : forall i j, (i <= ud)%nat -> (j <= vd)%nat -> apart del (nth (i * (vd + 1) + j) (m_vertices (val_mesh me)) (V3 0 0 0)) (patch_point (val_grid g) r c (x i) (y j))).
  { intros i j Hi Hj. unfold val_mesh. cbn [m_vertices]. rewrite (nth_map_default val3 _ _ (V3 f0 f0 f0)) by (rewrite Lm; nia). destruct (HV i j Hi Hj) as (_ & Cx & Cy & Cz). split; [exact Cx|split; [exact Cy|exact Cz]]. }
  assert (HX : 0 <= x 0%nat /\ x ud <= 1 /\ forall i, (i < ud)%nat -> 0 < x (i + 1)%nat - x i <= / INR ud + INR ud * pow2 (-50)) by (unfold x; rewrite X0, X1; repeat split; try lra; now apply XS).
  assert (HY : 0 <= y 0%nat /\ y vd <= 1 /\ forall i, (i < vd)%nat -> 0 < y (i + 1)%nat - y i <= / INR vd + INR vd * pow2 (-50)) by (unfold y; rewrite Y0, Y1; repeat split; try lra; now apply YS).
  split; [exact HF|]. split.
  - intros q Hq. destruct (mesh_near (val_grid g) r c ud vd (val_mesh me) x y A B C _ _ del Hud Hvd Hsize ET HX HY Hcurved Hpos HV' q Hq) as (u & v & Bu & Bv & AP).
    unfold x, y in Bu, Bv. rewrite X0, X1 in Bu. rewrite Y0, Y1 in Bv. exists u, v, (patch_point (val_grid g) r c u v). split; [exact Bu|]. split; [exact Bv|]. split; [exact (patch_point_ok _ r c u v WR Hr)|exact AP].
  - intros u v Bu Bv. destruct (patch_near (val_grid g) r c ud vd (val_mesh me) x y A B C _ _ del Hud Hvd Hsize ET HX HY Hcurved Hpos HV' u v) as (q & Hq & AP).
    + unfold x. rewrite X0, X1. exact Bu.
    + unfold y. rewrite Y0, Y1. exact Bv.
    + exists (patch_point (val_grid g) r c u v), q. split; [exact (patch_point_ok _ r c u v WR Hr)|]. split; [exact Hq|exact AP].
Qed.
(** a bent sheet with 10 by 10 divisions: nowhere more than 0.021 between sheet and mesh *)
Definition sheet : Grid (vec3 f64) := mkGrid 2 (map (fun '(a, b, c) => V3 (f64_of_Z a) (f64_of_Z b) (f64_of_Z c)) [(0, 0, 0); (0, 1, 0); (1, 0, 0); (1, 1, 2); (2, 0, 0); (2, 1, 0)]%Z).
Definition sheet_patch : SurfacePatch f64 := {| sp_surface := bezier3_surface sheet; sp_range := ((f0, f1), (f0, f1)); sp_division := (10, 10)%nat |}.
Lemma small_val z : (Z.abs z <= 1000)%Z -> num64 (f64_of_Z z) /\ val (f64_of_Z z) = IZR z.
Proof. intros Hz. destruct (int_grid z 1000) as [[N _] V]; [lia|]. split; assumption. Qed.
Example C75_nonvacuous : exists me, patch_get_triangle_mesh sheet_patch = Ok me /\ Forall finite3 (m_vertices me) /\ length (m_vertices me) = 121%nat /\ length (m_triangles me) = 600%nat /\
  curved (val_grid sheet) 3 2 4 2 0 /\
  (forall q, on_mesh (val_mesh me) q -> exists u v s, 0 <= u <= 1 /\ 0 <= v <= 1 /\ bezier_surface3_get_point (val_grid sheet) u v = Ok s /\ apart (21 / 1000) q s) /\
  (forall u v, 0 <= u <= 1 -> 0 <= v <= 1 -> exists s q, bezier_surface3_get_point (val_grid sheet) u v = Ok s /\ on_mesh (val_mesh me) q /\ apart (21 / 1000) q s).
Proof.
  assert (W : wf_grid sheet 3 2) by (repeat split; cbn; lia). assert (BP : bezier_patch sheet_patch sheet 3 2) by (repeat split; try reflexivity; cbn; lia).
  assert (HP : forall p, In p (g_data sheet) -> finite3 p /\ within 2 (val3 p)).
  { intros p Hp. apply in_map_iff in Hp as ([[a b] d] & <- & Hin). assert (Ba : (0 <= a <= 2 /\ 0 <= b <= 2 /\ 0 <= d <= 2)%Z) by (cbn [In] in Hin; repeat (destruct Hin as [H|Hin]; [injection H; lia|]); destruct Hin).
    destruct (small_val a ltac:(lia)) as [Na Va]. destruct (small_val b ltac:(lia)) as [Nb Vb]. destruct (small_val d ltac:(lia)) as [Nd Vd]. split; [exact (conj Na (conj Nb Nd))|].
    unfold within, val3. cbn [x3 y3 z3]. rewrite Va, Vb, Vd. destruct Ba as (A1 & A2 & A3). repeat split; rewrite Rabs_pos_eq by (apply (IZR_le 0); lia); apply IZR_le; lia. }
  assert (EG : val_grid sheet = g_ex).
  { unfold val_grid, g_ex, sheet. cbn [g_cols g_data map]. f_equal. unfold Props_accuracy.val3. cbn [x3 y3 z3]. destruct (small_val 0 ltac:(lia)) as [_ ->]. destruct (small_val 1 ltac:(lia)) as [_ ->]. destruct (small_val 2 ltac:(lia)) as [_ ->]. reflexivity. }
  assert (HC : curved (val_grid sheet) 3 2 4 2 0).
  { rewrite EG. intros co Hco. cbn [Nat.sub]. assert (I3 : forall i, (i <= 2)%nat -> i = 0%nat \/ i = 1%nat \/ i = 2%nat) by (intros; lia). unfold net_bounds, entry, g_ex. cbn [g_cols g_data].
    split; [|split]; intros i j Hi Hj.
    - assert (i = 0%nat) as -> by lia. assert (j = 0%nat \/ j = 1%nat) as [-> | ->] by lia; destruct Hco as [-> |[-> | ->]]; cbn; apply Rabs_le; lra.
    - assert (j = 0%nat) as -> by lia. assert (i = 0%nat \/ i = 1%nat) as [-> | ->] by lia; destruct Hco as [-> |[-> | ->]]; cbn; apply Rabs_le; lra.
    - lia. }
  assert (P48 : 0 < pow2 (-48) <= / 1000000) by (split; [apply pow2_pos|]; change (-48)%Z with (5 + -53)%Z; rewrite pow2_add, eps_pow2, <- (pow2_Z 5) by lia; change (IZR (2 ^ 5)) with 32; unfold eps; lra).
  assert (P50 : 0 < pow2 (-50) <= / 1000000) by (split; [apply pow2_pos|]; change (-50)%Z with (3 + -53)%Z; rewrite pow2_add, eps_pow2, <- (pow2_Z 3) by lia; change (IZR (2 ^ 3)) with 8; unfold eps; lra).
  assert (P73 : 0 < pow2 (-1073) <= pow2 (-48)) by (split; [apply pow2_pos|apply pow2_le; lia]).
  assert (M2 : 0 <= 2 <= pow2 1000) by (split; [lra|]; replace 2 with (pow2 1) by (rewrite <- (pow2_Z 1) by lia; reflexivity); apply pow2_le; lia).
  destruct (C75_mesh_distance64 sheet_patch sheet 3 2 10 10 2 4 2 0 BP ltac:(unfold moderate; lia) M2 HP eq_refl ltac:(lia) ltac:(lia) ltac:(lia) ltac:(lia) ltac:(lia) HC ltac:(lra)) as (me & Hme & HF & Q1 & Q2).
  exists me. split; [exact Hme|]. split; [exact HF|]. destruct (bezier_mesh sheet_patch sheet 3 2 10 10 BP eq_refl ltac:(lia) ltac:(lia) ltac:(vm_compute; discriminate)) as (me' & Hme' & _ & _ & L1 & L2).
  rewrite Hme' in Hme. apply Ok_inj in Hme. subst me'. split; [exact L1|]. split; [exact L2|]. split; [exact HC|].
  set (E := sag _ _ _ _ _ _ _ + _) in *. assert (EE : E <= 21 / 1000).
  { unfold E, sag. cbn [Nat.sub Nat.mul Nat.add]. replace (INR 10) with 10 by (cbn; lra). replace (INR 2) with 2 by reflexivity. replace (INR 1) with 1 by reflexivity. replace (INR 0) with 0 by reflexivity. replace (INR 6) with 6 by (cbn; lra). 
    set (t := pow2 (-50)) in *. set (w := pow2 (-48)) in *. set (z := pow2 (-1073)) in *. clearbody t w z. assert (t * t <= t * / 1000000) by (apply Rmult_le_compat_l; lra). nra. }
  assert (AW : forall q s, apart E q s -> apart (21 / 1000) q s) by (intros q s (A1 & A2 & A3); repeat split; lra).
  split.
  - intros q Hq. destruct (Q1 q Hq) as (u & v & s & B1 & B2 & B3 & B4). exists u, v, s. auto.
  - intros u v Bu Bv. destruct (Q2 u v Bu Bv) as (s & q & B1 & B2 & B3). exists s, q. auto.
Qed.
