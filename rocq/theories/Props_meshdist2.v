(** Property C78: how far the mesh of a patch on any smooth surface is from the surface; cylinders, swept and spun surfaces. *)
From Coq Require Import Reals Lra Psatz Lia Arith ZArith NArith List SpecFloat.
From Verif Require Import Prelude Num M_vec M_utils M_curve M_polygon M_meshgen M_surface L_base L_vec L_bezier L_geom L_round L_polygon Props_utils Props_bezier Props_polyline Props_surface Props_round Props_gridmesh Props_solid Props_meshdist Props_sampling.
Import ListNotations.
Open Scope R_scope.

(** ** Specification *)
Definition norm2 (p : vec3 R) : R := x3 p ^ 2 + y3 p ^ 2 + z3 p ^ 2.
(** over the range the surface has partial derivatives up to second order, the second ones at most [A], [B] (mixed) and [C] long *)
Definition smooth (S : R -> R -> outcome (vec3 R)) (u0 u1 v0 v1 A B C : R) : Prop := exists s su sv suu suv svv : R -> R -> vec3 R,
  forall u v, u0 <= u <= u1 -> v0 <= v <= v1 -> S u v = Ok (s u v) /\
  (forall co, co = x3 \/ co = y3 \/ co = z3 ->
    derivable_pt_lim (fun t => co (s t v)) u (co (su u v)) /\ derivable_pt_lim (fun t => co (s u t)) v (co (sv u v)) /\
    derivable_pt_lim (fun t => co (su t v)) u (co (suu u v)) /\ derivable_pt_lim (fun t => co (su u t)) v (co (suv u v)) /\ derivable_pt_lim (fun t => co (sv u t)) v (co (svv u v))) /\
  norm2 (suu u v) <= A ^ 2 /\ norm2 (suv u v) <= B ^ 2 /\ norm2 (svv u v) <= C ^ 2.
(** the largest distance between the mesh and the surface, for cells of [h] by [k] *)
Definition bulge (A B C h k : R) : R := (A * (h * h) + 2 * B * (h * k) + C * (k * k)) / 8.

Lemma norm2_nonneg p : 0 <= norm2 p.
Proof. unfold norm2. pose proof (pow2_ge_0 (x3 p)). pose proof (pow2_ge_0 (y3 p)). pose proof (pow2_ge_0 (z3 p)). lra. Qed.
(** linear interpolation on a triangle inside one cell *)
Lemma smooth_interpolated S u0 u1 v0 v1 A B C a b d a' b' d' pa pb pd l m n lo lo' h k : smooth S u0 u1 v0 v1 A B C -> 0 <= A /\ 0 <= B /\ 0 <= C ->
  0 <= l -> 0 <= m -> 0 <= n -> l + m + n = 1 -> 0 < h -> 0 < k -> u0 <= lo -> lo + h <= u1 -> v0 <= lo' -> lo' + k <= v1 ->
  lo <= a <= lo + h -> lo <= b <= lo + h -> lo <= d <= lo + h -> lo' <= a' <= lo' + k -> lo' <= b' <= lo' + k -> lo' <= d' <= lo' + k ->
  S a a' = Ok pa -> S b b' = Ok pb -> S d d' = Ok pd ->
  exists q, S (l * a + m * b + n * d) (l * a' + m * b' + n * d') = Ok q /\ dist3 (vadd (vadd (vmulr pa l) (vmulr pb m)) (vmulr pd n)) q <= bulge A B C h k.
Proof.
  intros (s & su & sv & suu & suv & svv & HS) (HA & HB & HC) Hl Hm Hn Es Hh Hk B1 B2 B3 B4 Ha Hb Hd Ha' Hb' Hd' Ea Eb Ed.
  set (u := l * a + m * b + n * d). set (v := l * a' + m * b' + n * d').
  pose proof (spread a b d l m n lo h Hl Hm Hn Es Ha Hb Hd) as (SU & _). pose proof (spread a' b' d' l m n lo' k Hl Hm Hn Es Ha' Hb' Hd') as (SV & _). fold u in SU. fold v in SV.
  assert (pa = s a a') by (destruct (HS a a') as [E _]; [lra|lra|congruence]). assert (pb = s b b') by (destruct (HS b b') as [E _]; [lra|lra|congruence]). assert (pd = s d d') by (destruct (HS d d') as [E _]; [lra|lra|congruence]). subst pa pb pd.
  exists (s u v). split; [apply HS; lra|].
  set (p := vadd _ _). set (e1 := x3 p - x3 (s u v)). set (e2 := y3 p - y3 (s u v)). set (e3 := z3 p - z3 (s u v)).
  set (E := dist3 p (s u v)). assert (HE : 0 <= E) by apply sqrt_pos.
  assert (EE : e1 ^ 2 + e2 ^ 2 + e3 ^ 2 = E ^ 2). { unfold E, dist3. rewrite pow2_sqrt; [reflexivity|]. pose proof (pow2_ge_0 e1). pose proof (pow2_ge_0 e2). pose proof (pow2_ge_0 e3). unfold e1, e2, e3 in *. lra. }
  set (f := fun (g : R -> R -> vec3 R) u v => e1 * x3 (g u v) + e2 * y3 (g u v) + e3 * z3 (g u v)).
  assert (I : Rabs (l * f s a a' + m * f s b b' + n * f s d d' - f s (l * a + m * b + n * d) (l * a' + m * b' + n * d')) <= (E * A * (h * h) + 2 * (E * B) * (h * k) + E * C * (k * k)) / 8).
  { apply (interpolated (f s) (f su) (f sv) (f suu) (f suv) (f svv) u0 u1 v0 v1 (E * A) (E * B) (E * C)) with (lo := lo) (lo' := lo'); try assumption;
      intros x y Hx Hy; destruct (HS x y Hx Hy) as (_ & D & N1 & N2 & N3); pose proof (D x3 ltac:(auto)) as (X1 & X2 & X3 & X4 & X5); pose proof (D y3 ltac:(auto)) as (Y1 & Y2 & Y3 & Y4 & Y5); pose proof (D z3 ltac:(auto)) as (Z1 & Z2 & Z3 & Z4 & Z5);
      unfold f; first [now apply (comb_lim (fun t => x3 _) (fun t => y3 _) (fun t => z3 _))|now apply cauchy_abs]. }
  fold u v in I.
  assert (L : E * E <= E * bulge A B C h k).
  { replace (E * E) with (e1 * e1 + e2 * e2 + e3 * e3) by (replace (E * E) with (E ^ 2) by ring; rewrite <- EE; ring).
    replace (e1 * e1 + e2 * e2 + e3 * e3) with (l * f s a a' + m * f s b b' + n * f s d d' - f s u v).
    2:{ unfold f. transitivity (e1 * (x3 p - x3 (s u v)) + e2 * (y3 p - y3 (s u v)) + e3 * (z3 p - z3 (s u v))); [|reflexivity]. unfold p. vsimp. rnum. ring. }
    replace (E * bulge A B C h k) with ((E * A * (h * h) + 2 * (E * B) * (h * k) + E * C * (k * k)) / 8) by (unfold bulge; field).
    eapply Rle_trans; [apply Rle_abs|exact I]. }
  destruct (Rle_lt_or_eq_dec 0 E HE) as [P|P]; [now apply Rmult_le_reg_l in L|].
  rewrite <- P. unfold bulge. assert (0 <= A * (h * h)) by (apply Rmult_le_pos; nra). assert (0 <= 2 * B * (h * k)) by (apply Rmult_le_pos; nra). assert (0 <= C * (k * k)) by (apply Rmult_le_pos; nra). lra.
Qed.
Lemma bulge_mono A B C h k H K : 0 <= A /\ 0 <= B /\ 0 <= C -> 0 <= h <= H -> 0 <= k <= K -> bulge A B C h k <= bulge A B C H K.
Proof.
  intros (HA & HB & HC) Hh Hk. unfold bulge. assert (h * h <= H * H) by nra. assert (k * k <= K * K) by nra. assert (h * k <= H * K) by nra.
  apply Rmult_le_compat_r; [lra|]. apply Rplus_le_compat; [apply Rplus_le_compat|]; apply Rmult_le_compat_l; lra.
Qed.
Lemma nodes_increasing n (z : nat -> R) L : (forall i, (i < n)%nat -> 0 < z (i + 1)%nat - z i <= L) -> forall i j, (i <= j)%nat -> (j <= n)%nat -> z i <= z j.
Proof.
  intros G i j Hij. induction Hij as [|j Hij IH]; [lra|]. intros Hj. specialize (IH ltac:(lia)). specialize (G j ltac:(lia)). rewrite Nat.add_1_r in G. lra.
Qed.
Lemma node_cell n (z : nat -> R) t : (1 <= n)%nat -> z 0%nat <= t <= z n -> exists i, (i < n)%nat /\ z i <= t <= z (i + 1)%nat.
Proof.
  induction n as [|n IH]; [lia|]. intros _ Ht. destruct (Rle_dec (z n) t) as [L|L].
  - exists n. rewrite Nat.add_1_r. split; [lia|lra].
  - destruct n as [|n]; [lra|]. destruct (IH ltac:(lia) ltac:(lra)) as (i & Hi & Bi). exists i. split; [lia|exact Bi].
Qed.
Section SmoothNodes.
Variables (S : R -> R -> outcome (vec3 R)) (ud vd : nat) (me : TriangleMesh R) (x y : nat -> R) (A B C H K : R).
Hypothesis Hud : (1 <= ud)%nat.
Hypothesis Hvd : (1 <= vd)%nat.
Hypothesis Hsize : (N.of_nat ((ud + 1) * (vd + 1)) < 2 ^ 32)%N.
Hypothesis Htris : m_triangles me = emit (grid_tris (ud + 1) (vd + 1)).
Hypothesis XS : forall i, (i < ud)%nat -> 0 < x (i + 1)%nat - x i <= H.
Hypothesis YS : forall j, (j < vd)%nat -> 0 < y (j + 1)%nat - y j <= K.
Hypothesis Hsmooth : smooth S (x 0%nat) (x ud) (y 0%nat) (y vd) A B C.
Hypothesis Hpos : 0 <= A /\ 0 <= B /\ 0 <= C.
Let V (i j : nat) := nth (i * (vd + 1) + j) (m_vertices me) (V3 0 0 0).
Hypothesis Hvert : forall i j, (i <= ud)%nat -> (j <= vd)%nat -> S (x i) (y j) = Ok (V i j).
Let E := bulge A B C H K.
Lemma s_in_cell i j (ia ib id ja jb jd : nat) l m n : (i < ud)%nat -> (j < vd)%nat -> 0 <= l -> 0 <= m -> 0 <= n -> l + m + n = 1 ->
  (i <= ia <= i + 1)%nat -> (i <= ib <= i + 1)%nat -> (i <= id <= i + 1)%nat -> (j <= ja <= j + 1)%nat -> (j <= jb <= j + 1)%nat -> (j <= jd <= j + 1)%nat ->
  let u := l * x ia + m * x ib + n * x id in let v := l * y ja + m * y jb + n * y jd in x 0%nat <= u <= x ud /\ y 0%nat <= v <= y vd /\
  exists q, S u v = Ok q /\ dist3 (vadd (vadd (vmulr (V ia ja) l) (vmulr (V ib jb) m)) (vmulr (V id jd) n)) q <= E.
Proof.
  intros Hi Hj Hl Hm Hn Es Ha Hb Hd Ha' Hb' Hd' u v.
  pose proof (nodes_increasing ud x H XS) as IX. pose proof (nodes_increasing vd y K YS) as IY.
  set (h := x (i + 1)%nat - x i). set (k := y (j + 1)%nat - y j). pose proof (XS i Hi) as Sh. pose proof (YS j Hj) as Sk. fold h in Sh. fold k in Sk.
  assert (RX : forall a, (i <= a <= i + 1)%nat -> x i <= x a <= x i + h). { intros a Hia. unfold h. split; [apply IX; lia|]. replace (x i + (x (i + 1)%nat - x i)) with (x (i + 1)%nat) by ring. apply IX; lia. }
  assert (RY : forall a, (j <= a <= j + 1)%nat -> y j <= y a <= y j + k). { intros a Hia. unfold k. split; [apply IY; lia|]. replace (y j + (y (j + 1)%nat - y j)) with (y (j + 1)%nat) by ring. apply IY; lia. }
  assert (BU : x 0%nat <= x i /\ x i + h <= x ud). { split; [apply IX; lia|]. unfold h. replace (x i + (x (i + 1)%nat - x i)) with (x (i + 1)%nat) by ring. apply IX; lia. }
  assert (BV : y 0%nat <= y j /\ y j + k <= y vd). { split; [apply IY; lia|]. unfold k. replace (y j + (y (j + 1)%nat - y j)) with (y (j + 1)%nat) by ring. apply IY; lia. }
  pose proof (RX ia Ha) as Xa. pose proof (RX ib Hb) as Xb. pose proof (RX id Hd) as Xd. pose proof (RY ja Ha') as Ya. pose proof (RY jb Hb') as Yb. pose proof (RY jd Hd') as Yd.
  pose proof (spread (x ia) (x ib) (x id) l m n (x i) h Hl Hm Hn Es Xa Xb Xd) as (SU & _). pose proof (spread (y ja) (y jb) (y jd) l m n (y j) k Hl Hm Hn Es Ya Yb Yd) as (SV & _).
  split; [unfold u; lra|]. split; [unfold v; lra|].
  destruct (smooth_interpolated S _ _ _ _ A B C (x ia) (x ib) (x id) (y ja) (y jb) (y jd) (V ia ja) (V ib jb) (V id jd) l m n (x i) (y j) h k Hsmooth Hpos Hl Hm Hn Es) as (q & Eq & D); try lra; try (apply Hvert; lia).
  exists q. split; [exact Eq|]. eapply Rle_trans; [exact D|]. apply bulge_mono; [exact Hpos|lra|lra].
Qed.
Lemma s_mesh_near q : on_mesh me q -> exists u v p, x 0%nat <= u <= x ud /\ y 0%nat <= v <= y vd /\ S u v = Ok p /\ dist3 q p <= E.
Proof.
  intros (P & Q & T & l & m & n & Hin & Hl & Hm & Hn & Es & ->). apply (mesh_cells ud vd me Hud Hvd Hsize Htris) in Hin as (i & j & Hi & Hj & [(-> & -> & ->)|(-> & -> & ->)]).
  - destruct (s_in_cell i j i (i + 1) i j j (j + 1) l m n Hi Hj Hl Hm Hn Es ltac:(lia) ltac:(lia) ltac:(lia) ltac:(lia) ltac:(lia) ltac:(lia)) as (R1 & R2 & p & R3 & R4). eexists _, _, p. split; [exact R1|]. split; [exact R2|]. split; [exact R3|exact R4].
  - destruct (s_in_cell i j i (i + 1) (i + 1) (j + 1) j (j + 1) l m n Hi Hj Hl Hm Hn Es ltac:(lia) ltac:(lia) ltac:(lia) ltac:(lia) ltac:(lia) ltac:(lia)) as (R1 & R2 & p & R3 & R4). eexists _, _, p. split; [exact R1|]. split; [exact R2|]. split; [exact R3|exact R4].
Qed.
Lemma s_patch_near u v : x 0%nat <= u <= x ud -> y 0%nat <= v <= y vd -> exists p q, S u v = Ok p /\ on_mesh me q /\ dist3 q p <= E.
Proof.
  intros Bu Bv.
  destruct (node_cell ud x u Hud Bu) as (i & Hi & Xi). destruct (node_cell vd y v Hvd Bv) as (j & Hj & Yj). pose proof (XS i Hi) as Sh. pose proof (YS j Hj) as Sk.
  set (s := (u - x i) / (x (i + 1)%nat - x i)). set (t := (v - y j) / (y (j + 1)%nat - y j)).
  assert (F01 : forall a b d, 0 < b - a -> a <= d <= b -> 0 <= (d - a) / (b - a) <= 1).
  { intros a b d Hab Hd. split; [apply Rmult_le_pos; [lra|apply Rlt_le, Rinv_0_lt_compat; lra]|]. apply Rmult_le_reg_r with (b - a); [lra|]. replace ((d - a) / (b - a) * (b - a)) with (d - a) by (field; lra). lra. }
  assert (Hs : 0 <= s <= 1) by (apply F01; [lra|exact Xi]). assert (Ht : 0 <= t <= 1) by (apply F01; [lra|exact Yj]).
  assert (Eu : u = x i + s * (x (i + 1)%nat - x i)) by (unfold s; field; lra). assert (Ev : v = y j + t * (y (j + 1)%nat - y j)) by (unfold t; field; lra). clearbody s t.
  destruct (Rle_dec (s + t) 1) as [L|L].
  - destruct (s_in_cell i j i (i + 1) i j j (j + 1) (1 - s - t) s t Hi Hj ltac:(lra) ltac:(lra) ltac:(lra) ltac:(lra) ltac:(lia) ltac:(lia) ltac:(lia) ltac:(lia) ltac:(lia) ltac:(lia)) as (_ & _ & p & AQ & AP).
    replace ((1 - s - t) * x i + s * x (i + 1)%nat + t * x i) with u in AQ by (rewrite Eu; ring). replace ((1 - s - t) * y j + s * y j + t * y (j + 1)%nat) with v in AQ by (rewrite Ev; ring).
    exists p. eexists. split; [exact AQ|]. split; [|exact AP]. eexists _, _, _, _, _, _. split; [apply (mesh_cells ud vd me Hud Hvd Hsize Htris); exists i, j; split; [exact Hi|]; split; [exact Hj|]; left; repeat split|]. repeat split; lra.
  - destruct (s_in_cell i j i (i + 1) (i + 1) (j + 1) j (j + 1) (1 - s) (1 - t) (s + t - 1) Hi Hj ltac:(lra) ltac:(lra) ltac:(lra) ltac:(lra) ltac:(lia) ltac:(lia) ltac:(lia) ltac:(lia) ltac:(lia) ltac:(lia)) as (_ & _ & p & AQ & AP).
    replace ((1 - s) * x i + (1 - t) * x (i + 1)%nat + (s + t - 1) * x (i + 1)%nat) with u in AQ by (rewrite Eu; ring). replace ((1 - s) * y (j + 1)%nat + (1 - t) * y j + (s + t - 1) * y (j + 1)%nat) with v in AQ by (rewrite Ev; ring).
    exists p. eexists. split; [exact AQ|]. split; [|exact AP]. eexists _, _, _, _, _, _. split; [apply (mesh_cells ud vd me Hud Hvd Hsize Htris); exists i, j; split; [exact Hi|]; split; [exact Hj|]; right; repeat split|]. repeat split; lra.
Qed.
End SmoothNodes.
(** mesh and surface are within [E] of each other, over the whole range *)
Definition mesh_follows (p : SurfacePatch R) (me : TriangleMesh R) (u0 u1 v0 v1 E : R) : Prop :=
  (forall q, on_mesh me q -> exists u v s, u0 <= u <= u1 /\ v0 <= v <= v1 /\ sf_get_point (sp_surface p) u v = Ok s /\ dist3 q s <= E) /\
  (forall u v, u0 <= u <= u1 -> v0 <= v <= v1 -> exists s q, sf_get_point (sp_surface p) u v = Ok s /\ on_mesh me q /\ dist3 q s <= E).
Theorem C78_mesh_distance (p : SurfacePatch R) (ud vd : nat) me u0 u1 v0 v1 A B C :
  sp_range p = ((u0, u1), (v0, v1)) -> u0 < u1 -> v0 < v1 -> sp_division p = (ud, vd) -> patch_get_triangle_mesh p = Ok me ->
  (N.of_nat ((ud + 1) * (vd + 1)) < 2 ^ 32)%N -> smooth (sf_get_point (sp_surface p)) u0 u1 v0 v1 A B C -> 0 <= A /\ 0 <= B /\ 0 <= C ->
  mesh_follows p me u0 u1 v0 v1 (bulge A B C ((u1 - u0) / INR ud) ((v1 - v0) / INR vd)).
Proof.
  intros Hrange Hu Hv Hdiv Hme Hsize Hsm Hpos.
  pose proof (C48_samples p me 0 Hme) as HS. rewrite Hdiv in HS. destruct HS as (us & vs & Eu & Ev & _ & _ & _ & _ & ET).
  destruct (uniform_length _ _ _ Eu) as [Hud _]. destruct (uniform_length _ _ _ Ev) as [Hvd _].
  set (x := fun i => u0 + INR i * (u1 - u0) / INR ud). set (y := fun i => v0 + INR i * (v1 - v0) / INR vd).
  assert (U : 0 < INR ud) by (apply lt_0_INR; lia). assert (V : 0 < INR vd) by (apply lt_0_INR; lia).
  assert (X0 : x 0%nat = u0) by (unfold x; cbn [INR]; field; lra). assert (X1 : x ud = u1) by (unfold x; field; lra). assert (Y0 : y 0%nat = v0) by (unfold y; cbn [INR]; field; lra). assert (Y1 : y vd = v1) by (unfold y; field; lra).
  assert (XS : forall i, (i < ud)%nat -> 0 < x (i + 1)%nat - x i <= (u1 - u0) / INR ud). { intros i _. replace (x (i + 1)%nat - x i) with ((u1 - u0) / INR ud) by (unfold x; rewrite plus_INR; cbn [INR]; field; lra). split; [apply Rdiv_lt_0_compat; lra|lra]. }
  assert (YS : forall i, (i < vd)%nat -> 0 < y (i + 1)%nat - y i <= (v1 - v0) / INR vd). { intros i _. replace (y (i + 1)%nat - y i) with ((v1 - v0) / INR vd) by (unfold y; rewrite plus_INR; cbn [INR]; field; lra). split; [apply Rdiv_lt_0_compat; lra|lra]. }
  assert (HV : forall i j, (i <= ud)%nat -> (j <= vd)%nat -> sf_get_point (sp_surface p) (x i) (y j) = Ok (nth (i * (vd + 1) + j) (m_vertices me) (V3 0 0 0))).
  { intros i j Hi Hj. exact (C48_uniform_parameters p me ud vd u0 u1 v0 v1 Hdiv Hrange Hme i j Hi Hj). }
  rewrite <- X0, <- X1, <- Y0, <- Y1 in Hsm. split.
  - intros q Hq. destruct (s_mesh_near _ ud vd me x y A B C _ _ Hud Hvd Hsize ET XS YS Hsm Hpos HV q Hq) as (u & v & s & Bu & Bv & Es & D). rewrite X0, X1 in Bu. rewrite Y0, Y1 in Bv. exists u, v, s. auto.
  - intros u v Bu Bv. rewrite <- X0, <- X1 in Bu. rewrite <- Y0, <- Y1 in Bv. exact (s_patch_near _ ud vd me x y A B C _ _ Hud Hvd Hsize ET XS YS Hsm Hpos HV u v Bu Bv).
Qed.

(** ** A swept surface: the bends of path and section *)
Lemma lim_shift (f : R -> R) d x l : derivable_pt_lim f x l -> derivable_pt_lim (fun t => f t + d) x l.
Proof. intros H. apply (lim_val _ _ (l + 0)); [ring|]. apply (derivable_pt_lim_plus f (fun _ => d)); [exact H|apply derivable_pt_lim_const]. Qed.
Lemma lim_shift' (f : R -> R) d x l : derivable_pt_lim f x l -> derivable_pt_lim (fun t => d + f t) x l.
Proof. intros H. apply (derivable_pt_lim_ext (fun t => f t + d)); [intros; ring|]. now apply lim_shift. Qed.
Theorem C78_sweep (path section : Curve R) u0 u1 v0 v1 A C : bent (c_get_point path) A u0 u1 -> bent (c_get_point section) C v0 v1 ->
  smooth (sf_get_point (sweep_surface path section)) u0 u1 v0 v1 A 0 C.
Proof.
  intros (g & g1 & g2 & G) (h & h1 & h2 & H).
  exists (fun u v => vadd (g u) (h v)), (fun u v => g1 u), (fun u v => h1 v), (fun u v => g2 u), (fun u v => V3 0 0 0), (fun u v => h2 v).
  intros u v Hu Hv. destruct (G u Hu) as (E1 & (X1 & Y1 & Z1) & (X2 & Y2 & Z2) & N1). destruct (H v Hv) as (E2 & (X3 & Y3 & Z3) & (X4 & Y4 & Z4) & N2).
  split; [cbn [sweep_surface sf_get_point]; unfold sweep_get_point; now rewrite E1, E2|]. split.
  - intros co [->|[->| ->]]; (split; [vsimp; rnum; now apply lim_shift|]); (split; [vsimp; rnum; now apply lim_shift'|]); (split; [assumption|]); (split; [apply derivable_pt_lim_const|assumption]).
  - split; [exact N1|]. split; [unfold norm2; cbn [x3 y3 z3]; lra|exact N2].
Qed.

(** ** A spun surface *)
Section Spun.
Variables (o k : vec3 R).
Hypothesis Hk : unit3 k.
Definition turned (al be ga : R) (w : vec3 R) : vec3 R := vadd (vadd (vmulr k (al * dot3 k w)) (vmulr (vsub w (vmulr k (dot3 k w))) be)) (vmulr (cross3 k w) ga).
Lemma turned_point a q : rotate_about o k a q = vadd o (turned 1 (cos a) (sin a) (vsub q o)).
Proof. unfold rotate_about. set (w := vsub q o). clearbody w. f_equal. unfold rodrigues, turned, cross3, dot3. apply vec3_ext; vsimp; rnum; ring. Qed.
Lemma turned_norm al be ga w : norm2 (turned al be ga w) = al ^ 2 * dot3 k w ^ 2 + (be ^ 2 + ga ^ 2) * norm2 (cross3 k w).
Proof using Hk.
  unfold unit3, dot3 in Hk. unfold norm2, turned, cross3, dot3. vsimp. revert Hk. rnum. cbn [x3 y3 z3]. destruct k as [x y z]. destruct w as [a b c]. cbn [x3 y3 z3]. intros K.
  assert (Z : z * z = 1 - x * x - y * y) by lra. ring [Z].
Qed.
Lemma cross_norm w : norm2 (cross3 k w) = norm2 w - dot3 k w ^ 2.
Proof using Hk.
  unfold unit3, dot3 in Hk. unfold norm2, cross3, dot3. vsimp. revert Hk. rnum. cbn [x3 y3 z3]. destruct k as [x y z]. destruct w as [a b c]. cbn [x3 y3 z3]. intros K.
  assert (Z : z * z = 1 - x * x - y * y) by lra. ring [Z].
Qed.
Lemma turned_lim al be ga (w : R -> vec3 R) t w1 :
  (derivable_pt_lim (fun t => x3 (w t)) t (x3 w1) /\ derivable_pt_lim (fun t => y3 (w t)) t (y3 w1) /\ derivable_pt_lim (fun t => z3 (w t)) t (z3 w1)) ->
  forall co, co = x3 \/ co = y3 \/ co = z3 -> derivable_pt_lim (fun t => co (turned al be ga (w t))) t (co (turned al be ga w1)).
Proof.
  intros (X & Y & Z) co [->|[->| ->]]; unfold turned, cross3, dot3.
  - eapply derivable_pt_lim_ext; [|eapply lim_val; [|exact (comb_lim _ _ _ t _ _ _ (x3 k * x3 k * (al - be) + be) (x3 k * y3 k * (al - be) - ga * z3 k) (x3 k * z3 k * (al - be) + ga * y3 k) X Y Z)]]; intros; vsimp; rnum; ring.
  - eapply derivable_pt_lim_ext; [|eapply lim_val; [|exact (comb_lim _ _ _ t _ _ _ (y3 k * x3 k * (al - be) + ga * z3 k) (y3 k * y3 k * (al - be) + be) (y3 k * z3 k * (al - be) - ga * x3 k) X Y Z)]]; intros; vsimp; rnum; ring.
  - eapply derivable_pt_lim_ext; [|eapply lim_val; [|exact (comb_lim _ _ _ t _ _ _ (z3 k * x3 k * (al - be) - ga * y3 k) (z3 k * y3 k * (al - be) + ga * x3 k) (z3 k * z3 k * (al - be) + be) X Y Z)]]; intros; vsimp; rnum; ring.
Qed.
Lemma turned_turn al (be ga : R -> R) t b1 g1 w : derivable_pt_lim be t b1 -> derivable_pt_lim ga t g1 ->
  forall co, co = x3 \/ co = y3 \/ co = z3 -> derivable_pt_lim (fun t => co (turned al (be t) (ga t) w)) t (co (turned 0 b1 g1 w)).
Proof.
  intros B G co Hco.
  apply (derivable_pt_lim_ext (fun t => co (vsub w (vmulr k (dot3 k w))) * be t + co (cross3 k w) * ga t + al * co (vmulr k (dot3 k w)) * 1)).
  { intros s. destruct Hco as [->|[->| ->]]; unfold turned; vsimp; rnum; ring. }
  apply (lim_val _ _ (co (vsub w (vmulr k (dot3 k w))) * b1 + co (cross3 k w) * g1 + al * co (vmulr k (dot3 k w)) * 0)).
  { destruct Hco as [->|[->| ->]]; unfold turned; vsimp; rnum; ring. }
  apply (comb_lim be ga (fun _ => 1)); [exact B|exact G|apply derivable_pt_lim_const].
Qed.
End Spun.
(** a section with at most [A] bend, at distance at most [rho] from the axis, leaving the axis at a speed of at most [L] *)
Definition spun_section (gp : R -> outcome (vec3 R)) (o k : vec3 R) (A L rho lo hi : R) : Prop := exists g g1 g2 : R -> vec3 R, forall t, lo <= t <= hi ->
  gp t = Ok (g t) /\
  (derivable_pt_lim (fun t => x3 (g t)) t (x3 (g1 t)) /\ derivable_pt_lim (fun t => y3 (g t)) t (y3 (g1 t)) /\ derivable_pt_lim (fun t => z3 (g t)) t (z3 (g1 t))) /\
  (derivable_pt_lim (fun t => x3 (g1 t)) t (x3 (g2 t)) /\ derivable_pt_lim (fun t => y3 (g1 t)) t (y3 (g2 t)) /\ derivable_pt_lim (fun t => z3 (g1 t)) t (z3 (g2 t))) /\
  norm2 (g2 t) <= A ^ 2 /\ norm2 (cross3 k (g1 t)) <= L ^ 2 /\ norm2 (cross3 k (vsub (g t) o)) <= rho ^ 2.
Theorem C78_spin (o k : vec3 R) (section : Curve R) u0 u1 v0 v1 A L rho : unit3 k -> spun_section (c_get_point section) o k A L rho u0 u1 ->
  smooth (sf_get_point (spin_surface o k section)) u0 u1 v0 v1 A L rho.
Proof.
  intros Hk (g & g1 & g2 & G).
  exists (fun u v => vadd o (turned k 1 (cos v) (sin v) (vsub (g u) o))), (fun u v => turned k 1 (cos v) (sin v) (g1 u)), (fun u v => turned k 0 (- sin v) (cos v) (vsub (g u) o)),
    (fun u v => turned k 1 (cos v) (sin v) (g2 u)), (fun u v => turned k 0 (- sin v) (cos v) (g1 u)), (fun u v => turned k 0 (- cos v) (- sin v) (vsub (g u) o)).
  intros u v Hu Hv. destruct (G u Hu) as (E & D1 & D2 & N2 & N1 & N0). pose proof (sin2_cos2 v) as T. unfold Rsqr in T.
  split; [cbn [spin_surface sf_get_point]; rewrite (C35_spin_is_rotation o k section u v (g u) Hk E); now rewrite turned_point|].
  assert (S' : derivable_pt_lim (fun t => - sin t) v (- cos v)) by (apply (derivable_pt_lim_opp sin), derivable_pt_lim_sin).
  split; [intros co Hco; split; [|split; [|split; [|split]]]|].
  - assert (K : derivable_pt_lim (fun t => co (turned k 1 (cos v) (sin v) (vsub (g t) o))) u (co (turned k 1 (cos v) (sin v) (g1 u)))).
    { apply (turned_lim k 1 (cos v) (sin v) (fun t => vsub (g t) o)); [|exact Hco]. destruct D1 as (X & Y & Z). vsimp. rnum. repeat split; [apply (lim_shift _ (- x3 o) _ _ X)|apply (lim_shift _ (- y3 o) _ _ Y)|apply (lim_shift _ (- z3 o) _ _ Z)]. }
    apply (lim_shift' _ (co o)) in K. destruct Hco as [->|[->| ->]]; exact K.
  - assert (K : derivable_pt_lim (fun t => co (turned k 1 (cos t) (sin t) (vsub (g u) o))) v (co (turned k 0 (- sin v) (cos v) (vsub (g u) o)))) by (apply turned_turn; [apply derivable_pt_lim_cos|apply derivable_pt_lim_sin|exact Hco]).
    apply (lim_shift' _ (co o)) in K. destruct Hco as [->|[->| ->]]; exact K.
  - now apply turned_lim.
  - apply turned_turn; [apply derivable_pt_lim_cos|apply derivable_pt_lim_sin|exact Hco].
  - apply (turned_turn k 0 (fun t => - sin t) cos); [exact S'|apply derivable_pt_lim_cos|exact Hco].
  - rewrite !turned_norm by exact Hk. replace ((- sin v) ^ 2 + cos v ^ 2) with 1 by lra. replace ((- cos v) ^ 2 + (- sin v) ^ 2) with 1 by lra. replace (cos v ^ 2 + sin v ^ 2) with 1 by lra.
    rewrite (cross_norm k Hk (g2 u)). repeat split; lra.
Qed.

(** ** A cylinder: the spin of a line *)
Lemma cylinder_is_spin (c : Cylinder R) u v : orthonormal (cy_axis c) (cy_ref_dir c) ->
  sf_get_point (cylinder_surface c) u v = spin_get_point (cy_origin c) (cy_axis c) (line_curve (Build_Line (vadd (cy_origin c) (vmulr (cy_ref_dir c) (cy_radius c))) (cy_axis c))) u v.
Proof.
  intros (Hk & Hv & Hkv). erewrite C35_spin_is_rotation; [|exact Hk|reflexivity]. cbn [cylinder_surface sf_get_point]. f_equal. unfold cylinder_get_point. cbv zeta. rewrite quat_is_rotation by exact Hk.
  unfold rotate_about, line_get_point. cbn [l_origin l_direction]. unfold unit3, dot3 in Hk, Hkv. revert Hk Hkv.
  destruct (cy_axis c) as [x y z]. destruct (cy_ref_dir c) as [a b d]. destruct (cy_origin c) as [e f g]. set (r := cy_radius c). clearbody r. unfold rodrigues. vsimp. rnum. intros K1 K2.
  set (C := cos v). set (S := sin v). clearbody C S.
  assert (Z : z * z = 1 - x * x - y * y) by lra. apply vec3_ext; vsimp; rnum; ring [Z].
Qed.
Theorem C78_cylinder (c : Cylinder R) u0 u1 v0 v1 : orthonormal (cy_axis c) (cy_ref_dir c) -> smooth (sf_get_point (cylinder_surface c)) u0 u1 v0 v1 0 0 (Rabs (cy_radius c)).
Proof.
  intros H. set (line := line_curve (Build_Line (vadd (cy_origin c) (vmulr (cy_ref_dir c) (cy_radius c))) (cy_axis c))).
  assert (HS : smooth (sf_get_point (spin_surface (cy_origin c) (cy_axis c) line)) u0 u1 v0 v1 0 0 (Rabs (cy_radius c))).
  { destruct H as (Hk & Hv & Hkv). apply C78_spin; [exact Hk|]. set (p := vadd (cy_origin c) (vmulr (cy_ref_dir c) (cy_radius c))). set (k := cy_axis c) in *.
    exists (fun t => vadd p (vmulr k t)), (fun _ => k), (fun _ => V3 0 0 0). intros t _.
    assert (D : forall a b : R, derivable_pt_lim (fun t => a + b * t) t b).
    { intros a b. apply (lim_shift' (fun t => b * t)). apply (lim_val _ _ (b * 1)); [ring|]. apply (derivable_pt_lim_scal id), derivable_pt_lim_id. }
    split; [reflexivity|]. split; [vsimp; rnum; repeat split; apply D|]. split; [cbn [x3 y3 z3]; repeat split; apply derivable_pt_lim_const|].
    split; [unfold norm2; cbn [x3 y3 z3]; lra|]. rewrite !cross_norm by exact Hk.
    unfold unit3 in Hk, Hv. split.
    - rewrite Hk. unfold norm2. unfold dot3 in Hk. revert Hk. rnum. lra.
    - rewrite pow2_abs. unfold p, dot3 in *. revert Hk Hv Hkv. unfold norm2, dot3. vsimp. rnum. destruct k as [x y z]. destruct (cy_ref_dir c) as [a b d]. destruct (cy_origin c) as [e f g]. cbn [x3 y3 z3]. set (r := cy_radius c). clearbody r. intros K1 K2 K3.
      assert (Z : z * z = 1 - x * x - y * y) by lra. assert (W : d * d = 1 - a * a - b * b) by lra.
      match goal with |- ?X <= _ => replace X with ((2 * t * r * (x * a + y * b + z * d) + t * t * (x * x + y * y + z * z) + r * r * (a * a + b * b + d * d)) - (r * (x * a + y * b + z * d) + t * (x * x + y * y + z * z)) ^ 2) by ring end. rewrite K1, K2, K3. nra. }
  destruct HS as (s & su & sv & suu & suv & svv & HS). exists s, su, sv, suu, suv, svv. intros u v Hu Hv. rewrite cylinder_is_spin by exact H. exact (HS u v Hu Hv).
Qed.

(** ** A circle spun about any axis: spheres and tori *)
Lemma cross_short k w M : unit3 k -> norm2 w <= M -> norm2 (cross3 k w) <= M.
Proof. intros Hk H. rewrite (cross_norm k Hk). pose proof (pow2_ge_0 (dot3 k w)). revert H0. rnum. lra. Qed.
Lemma norm2_add p q D M : 0 <= D -> 0 <= M -> norm2 p = D ^ 2 -> norm2 q <= M ^ 2 -> norm2 (vadd p q) <= (D + M) ^ 2.
Proof.
  intros HD HM Hp Hq. pose proof (cauchy_abs (x3 p) (y3 p) (z3 p) (x3 q) (y3 q) (z3 q) D M HD HM Hp Hq) as L. pose proof (Rle_abs (x3 p * x3 q + y3 p * y3 q + z3 p * z3 q)) as L'.
  unfold norm2 in *. vsimp. rnum. replace ((x3 p + x3 q) ^ 2 + (y3 p + y3 q) ^ 2 + (z3 p + z3 q) ^ 2) with ((x3 p ^ 2 + y3 p ^ 2 + z3 p ^ 2) + 2 * (x3 p * x3 q + y3 p * y3 q + z3 p * z3 q) + (x3 q ^ 2 + y3 q ^ 2 + z3 q ^ 2)) by ring.
  rewrite Hp. replace ((D + M) ^ 2) with (D ^ 2 + 2 * (D * M) + M ^ 2) by ring. lra.
Qed.
Theorem C78_torus (o k : vec3 R) (c : Circle R) D u0 u1 v0 v1 : unit3 k -> orthonormal (ci_axis c) (ci_ref_dir c) -> 0 <= D -> norm2 (cross3 k (vsub (ci_center c) o)) = D ^ 2 ->
  smooth (sf_get_point (spin_surface o k (circle_curve c))) u0 u1 v0 v1 (Rabs (ci_radius c)) (Rabs (ci_radius c)) (D + Rabs (ci_radius c)).
Proof.
  intros Hk H HD ED. apply C78_spin; [exact Hk|].
  set (v := ci_ref_dir c). set (w := cross3 (ci_axis c) v). set (r := ci_radius c).
  set (e := fun x y => vmulr (vadd (vmulr v x) (vmulr w y)) r).
  assert (N : forall x y, x ^ 2 + y ^ 2 = 1 -> norm2 (e x y) <= Rabs r ^ 2).
  { intros x y Hxy. rewrite pow2_abs. destruct (cross_orthonormal _ _ H) as (A1 & _ & A3 & _). destruct H as (_ & Hv & _). fold v w in Hv, A1, A3. unfold unit3, dot3 in *. clearbody v w r. revert A1 A3 Hv. unfold e, norm2. vsimp. rnum. destruct v as [a b d]. destruct w as [f g h]. cbn [x3 y3 z3]. intros A1 A3 Hv.
    match goal with |- ?X <= _ => replace X with (r ^ 2 * (x ^ 2 * (a * a + b * b + d * d) + y ^ 2 * (f * f + g * g + h * h) + 2 * x * y * (f * a + g * b + h * d))) by ring end. rewrite A1, A3, Hv.
    replace (x ^ 2 * 1 + y ^ 2 * 1 + 2 * x * y * 0) with (x ^ 2 + y ^ 2) by ring. rewrite Hxy. lra. }
  assert (DL : forall (be ga : R -> R) t b1 g1 co, co = x3 \/ co = y3 \/ co = z3 -> derivable_pt_lim be t b1 -> derivable_pt_lim ga t g1 -> derivable_pt_lim (fun t => co (e (be t) (ga t))) t (co (e b1 g1))).
  { intros be ga t b1 g1 co Hco B G. apply (derivable_pt_lim_ext (fun t => r * co v * be t + r * co w * ga t + 0 * 1)); [intros s; destruct Hco as [->|[->| ->]]; unfold e; vsimp; rnum; ring|].
    apply (lim_val _ _ (r * co v * b1 + r * co w * g1 + 0 * 0)); [destruct Hco as [->|[->| ->]]; unfold e; vsimp; rnum; ring|]. apply (comb_lim be ga (fun _ => 1)); [exact B|exact G|apply derivable_pt_lim_const]. }
  exists (fun t => vadd (ci_center c) (e (cos t) (sin t))), (fun t => e (- sin t) (cos t)), (fun t => e (- cos t) (- sin t)). intros t _.
  pose proof (sin2_cos2 t) as T. unfold Rsqr in T.
  assert (S' : derivable_pt_lim (fun t => - sin t) t (- cos t)) by (apply (derivable_pt_lim_opp sin), derivable_pt_lim_sin).
  assert (D1 : forall co, co = x3 \/ co = y3 \/ co = z3 -> derivable_pt_lim (fun t => co (e (cos t) (sin t))) t (co (e (- sin t) (cos t)))) by (intros co Hco; apply (DL cos sin); [exact Hco|apply derivable_pt_lim_cos|apply derivable_pt_lim_sin]).
  assert (D2 : forall co, co = x3 \/ co = y3 \/ co = z3 -> derivable_pt_lim (fun t => co (e (- sin t) (cos t))) t (co (e (- cos t) (- sin t)))) by (intros co Hco; apply (DL (fun t => - sin t) cos); [exact Hco|exact S'|apply derivable_pt_lim_cos]).
  split; [cbn [circle_curve c_get_point]; f_equal; apply (circle_point c H)|].
  split; [split; [|split]|].
  - exact (lim_shift' _ (x3 (ci_center c)) _ _ (D1 x3 ltac:(auto))).
  - exact (lim_shift' _ (y3 (ci_center c)) _ _ (D1 y3 ltac:(auto))).
  - exact (lim_shift' _ (z3 (ci_center c)) _ _ (D1 z3 ltac:(auto))).
  - split; [repeat split; apply D2; auto|]. split; [apply N; lra|]. split; [apply cross_short; [exact Hk|]; apply N; lra|].
    replace (cross3 k (vsub (vadd (ci_center c) (e (cos t) (sin t))) o)) with (vadd (cross3 k (vsub (ci_center c) o)) (cross3 k (e (cos t) (sin t)))).
    2:{ set (q := e (cos t) (sin t)). clearbody q. unfold cross3. apply vec3_ext; vsimp; rnum; ring. }
    apply norm2_add; [exact HD|apply Rabs_pos|exact ED|]. apply cross_short; [exact Hk|]. apply N; lra.
Qed.

(** ** The umbrella, over theta in [0, pi] *)
Theorem C78_umbrella radius v0 v1 : 0 < radius -> smooth (sf_get_point (umbrella_surface radius)) 0 PI v0 v1 (radius / PI) (2 * (radius / PI)) radius.
Proof.
  intros Hr. pose proof PI_RGT_0 as HP. set (r := radius / PI). assert (P : 0 < r) by (apply Rdiv_lt_0_compat; lra). assert (ER : radius = r * PI) by (unfold r; field; lra).
  exists (fun t p => V3 (r * (t - sin t) * cos p) (r * (t - sin t) * sin p) (r * (1 + cos t))), (fun t p => V3 (r * (1 - cos t) * cos p) (r * (1 - cos t) * sin p) (r * - sin t)),
    (fun t p => V3 (r * (t - sin t) * - sin p) (r * (t - sin t) * cos p) 0), (fun t p => V3 (r * sin t * cos p) (r * sin t * sin p) (r * - cos t)),
    (fun t p => V3 (r * (1 - cos t) * - sin p) (r * (1 - cos t) * cos p) 0), (fun t p => V3 (r * (t - sin t) * - cos p) (r * (t - sin t) * - sin p) 0).
  intros t p Ht Hp. pose proof (sin2_cos2 t) as T. pose proof (sin2_cos2 p) as T'. unfold Rsqr in T, T'.
  assert (D1 : derivable_pt_lim (fun t => t - sin t) t (1 - cos t)) by (apply (derivable_pt_lim_minus id sin); [apply derivable_pt_lim_id|apply derivable_pt_lim_sin]).
  assert (D2 : derivable_pt_lim (fun t => 1 - cos t) t (sin t)) by (apply (lim_val _ _ (0 - - sin t)); [ring|]; apply (derivable_pt_lim_minus (fun _ => 1) cos); [apply derivable_pt_lim_const|apply derivable_pt_lim_cos]).
  assert (D3 : derivable_pt_lim (fun t => - sin t) t (- cos t)) by (apply (derivable_pt_lim_opp sin), derivable_pt_lim_sin).
  assert (D3' : derivable_pt_lim (fun t => - sin t) p (- cos p)) by (apply (derivable_pt_lim_opp sin), derivable_pt_lim_sin).
  assert (Sc : forall (f : R -> R) a b x l, derivable_pt_lim f x l -> derivable_pt_lim (fun t => a * f t * b) x (a * l * b)).
  { intros f a b x l Hf. apply (derivable_pt_lim_ext (fun t => (a * b) * f t)); [intros; ring|]. apply (lim_val _ _ ((a * b) * l)); [ring|]. now apply (derivable_pt_lim_scal f). }
  split; [cbn [umbrella_surface sf_get_point]; unfold umbrella_get_point; cbn; fold r; reflexivity|].
  split; [intros co [->|[->| ->]]; cbn [x3 y3 z3]; (split; [|split; [|split; [|split]]])|].
  - now apply (Sc (fun t => t - sin t)).
  - apply (derivable_pt_lim_scal cos), derivable_pt_lim_cos.
  - now apply (Sc (fun t => 1 - cos t)).
  - apply (derivable_pt_lim_scal cos), derivable_pt_lim_cos.
  - now apply (derivable_pt_lim_scal (fun t => - sin t)).
  - now apply (Sc (fun t => t - sin t)).
  - apply (derivable_pt_lim_scal sin), derivable_pt_lim_sin.
  - now apply (Sc (fun t => 1 - cos t)).
  - apply (derivable_pt_lim_scal sin), derivable_pt_lim_sin.
  - apply (derivable_pt_lim_scal cos), derivable_pt_lim_cos.
  - apply (derivable_pt_lim_scal (fun t => 1 + cos t)). apply (lim_shift' cos), derivable_pt_lim_cos.
  - apply derivable_pt_lim_const.
  - now apply (derivable_pt_lim_scal (fun t => - sin t)).
  - apply derivable_pt_lim_const.
  - apply derivable_pt_lim_const.
  - unfold norm2. cbn [x3 y3 z3]. assert (S0 : 0 <= sin t) by (apply sin_ge_0; lra). assert (S1 : sin t <= t) by (destruct (Rle_lt_or_eq_dec 0 t ltac:(lra)) as [L|<-]; [apply Rlt_le, sin_lt_x; exact L|rewrite sin_0; lra]). pose proof (COS_bound t) as CB. rewrite ER.
    replace ((r * sin t * cos p) ^ 2 + (r * sin t * sin p) ^ 2 + (r * - cos t) ^ 2) with (r ^ 2 * (sin t * sin t * (sin p * sin p + cos p * cos p) + cos t * cos t)) by ring.
    replace ((r * (1 - cos t) * - sin p) ^ 2 + (r * (1 - cos t) * cos p) ^ 2 + 0 ^ 2) with (r ^ 2 * ((1 - cos t) ^ 2 * (sin p * sin p + cos p * cos p))) by ring.
    replace ((r * (t - sin t) * - cos p) ^ 2 + (r * (t - sin t) * - sin p) ^ 2 + 0 ^ 2) with (r ^ 2 * ((t - sin t) ^ 2 * (sin p * sin p + cos p * cos p))) by ring.
    rewrite T'. replace (sin t * sin t * 1 + cos t * cos t) with 1 by lra. pose proof (pow2_ge_0 r) as R2. split; [lra|]. split.
    + replace ((2 * r) ^ 2) with (r ^ 2 * 2 ^ 2) by ring. apply Rmult_le_compat_l; [exact R2|]. rewrite Rmult_1_r. apply pow_incr. lra.
    + replace ((r * PI) ^ 2) with (r ^ 2 * PI ^ 2) by ring. apply Rmult_le_compat_l; [exact R2|]. rewrite Rmult_1_r. apply pow_incr. lra.
Qed.

(** ** What a caller gets *)
(** every patch on a total smooth surface whose normals are the default ones has a mesh *)
Lemma default_mesh (p : SurfacePatch R) : (1 <= fst (sp_division p))%nat -> (1 <= snd (sp_division p))%nat -> (forall u v, exists q, sf_get_point (sp_surface p) u v = Ok q) ->
  sf_get_normals (sp_surface p) = default_normals -> exists me, patch_get_triangle_mesh p = Ok me.
Proof. intros H1 H2 H3 H4. apply C48_total; try assumption. intros l. exists []. rewrite H4. split; [reflexivity|now right]. Qed.
(** a cylinder patch: as many columns of triangles as the tolerance asks for are enough *)
Theorem C78_cylinder_patch (c : Cylinder R) u0 u1 v0 v1 (ud vd : nat) tol : orthonormal (cy_axis c) (cy_ref_dir c) -> u0 < u1 -> v0 < v1 -> (1 <= ud)%nat -> (1 <= vd)%nat -> (N.of_nat ((ud + 1) * (vd + 1)) < 2 ^ 32)%N ->
  Rabs (cy_radius c) * (v1 - v0) ^ 2 <= 8 * tol * INR vd ^ 2 ->
  let p := Build_SurfacePatch (cylinder_surface c) ((u0, u1), (v0, v1)) (ud, vd) in exists me, patch_get_triangle_mesh p = Ok me /\ mesh_follows p me u0 u1 v0 v1 tol.
Proof.
  intros H Hu Hv Hud Hvd Hsize HT p.
  destruct (default_mesh p Hud Hvd) as [me Hme]; [intros u v; eexists; reflexivity|reflexivity|]. exists me. split; [exact Hme|].
  assert (V : 0 < INR vd) by (apply lt_0_INR; lia).
  assert (L : bulge 0 0 (Rabs (cy_radius c)) ((u1 - u0) / INR ud) ((v1 - v0) / INR vd) <= tol).
  { unfold bulge. apply Rmult_le_reg_r with (8 * INR vd ^ 2); [nra|]. match goal with |- ?X <= _ => replace X with (Rabs (cy_radius c) * (v1 - v0) ^ 2) end; [lra|]. field; split; [lra|apply not_0_INR; lia]. }
  destruct (C78_mesh_distance p ud vd me u0 u1 v0 v1 0 0 (Rabs (cy_radius c)) eq_refl Hu Hv eq_refl Hme Hsize (C78_cylinder c _ _ _ _ H)) as [F1 F2]; [pose proof (Rabs_pos (cy_radius c)); lra|]. split.
  - intros q Hq. destruct (F1 q Hq) as (u & v & s & B1 & B2 & E & D). exists u, v, s. repeat split; try tauto. eapply Rle_trans; [exact D|exact L].
  - intros u v B1 B2. destruct (F2 u v B1 B2) as (s & q & E & M & D). exists s, q. repeat split; try assumption. eapply Rle_trans; [exact D|exact L].
Qed.
(** the bound is of the right size: the middle of the first chord stays [r (1 - cos (k/2))] away from the whole cylinder *)
Lemma cylinder_point (c : Cylinder R) u v : orthonormal (cy_axis c) (cy_ref_dir c) ->
  cylinder_get_point c u v = vadd (vadd (cy_origin c) (vmulr (cy_axis c) u)) (vmulr (vadd (vmulr (cy_ref_dir c) (cos v)) (vmulr (cross3 (cy_axis c) (cy_ref_dir c)) (sin v))) (cy_radius c)).
Proof. intros (Hk & _ & Hkv). unfold cylinder_get_point. cbv zeta. rewrite quat_is_rotation by exact Hk. now rewrite rodrigues_perp by exact Hkv. Qed.
Lemma chord_from_axis (c : Cylinder R) u a b : orthonormal (cy_axis c) (cy_ref_dir c) ->
  norm2 (cross3 (cy_axis c) (vsub (vadd (vmulr (cylinder_get_point c u a) (1 / 2)) (vmulr (cylinder_get_point c u b) (1 / 2))) (cy_origin c))) = (cy_radius c * cos ((b - a) / 2)) ^ 2.
Proof.
  intros H. rewrite !cylinder_point by exact H. pose proof (cross_orthonormal _ _ H) as (A1 & A2 & A3 & _). destruct H as (Hk & Hv & Hkv). rewrite cross_norm by exact Hk. unfold unit3 in *.
  set (w := cross3 (cy_axis c) (cy_ref_dir c)) in *. clearbody w. unfold norm2, dot3 in *. revert A1 A2 A3 Hk Hv Hkv. vsimp. rnum.
  destruct (cy_axis c) as [x y z]. destruct (cy_ref_dir c) as [d e f]. destruct w as [g h i]. destruct (cy_origin c) as [l m n]. set (r := cy_radius c). clearbody r. cbn [x3 y3 z3]. intros A1 A2 A3 Hk Hv Hkv.
  set (ca := cos a). set (sa := sin a). set (cb := cos b). set (sb := sin b).
  match goal with |- ?X = _ => replace X with
    (u ^ 2 * (x * x + y * y + z * z) + r ^ 2 / 4 * ((ca + cb) ^ 2 * (d * d + e * e + f * f) + (sa + sb) ^ 2 * (g * g + h * h + i * i) + 2 * ((ca + cb) * (sa + sb)) * (g * d + h * e + i * f)) + u * r * ((ca + cb) * (x * d + y * e + z * f) + (sa + sb) * (g * x + h * y + i * z))
     - (u * (x * x + y * y + z * z) + r / 2 * ((ca + cb) * (x * d + y * e + z * f) + (sa + sb) * (g * x + h * y + i * z))) ^ 2) by field end.
  rewrite A1, A2, A3, Hk, Hv, Hkv.
  assert (HC : cos ((b - a) / 2) ^ 2 = (1 + (cb * ca + sb * sa)) / 2).
  { unfold cb, ca, sb, sa. rewrite <- cos_minus. replace (b - a) with (2 * ((b - a) / 2)) at 2 by field. rewrite cos_2a_cos. field. }
  pose proof (sin2_cos2 a) as Ta. pose proof (sin2_cos2 b) as Tb. unfold Rsqr in Ta, Tb. fold ca sa in Ta. fold cb sb in Tb. rewrite Rpow_mult_distr, HC.
  replace ((ca + cb) ^ 2) with (ca * ca + cb * cb + 2 * (ca * cb)) by ring. replace ((sa + sb) ^ 2) with (sa * sa + sb * sb + 2 * (sa * sb)) by ring.
  replace (ca * ca) with (1 - sa * sa) by lra. replace (cb * cb) with (1 - sb * sb) by lra. field.
Qed.
Theorem C78_cylinder_sharp (c : Cylinder R) u0 u1 v0 v1 (ud vd : nat) me : orthonormal (cy_axis c) (cy_ref_dir c) -> 0 < cy_radius c -> v0 < v1 -> (v1 - v0) / INR vd <= PI -> (N.of_nat ((ud + 1) * (vd + 1)) < 2 ^ 32)%N ->
  patch_get_triangle_mesh (Build_SurfacePatch (cylinder_surface c) ((u0, u1), (v0, v1)) (ud, vd)) = Ok me ->
  exists q, on_mesh me q /\ forall u v, cy_radius c * (1 - cos ((v1 - v0) / INR vd / 2)) <= dist3 q (cylinder_get_point c u v).
Proof.
  intros H Hr Hv Hpi Hsize Hme. set (p := Build_SurfacePatch _ _ _) in Hme.
  pose proof (C48_samples p me 0 Hme) as HS. destruct HS as (us & vs & Eu & Ev & _ & _ & _ & _ & ET).
  destruct (uniform_length _ _ _ Eu) as [Hud _]. destruct (uniform_length _ _ _ Ev) as [Hvd _]. set (k := (v1 - v0) / INR vd) in *.
  assert (V : 0 < INR vd) by (apply lt_0_INR; lia). assert (K0 : 0 < k) by (apply Rdiv_lt_0_compat; lra).
  pose proof (C48_uniform_parameters p me ud vd u0 u1 v0 v1 eq_refl eq_refl Hme 0%nat 0%nat ltac:(lia) ltac:(lia)) as P0. pose proof (C48_uniform_parameters p me ud vd u0 u1 v0 v1 eq_refl eq_refl Hme 0%nat 1%nat ltac:(lia) ltac:(lia)) as P1.
  cbn [p sp_surface cylinder_surface sf_get_point INR] in P0, P1. apply Ok_inj in P0. apply Ok_inj in P1.
  assert (U : 0 < INR ud) by (apply lt_0_INR; lia).
  replace (u0 + 0 * (u1 - u0) / INR ud) with u0 in P0, P1 by (field; lra). replace (v0 + 0 * (v1 - v0) / INR vd) with v0 in P0 by (field; lra). replace (v0 + 1 * (v1 - v0) / INR vd) with (v0 + k) in P1 by (unfold k; field; lra).
  set (q := vadd (vmulr (cylinder_get_point c u0 v0) (1 / 2)) (vmulr (cylinder_get_point c u0 (v0 + k)) (1 / 2))).
  exists q. split.
  - eexists _, _, _, (1 / 2), 0, (1 / 2). split; [apply (mesh_cells ud vd me Hud Hvd Hsize ET); exists 0%nat, 0%nat; split; [lia|]; split; [lia|]; left; repeat split|].
    cbn [Nat.add]. rewrite <- P0, <- P1. repeat split; try lra. unfold q. apply vec3_ext; vsimp; rnum; ring.
  - intros u v. set (s := cylinder_get_point c u v). pose proof (chord_from_axis c u0 v0 (v0 + k) H) as NQ. fold q in NQ. replace ((v0 + k - v0) / 2) with (k / 2) in NQ by field.
    pose proof (chord_from_axis c u v v H) as NS. fold s in NS. replace ((v - v) / 2) with 0 in NS by field. rewrite cos_0 in NS. replace (vadd (vmulr s (1 / 2)) (vmulr s (1 / 2))) with s in NS by (apply vec3_ext; vsimp; rnum; field). rewrite Rmult_1_r in NS.
    set (kk := cy_axis c) in *. set (o := cy_origin c) in *. set (r := cy_radius c) in *.
    assert (C0 : 0 <= cos (k / 2)) by (apply cos_ge_0; lra). set (d := dist3 q s). assert (D0 : 0 <= d) by apply sqrt_pos.
    assert (ND : norm2 (vsub s q) = d ^ 2). { unfold d, dist3. rewrite pow2_sqrt; [unfold norm2; vsimp; rnum; ring|]. pose proof (pow2_ge_0 (x3 q - x3 s)). pose proof (pow2_ge_0 (y3 q - y3 s)). pose proof (pow2_ge_0 (z3 q - z3 s)). lra. }
    assert (L : norm2 (cross3 kk (vsub s o)) <= (r * cos (k / 2) + d) ^ 2).
    { replace (cross3 kk (vsub s o)) with (vadd (cross3 kk (vsub q o)) (cross3 kk (vsub s q))) by (clearbody q s kk o; unfold cross3; apply vec3_ext; vsimp; rnum; ring).
      apply norm2_add; [apply Rmult_le_pos; lra|exact D0|exact NQ|]. apply cross_short; [apply H|rewrite ND; lra]. }
    rewrite NS in L. assert (M : r <= r * cos (k / 2) + d). { assert (0 <= r * cos (k / 2)) by (apply Rmult_le_pos; lra). apply Rsqr_incr_0; [unfold Rsqr; lra|lra|lra]. } lra.
Qed.
(** the unit cylinder with ten columns over one radian is met within 1/800, the unit sphere in steps of a tenth of a radian within 1/200 *)
Definition tube_patch : SurfacePatch R := Build_SurfacePatch (cylinder_surface cyl_ex) ((0, 1), (0, 1)) (1%nat, 10%nat).
Definition meridian : Circle R := {| ci_center := V3 0 0 0; ci_axis := V3 0 1 0; ci_ref_dir := V3 1 0 0; ci_radius := 1 |}.
Definition ball_patch : SurfacePatch R := Build_SurfacePatch (spin_surface (V3 0 0 0) (V3 0 0 1) (circle_curve meridian)) ((0, 1), (0, 6)) (10%nat, 60%nat).
Example C78_nonvacuous : (exists me, patch_get_triangle_mesh tube_patch = Ok me /\ mesh_follows tube_patch me 0 1 0 1 (1 / 800)) /\
  (exists me, patch_get_triangle_mesh ball_patch = Ok me /\ mesh_follows ball_patch me 0 1 0 6 (1 / 200)).
Proof.
  split.
  - apply (C78_cylinder_patch cyl_ex 0 1 0 1 1 10 (1 / 800) cyl_ex_orthonormal); try lra; try lia. cbn [cyl_ex cy_radius INR]. rewrite Rabs_pos_eq; lra.
  - destruct (default_mesh ball_patch) as [me Hme]; [cbn; lia|cbn; lia|intros u v; eexists; reflexivity|reflexivity|]. exists me. split; [exact Hme|].
    assert (O : orthonormal (ci_axis meridian) (ci_ref_dir meridian)) by (unfold orthonormal, unit3, dot3, meridian; cbn; repeat split; lra).
    assert (K : unit3 (V3 0 0 1)) by (unfold unit3, dot3; cbn; lra).
    pose proof (C78_torus (V3 0 0 0) (V3 0 0 1) meridian 0 0 1 0 6 K O (Rle_refl 0)) as S. specialize (S ltac:(unfold norm2, cross3, meridian; vsimp; rnum; cbn [x3 y3 z3 ci_center]; ring)).
    replace (1 / 200) with (bulge (Rabs (ci_radius meridian)) (Rabs (ci_radius meridian)) (0 + Rabs (ci_radius meridian)) ((1 - 0) / INR 10) ((6 - 0) / INR 60)).
    2:{ unfold bulge. cbn [meridian ci_radius]. rewrite Rabs_pos_eq by lra. rewrite !INR_IZR_INZ. cbn [Z.of_nat Pos.of_succ_nat Pos.succ]. field. }
    apply C78_mesh_distance; try reflexivity; try lra; try assumption. cbn [meridian ci_radius]. rewrite Rabs_pos_eq by lra. lra.
Qed.
