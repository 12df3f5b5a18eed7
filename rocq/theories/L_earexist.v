(** Every edge of a simple polygon misses an ear. *)
From Coq Require Import Reals Lra Psatz Lia Arith Permutation.
From Verif Require Import Prelude Num M_vec M_utils M_polygon L_base L_vec L_geom L_cycle L_polygon Props_polygon Props_ears L_simple L_sides L_twoears.
Open Scope R_scope.

(** ** Leaving a triangle through the two sides of a corner *)
Lemma first_exit f0 f1 g0 g1 : 0 < f0 -> 0 < g0 -> f1 < 0 \/ g1 < 0 ->
  exists v, 0 < v < 1 /\ (((1 - v) * f0 + v * f1 = 0 /\ 0 <= (1 - v) * g0 + v * g1) \/ ((1 - v) * g0 + v * g1 = 0 /\ 0 <= (1 - v) * f0 + v * f1)).
Proof.
  intros Hf Hg HO.
  assert (Z : forall x y, 0 < x -> y < 0 -> 0 < x / (x - y) < 1 /\ (1 - x / (x - y)) * x + x / (x - y) * y = 0).
  { intros x y Hx Hy. split; [split|field; lra].
    - apply Rdiv_lt_0_compat; lra.
    - apply (Rmult_lt_reg_r (x - y)); [lra|]. replace (x / (x - y) * (x - y)) with x by (field; lra). lra. }
  assert (CG : g1 < 0 -> 0 <= (1 - g0 / (g0 - g1)) * f0 + g0 / (g0 - g1) * f1 -> exists v, 0 < v < 1 /\ (((1 - v) * f0 + v * f1 = 0 /\ 0 <= (1 - v) * g0 + v * g1) \/ ((1 - v) * g0 + v * g1 = 0 /\ 0 <= (1 - v) * f0 + v * f1))).
  { intros Hg1 K. destruct (Z g0 g1 Hg Hg1) as [Z1 Z2]. exists (g0 / (g0 - g1)). auto. }
  destruct (Rlt_le_dec f1 0) as [F|F].
  - destruct (Z f0 f1 Hf F) as [Z1 Z2]. destruct (Rle_lt_dec 0 ((1 - f0 / (f0 - f1)) * g0 + f0 / (f0 - f1) * g1)) as [L|L]; [exists (f0 / (f0 - f1)); auto|].
    set (u := f0 / (f0 - f1)) in *. assert (G1 : g1 < 0). { destruct (Rlt_le_dec g1 0) as [|N]; [assumption|]. pose proof (mul_p u g1 ltac:(lra) N). pose proof (mul_pp (1 - u) g0 ltac:(lra) Hg). lra. }
    apply CG; [exact G1|]. destruct (Z g0 g1 Hg G1) as [Z3 Z4]. set (w := g0 / (g0 - g1)) in *.
    assert (W : w <= u). { destruct (Rle_lt_dec w u) as [|N]; [assumption|]. pose proof (mul_pp (w - u) (g0 - g1) ltac:(lra) ltac:(lra)). lra. }
    pose proof (mul_p (u - w) (f0 - f1) ltac:(lra) ltac:(lra)). lra.
  - assert (G1 : g1 < 0) by (destruct HO; lra). apply CG; [exact G1|]. destruct (Z g0 g1 Hg G1) as [Z3 Z4]. set (w := g0 / (g0 - g1)) in *.
    pose proof (mul_p w f1 ltac:(lra) F). pose proof (mul_pp (1 - w) f0 ltac:(lra) Hf). lra.
Qed.
(** barycentric coordinates *)
Lemma bary_sum p c n x : T p c x + T c n x + T n p x = T p c n.
Proof. unfold tri_area2. ring. Qed.
Lemma bary_p p c n a b : T p c n * T a b p = T p c b * T n p a - T p c a * T n p b.
Proof. unfold tri_area2. ring. Qed.
Lemma bary_c p c n a b : T p c n * T a b c = - (T p c b * T c n a - T p c a * T c n b).
Proof. unfold tri_area2. ring. Qed.
Lemma bary_n p c n a b : T p c n * T a b n = - (T c n b * T n p a - T c n a * T n p b).
Proof. unfold tri_area2. ring. Qed.
Lemma T_self1 a b : T a b a = 0.
Proof. unfold tri_area2. ring. Qed.
Lemma T_self2 a b : T a b b = 0.
Proof. unfold tri_area2. ring. Qed.
Lemma T_self3 a b : T a a b = 0.
Proof. unfold tri_area2. ring. Qed.
Lemma bary_pt p c n z : T p c n * x2 z = T c n z * x2 p + T n p z * x2 c + T p c z * x2 n /\ T p c n * y2 z = T c n z * y2 p + T n p z * y2 c + T p c z * y2 n.
Proof. unfold tri_area2. split; ring. Qed.
Lemma side_on p c n z : 0 < T p c n -> T p c z = 0 -> 0 <= T c n z -> 0 <= T n p z -> on p c z.
Proof.
  intros HT Z H1 H2. pose proof (bary_sum p c n z) as BS. destruct (bary_pt p c n z) as [BX BY]. rewrite Z in *. exists (T n p z / T p c n). split.
  - split; [apply Rmult_le_pos; [exact H2|left; now apply Rinv_0_lt_compat]|]. apply (Rmult_le_reg_r (T p c n)); [exact HT|].
    replace (T n p z / T p c n * T p c n) with (T n p z) by (field; lra). lra.
  - apply v2_ext; cbn [at_ x2 y2]; apply (Rmult_eq_reg_l (T p c n)); try lra.
    + rewrite BX. replace (T c n z) with (T p c n - T n p z) by lra. field. lra.
    + rewrite BY. replace (T c n z) with (T p c n - T n p z) by lra. field. lra.
Qed.
(** a point of an edge inside a corner's triangle: the edge cannot leave through the polygon *)
Lemma inner_half P p c n a b t : gp P -> simple P -> (3 <= length P)%nat -> corner P p c n -> 0 < T p c n -> edge P a b \/ edge P b a -> 0 <= t -> t < 1 ->
  0 < (1 - t) * T p c b + t * T p c a -> 0 < (1 - t) * T c n b + t * T c n a -> 0 <= (1 - t) * T n p b + t * T n p a ->
  0 <= T n p a -> T p c a < 0 \/ T c n a < 0 -> False.
Proof.
  intros G S HL HC HT HE Ht Ht1 Hf Hg Hh Ha HO. destruct (corner_edge _ _ _ _ HC) as [E1 E2]. destruct (corner_In _ _ _ _ HC) as (Ip & Ic & In_).
  destruct (corner_distinct _ _ _ _ (proj1 G) HC) as (D1 & D2 & D3).
  assert (Nab : a <> b) by (destruct HE as [HE|HE]; apply (edge_neq P _ _ (proj1 G)) in HE; [congruence|lia|congruence|lia]).
  destruct (first_exit _ (T p c a) _ (T c n a) Hf Hg HO) as (v & Hv & K).
  set (w := t + v * (1 - t)). set (z := at_ b a w).
  assert (Ew : forall x y, T x y z = (1 - v) * ((1 - t) * T x y b + t * T x y a) + v * T x y a) by (intros x y; unfold z; rewrite T_at; unfold w; ring).
  rewrite <- !Ew in K.
  assert (Hz : 0 <= T n p z). { rewrite Ew. pose proof (mul_p (1 - v) _ ltac:(lra) Hh). pose proof (mul_p v _ ltac:(lra) Ha). lra. }
  assert (Hw : 0 < w <= 1). { unfold w. pose proof (mul_pp v (1 - t) ltac:(lra) ltac:(lra)). pose proof (mul_p (1 - v) (1 - t) ltac:(lra) ltac:(lra)). lra. }
  assert (Oz : on b a z) by (exists w; split; [lra|reflexivity]).
  assert (Nzb : z <> b). { intros E. rewrite <- (at_0 b a) in E. unfold z in E. apply at_inj in E; [lra|congruence]. }
  assert (X : forall u1 u2, edge P u1 u2 -> on u1 u2 z -> z <> a -> ~ (u1 = a /\ u2 = b) -> ~ (u1 = b /\ u2 = a) -> False).
  { intros u1 u2 Eu Ou Nza N1 N2. destruct (edge_In _ _ _ Eu) as [I1 I2]. pose proof (edge_neq P u1 u2 (proj1 G) ltac:(lia) Eu) as Nu.
    pose proof (edge_free P u1 u2 G S Eu) as Fu. destruct HE as [HE|HE].
    - destruct (free_meet P u1 u2 a b z G ltac:(lia) I1 I2 Nu Fu HE Ou (on_swap _ _ _ Oz)) as [[_ [?|?]]|[?|[? ?]]]; tauto.
    - destruct (free_meet P u1 u2 b a z G ltac:(lia) I1 I2 Nu Fu HE Ou Oz) as [[_ [?|?]]|[?|[? ?]]]; tauto. }
  destruct K as [[Z K]|[Z K]].
  - apply (X p c E1).
    + now apply (side_on p c n).
    + intros E. rewrite E in Z, K. lra.
    + intros [-> ->]. rewrite T_self1, T_self2 in Hf. lra.
    + intros [-> ->]. rewrite T_self1, T_self2 in Hf. lra.
  - apply (X c n E2).
    + apply (side_on c n p); [rewrite T_rot; exact HT|exact Z|exact Hz|exact K].
    + intros E. rewrite E in Z, K. lra.
    + intros [-> ->]. rewrite T_self1, T_self2 in Hg. lra.
    + intros [-> ->]. rewrite T_self1, T_self2 in Hg. lra.
Qed.
Lemma inner_edge P p c n a b t : gp P -> simple P -> (3 <= length P)%nat -> corner P p c n -> 0 < T p c n -> edge P a b -> 0 <= t -> t <= 1 ->
  0 < (1 - t) * T p c b + t * T p c a -> 0 < (1 - t) * T c n b + t * T c n a -> 0 <= (1 - t) * T n p b + t * T n p a ->
  ((1 - t) * T n p b + t * T n p a <= T n p a -> T p c a < 0 \/ T c n a < 0) ->
  ((1 - t) * T n p b + t * T n p a <= T n p b -> T p c b < 0 \/ T c n b < 0) -> False.
Proof.
  intros G S HL HC HT HE Ht Ht1 Hf Hg Hh HA HB.
  destruct (Rle_lt_dec (T n p b) (T n p a)) as [L|L].
  - assert (K : (1 - t) * T n p b + t * T n p a <= T n p a) by (pose proof (mul_p (1 - t) (T n p a - T n p b) ltac:(lra) ltac:(lra)); lra).
    destruct (Req_dec t 1) as [->|Nt]; [destruct (HA K); lra|]. apply (inner_half P p c n a b t); auto; lra.
  - assert (K : (1 - t) * T n p b + t * T n p a <= T n p b) by (pose proof (mul_p t (T n p b - T n p a) ltac:(lra) ltac:(lra)); lra).
    destruct (Req_dec t 0) as [->|Nt]; [destruct (HB K); lra|]. apply (inner_half P p c n b a (1 - t)); auto; lra.
Qed.
(** the segment from the corner to a point of its triangle *)
Lemma wedge_nocross P p c n z a b : gp P -> simple P -> (3 <= length P)%nat -> corner P p c n -> 0 < T p c n ->
  0 < T p c z -> 0 < T c n z -> 0 <= T n p z -> edge P a b -> a <> c -> b <> c ->
  (T n p z < T n p a \/ (on a b z /\ T n p z = T n p a) -> T p c a < 0 \/ T c n a < 0) ->
  (T n p z < T n p b \/ (on a b z /\ T n p z = T n p b) -> T p c b < 0 \/ T c n b < 0) -> nocross c z a b.
Proof.
  intros G S HL HC HT Zf Zg Zh HE Na Nb HA HB. destruct (corner_In _ _ _ _ HC) as (Ip & Ic & In_). destruct (edge_In _ _ _ HE) as [Ia Ib].
  destruct (meet_or_apart c z a b) as [|(w & (m & Hm & Em) & Ow)]; [assumption|exfalso].
  assert (M0 : 0 < m). { destruct (Req_dec m 0) as [->|]; [|lra]. exfalso. rewrite at_0 in Em. subst w. apply (proj2 G a b c HE Ic); congruence || assumption. }
  pose proof (on_swap _ _ _ Ow) as (t & Ht & Et).
  assert (EX : forall u v, (1 - t) * T u v b + t * T u v a = (1 - m) * T u v c + m * T u v z) by (intros u v; rewrite <- !T_at, <- Em, <- Et; reflexivity).
  pose proof (EX p c) as F. pose proof (EX c n) as Gq. pose proof (EX n p) as Hq. rewrite T_self2 in F. rewrite T_self1 in Gq.
  pose proof (bary_sum p c n z) as BS. replace (T n p c) with (T p c n) in Hq by (unfold tri_area2; ring).
  assert (HX : T n p z <= (1 - t) * T n p b + t * T n p a /\ (T n p z = (1 - t) * T n p b + t * T n p a -> on a b z)).
  { rewrite Hq. split.
    - pose proof (mul_p (1 - m) (T p c n - T n p z) ltac:(lra) ltac:(lra)). lra.
    - intros E. destruct (Req_dec m 1) as [->|]; [rewrite at_1 in Em; congruence|]. pose proof (mul_pp (1 - m) (T p c n - T n p z) ltac:(lra) ltac:(lra)). lra. }
  destruct HX as [HX1 HX2].
  apply (inner_edge P p c n a b t G S HL HC HT HE); try lra.
  - rewrite F. pose proof (mul_pp m (T p c z) ltac:(lra) Zf). lra.
  - rewrite Gq. pose proof (mul_pp m (T c n z) ltac:(lra) Zg). lra.
  - intros K. apply HA. destruct (Rle_lt_or_eq_dec _ _ HX1) as [L|L]; [left; lra|]. destruct (Req_dec (T n p z) (T n p a)) as [E|N]; [right; auto|left; lra].
  - intros K. apply HB. destruct (Rle_lt_or_eq_dec _ _ HX1) as [L|L]; [left; lra|]. destruct (Req_dec (T n p z) (T n p b)) as [E|N]; [right; auto|left; lra].
Qed.

(** ** Ears *)
Definition in_tri (p c n v : P2) : Prop := 0 <= T p c v /\ 0 <= T c n v /\ 0 <= T n p v.
Lemma in_tri_dec p c n v : {in_tri p c n v} + {T p c v < 0 \/ T c n v < 0 \/ T n p v < 0}.
Proof.
  unfold in_tri. destruct (Rle_lt_dec 0 (T p c v)); [|right; auto]. destruct (Rle_lt_dec 0 (T c n v)); [|right; auto]. destruct (Rle_lt_dec 0 (T n p v)); [left|right]; auto.
Qed.
(** a left turn whose triangle holds no further vertex *)
Definition ear (P : list P2) (p c n : P2) : Prop :=
  corner P p c n /\ 0 < T p c n /\ forall v, In v P -> v <> p -> v <> c -> v <> n -> ~ in_tri p c n v.
Lemma in_tri_strict P p c n v : gp P -> corner P p c n -> 0 < T p c n -> In v P -> v <> p -> v <> c -> v <> n -> in_tri p c n v -> 0 < T p c v /\ 0 < T c n v /\ 0 <= T n p v.
Proof.
  intros G HC HT Iv Np Nc Nn (H1 & H2 & H3). destruct (corner_edge _ _ _ _ HC) as [E1 E2].
  assert (Z1 : T p c v <> 0). { intros Z. apply (proj2 G p c v E1 Iv Np Nc). now apply (side_on p c n). }
  assert (Z2 : T c n v <> 0). { intros Z. apply (proj2 G c n v E2 Iv Nc Nn). apply (side_on c n p); auto. now rewrite T_rot. }
  lra.
Qed.
Lemma lft_near P p c n : gp P -> corner P p c n -> 0 < T p c n -> forall e, 0 < e -> lft e p c n = mv c e (dp p c n).
Proof. intros G HC HT e He. unfold lft. destruct (Rlt_dec 0 (T p c n)); [reflexivity|lra]. Qed.
(** the polygon winds once around every point of an ear *)
Lemma ear_winding P p c n q : good P -> ear P p c n -> 0 < T p c q -> 0 < T c n q -> 0 < T n p q -> winding P q = 1.
Proof.
  intros [G S HL C] (HC & HT & HV) Hf Hg Hh. destruct (corner_edge _ _ _ _ HC) as [E1 E2]. destruct (corner_In _ _ _ _ HC) as (Ip & Ic & In_).
  assert (K : ev (fun e => forall xy, In xy (edges P) -> nocross (mv c e (dp p c n)) q (fst xy) (snd xy))).
  { apply ev_list. intros [x y] He. cbn [fst snd]. destruct (corner_edges P p c n x y (proj1 G) HC He) as [[-> ->]|[[-> ->]|[Nx Ny]]].
    - apply ev_all. intros e He0. apply nocross_l. rewrite T_mv_b, crs_dp1. apply mul_pp; [apply mul_pp|]; assumption.
    - apply ev_all. intros e He0. apply nocross_l. replace (T c n (mv c e (dp p c n))) with (e * T p c n) by (unfold tri_area2, mv, dp; cbn [x2 y2]; ring). apply mul_pp; [apply mul_pp|]; assumption.
    - apply (nocross_near (fun e => mv c e (dp p c n)) (fun _ => q) c q); [apply limp_mv|apply limp_const|].
      destruct (edge_In _ _ _ He) as [Ix Iy].
      assert (O : forall v, In v P -> v <> c -> T n p q <= T n p v -> T p c v < 0 \/ T c n v < 0).
      { intros v Iv Nv L. destruct (in_tri_dec p c n v) as [I|[?|[?|?]]]; [|auto|auto|lra]. exfalso. apply (HV v Iv); auto.
        - intros ->. rewrite T_self2 in L. lra.
        - intros ->. rewrite T_self1 in L. lra. }
      apply (wedge_nocross P p c n q x y); auto; try lra; intros K; apply O; auto; destruct K; lra. }
  destruct (ev_ex _ (ev_and _ _ K C)) as (e & He & H1 & _ & H2). destruct (H2 p c n HC) as [H3 _]. rewrite (lft_near P p c n G HC HT e He) in H3.
  rewrite (winding_move P (mv c e (dp p c n)) q); [lra|]. intros x y Hxy. exact (H1 (x, y) Hxy).
Qed.
Lemma ear_chord_free P p c n : gp P -> simple P -> (3 <= length P)%nat -> ear P p c n -> free P n p.
Proof.
  intros G S HL (HC & HT & HV). split.
  2: { intros v Iv Nn Np (t & Ht & Et).
       assert (ET : forall x y, T x y v = (1 - t) * T x y n + t * T x y p) by (intros; rewrite Et; apply T_at).
       assert (H1 : 0 <= T p c v) by (rewrite ET, T_self1; pose proof (mul_p (1 - t) (T p c n) ltac:(lra) ltac:(lra)); lra).
       assert (H2 : 0 <= T c n v) by (rewrite ET, T_self2, (T_rot p c n); pose proof (mul_p t (T p c n) ltac:(lra) ltac:(lra)); lra).
       assert (H3 : T n p v = 0) by (rewrite ET, T_self1, T_self2; ring).
       apply (HV v Iv Np); [|exact Nn|unfold in_tri; lra]. intros ->. replace (T n p c) with (T p c n) in H3 by (unfold tri_area2; ring). lra. }
  intros x y He [K1 K2]. destruct (corner_In _ _ _ _ HC) as (Ip & Ic & In_). destruct (edge_In _ _ _ He) as [Ix Iy].
  assert (Nx : x <> p /\ x <> n) by (split; intros ->; [rewrite (T_self2 n p) in K1|rewrite (T_self1 n p) in K1]; lra).
  assert (Ny : y <> p /\ y <> n) by (split; intros ->; [rewrite (T_self2 n p) in K1|rewrite (T_self1 n p) in K1]; lra).
  assert (Nc : x <> c /\ y <> c). { destruct (corner_edges P p c n x y (proj1 G) HC He) as [[-> ->]|[[-> ->]|?]]; [tauto|tauto|assumption]. }
  pose proof (T_sum x y n p) as SM. set (D := T n p y - T n p x) in *.
  assert (ND : D <> 0) by (unfold D; intros E; assert (E' : T n p y = T n p x) by lra; rewrite E' in K1; pose proof (Rle_0_sqr (T n p x)); unfold Rsqr in *; lra).
  assert (DD : 0 < D * D) by (pose proof (Rsqr_pos_lt _ ND); unfold Rsqr in *; lra).
  set (t := T n p y / D). set (m := T x y n / D).
  assert (M : forall u w, u * D = w -> 0 < w * (D - w) -> 0 < u /\ u < 1).
  { intros u w E Hw. assert (M3 : 0 < u * (1 - u) * (D * D)) by (replace (u * (1 - u) * (D * D)) with (w * (D - w)) by (rewrite <- E; ring); exact Hw).
    assert (M4 : 0 < u * (1 - u)) by (destruct (Rlt_le_dec 0 (u * (1 - u))) as [|N]; [assumption|]; pose proof (mul_np (u * (1 - u)) (D * D) N ltac:(lra)); lra).
    split; [destruct (Rlt_le_dec 0 u) as [|N]; [assumption|]; pose proof (mul_np u (1 - u) N ltac:(lra)); lra|destruct (Rlt_le_dec u 1) as [|N]; [assumption|]; pose proof (mul_pn u (1 - u) ltac:(lra) ltac:(lra)); lra]. }
  destruct (M t (T n p y)) as [Ht Ht1]; [unfold t; field; exact ND|unfold D; lra|].
  destruct (M m (T x y n)) as [Hm Hm1]; [unfold m; field; exact ND|replace D with (T x y n - T x y p) by (unfold D; lra); lra|].
  assert (EX : forall u v, (1 - t) * T u v y + t * T u v x = (1 - m) * T u v n + m * T u v p).
  { intros u v. unfold t, m. apply (Rmult_eq_reg_r D); [|exact ND].
    replace (((1 - T n p y / D) * T u v y + T n p y / D * T u v x) * D) with ((D - T n p y) * T u v y + T n p y * T u v x) by (field; exact ND).
    replace (((1 - T x y n / D) * T u v n + T x y n / D * T u v p) * D) with ((D - T x y n) * T u v n + T x y n * T u v p) by (field; exact ND).
    unfold D, tri_area2. ring. }
  pose proof (EX p c) as F. pose proof (EX c n) as Gq. pose proof (EX n p) as Hq. rewrite T_self1 in F. rewrite T_self2 in Gq. rewrite T_self1, T_self2 in Hq.
  rewrite (T_rot p c n) in Gq.
  assert (O : forall v, In v P -> v <> c -> v <> p -> v <> n -> 0 <= T n p v -> T p c v < 0 \/ T c n v < 0).
  { intros v Iv N1 N2 N3 L. destruct (in_tri_dec p c n v) as [I|[?|[?|?]]]; [|auto|auto|lra]. exfalso. now apply (HV v Iv). }
  apply (inner_edge P p c n x y t G S HL HC HT He).
  - lra.
  - lra.
  - rewrite F. pose proof (mul_pp (1 - m) (T p c n) ltac:(lra) HT). lra.
  - rewrite Gq. pose proof (mul_pp m (T p c n) ltac:(lra) HT). lra.
  - rewrite Hq. lra.
  - intros K. apply O; tauto || lra.
  - intros K. apply O; tauto || lra.
Qed.

(** ** An inner chord *)
Lemma max_sel (P : list P2) (Q : P2 -> Prop) (h : P2 -> R) : (forall v, Q v \/ ~ Q v) ->
  (forall v, In v P -> ~ Q v) \/ exists v, In v P /\ Q v /\ forall w, In w P -> Q w -> h w <= h v.
Proof.
  intros D. induction P as [|x l IH]; [left; intros v []|]. destruct IH as [IH|(v & Iv & Qv & Hv)]; destruct (D x) as [Qx|Nx].
  - right. exists x. split; [now left|]. split; [exact Qx|]. intros w [<-|Hw] Qw; [lra|]. exfalso. exact (IH w Hw Qw).
  - left. intros v [<-|Hv]; [exact Nx|auto].
  - right. destruct (Rle_lt_dec (h x) (h v)) as [L|L].
    + exists v. split; [now right|]. split; [exact Qv|]. intros w [<-|Hw] Qw; [exact L|auto].
    + exists x. split; [now left|]. split; [exact Qx|]. intros w [<-|Hw] Qw; [lra|]. specialize (Hv w Hw Qw). lra.
  - right. exists v. split; [now right|]. split; [exact Qv|]. intros w [<-|Hw] Qw; [contradiction|auto].
Qed.
Lemma other_dec p c n v : (v <> p /\ v <> c /\ v <> n /\ in_tri p c n v) \/ ~ (v <> p /\ v <> c /\ v <> n /\ in_tri p c n v).
Proof.
  destruct (classic_eq v p); [right; tauto|]. destruct (classic_eq v c); [right; tauto|]. destruct (classic_eq v n); [right; tauto|].
  destruct (in_tri_dec p c n v) as [I|N]; [left; tauto|right]. intros (_ & _ & _ & I1 & I2 & I3). lra.
Qed.
Definition inner_chord (P : list P2) (s t : P2) : Prop := free P s t /\ ev (fun e => winding P (ms 1 e s t) = 1).
Lemma ear_chord P p c n : good P -> ear P p c n -> inner_chord P n p.
Proof.
  intros GP E. pose proof GP as [G S HL C]. split; [now apply (ear_chord_free P p c n)|]. pose proof E as (HC & HT & _).
  destruct (corner_distinct _ _ _ _ (proj1 G) HC) as (D1 & D2 & D3).
  assert (L : limp (fun e => ms 1 e n p) (mid n p)) by apply limp_mvk.
  apply (ev_imp (fun e => 0 < T p c (ms 1 e n p) /\ 0 < T c n (ms 1 e n p))).
  - intros e He [K1 K2]. apply (ear_winding P p c n); auto. unfold ms. rewrite T_mid_nrm. apply mul_pp; [lra|]. apply dsub_pos. congruence.
  - apply ev_and; (eapply lim_pos; [apply lim_T; [apply limp_const|apply limp_const|exact L]|]); rewrite mid_T.
    + rewrite T_self1. lra.
    + rewrite T_self2, (T_rot p c n). lra.
Qed.
Lemma apex_chord P p c n v : good P -> corner P p c n -> 0 < T p c n -> In v P -> v <> p -> v <> c -> v <> n -> in_tri p c n v ->
  (forall w, In w P -> w <> p -> w <> c -> w <> n -> in_tri p c n w -> T n p w <= T n p v) -> inner_chord P c v.
Proof.
  intros [G S HL C] HC HT Iv Np Nc Nn I Hm. destruct (in_tri_strict P p c n v G HC HT Iv Np Nc Nn I) as (Hf & Hg & Hh).
  destruct (corner_In _ _ _ _ HC) as (Ip & Ic & In_).
  assert (F : free P c v).
  { split.
    - intros x y He [K1 K2].
      assert (Nx : x <> c /\ x <> v) by (split; intros ->; [rewrite (T_self1 c v) in K1|rewrite (T_self2 c v) in K1]; lra).
      assert (Ny : y <> c /\ y <> v) by (split; intros ->; [rewrite (T_self1 c v) in K1|rewrite (T_self2 c v) in K1]; lra).
      destruct (edge_In _ _ _ He) as [Ix Iy].
      assert (NZ : ~ on x y v) by (apply (proj2 G); tauto || intuition congruence).
      assert (O : forall w, In w P -> w <> c -> T n p v < T n p w -> T p c w < 0 \/ T c n w < 0).
      { intros w Iw N1 L. destruct (in_tri_dec p c n w) as [Iw'|[?|[?|?]]]; [|auto|auto|lra]. exfalso.
        assert (T n p w <= T n p v); [|lra]. apply Hm; auto; intros ->; [rewrite T_self2 in L|rewrite T_self1 in L]; lra. }
      assert (NX : nocross c v x y).
      { apply (wedge_nocross P p c n v x y); auto; try tauto.
        - intros [K|[K _]]; [apply O; tauto|contradiction].
        - intros [K|[K _]]; [apply O; tauto|contradiction]. }
      destruct (nocross_cases _ _ _ _ NX) as [K|[K|(Z1 & _ & Z2 & _)]]; [lra|lra|rewrite Z2 in K1; lra].
    - intros w Iw Nwc Nwv (m & Hm' & Em).
      assert (M : 0 < m < 1). { destruct (Req_dec m 0) as [->|]; [rewrite at_0 in Em; congruence|]. destruct (Req_dec m 1) as [->|]; [rewrite at_1 in Em; congruence|]. lra. }
      assert (ET : forall x y, T x y w = (1 - m) * T x y c + m * T x y v) by (intros; rewrite Em; apply T_at).
      pose proof (bary_sum p c n v) as BS. assert (H1 : 0 < T p c w) by (rewrite ET, T_self2; pose proof (mul_pp m _ ltac:(lra) Hf); lra).
      assert (H2 : 0 < T c n w) by (rewrite ET, T_self1; pose proof (mul_pp m _ ltac:(lra) Hg); lra).
      assert (H3 : T n p v < T n p w).
      { rewrite ET. replace (T n p c) with (T p c n) by (unfold tri_area2; ring). pose proof (mul_pp (1 - m) (T p c n - T n p v) ltac:(lra) ltac:(lra)). lra. }
      assert (T n p w <= T n p v); [|lra]. apply Hm; auto; try (unfold in_tri; lra); intros ->; [rewrite T_self2 in H3|rewrite T_self1 in H3]; lra. }
  split; [exact F|].
  apply (ev_imp (fun e => winding P (ms 1 e c v) = winding P (mv c e (dp p c n)) /\ sides P 0 e)).
  { intros e He [-> [_ K]]. destruct (K p c n HC) as [K1 _]. rewrite (lft_near P p c n G HC HT e He) in K1. lra. }
  apply ev_and; [|exact C].
  assert (L : limp (fun e => ms 1 e c v) (mid c v)) by apply limp_mvk.
  apply (slide P p c n v (dp p c n)); auto.
  - apply (ev_imp (fun e => 0 < T p c (ms 1 e c v))).
    + intros e He K. apply nocross_l. rewrite T_mv_b, crs_dp1. apply mul_pp; [apply mul_pp|]; assumption.
    + eapply lim_pos; [apply lim_T; [apply limp_const|apply limp_const|exact L]|]. rewrite mid_T, T_self2. lra.
  - apply (ev_imp (fun e => 0 < T c n (ms 1 e c v))).
    + intros e He K. apply nocross_l. replace (T c n (mv c e (dp p c n))) with (e * T p c n) by (unfold tri_area2, mv, dp; cbn [x2 y2]; ring). apply mul_pp; [apply mul_pp|]; assumption.
    + eapply lim_pos; [apply lim_T; [apply limp_const|apply limp_const|exact L]|]. rewrite mid_T, T_self1. lra.
Qed.
Lemma chord_exists P : good P -> (4 <= length P)%nat -> exists s t A B, rotof P (s :: A ++ t :: B) /\ A <> [] /\ B <> [] /\ inner_chord P s t.
Proof.
  intros GP HL. destruct (convex_corner P GP) as (p & c & n & HC & HT). pose proof HC as (l & Hl).
  destruct (max_sel P (fun v => v <> p /\ v <> c /\ v <> n /\ in_tri p c n v) (fun v => T n p v) (other_dec p c n)) as [H|(v & Iv & (N1 & N2 & N3 & I) & Hm)].
  - exists n, p, l, [c]. split; [|split; [|split; [discriminate|]]].
    + eapply rotof_trans; [exact Hl|]. exists [p; c], (n :: l). auto.
    + intros ->. apply Permutation_length in Hl || apply rotof_perm, Permutation_length in Hl. cbn in Hl. lia.
    + apply (ear_chord P p c n GP). split; [exact HC|]. split; [exact HT|]. intros v Iv A1 A2 A3 A4. apply (H v Iv). tauto.
  - assert (Il : In v l). { apply (rotof_In _ _ _ Hl) in Iv. destruct Iv as [E|[E|[E|E]]]; [congruence..|exact E]. }
    apply in_split in Il as (l1 & l2 & ->). exists c, v, (n :: l1), (l2 ++ [p]). split; [|split; [discriminate|split; [destruct l2; discriminate|]]].
    + eapply rotof_trans; [exact Hl|]. exists [p], (c :: n :: l1 ++ v :: l2). split; [reflexivity|]. cbn [app]. rewrite <- app_assoc. reflexivity.
    + apply (apex_chord P p c n v); auto.
Qed.
(** an ear of one part that does not stand on the chord is an ear of the whole *)
Lemma limp_lft a b c : limp (fun e => lft e a b c) b.
Proof. unfold lft, sp, sn. destruct (Rlt_dec 0 (T a b c)); [apply limp_mv|]. destruct (Rlt_dec (T a b c) 0); apply limp_mv. Qed.
Lemma limp_rgt a b c : limp (fun e => rgt e a b c) b.
Proof. unfold rgt, sp, sn. destruct (Rlt_dec 0 (T a b c)); [apply limp_mv|]. destruct (Rlt_dec (T a b c) 0); apply limp_mv. Qed.
(** next to a highest vertex of the triangle the polygon goes down *)
Lemma nbr_below P p c n v w : gp P -> simple P -> (3 <= length P)%nat -> corner P p c n -> 0 < T p c n -> 0 < T p c v -> 0 < T c n v -> 0 <= T n p v ->
  (forall x, In x P -> x <> p -> x <> c -> x <> n -> in_tri p c n x -> T n p x <= T n p v) -> w <> c -> edge P w v \/ edge P v w -> T n p w <= T n p v.
Proof.
  intros G S HL HC HT Hf Hg Hh Hm Nw E. destruct (Rle_lt_dec (T n p w) (T n p v)) as [|L]; [assumption|exfalso].
  assert (Iw : In w P) by (destruct E as [E|E]; apply edge_In in E; tauto).
  apply (inner_half P p c n w v 0); auto; try lra.
  destruct (in_tri_dec p c n w) as [Iw'|[?|[?|?]]]; [|auto|auto|lra]. exfalso.
  assert (T n p w <= T n p v); [|lra]. apply Hm; auto; intros ->; [rewrite T_self2 in L|rewrite T_self1 in L]; lra.
Qed.
(** a corner that goes down from a line has a side above the line *)
Lemma side_above P a v b n p : gp P -> corner P a v b -> n <> p -> T n p v = 0 -> T n p a <= 0 -> T n p b <= 0 ->
  ev (fun e => 0 < T n p (lft e a v b)) \/ ev (fun e => 0 < T n p (rgt e a v b)).
Proof.
  intros G HC Nnp Zv Ha Hb. destruct (corner_distinct _ _ _ _ (proj1 G) HC) as (D1 & D2 & D3).
  assert (CR : T a v b * 0 = 0) by ring.
  assert (SN : T a v b <> 0 -> ev (fun e => 0 < T n p (sn e a v b))).
  { intros NZ. assert (L : T n p a + 2 * T n p b < 0).
    { destruct (Req_dec (T n p a) 0) as [Ea|]; [|lra]. destruct (Req_dec (T n p b) 0) as [Eb|]; [|lra]. exfalso. apply NZ.
      destruct (on_line n p a Nnp Ea) as (s1 & ->). destruct (on_line n p v Nnp Zv) as (s2 & ->). destruct (on_line n p b Nnp Eb) as (s3 & ->). unfold tri_area2, at_. cbn [x2 y2]. ring. }
    apply ev_all. intros e He. replace (T n p (sn e a v b)) with (T n p v + e * (3 * T n p v - (T n p a + 2 * T n p b))) by (unfold tri_area2, sn, mv, dm; cbn [x2 y2]; ring).
    rewrite Zv. pose proof (mul_pp e (- (T n p a + 2 * T n p b)) He ltac:(lra)). lra. }
  unfold lft, rgt. destruct (Rlt_dec 0 (T a v b)) as [K|K]; [right; apply SN; lra|]. destruct (Rlt_dec (T a v b) 0) as [K'|K']; [left; apply SN; lra|].
  assert (Z : T a v b = 0) by lra. destruct (corner_straight P a v b G HC Z) as (s & Hs & Eb).
  assert (Zb : T n p b = (1 - s) * T n p a) by (rewrite Eb, T_at, Zv; ring).
  assert (Ea : T n p a = 0). { destruct (Req_dec (T n p a) 0) as [|N]; [assumption|]. pose proof (mul_pp (s - 1) (- T n p a) ltac:(lra) ltac:(lra)). lra. }
  rewrite Ea in Zb. assert (Eb0 : T n p b = 0) by lra.
  destruct (on_line n p a Nnp Ea) as (s1 & E1). destruct (on_line n p b Nnp Eb0) as (s3 & E3).
  assert (Ns : s1 <> s3) by (intros ->; congruence).
  assert (F : forall e, T n p (mv v e (nrm a b)) = e * ((s3 - s1) * ((x2 p - x2 n) * (x2 p - x2 n) + (y2 p - y2 n) * (y2 p - y2 n)))).
  { intros e. rewrite T_mv, Zv, E1, E3. unfold crs, dsub, nrm, at_. cbn [x2 y2]. ring. }
  assert (F' : forall e, T n p (mv v e (nrm b a)) = e * ((s1 - s3) * ((x2 p - x2 n) * (x2 p - x2 n) + (y2 p - y2 n) * (y2 p - y2 n)))).
  { intros e. rewrite T_mv, Zv, E1, E3. unfold crs, dsub, nrm, at_. cbn [x2 y2]. ring. }
  pose proof (dsub_pos n p Nnp) as Hp. destruct (Rdichotomy _ _ Ns) as [L|L]; [left|right]; apply ev_all; intros e He; rewrite ?F, ?F'; apply mul_pp; auto; apply mul_pp; lra.
Qed.
Lemma ear_transfer s t A B p c n : good (s :: A ++ t :: B) -> good (s :: A ++ [t]) -> good (t :: B ++ [s]) -> ear (t :: B ++ [s]) p c n -> c <> s -> c <> t ->
  ear (s :: A ++ t :: B) p c n.
Proof.
  intros GP G1 G2 E Ns Nt. pose proof E as (HC & HT & HV). pose proof GP as [G S HL C]. pose proof G1 as [Gp1 S1 HL1 C1]. pose proof G2 as [Gp2 S2 HL2 C2].
  assert (HCP : corner (s :: A ++ t :: B) p c n).
  { apply (corner_iff _ _ _ _ (proj1 Gp2) HL2) in HC as [E1 E2]. apply (corner_iff _ _ _ _ (proj1 G) HL). apply chord_edges2 in E1, E2.
    split; apply chord_edges; right; [destruct E1 as [E1|[_ E1]]|destruct E2 as [E2|[E2 _]]]; congruence || assumption. }
  split; [exact HCP|]. split; [exact HT|].
  destruct (max_sel (s :: A ++ t :: B) (fun v => v <> p /\ v <> c /\ v <> n /\ in_tri p c n v) (fun v => T n p v) (other_dec p c n)) as [H|(v & Iv & (N1 & N2 & N3 & I) & Hm)].
  { intros v Iv M1 M2 M3 M4. exact (H v Iv (conj M1 (conj M2 (conj M3 M4)))). }
  exfalso. destruct (corner_distinct _ _ _ _ (proj1 G) HCP) as (D1 & D2 & D3).
  assert (Iv' : In v (t :: B ++ [s]) \/ In v A). { destruct Iv as [->|Iv]; [left; right; apply in_or_app; right; now left|]. apply in_app_or in Iv as [Iv|[->|Iv]]; [now right|left; now left|left; right; apply in_or_app; now left]. }
  destruct Iv' as [Iv'|Iv']; [now apply (HV v Iv')|].
  destruct (in_tri_strict _ p c n v G HCP HT Iv N1 N2 N3 I) as (K1 & K2 & K3).
  assert (Is : v <> s /\ v <> t).
  { pose proof (proj1 G) as ND. inversion ND as [|? ? M1 M2]; subst. split; intros ->; [apply M1; apply in_or_app; now left|].
    apply NoDup_remove_2 in M2. apply M2. apply in_or_app. now left. }
  destruct (In_corner (s :: A ++ [t]) v HL1) as (a & b & HCv); [right; apply in_or_app; now left|].
  assert (HCvP : corner (s :: A ++ t :: B) a v b).
  { pose proof HCv as HCv'. apply (corner_iff _ _ _ _ (proj1 Gp1) HL1) in HCv' as [E1 E2]. apply (corner_iff _ _ _ _ (proj1 G) HL). apply chord_edges1 in E1, E2.
    split; apply chord_edges; left; [destruct E1 as [E1|[_ E1]]|destruct E2 as [E2|[E2 _]]]; tauto. }
  assert (KL : ev (fun e => 0 < T n p (lft e a v b)) -> False).
  { intros K. assert (K' : ev (fun e => 0 < T p c (lft e a v b) /\ 0 < T c n (lft e a v b))).
    { apply ev_and; (eapply lim_pos; [apply lim_T; [apply limp_const|apply limp_const|apply limp_lft]|assumption]). }
    destruct (ev_ex _ (ev_and _ _ K (ev_and _ _ K' (ev_and _ _ C C1)))) as (e & He & P3 & (P1 & P2) & [_ HP] & [_ H1]).
    destruct (HP a v b HCvP) as [W _]. destruct (H1 a v b HCv) as [W1 _]. rewrite chord_winding in W.
    pose proof (ear_winding _ p c n _ G2 E P1 P2 P3). lra. }
  assert (KR : ev (fun e => 0 < T n p (rgt e a v b)) -> False).
  { intros K. assert (K' : ev (fun e => 0 < T p c (rgt e a v b) /\ 0 < T c n (rgt e a v b))).
    { apply ev_and; (eapply lim_pos; [apply lim_T; [apply limp_const|apply limp_const|apply limp_rgt]|assumption]). }
    destruct (ev_ex _ (ev_and _ _ K (ev_and _ _ K' (ev_and _ _ C C1)))) as (e & He & P3 & (P1 & P2) & [_ HP] & [_ H1]).
    destruct (HP a v b HCvP) as [_ W]. destruct (H1 a v b HCv) as [_ W1]. rewrite chord_winding in W.
    pose proof (ear_winding _ p c n _ G2 E P1 P2 P3). lra. }
  destruct (Rle_lt_or_eq_dec _ _ K3) as [L|Z].
  - apply KL. eapply lim_pos; [apply lim_T; [apply limp_const|apply limp_const|apply limp_lft]|exact L].
  - destruct (corner_edge _ _ _ _ HCvP) as [Eav Evb].
    assert (Nac : a <> c). { intros ->. destruct (corner_edges _ p c n c v (proj1 G) HCP Eav) as [[? ?]|[[_ ?]|[? _]]]; congruence. }
    assert (Nbc : b <> c). { intros ->. destruct (corner_edges _ p c n v c (proj1 G) HCP Evb) as [[? _]|[[? _]|[_ ?]]]; congruence. }
    assert (Hm' : forall x, In x (s :: A ++ t :: B) -> x <> p -> x <> c -> x <> n -> in_tri p c n x -> T n p x <= T n p v) by (intros x Ix M1 M2 M3 M4; apply Hm; auto).
    pose proof (nbr_below _ p c n v a G S HL HCP HT K1 K2 K3 Hm' Nac (or_introl Eav)) as Ha.
    pose proof (nbr_below _ p c n v b G S HL HCP HT K1 K2 K3 Hm' Nbc (or_intror Evb)) as Hb.
    destruct (side_above _ a v b n p G HCvP) as [K|K]; auto; lra.
Qed.
Lemma ear_rot P Q p c n : rotof P Q -> ear P p c n -> ear Q p c n.
Proof.
  intros R (HC & HT & HV). split; [now apply (rotof_corner _ _ _ _ _ R)|]. split; [exact HT|]. intros v Iv. apply HV. now apply (rotof_In _ _ _ R).
Qed.
Lemma NoDup_app_disj {A} (l l' : list A) : NoDup (l ++ l') -> forall x, In x l -> In x l' -> False.
Proof.
  induction l as [|y l IH]; intros H x H1 H2; [destruct H1|]. cbn [app] in H. inversion H as [|? ? N1 N2]; subst. destruct H1 as [->|H1]; [|exact (IH N2 x H1 H2)].
  apply N1. apply in_or_app. now right.
Qed.
(** an ear away from any given edge *)
Theorem ear_exists : forall k P, (length P <= k)%nat -> good P -> forall x y, edge P x y -> exists p c n, ear P p c n /\ c <> x /\ c <> y.
Proof.
  induction k as [|k IH]; intros P Hk GP x y He; [pose proof (good_len P GP); lia|].
  destruct (Nat.eq_dec (length P) 3) as [H3|H3].
  - destruct (edge_next P x y (good_len P GP) He) as (z & HC). pose proof HC as (l & Hl). pose proof (Permutation_length (rotof_perm _ _ Hl)) as HL. cbn in HL.
    destruct l; [|cbn in HL; lia]. destruct (corner_distinct _ _ _ _ (proj1 (good_gp P GP)) HC) as (D1 & D2 & D3).
    exists y, z, x. split; [|split; congruence]. split; [|split].
    + exists []. eapply rotof_trans; [exact Hl|]. now exists [x], [y; z].
    + destruct (convex_corner P GP) as (a & b & c & HC' & HT).       assert (K : T a b c = T x y z); [|rewrite (T_rot x y z), <- K; exact HT].
      apply (rotof_corner _ _ _ _ _ Hl) in HC'. destruct HC' as (l' & u & v & E & E').
      destruct u as [|u0 [|u1 [|u2 u]]].
      * cbn in E. subst v. rewrite app_nil_r in E'. injection E' as -> -> -> _. reflexivity.
      * cbn in E. injection E as <- <-. injection E' as -> -> -> _. unfold tri_area2. ring.
      * cbn in E. injection E as <- <- <-. injection E' as -> -> -> _. unfold tri_area2. ring.
      * cbn in E. injection E as <- <- <- E. destruct u; [|discriminate]. destruct v; [|discriminate]. injection E' as -> -> -> _. reflexivity.
    + intros v Iv N1 N2 N3. apply (rotof_In _ _ _ Hl) in Iv. cbn in Iv. destruct Iv as [?|[?|[?|[]]]]; congruence.
  - destruct (chord_exists P GP) as (s & t & A & B & R & NA & NB & F & W); [pose proof (good_len P GP); lia|].
    pose proof (rotof_good P _ R GP) as GP'. pose proof (Permutation_length (rotof_perm _ _ R)) as HL. cbn [length] in HL. rewrite app_length in HL. cbn [length] in HL.
    destruct (chord_good s t A B NA NB GP' (free_rot _ _ _ _ R F)) as [G1 G2].
    { eapply ev_imp; [|exact W]. intros e _ H. now rewrite <- (rotof_winding P _ _ R). }
    assert (R' : rotof (s :: A ++ t :: B) (t :: B ++ s :: A)) by (exists (s :: A), (t :: B); auto).
    assert (ND : NoDup (s :: A ++ t :: B)) by exact (proj1 (good_gp _ GP')).
    apply (rotof_edge _ _ _ _ R) in He. apply chord_edges in He as [He|He].
    + destruct (IH (t :: B ++ [s])) with (x := s) (y := t) as (p & c & n & E & N1 & N2); [cbn [length]; rewrite app_length; cbn [length]; destruct A; [congruence|cbn [length] in *; lia]|exact G2|apply chord_edges2; now right|].
      exists p, c, n. split; [|].
      * apply (ear_rot (s :: A ++ t :: B)); [now apply rotof_sym|]. now apply ear_transfer.
      * assert (Ic : In c B). { destruct E as (HC & _). destruct (corner_In _ _ _ _ HC) as (_ & Ic & _). destruct Ic as [Ic|Ic]; [congruence|]. apply in_app_or in Ic as [Ic|[Ic|[]]]; [exact Ic|congruence]. }
        assert (Nc : forall z, In z (s :: A ++ [t]) -> c <> z).
        { intros z Iz ->. change (s :: A ++ t :: B) with ((s :: A) ++ [t] ++ B) in ND. rewrite app_assoc in ND. apply (NoDup_app_disj _ _ ND z); [exact Iz|exact Ic]. }
        apply links_In in He as [Ix Iy]. split; apply Nc; assumption.
    + destruct (IH (s :: A ++ [t])) with (x := t) (y := s) as (p & c & n & E & N1 & N2); [cbn [length]; rewrite app_length; cbn [length]; destruct B; [congruence|cbn [length] in *; lia]|exact G1|apply chord_edges1; now right|].
      exists p, c, n. split; [|].
      * apply (ear_rot (t :: B ++ s :: A)); [apply rotof_sym; eapply rotof_trans; [exact R|exact R']|]. apply ear_transfer; auto. exact (rotof_good _ _ R' GP').
      * assert (Ic : In c A). { destruct E as (HC & _). destruct (corner_In _ _ _ _ HC) as (_ & Ic & _). destruct Ic as [Ic|Ic]; [congruence|]. apply in_app_or in Ic as [Ic|[Ic|[]]]; [exact Ic|congruence]. }
        assert (Nc : forall z, In z (t :: B ++ [s]) -> c <> z).
        { intros z Iz ->. apply (Permutation_NoDup (rotof_perm _ _ R')) in ND. change (t :: B ++ s :: A) with ((t :: B) ++ [s] ++ A) in ND. rewrite app_assoc in ND. apply (NoDup_app_disj _ _ ND z); [exact Iz|exact Ic]. }
        apply links_In in He as [Ix Iy]. split; apply Nc; assumption.
Qed.
