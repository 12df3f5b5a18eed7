(** Index polygons with points that occur twice, at the ends of bridges: moving the copies of
    such a point a little into the polygon gives a simple polygon. *)
From Coq Require Import Reals Lra Lia Arith Permutation.
From Verif Require Import Prelude Num M_vec M_utils M_polygon L_base L_vec L_geom L_cycle L_polygon Props_polygon Props_ears L_simple L_sides L_twoears L_earexist L_clip Props_simple L_drop L_weak.
Open Scope nat_scope.

Lemma links_map {A B} (g : A -> B) l : links (map g l) = map (fun '(a, b) => (g a, g b)) (links l).
Proof. induction l as [|a [|b l] IH]; [reflexivity|reflexivity|]. cbn [map links] in *. now rewrite IH. Qed.
Lemma edge_unmap {A B} (g : A -> B) l x y : edge (map g l) x y -> exists a b, edge l a b /\ g a = x /\ g b = y.
Proof.
  unfold edge, edges. destruct l as [|a l]; [intros []|]. cbn [map]. replace ((g a :: map g l) ++ [g a]) with (map g ((a :: l) ++ [a])) by (cbn [app map]; now rewrite map_app).
  rewrite links_map, in_map_iff. intros ([u v] & E & H). injection E as <- <-. exists u, v. auto.
Qed.
Lemma edge_seq_inv n x y : 3 <= n -> edge (seq 0 n) x y -> x < n /\ y < n /\ y = next_pos n x.
Proof.
  intros H3 E. destruct (edge_In _ _ _ E) as [I1 I2]. apply in_seq in I1, I2. split; [lia|]. split; [lia|].
  destruct (le_lt_dec n x); [lia|]. assert (Lp : prev_pos n x < n) by (apply prev_lt; lia).
  assert (C : corner (seq 0 n) (prev_pos n x) x (next_pos n x)).
  { apply (pos_corner (seq 0 n) x); rewrite ?seq_length; try lia; rewrite idx_nth with (d := 0), seq_nth; rewrite ?seq_length; auto using next_lt. }
  destruct (corner_edge _ _ _ _ C) as [E1 _]. assert (C2 : corner (seq 0 n) (prev_pos n x) x y) by (apply corner_iff; [apply seq_NoDup|rewrite seq_length; lia|auto]).
  destruct (corner_uniq _ _ _ _ _ _ (seq_NoDup n 0) ltac:(rewrite seq_length; lia) C2 C) as [_ ?]. assumption.
Qed.
Lemma seq_corner_pos n x : 3 <= n -> x < n -> corner (seq 0 n) (prev_pos n x) x (next_pos n x).
Proof. intros H3 Hx. apply (pos_corner (seq 0 n) x); rewrite ?seq_length; try lia; rewrite idx_nth with (d := 0), seq_nth; rewrite ?seq_length; auto using next_lt, prev_lt. Qed.

Open Scope R_scope.
(** ** Copies of a point *)
Lemma ev_neg k m : k < 0 -> ev (fun e => k + e * m < 0).
Proof.
  intros H. apply (lim_neg (fun e => k + e * m) k); [|exact H]. eapply lim_eq; [|apply lim_add; [apply lim_const|apply lim_mul; [apply lim_id|apply lim_const]]]. ring.
Qed.
Lemma ev_pos k m : 0 < k -> ev (fun e => 0 < k + e * m).
Proof.
  intros H. apply (lim_pos (fun e => k + e * m) k); [|exact H]. eapply lim_eq; [|apply lim_add; [apply lim_const|apply lim_mul; [apply lim_id|apply lim_const]]]. ring.
Qed.
Section Copies.
Context (P X Y Z : vec2 R) (H1 : 0 < T P X Y) (H2 : 0 < T Y X Z).
(** the corners P X Y and Y X Z of the two copies; the other points move by a *)
Notation c1 e := (mv X e (dp P X Y)).
Notation c2 e := (mv X e (dp Y X Z)).
Lemma copies_next a : ev (fun e => T (c1 e) (mv Y e a) (c2 e) < 0).
Proof.
  set (k := - T Y X Z - T P X Y). set (m := crs (dsub a (dp P X Y)) (dsub (dp Y X Z) (dp P X Y))).
  eapply ev_imp; [|apply (ev_neg k m); unfold k; lra]. intros e He K.
  replace (T (c1 e) (mv Y e a) (c2 e)) with (e * (k + e * m)) by (unfold k, m, crs, dsub, dp, mv, tri_area2; cbn [x2 y2]; ring). nra.
Qed.
Lemma copies_prev a : ev (fun e => T (mv Y e a) (c2 e) (c1 e) < 0).
Proof.
  set (k := - T P X Y - T Y X Z). set (m := crs (dsub (dp Y X Z) a) (dsub (dp P X Y) (dp Y X Z))).
  eapply ev_imp; [|apply (ev_neg k m); unfold k; lra]. intros e He K.
  replace (T (mv Y e a) (c2 e) (c1 e)) with (e * (k + e * m)) by (unfold k, m, crs, dsub, dp, mv, tri_area2; cbn [x2 y2]; ring). nra.
Qed.
Lemma copies_in a : T P X Z <> 0 -> ev (fun e => 0 < T (mv P e a) (c1 e) (c2 e) * T P X Z).
Proof.
  intros N. set (k := T P X Z). set (m := crs (dsub (dp P X Y) a) (dsub (dp Y X Z) (dp P X Y))).
  assert (HK : 0 < k * k) by (apply sq_pos; exact N).
  eapply ev_imp; [|apply (ev_pos (k * k) (m * k) HK)]. intros e He K.
  replace (T (mv P e a) (c1 e) (c2 e) * k) with (e * (k * k + e * (m * k))) by (unfold k, m, crs, dsub, dp, mv, tri_area2; cbn [x2 y2]; ring). now apply Rmult_lt_0_compat.
Qed.
Lemma copies_out a : T P X Z <> 0 -> ev (fun e => 0 < T (c2 e) (mv Z e a) (c1 e) * T P X Z).
Proof.
  intros N. set (k := T P X Z). set (m := crs (dsub a (dp Y X Z)) (dsub (dp P X Y) (dp Y X Z))).
  assert (HK : 0 < k * k) by (apply sq_pos; exact N).
  eapply ev_imp; [|apply (ev_pos (k * k) (m * k) HK)]. intros e He K.
  replace (T (c2 e) (mv Z e a) (c1 e) * k) with (e * (k * k + e * (m * k))) by (unfold k, m, crs, dsub, dp, mv, tri_area2; cbn [x2 y2]; ring). now apply Rmult_lt_0_compat.
Qed.
End Copies.
(** the two sides of a bridge a - b run on different sides of it *)
Lemma bridge_sides u a b v w z e : 0 < e -> 0 < T u a b -> 0 < T a b v -> 0 < T w b a -> 0 < T b a z ->
  ~ (T (mv a e (dp u a b)) (mv b e (dp a b v)) (mv b e (dp w b a)) * T (mv a e (dp u a b)) (mv b e (dp a b v)) (mv a e (dp b a z)) < 0 /\
     T (mv b e (dp w b a)) (mv a e (dp b a z)) (mv a e (dp u a b)) * T (mv b e (dp w b a)) (mv a e (dp b a z)) (mv b e (dp a b v)) < 0).
Proof.
  intros He H1 H2 H3 H4 [K1 K2]. destruct (cross_meet _ _ _ _ K1 K2) as (q & (s & Hs & Es) & (t & Ht & Et)).
  assert (A : 0 < T a b q).
  { rewrite Es, T_at. replace (T a b (mv a e (dp u a b))) with (e * T u a b) by (unfold dp, mv, tri_area2; cbn [x2 y2]; ring).
    replace (T a b (mv b e (dp a b v))) with (e * T a b v) by (unfold dp, mv, tri_area2; cbn [x2 y2]; ring).
    assert (0 < e * T u a b) by now apply Rmult_lt_0_compat. assert (0 < e * T a b v) by now apply Rmult_lt_0_compat.
    destruct (Rle_lt_dec s (1 / 2)); nra. }
  assert (B : T a b q < 0).
  { rewrite Et, T_at. replace (T a b (mv b e (dp w b a))) with (- (e * T w b a)) by (unfold dp, mv, tri_area2; cbn [x2 y2]; ring).
    replace (T a b (mv a e (dp b a z))) with (- (e * T b a z)) by (unfold dp, mv, tri_area2; cbn [x2 y2]; ring).
    assert (0 < e * T w b a) by now apply Rmult_lt_0_compat. assert (0 < e * T b a z) by now apply Rmult_lt_0_compat.
    destruct (Rle_lt_dec t (1 / 2)); nra. }
  lra.
Qed.

Section Wiggle.
Context (points : list (vec2 R)) (f : nat -> nat) (n : nat) (H3 : (3 <= n)%nat).
Notation p0 i := (pt points (f i)).
Notation t3 a b c := (T (p0 a) (p0 b) (p0 c)).
Notation vs0 := (seq 0 n).
Notation pv := (prev_pos n).
Notation nx := (next_pos n).
Context (HSep : forall a b c, (a < n)%nat -> (b < n)%nat -> (c < n)%nat -> f a <> f b -> f b <> f c -> f a <> f c -> TOL < Rabs (t3 a b c)).
(** the two copies of a point: the next vertex of one is the vertex before the other *)
Context (HB : forall i j, (i < n)%nat -> (j < n)%nat -> i <> j -> f i = f j -> f (nx i) = f (pv j) \/ f (nx j) = f (pv i)).
Context (HD : forall i j, (i < n)%nat -> (j < n)%nat -> i <> j -> f i = f j -> 0 < t3 (pv i) i (nx i)).
Context (HX : forall x z, (x < n)%nat -> (z < n)%nat -> ~ segments_cross (p0 x) (p0 (nx x)) (p0 z) (p0 (nx z))).
Context (HAr : 0 < area2 (map (fun i => p0 i) vs0)).
Definition twice (i : nat) : bool := existsb (fun j => negb (j =? i)%nat && (f j =? f i)%nat) vs0.
Definition shift (i : nat) : vec2 R := if twice i then dp (p0 (pv i)) (p0 i) (p0 (nx i)) else V2 0 0.
Definition wiggle (e : R) (i : nat) : vec2 R := mv (p0 i) e (shift i).
Notation Te e a b c := (T (wiggle e a) (wiggle e b) (wiggle e c)).
Lemma twice_true i j : (j < n)%nat -> j <> i -> f j = f i -> twice i = true.
Proof. intros Hj N E. unfold twice. apply existsb_exists. exists j. split; [apply in_seq; lia|]. apply andb_true_intro. split; [now apply negb_true_iff, Nat.eqb_neq|now apply Nat.eqb_eq]. Qed.
Lemma wiggle_lim i : limp (fun e => wiggle e i) (p0 i).
Proof. apply limp_mv. Qed.
Lemma pn_lt i : (i < n)%nat -> (pv i < n)%nat /\ (nx i < n)%nat.
Proof. intros H. split; [now apply prev_lt|now apply next_lt]. Qed.
Lemma pn_ne i : (i < n)%nat -> pv i <> i /\ nx i <> i /\ pv i <> nx i.
Proof. intros H. unfold prev_pos, next_pos. destruct (Nat.eqb_spec i 0), (Nat.eqb_spec i (n - 1)); lia. Qed.
Lemma nx_pv i : (i < n)%nat -> nx (pv i) = i.
Proof. intros. now apply next_prev. Qed.
Lemma pv_nx i : (i < n)%nat -> pv (nx i) = i.
Proof. intros. now apply prev_next. Qed.
Lemma T_rep1 a b : T a a b = 0. Proof. unfold tri_area2. ring. Qed.
Lemma T_rep2 a b : T a b b = 0. Proof. unfold tri_area2. ring. Qed.
Lemma T_rep3 a b : T a b a = 0. Proof. unfold tri_area2. ring. Qed.
Lemma sep_nz a b c : (a < n)%nat -> (b < n)%nat -> (c < n)%nat -> f a <> f b -> f b <> f c -> f a <> f c -> t3 a b c <> 0.
Proof. intros Ia Ib Ic N1 N2 N3 E. specialize (HSep a b c Ia Ib Ic N1 N2 N3). rewrite E, Rabs_R0 in HSep. unfold TOL in HSep. lra. Qed.
Lemma edge_ne x : (x < n)%nat -> f x <> f (nx x).
Proof.
  intros Hx E. destruct (pn_lt x Hx) as [Lp Ln]. destruct (pn_ne x Hx) as (_ & N & _). destruct (HB x (nx x) Hx Ln (not_eq_sym N) E) as [K|K].
  - pose proof (HD x (nx x) Hx Ln (not_eq_sym N) E) as C. rewrite <- E in C. rewrite T_rep2 in C. lra.
  - pose proof (HD x (nx x) Hx Ln (not_eq_sym N) E) as C. rewrite <- E in C. rewrite T_rep2 in C. lra.
Qed.
(** ** Two copies i and j, the one before the bridge first *)
Definition cpair (i j : nat) : Prop := (i < n)%nat /\ (j < n)%nat /\ i <> j /\ f i = f j /\ f (nx i) = f (pv j).
Lemma either_cpair i j : (i < n)%nat -> (j < n)%nat -> i <> j -> f i = f j -> cpair i j \/ cpair j i.
Proof. intros Hi Hj N E. destruct (HB i j Hi Hj N E); [left|right]; unfold cpair; auto 6. Qed.
Lemma pair_conv i j : cpair i j -> 0 < t3 (pv i) i (nx i) /\ 0 < t3 (nx i) i (nx j).
Proof.
  intros (Hi & Hj & N & E & EN). split; [now apply (HD i j)|]. pose proof (HD j i Hj Hi (not_eq_sym N) (eq_sym E)) as K. now rewrite <- EN, <- E in K.
Qed.
Lemma pair_shift i j e : cpair i j -> wiggle e i = mv (p0 i) e (dp (p0 (pv i)) (p0 i) (p0 (nx i))) /\ wiggle e j = mv (p0 i) e (dp (p0 (nx i)) (p0 i) (p0 (nx j))).
Proof.
  intros (Hi & Hj & N & E & EN). unfold wiggle, shift. rewrite (twice_true i j Hj (not_eq_sym N) (eq_sym E)), (twice_true j i Hi N E). split; [reflexivity|]. now rewrite <- EN, <- E.
Qed.
Lemma pair_pz i j : cpair i j -> f (pv i) <> f i /\ f i <> f (nx j) /\ f (pv i) <> f (nx j) /\ t3 (pv i) i (nx j) <> 0.
Proof.
  intros HP. pose proof HP as (Hi & Hj & N & E & EN). destruct (pair_conv i j HP) as [C1 C2]. destruct (pn_lt i Hi) as [Lp Ln]. destruct (pn_lt j Hj) as [Mp Mn].
  assert (A : f (pv i) <> f i) by (pose proof (edge_ne (pv i) Lp) as K; now rewrite nx_pv in K by exact Hi).
  assert (B : f i <> f (nx j)) by (pose proof (edge_ne j Hj) as K; now rewrite E).
  assert (C : f (pv i) <> f (nx j)).
  { intros K. rewrite <- K in C2. replace (t3 (nx i) i (pv i)) with (- t3 (pv i) i (nx i)) in C2 by (unfold tri_area2; ring). lra. }
  split; [exact A|]. split; [exact B|]. split; [exact C|]. apply sep_nz; auto.
Qed.
Lemma g_next i j y : cpair i j -> f y = f (nx i) -> ev (fun e => Te e i y j < 0).
Proof.
  intros HP Ey. destruct (pair_conv i j HP) as [C1 C2]. eapply ev_imp; [|exact (copies_next _ _ _ _ C1 C2 (shift y))]. intros e _ K.
  destruct (pair_shift i j e HP) as [-> ->]. unfold wiggle. now rewrite Ey.
Qed.
Lemma g_prev i j y : cpair i j -> f y = f (nx i) -> ev (fun e => Te e y j i < 0).
Proof.
  intros HP Ey. destruct (pair_conv i j HP) as [C1 C2]. eapply ev_imp; [|exact (copies_prev _ _ _ _ C1 C2 (shift y))]. intros e _ K.
  destruct (pair_shift i j e HP) as [-> ->]. unfold wiggle. now rewrite Ey.
Qed.
Lemma g_in i j : cpair i j -> ev (fun e => 0 < Te e (pv i) i j * t3 (pv i) i (nx j)).
Proof.
  intros HP. destruct (pair_pz i j HP) as (_ & _ & _ & NZ). eapply ev_imp; [|exact (copies_in (p0 (pv i)) (p0 i) (p0 (nx i)) (p0 (nx j)) (shift (pv i)) NZ)]. intros e _ K.
  destruct (pair_shift i j e HP) as [-> ->]. exact K.
Qed.
Lemma g_out i j : cpair i j -> ev (fun e => 0 < Te e j (nx j) i * t3 (pv i) i (nx j)).
Proof.
  intros HP. destruct (pair_pz i j HP) as (_ & _ & _ & NZ). eapply ev_imp; [|exact (copies_out (p0 (pv i)) (p0 i) (p0 (nx i)) (p0 (nx j)) (shift (nx j)) NZ)]. intros e _ K.
  destruct (pair_shift i j e HP) as [-> ->]. exact K.
Qed.
Lemma ev_sign a b c : t3 a b c <> 0 -> ev (fun e => 0 < Te e a b c * t3 a b c).
Proof.
  intros N. pose proof (lim_T _ _ _ _ _ _ (wiggle_lim a) (wiggle_lim b) (wiggle_lim c)) as L. destruct (Rdichotomy _ _ N) as [K|K].
  - eapply ev_imp; [|exact (lim_neg _ _ L K)]. intros e _ He. cbv beta in He. nra.
  - eapply ev_imp; [|exact (lim_pos _ _ L K)]. intros e _ He. cbv beta in He. nra.
Qed.
(** a vertex is off the line of another edge *)
Lemma vertex_off x v : (x < n)%nat -> (v < n)%nat -> v <> x -> v <> nx x -> ev (fun e => Te e x (nx x) v <> 0).
Proof.
  intros Hx Hv N1 N2. destruct (pn_lt x Hx) as [Lp Ln]. pose proof (edge_ne x Hx) as NE.
  assert (Z : forall a b : R, 0 < a * b -> a <> 0) by (intros a b H ->; lra).
  destruct (Nat.eq_dec (f v) (f x)) as [E|E]; [|destruct (Nat.eq_dec (f v) (f (nx x))) as [E'|E']].
  - destruct (either_cpair x v Hx Hv (not_eq_sym N1) (eq_sym E)) as [P|P].
    + eapply ev_imp; [|exact (g_next x v (nx x) P eq_refl)]. intros; lra.
    + eapply ev_imp; [|exact (g_out v x P)]. intros e _ K. cbv beta in *. exact (Z _ _ K).
  - destruct (either_cpair (nx x) v Ln Hv (not_eq_sym N2) (eq_sym E')) as [P|P].
    + eapply ev_imp; [|exact (g_in (nx x) v P)]. intros e _ K. cbv beta in *. rewrite pv_nx in K by exact Hx. exact (Z _ _ K).
    + eapply ev_imp; [|apply (g_prev v (nx x) x P)]; [intros e _ K; cbv beta in *; lra|]. destruct P as (_ & _ & _ & _ & K). rewrite pv_nx in K by exact Hx. now symmetry.
  - eapply ev_imp; [|apply (ev_sign x (nx x) v)]; [intros e _ K; exact (Z _ _ K)|]. apply sep_nz; auto.
Qed.
Lemma T_cyc a b c : T a b c = T b c a. Proof. unfold tri_area2. ring. Qed.
(** two edges do not cross *)
Definition nox (e : R) (x y z t : nat) : Prop := ~ (Te e x y z * Te e x y t < 0 /\ Te e z t x * Te e z t y < 0).
Lemma nox_swap e x y z t : nox e x y z t -> nox e z t x y.
Proof. unfold nox. tauto. Qed.
Lemma in_out x z : (x < n)%nat -> (z < n)%nat -> nx x <> z -> f (nx x) = f z -> ev (fun e => nox e x (nx x) z (nx z)).
Proof.
  intros Hx Hz N E. destruct (pn_lt x Hx) as [Lp Ln]. destruct (pn_lt z Hz) as [Mp Mn].
  destruct (either_cpair (nx x) z Ln Hz N E) as [P|P].
  - (* in along the first copy, out along the second *)
    destruct (pair_pz _ _ P) as (A & B & C & NZ). rewrite pv_nx in * by exact Hx.
    eapply ev_imp; [|exact (ev_and _ _ (g_in _ _ P) (ev_sign x (nx x) (nx z) NZ))]. rewrite pv_nx by exact Hx. intros e _ [K1 K2] [K _]. nra.
  - (* both along the bridge *)
    pose proof P as (_ & _ & _ & Ef & EN). rewrite pv_nx in EN by exact Hx. destruct (pair_conv _ _ P) as [C1 C2].
    destruct (Nat.eq_dec (nx z) x) as [Ex|Nx].
    { apply ev_all. intros e _ [_ K]. rewrite Ex in K. rewrite T_rep2 in K. lra. }
    destruct (either_cpair (nx z) x Mn Hx Nx EN) as [Q|Q].
    { (* the next vertex after nx z would be the one before x *)
      exfalso. destruct (pair_conv _ _ Q) as [D1 D2]. rewrite pv_nx in D1 by exact Hz. rewrite <- Ef in D2.
      replace (t3 (nx (nx z)) (nx z) z) with (- t3 z (nx z) (nx (nx z))) in D2 by (unfold tri_area2; ring). lra. }
    pose proof Q as (_ & _ & _ & _ & EN'). rewrite pv_nx in EN' by exact Hz. destruct (pair_conv _ _ Q) as [D1 D2].
    apply ev_all. intros e He. unfold nox. destruct (pair_shift _ _ e P) as [-> ->]. destruct (pair_shift _ _ e Q) as [-> ->].
    rewrite Ef, EN in *. apply bridge_sides; auto.
Qed.
Lemma out_out x z : cpair x z -> ev (fun e => nox e x (nx x) z (nx z)).
Proof.
  intros P. pose proof P as (Hx & Hz & N & E & EN). destruct (pair_conv _ _ P) as [C1 C2].
  assert (NZ : t3 x (nx x) (nx z) < 0) by (replace (t3 x (nx x) (nx z)) with (- t3 (nx x) x (nx z)) by (unfold tri_area2; ring); lra).
  eapply ev_imp; [|exact (ev_and _ _ (g_next _ _ (nx x) P eq_refl) (ev_sign x (nx x) (nx z) ltac:(lra)))]. intros e _ [K1 K2] [K _]. cbv beta in *.
  assert (Te e x (nx x) (nx z) < 0) by nra. nra.
Qed.
Lemma in_in x z : (x < n)%nat -> (z < n)%nat -> cpair (nx x) (nx z) -> ev (fun e => nox e x (nx x) z (nx z)).
Proof.
  intros Hx Hz P. pose proof P as (_ & _ & N & E & EN). destruct (pair_conv _ _ P) as [C1 C2]. rewrite pv_nx in * by assumption.
  assert (NZ : t3 z (nx z) x < 0) by (rewrite <- EN, <- E; replace (t3 (nx (nx x)) (nx x) x) with (- t3 x (nx x) (nx (nx x))) by (unfold tri_area2; ring); lra).
  eapply ev_imp; [|exact (ev_and _ _ (g_prev _ _ z P (eq_sym EN)) (ev_sign z (nx z) x ltac:(lra)))]. intros e _ [K1 K2] [_ K]. cbv beta in *.
  assert (Te e z (nx z) x < 0) by nra. nra.
Qed.
Lemma edges_nox x z : (x < n)%nat -> (z < n)%nat -> ev (fun e => nox e x (nx x) z (nx z)).
Proof.
  intros Hx Hz. destruct (pn_lt x Hx) as [Lp Ln]. destruct (pn_lt z Hz) as [Mp Mn].
  destruct (Nat.eq_dec x z) as [->|N1]; [apply ev_all; intros e _ [K _]; rewrite T_rep3 in K; lra|].
  destruct (Nat.eq_dec (nx x) z) as [E2|N2]; [apply ev_all; intros e _ [K _]; rewrite E2, T_rep2 in K; lra|].
  destruct (Nat.eq_dec (nx z) x) as [E3|N3]; [apply ev_all; intros e _ [_ K]; rewrite E3, T_rep2 in K; lra|].
  assert (N4 : nx x <> nx z) by (intros K; apply N1; rewrite <- (pv_nx x Hx), <- (pv_nx z Hz); congruence).
  destruct (Nat.eq_dec (f x) (f z)) as [E|F1].
  { destruct (either_cpair x z Hx Hz N1 E) as [P|P]; [now apply out_out|]. eapply ev_imp; [|exact (out_out _ _ P)]. intros e _. apply nox_swap. }
  destruct (Nat.eq_dec (f (nx x)) (f (nx z))) as [E|F4].
  { destruct (either_cpair _ _ Ln Mn N4 E) as [P|P]; [now apply in_in|]. eapply ev_imp; [|exact (in_in _ _ Hz Hx P)]. intros e _. apply nox_swap. }
  destruct (Nat.eq_dec (f (nx x)) (f z)) as [E|F2]; [now apply in_out|].
  destruct (Nat.eq_dec (f (nx z)) (f x)) as [E|F3]; [eapply ev_imp; [|exact (in_out z x Hz Hx N3 E)]; intros e _; apply nox_swap|].
  pose proof (edge_ne x Hx) as Ex. pose proof (edge_ne z Hz) as Ez.
  pose proof (sep_nz x (nx x) z Hx Ln Hz Ex F2 F1) as S1. pose proof (sep_nz x (nx x) (nx z) Hx Ln Mn Ex F4 (not_eq_sym F3)) as S2.
  pose proof (sep_nz z (nx z) x Hz Mn Hx Ez F3 (not_eq_sym F1)) as S3. pose proof (sep_nz z (nx z) (nx x) Hz Mn Ln Ez (not_eq_sym F4) (not_eq_sym F2)) as S4.
  eapply ev_imp; [|exact (ev_and _ _ (ev_and _ _ (ev_sign _ _ _ S1) (ev_sign _ _ _ S2)) (ev_and _ _ (ev_sign _ _ _ S3) (ev_sign _ _ _ S4)))].
  intros e _ [[K1 K2] [K3 K4]] [A B]. apply (HX x z Hx Hz). cbv beta in *. split.
  - set (u := Te e x (nx x) z) in *. set (v := Te e x (nx x) (nx z)) in *. set (s := t3 x (nx x) z) in *. set (t := t3 x (nx x) (nx z)) in *. clearbody u v s t.
    assert (0 < (u * s) * (v * t)) by now apply Rmult_lt_0_compat. nra.
  - set (u := Te e z (nx z) x) in *. set (v := Te e z (nx z) (nx x)) in *. set (s := t3 z (nx z) x) in *. set (t := t3 z (nx z) (nx x)) in *. clearbody u v s t.
    assert (0 < (u * s) * (v * t)) by now apply Rmult_lt_0_compat. nra.
Qed.
Theorem wiggle_good : ev (fun e => good (map (wiggle e) vs0)).
Proof.
  assert (A : ev (fun e => forall v, In v (list_prod vs0 vs0) -> snd v <> fst v -> snd v <> nx (fst v) -> Te e (fst v) (nx (fst v)) (snd v) <> 0)).
  { apply ev_list. intros [x v] I. apply in_prod_iff in I as [I1 I2]. apply in_seq in I1, I2. cbn [fst snd].
    destruct (Nat.eq_dec v x) as [?|N1]; [apply ev_all; intros; contradiction|]. destruct (Nat.eq_dec v (nx x)) as [?|N2]; [apply ev_all; intros; contradiction|].
    eapply ev_imp; [|exact (vertex_off x v ltac:(lia) ltac:(lia) N1 N2)]. auto. }
  assert (B : ev (fun e => forall v, In v (list_prod vs0 vs0) -> nox e (fst v) (nx (fst v)) (snd v) (nx (snd v)))).
  { apply ev_list. intros [x v] I. apply in_prod_iff in I as [I1 I2]. apply in_seq in I1, I2. apply edges_nox; cbn [fst snd]; lia. }
  assert (C : ev (fun e => 0 < area2 (map (wiggle e) vs0))).
  { apply (lim_pos _ _ (lim_area points f vs0 wiggle (fun i _ => wiggle_lim i) vs0 (incl_refl _)) HAr). }
  eapply ev_imp; [|exact (ev_and _ _ A (ev_and _ _ B C))]. intros e _ (Ae & Be & Ce).
  assert (Off : forall x v, (x < n)%nat -> (v < n)%nat -> v <> x -> v <> nx x -> Te e x (nx x) v <> 0).
  { intros x v Hx Hv. apply (Ae (x, v)). apply in_prod_iff. split; apply in_seq; lia. }
  assert (Inj : forall i j, (i < n)%nat -> (j < n)%nat -> wiggle e i = wiggle e j -> i = j).
  { intros i j Hi Hj E. destruct (Nat.eq_dec i j) as [|N]; [assumption|exfalso]. destruct (pn_ne i Hi) as (M1 & M2 & M3). destruct (pn_lt i Hi) as [Lp Ln].
    destruct (Nat.eq_dec j (nx i)) as [->|N'].
    - apply (Off (pv i) (nx i) Lp Ln); rewrite ?nx_pv by exact Hi; auto. rewrite <- E. apply T_rep2.
    - apply (Off i j Hi Hj); auto. rewrite <- E. apply T_rep3. }
  apply simple_good; [split| |rewrite map_length, seq_length; exact H3|exact Ce].
  - assert (K : forall l, incl l vs0 -> NoDup l -> NoDup (map (wiggle e) l)); [|apply K; [apply incl_refl|apply seq_NoDup]].
    induction l as [|a l IH]; intros Hl ND; [constructor|]. inversion ND as [|? ? M1 M2]; subst. cbn [map]. constructor; [|apply IH; [intros z Hz; apply Hl; now right|exact M2]].
    intros I. apply in_map_iff in I as (b & Eb & Ib). assert (In a vs0 /\ In b vs0) as [I1 I2] by (split; apply Hl; cbn; auto). apply in_seq in I1, I2. apply Inj in Eb; [|lia..]. congruence.
  - intros x y v E Iv N1 N2 O. apply on_T in O. revert O. apply edge_unmap in E as (a & b & E & <- & <-). apply (edge_seq_inv n a b H3) in E as (Ha & Hb & ->).
    apply in_map_iff in Iv as (w & <- & Iw). apply in_seq in Iw. apply Off; [lia|lia| |]; congruence.
  - intros b c E x y E'. apply edge_unmap in E as (i & i' & E & <- & <-). apply edge_unmap in E' as (j & j' & E' & <- & <-).
    apply (edge_seq_inv n _ _ H3) in E as (Hi & _ & ->). apply (edge_seq_inv n _ _ H3) in E' as (Hj & _ & ->). apply (Be (i, j)). apply in_prod_iff. split; apply in_seq; lia.
Qed.
End Wiggle.
