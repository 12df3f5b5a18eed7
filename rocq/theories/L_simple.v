(** Simple polygons in the plane: winding numbers along segments, the two sides of a simple polygon, ears. *)
From Coq Require Import Reals Lra Psatz Lia Arith Permutation.
From Verif Require Import Prelude Num M_vec M_utils M_polygon L_base L_vec L_geom L_cycle L_polygon Props_polygon Props_ears.
Open Scope R_scope.
Notation T := tri_area2.
Notation P2 := (vec2 R).

Lemma T_rot a b c : T b c a = T a b c.
Proof. unfold tri_area2. ring. Qed.
Lemma T_swap a b c : T b a c = - T a b c.
Proof. unfold tri_area2. ring. Qed.
Lemma T_swap2 a b c : T a c b = - T a b c.
Proof. unfold tri_area2. ring. Qed.
Lemma T_sum a b q r : T a b r - T a b q + T q r b - T q r a = 0.
Proof. unfold tri_area2. ring. Qed.
Lemma T_dep a b q r h : T q r b * (y2 a - h) - T q r a * (y2 b - h) + T a b r * (y2 q - h) - T a b q * (y2 r - h) = 0.
Proof. unfold tri_area2. ring. Qed.

(** ** Moving the point: how the crossings of one edge change
    [ph q r x] telescopes around a closed polygon. *)
Definition ph (q r x : P2) : R :=
  (if Rltb (y2 q) (y2 x) && Rleb (y2 x) (y2 r) && Rltb (T q r x) 0 then - (1) else 0) +
  (if Rltb (y2 r) (y2 x) && Rleb (y2 x) (y2 q) && Rltb 0 (T q r x) then 1 else 0).
Lemma ph_swap q r x : ph r q x = - ph q r x.
Proof.
  unfold ph. rewrite (T_swap q r x).
  repeat match goal with |- context [Rltb ?x ?y] => destruct (Rltb_spec x y) | |- context [Rleb ?x ?y] => destruct (Rleb_spec x y) end; cbn [andb]; lra.
Qed.
Ltac signs := repeat match goal with |- context [Rltb ?x ?y] => destruct (Rltb_spec x y) | |- context [Rleb ?x ?y] => destruct (Rleb_spec x y) end; cbn [andb].

Lemma neg_of_mul u v : 0 < v -> u * v < 0 -> u < 0.
Proof. intros. destruct (Rlt_le_dec u 0); [assumption|]. assert (0 <= u * v) by (apply Rmult_le_pos; lra). lra. Qed.
Lemma mul_pp u v : 0 < u -> 0 < v -> 0 < u * v.
Proof. apply Rmult_lt_0_compat. Qed.
Lemma mul_pn u v : 0 <= u -> v <= 0 -> u * v <= 0.
Proof. intros. assert (0 <= u * - v) by (apply Rmult_le_pos; lra). lra. Qed.
Lemma mul_np u v : u <= 0 -> 0 <= v -> u * v <= 0.
Proof. intros. assert (0 <= - u * v) by (apply Rmult_le_pos; lra). lra. Qed.
Lemma mul_nn u v : u <= 0 -> v <= 0 -> 0 <= u * v.
Proof. intros. assert (0 <= - u * - v) by (apply Rmult_le_pos; lra). lra. Qed.
Lemma mul_p u v : 0 <= u -> 0 <= v -> 0 <= u * v.
Proof. apply Rmult_le_pos. Qed.
(** the same with the areas abstracted *)
Section Zones.
Variables s1 s2 s3 s4 ya yb yq yr : R.
Hypothesis S : s2 - s1 + s4 - s3 = 0.
Hypothesis D : forall h, s4 * (ya - h) - s3 * (yb - h) + s2 * (yq - h) - s1 * (yr - h) = 0.
Hypothesis L : yq <= yr.
Hypothesis H1 : 0 < s1.
Hypothesis H2 : 0 < s2.
Lemma zone_lm : ya <= yq -> yq < yb -> yb <= yr -> s4 < 0.
Proof.
  intros A B1 B2. destruct (Rlt_le_dec s4 0) as [|G]; [assumption|exfalso].
  pose proof (D yq) as D1. pose proof (D yr) as D2.
  pose proof (mul_pn s4 (ya - yq) G ltac:(lra)). pose proof (mul_pp s1 (yr - yq) H1 ltac:(lra)).
  assert (s3 < 0) by (apply (neg_of_mul s3 (yb - yq)); lra).
  pose proof (mul_nn s3 (yb - yr) ltac:(lra) ltac:(lra)). pose proof (mul_pn s4 (ya - yr) G ltac:(lra)). pose proof (mul_pp s2 (yr - yq) H2 ltac:(lra)). lra.
Qed.
Lemma zone_mh : yq < ya -> ya <= yr -> yr < yb -> s3 < 0.
Proof.
  intros A1 A2 B. destruct (Rlt_le_dec s3 0) as [|G]; [assumption|exfalso].
  pose proof (D yq) as D1. pose proof (D yr) as D2.
  pose proof (mul_pp s2 (yr - yq) H2 ltac:(lra)). pose proof (mul_p s3 (yb - yr) G ltac:(lra)). pose proof (mul_pp s1 (yr - yq) H1 ltac:(lra)).
  assert (s4 < 0) by (destruct (Rlt_le_dec s4 0) as [|Q]; [assumption|]; pose proof (mul_pn s4 (ya - yr) Q ltac:(lra)); lra).
  pose proof (mul_np s4 (ya - yq) ltac:(lra) ltac:(lra)). pose proof (mul_p s3 (yb - yq) G ltac:(lra)). lra.
Qed.
Lemma zone_ml : yq < ya -> ya <= yr -> yb <= yq -> 0 <= s3.
Proof.
  intros A1 A2 B. destruct (Rlt_le_dec s3 0) as [G|G]; [exfalso|assumption].
  pose proof (D yq) as D1. pose proof (D yr) as D2.
  pose proof (mul_pp s1 (yr - yq) H1 ltac:(lra)). pose proof (mul_pp s2 (yr - yq) H2 ltac:(lra)).
  pose proof (mul_nn s3 (yb - yq) ltac:(lra) ltac:(lra)).
  assert (0 < s4) by (destruct (Rlt_le_dec 0 s4) as [|Q]; [assumption|]; pose proof (mul_np s4 (ya - yq) Q ltac:(lra)); lra).
  pose proof (mul_pn s4 (ya - yr) ltac:(lra) ltac:(lra)). pose proof (mul_nn s3 (yb - yr) ltac:(lra) ltac:(lra)). lra.
Qed.
Lemma zone_hm : yr < ya -> yq < yb -> yb <= yr -> 0 <= s4.
Proof.
  intros A B1 B2. destruct (Rlt_le_dec s4 0) as [G|G]; [exfalso|assumption].
  pose proof (D yq) as D1. pose proof (D yr) as D2.
  pose proof (mul_pp s1 (yr - yq) H1 ltac:(lra)). pose proof (mul_pp s2 (yr - yq) H2 ltac:(lra)).
  pose proof (mul_np s4 (ya - yr) ltac:(lra) ltac:(lra)). pose proof (mul_np s4 (ya - yq) ltac:(lra) ltac:(lra)).
  destruct (Rlt_le_dec s3 0) as [Q|Q].
  - pose proof (mul_nn s3 (yb - yr) ltac:(lra) ltac:(lra)). lra.
  - pose proof (mul_p s3 (yb - yq) ltac:(lra) ltac:(lra)). lra.
Qed.
Lemma zone_mm : yq < ya -> ya <= yr -> yq < yb -> yb <= yr -> (s3 < 0 <-> s4 < 0).
Proof.
  intros A1 A2 B1 B2. pose proof (D yq) as D1. pose proof (D yr) as D2.
  pose proof (mul_pp s1 (yr - yq) H1 ltac:(lra)). pose proof (mul_pp s2 (yr - yq) H2 ltac:(lra)). split; intros G.
  - destruct (Rlt_le_dec s4 0) as [Q|Q]; [assumption|exfalso].
    pose proof (mul_pn s4 (ya - yr) Q ltac:(lra)). pose proof (mul_nn s3 (yb - yr) ltac:(lra) ltac:(lra)). lra.
  - destruct (Rlt_le_dec s3 0) as [Q|Q]; [assumption|exfalso].
    pose proof (mul_np s4 (ya - yq) ltac:(lra) ltac:(lra)). pose proof (mul_p s3 (yb - yq) ltac:(lra) ltac:(lra)). lra.
Qed.
End Zones.
Definition same_side (a b q r : P2) : Prop := 0 < T a b q * T a b r.
Lemma b01 (b : bool) : (if b then 1 else 0) = 0 \/ (if b then 1 else 0) = 1.
Proof. destruct b; auto. Qed.
Lemma move_le q r a b : y2 q <= y2 r -> 0 < T a b q -> 0 < T a b r -> wind r a b - wind q a b = ph q r b - ph q r a.
Proof.
  intros L H1 H2. unfold wind, ph.
  pose proof (fun h => T_dep a b q r h) as D. revert H1 H2 D.
  generalize (T a b q) (T a b r) (T q r a) (T q r b). intros s1 s2 s3 s4 H1 H2 D.
  rewrite !(proj2 (Rltb_true 0 _)) by assumption. rewrite !(proj2 (Rltb_false s1 0)), !(proj2 (Rltb_false s2 0)) by lra.
  rewrite !andb_true_r, !andb_false_r.
  assert (Z : forall x, Rltb (y2 r) x && Rleb x (y2 q) = false) by (intros x; destruct (Rltb_spec (y2 r) x), (Rleb_spec x (y2 q)); cbn; auto; lra).
  rewrite !Z. cbn [andb].
  pose proof (zone_lm s1 s2 s3 s4 _ _ _ _ D) as Zlm. pose proof (zone_mh s1 s2 s3 s4 _ _ _ _ D) as Zmh.
  pose proof (zone_ml s1 s2 s3 s4 _ _ _ _ D) as Zml. pose proof (zone_hm s1 s2 s3 s4 _ _ _ _ D) as Zhm. pose proof (zone_mm s1 s2 s3 s4 _ _ _ _ D) as Zmm.
  clear D Z.
  assert (N : forall x y, Rltb x y = negb (Rleb y x)) by (intros x y; destruct (Rltb_spec x y), (Rleb_spec y x); cbn; auto; lra).
  rewrite !(N (y2 q)), !(N (y2 r)). clear N.
  destruct (Rleb_spec (y2 a) (y2 q)) as [A1|A1], (Rleb_spec (y2 a) (y2 r)) as [A2|A2]; try (exfalso; lra);
  destruct (Rleb_spec (y2 b) (y2 q)) as [B1|B1], (Rleb_spec (y2 b) (y2 r)) as [B2|B2]; try (exfalso; lra); cbn [negb andb]; try lra.
  - specialize (Zlm L H1 H2 A1 B1 B2). rewrite (proj2 (Rltb_true s4 0)) by lra. lra.
  - specialize (Zml H1 H2 A1 A2 B1). rewrite (proj2 (Rltb_false s3 0)) by lra. lra.
  - specialize (Zmm H1 H2 A1 A2 B1 B2). destruct (Rltb_spec s3 0), (Rltb_spec s4 0); try lra; exfalso; tauto.
  - specialize (Zmh H1 H2 A1 A2 B2). rewrite (proj2 (Rltb_true s3 0)) by lra. lra.
  - specialize (Zhm L H1 H2 A2 B1 B2). rewrite (proj2 (Rltb_false s4 0)) by lra. lra.
Qed.
Lemma move_side q r a b : 0 < T a b q * T a b r -> wind r a b - wind q a b = ph q r b - ph q r a.
Proof.
  assert (P : forall q r a b, 0 < T a b q -> 0 < T a b r -> wind r a b - wind q a b = ph q r b - ph q r a).
  { intros q' r' a' b' H1 H2. destruct (Rle_lt_dec (y2 q') (y2 r')) as [L|L]; [now apply move_le|].
    pose proof (move_le r' q' a' b' ltac:(lra) H2 H1) as E. rewrite (ph_swap q' r'), (ph_swap q' r' a') in E. lra. }
  intros H. destruct (Rlt_le_dec 0 (T a b q)) as [G|G].
  - assert (0 < T a b r). { destruct (Rlt_le_dec 0 (T a b r)) as [Q|Q]; [assumption|]. pose proof (mul_pn (T a b q) (T a b r) ltac:(lra) Q). lra. }
    now apply P.
  - assert (T a b q < 0). { destruct G as [G|G]; [assumption|]. rewrite G in H. lra. }
    assert (T a b r < 0). { destruct (Rlt_le_dec (T a b r) 0) as [Q|Q]; [assumption|]. pose proof (mul_np (T a b q) (T a b r) ltac:(lra) Q). lra. }
    pose proof (P q r b a ltac:(rewrite T_swap; lra) ltac:(rewrite T_swap; lra)) as E. rewrite !(wind_antisym _ a b) in E. lra.
Qed.
Lemma nb_ltb x y : Rltb x y = negb (Rleb y x).
Proof. destruct (Rltb_spec x y), (Rleb_spec y x); cbn; auto; lra. Qed.
Lemma sg_pos x : 0 < x -> Rltb 0 x = true /\ Rltb x 0 = false.
Proof. intros. split; [now apply Rltb_true|apply Rltb_false; lra]. Qed.
Lemma sg_neg x : x < 0 -> Rltb 0 x = false /\ Rltb x 0 = true.
Proof. intros. split; [apply Rltb_false; lra|now apply Rltb_true]. Qed.
(** both ends of the edge on the same side of the line of the segment *)
Lemma move_line_le q r a b : y2 q <= y2 r -> 0 < T q r a * T q r b -> wind r a b - wind q a b = ph q r b - ph q r a.
Proof.
  intros L H. unfold wind, ph. pose proof (T_dep a b q r (y2 q)) as D1. pose proof (T_dep a b q r (y2 r)) as D2. revert H D1 D2.
  generalize (T a b q) (T a b r) (T q r a) (T q r b). intros s1 s2 s3 s4 H D1 D2.
  assert (Z : forall x, Rltb (y2 r) x && Rleb x (y2 q) = false) by (intros x; destruct (Rltb_spec (y2 r) x), (Rleb_spec x (y2 q)); cbn; auto; lra).
  rewrite !Z. cbn [andb]. rewrite !(nb_ltb (y2 q)), !(nb_ltb (y2 r)).
  assert (S12 : s3 < 0 /\ s4 < 0 \/ 0 < s3 /\ 0 < s4).
  { destruct (Rtotal_order s3 0) as [G|[G|G]]; [left|subst; lra|right]; (split; [assumption|]).
    - destruct (Rlt_le_dec s4 0) as [Q|Q]; [assumption|]. pose proof (mul_np s3 s4 ltac:(lra) Q). lra.
    - destruct (Rlt_le_dec 0 s4) as [Q|Q]; [assumption|]. pose proof (mul_pn s3 s4 ltac:(lra) Q). lra. }
  assert (K : forall s u v h, 0 <= h -> s4 * u - s3 * v - s * h = 0 ->
    (s3 < 0 /\ s4 < 0 -> (u <= 0 -> 0 < v -> 0 < s) /\ (0 < u -> v <= 0 -> s < 0)) /\ (0 < s3 /\ 0 < s4 -> (u <= 0 -> 0 < v -> s < 0) /\ (0 < u -> v <= 0 -> 0 < s))).
  { intros s u v h Hh E. split; intros [G3 G4]; split; intros Hu Hv.
    - pose proof (mul_nn s4 u ltac:(lra) Hu). pose proof (mul_pp (- s3) v ltac:(lra) Hv). destruct (Rlt_le_dec 0 s) as [Q|Q]; [assumption|]. pose proof (mul_np s h Q Hh). lra.
    - pose proof (mul_pp (- s4) u ltac:(lra) Hu). pose proof (mul_nn s3 v ltac:(lra) Hv). destruct (Rlt_le_dec s 0) as [Q|Q]; [assumption|]. pose proof (mul_p s h Q Hh). lra.
    - pose proof (mul_pn s4 u ltac:(lra) Hu). pose proof (mul_pp s3 v ltac:(lra) Hv). destruct (Rlt_le_dec s 0) as [Q|Q]; [assumption|]. pose proof (mul_p s h Q Hh). lra.
    - pose proof (mul_pp s4 u ltac:(lra) Hu). pose proof (mul_pn s3 v ltac:(lra) Hv). destruct (Rlt_le_dec 0 s) as [Q|Q]; [assumption|]. pose proof (mul_np s h Q Hh). lra. }
  pose proof (K s1 (y2 a - y2 q) (y2 b - y2 q) (y2 r - y2 q) ltac:(lra) ltac:(lra)) as [K1 K2].
  pose proof (K s2 (y2 a - y2 r) (y2 b - y2 r) (y2 r - y2 q) ltac:(lra) ltac:(lra)) as [K3 K4]. clear K D1 D2 Z.
  destruct S12 as [S12|S12]; [specialize (K1 S12); specialize (K3 S12); clear K2 K4|specialize (K2 S12); specialize (K4 S12); clear K1 K3; rename K2 into K1, K4 into K3];
  destruct S12 as [G3 G4]; [apply sg_neg in G3 as [_ ->]; apply sg_neg in G4 as [_ ->]|apply sg_pos in G3 as [_ ->]; apply sg_pos in G4 as [_ ->]].
  all: destruct K1 as [K1 K2], K3 as [K3 K4].
  all: destruct (Rleb_spec (y2 a) (y2 q)) as [A1|A1], (Rleb_spec (y2 a) (y2 r)) as [A2|A2]; try (exfalso; lra);
  destruct (Rleb_spec (y2 b) (y2 q)) as [B1|B1], (Rleb_spec (y2 b) (y2 r)) as [B2|B2]; try (exfalso; lra); cbn [negb andb]; try lra.
  all: try (specialize (K1 ltac:(lra) ltac:(lra)); (apply sg_neg in K1 as [-> ?]||apply sg_pos in K1 as [-> ?])).
  all: try (specialize (K2 ltac:(lra) ltac:(lra)); (apply sg_neg in K2 as [? ->]||apply sg_pos in K2 as [? ->])).
  all: try (specialize (K3 ltac:(lra) ltac:(lra)); (apply sg_neg in K3 as [-> ?]||apply sg_pos in K3 as [-> ?])).
  all: try (specialize (K4 ltac:(lra) ltac:(lra)); (apply sg_neg in K4 as [? ->]||apply sg_pos in K4 as [? ->])).
  all: lra.
Qed.
Lemma move_line q r a b : 0 < T q r a * T q r b -> wind r a b - wind q a b = ph q r b - ph q r a.
Proof.
  intros H. destruct (Rle_lt_dec (y2 q) (y2 r)) as [L|L]; [now apply move_line_le|].
  pose proof (move_line_le r q a b ltac:(lra) ltac:(rewrite (T_swap q r a), (T_swap q r b); lra)) as E. rewrite (ph_swap q r), (ph_swap q r a) in E. lra.
Qed.
(** one proper crossing, from the right of the edge to its left *)
Lemma move_cross q r a b : T a b q < 0 -> 0 < T a b r -> T q r a * T q r b < 0 -> wind r a b - wind q a b = 1 + ph q r b - ph q r a.
Proof.
  intros H1 H2 H. unfold wind, ph. pose proof (T_sum a b q r) as S. pose proof (T_dep a b q r (y2 q)) as D1. pose proof (T_dep a b q r (y2 r)) as D2.
  assert (Z : ~ (y2 a = y2 q /\ y2 b = y2 q)) by (intros [E1 E2]; revert H1; unfold tri_area2; rewrite E1, E2; intros; lra).
  assert (Z' : ~ (y2 a = y2 r /\ y2 b = y2 r)) by (intros [E1 E2]; revert H2; unfold tri_area2; rewrite E1, E2; intros; lra).
  revert H1 H2 H S D1 D2. generalize (T a b q) (T a b r) (T q r a) (T q r b). intros s1 s2 s3 s4 H1 H2 H S D1 D2.
  assert (G3 : 0 < s3). { destruct (Rlt_le_dec 0 s3) as [Q|Q]; [assumption|]. pose proof (mul_nn s3 s4 Q ltac:(lra)). lra. }
  assert (G4 : s4 < 0). { destruct (Rlt_le_dec s4 0) as [Q|Q]; [assumption|]. pose proof (mul_p s3 s4 ltac:(lra) Q). lra. }
  destruct (sg_neg s1 H1) as [-> ->], (sg_pos s2 H2) as [-> ->], (sg_pos s3 G3) as [-> ->], (sg_neg s4 G4) as [-> ->].
  rewrite !andb_true_r, !andb_false_r, !(nb_ltb (y2 q)), !(nb_ltb (y2 r)).
  destruct (Rle_lt_dec (y2 q) (y2 r)) as [L|L].
  - assert (NL : ~ (y2 a <= y2 q /\ y2 b <= y2 q)).
    { intros [E1 E2]. pose proof (mul_nn s4 (y2 a - y2 q) ltac:(lra) ltac:(lra)). pose proof (mul_pn s3 (y2 b - y2 q) ltac:(lra) ltac:(lra)).
      pose proof (mul_np s1 (y2 r - y2 q) ltac:(lra) ltac:(lra)). apply Z. split.
      - destruct E1 as [E1|E1]; [|assumption]. pose proof (mul_pp (- s4) (y2 q - y2 a) ltac:(lra) ltac:(lra)). lra.
      - destruct E2 as [E2|E2]; [|assumption]. pose proof (mul_pp s3 (y2 q - y2 b) ltac:(lra) ltac:(lra)). lra. }
    assert (NH : ~ (y2 r < y2 a /\ y2 r < y2 b)).
    { intros [E1 E2]. pose proof (mul_pp (- s4) (y2 a - y2 r) ltac:(lra) ltac:(lra)). pose proof (mul_pp s3 (y2 b - y2 r) ltac:(lra) ltac:(lra)).
      pose proof (mul_pn s2 (y2 q - y2 r) ltac:(lra) ltac:(lra)). lra. }
    destruct (Rleb_spec (y2 a) (y2 q)) as [A1|A1], (Rleb_spec (y2 a) (y2 r)) as [A2|A2]; try (exfalso; lra);
    destruct (Rleb_spec (y2 b) (y2 q)) as [B1|B1], (Rleb_spec (y2 b) (y2 r)) as [B2|B2]; try (exfalso; lra); cbn [negb andb]; try lra; exfalso; tauto.
  - assert (NL : ~ (y2 a <= y2 r /\ y2 b <= y2 r)).
    { intros [E1 E2]. pose proof (mul_nn s4 (y2 a - y2 r) ltac:(lra) ltac:(lra)). pose proof (mul_pn s3 (y2 b - y2 r) ltac:(lra) ltac:(lra)).
      pose proof (mul_pp s2 (y2 q - y2 r) ltac:(lra) ltac:(lra)). lra. }
    assert (NH : ~ (y2 q < y2 a /\ y2 q < y2 b)).
    { intros [E1 E2]. pose proof (mul_pp (- s4) (y2 a - y2 q) ltac:(lra) ltac:(lra)). pose proof (mul_pp s3 (y2 b - y2 q) ltac:(lra) ltac:(lra)).
      pose proof (mul_pp (- s1) (y2 q - y2 r) ltac:(lra) ltac:(lra)). lra. }
    destruct (Rleb_spec (y2 a) (y2 q)) as [A1|A1], (Rleb_spec (y2 a) (y2 r)) as [A2|A2]; try (exfalso; lra);
    destruct (Rleb_spec (y2 b) (y2 q)) as [B1|B1], (Rleb_spec (y2 b) (y2 r)) as [B2|B2]; try (exfalso; lra); cbn [negb andb]; try lra; exfalso; tauto.
Qed.

(** ** Edges and corners of a closed polygon *)
Fixpoint links {A} (l : list A) : list (A * A) :=
  match l with a :: ((b :: _) as t) => (a, b) :: links t | _ => [] end.
Definition edges {A} (P : list A) : list (A * A) := match P with [] => [] | a :: _ => links (P ++ [a]) end.
Definition edge {A} (P : list A) (a b : A) : Prop := In (a, b) (edges P).
Definition rotof {A} (P Q : list A) : Prop := exists u v, P = u ++ v /\ Q = v ++ u.
Definition corner {A} (P : list A) (a b c : A) : Prop := exists l, rotof P (a :: b :: c :: l).

Lemma links_app {A} (l : list A) a l' : links (l ++ a :: l') = links (l ++ [a]) ++ links (a :: l').
Proof.
  induction l as [|x l IH]; [reflexivity|]. destruct l as [|y l]; [reflexivity|].
  change (links ((x :: y :: l) ++ a :: l')) with ((x, y) :: links ((y :: l) ++ a :: l')). rewrite IH. reflexivity.
Qed.
Lemma edges_rot {A} (u v : list A) : Permutation (edges (u ++ v)) (edges (v ++ u)).
Proof.
  destruct u as [|a u], v as [|b v]; cbn [app]; rewrite ?app_nil_r; try reflexivity.
  unfold edges. cbn [app]. rewrite <- !app_assoc. cbn [app].
  change (a :: u ++ b :: v ++ [a]) with ((a :: u) ++ b :: v ++ [a]). change (b :: v ++ a :: u ++ [b]) with ((b :: v) ++ a :: u ++ [b]).
  rewrite links_app, (links_app (b :: v)). apply Permutation_app_comm.
Qed.
Lemma rotof_edge {A} (P Q : list A) a b : rotof P Q -> edge P a b <-> edge Q a b.
Proof. intros (u & v & -> & ->). unfold edge. split; apply Permutation_in; [|symmetry]; apply edges_rot. Qed.
Lemma rotof_In {A} (P Q : list A) a : rotof P Q -> In a P <-> In a Q.
Proof. intros (u & v & -> & ->). rewrite !in_app_iff. tauto. Qed.
Lemma rotof_perm {A} (P Q : list A) : rotof P Q -> Permutation P Q.
Proof. intros (u & v & -> & ->). apply Permutation_app_comm. Qed.
Lemma rotof_cyc {A} (w : A -> A -> R) (P Q : list A) : rotof P Q -> cyc w P = cyc w Q.
Proof. intros (u & v & -> & ->). apply cyc_rot. Qed.
Lemma rotof_refl {A} (P : list A) : rotof P P.
Proof. exists [], P. now rewrite app_nil_r. Qed.
Lemma rotof_sym {A} (P Q : list A) : rotof P Q -> rotof Q P.
Proof. intros (u & v & -> & ->). now exists v, u. Qed.
Lemma rotof_trans {A} (P Q S : list A) : rotof P Q -> rotof Q S -> rotof P S.
Proof.
  intros (u & v & -> & ->) (u' & v' & E & ->).
  assert (H : (exists z, v = u' ++ z /\ v' = z ++ u) \/ (exists z, u' = v ++ z /\ u = z ++ v')).
  { revert u' E. induction v as [|x v IH]; intros u' E.
    - right. exists u'. auto.
    - destruct u' as [|y u']; [left; exists (x :: v); auto|]. cbn [app] in E. injection E as -> E. destruct (IH u' E) as [(z & -> & ->)|(z & -> & ->)]; [left|right]; now exists z. }
  destruct H as [(z & -> & ->)|(z & -> & ->)].
  - exists (u ++ u'), z. now rewrite !app_assoc.
  - exists z, (v' ++ v). now rewrite !app_assoc.
Qed.
Lemma rotof_cons {A} (x : A) l : rotof (x :: l) (l ++ [x]).
Proof. now exists [x], l. Qed.
Lemma links_In {A} (l : list A) a b : In (a, b) (links l) -> In a l /\ In b l.
Proof.
  induction l as [|x l IH]; [intros []|]. destruct l as [|y l]; [intros []|]. intros [E|H]; [injection E as <- <-; cbn; auto|].
  destruct (IH H). split; now right.
Qed.
Lemma edge_In {A} (P : list A) a b : edge P a b -> In a P /\ In b P.
Proof.
  destruct P as [|x l]; [intros []|]. intros H. apply links_In in H. rewrite !in_app_iff in H. cbn in *. intuition auto.
Qed.
Lemma links_split {A} (l : list A) a b : In (a, b) (links l) -> exists u v, l = u ++ a :: b :: v.
Proof.
  induction l as [|x l IH]; [intros []|]. destruct l as [|y l]; [intros []|]. intros [E|H]; [injection E as <- <-; now exists [], l|].
  destruct (IH H) as (u & v & E). exists (x :: u), v. cbn [app]. now rewrite E.
Qed.
Lemma edge_rot {A} (P : list A) a b : (2 <= length P)%nat -> edge P a b -> exists l, rotof P (a :: b :: l).
Proof.
  intros HL H. destruct P as [|x l]; [destruct H|]. apply links_split in H as (u & v & E).
  destruct v as [|z v] using rev_ind.
  - (* the closing edge *)
    change (u ++ [a; b]) with (u ++ [a] ++ [b]) in E. rewrite app_assoc in E. apply app_inj_tail in E as [E <-].
    destruct u as [|y u]; cbn [app] in E; [injection E as -> ->; cbn in HL; lia|]. injection E as -> ->. exists u. exists (y :: u), [a]. auto.
  - clear IHv. change (u ++ a :: b :: v ++ [z]) with (u ++ (a :: b :: v) ++ [z]) in E. rewrite app_assoc in E. apply app_inj_tail in E as [E <-].
    rewrite E. exists (v ++ u). now exists u, (a :: b :: v).
Qed.
Lemma edge_next {A} (P : list A) a b : (3 <= length P)%nat -> edge P a b -> exists c, corner P a b c.
Proof.
  intros HL H. destruct (edge_rot P a b ltac:(lia) H) as (l & Hl). assert (E : length P = length (a :: b :: l)) by apply Permutation_length, rotof_perm, Hl.
  destruct l as [|c l]; [cbn in E; lia|]. now exists c, l.
Qed.
Lemma edge_prev {A} (P : list A) b c : (3 <= length P)%nat -> edge P b c -> exists a, corner P a b c.
Proof.
  intros HL H. destruct (edge_rot P b c ltac:(lia) H) as (l & Hl). assert (E : length P = length (b :: c :: l)) by apply Permutation_length, rotof_perm, Hl.
  destruct l as [|a l] using rev_ind; [cbn in E; lia|]. exists a, l. eapply rotof_trans; [exact Hl|]. exists (b :: c :: l), [a]. auto.
Qed.
Lemma In_corner {A} (P : list A) b : (3 <= length P)%nat -> In b P -> exists a c, corner P a b c.
Proof.
  intros HL H. apply in_split in H as (u & v & ->). assert (rotof (u ++ b :: v) (b :: v ++ u)) as Hr by (exists u, (b :: v); auto).
  rewrite app_length in HL. cbn [length] in HL.
  destruct (v ++ u) as [|c l] eqn:E; [destruct v; [destruct u; [cbn in HL; lia|discriminate]|discriminate]|].
  assert (L2 : (2 <= length (c :: l))%nat) by (rewrite <- E, app_length; lia).
  destruct l as [|a l] using rev_ind; [cbn in L2; lia|]. clear IHl. exists a, c, l. eapply rotof_trans; [exact Hr|]. exists (b :: c :: l), [a]. auto.
Qed.
Lemma corner_edge {A} (P : list A) a b c : corner P a b c -> edge P a b /\ edge P b c.
Proof. intros (l & Hl). rewrite !(rotof_edge _ _ _ _ Hl). split; [left|right; left]; reflexivity. Qed.
Lemma corner_edges {A} (P : list A) a b c x y : NoDup P -> corner P a b c -> edge P x y -> (x = a /\ y = b) \/ (x = b /\ y = c) \/ (x <> b /\ y <> b).
Proof.
  intros ND (l & Hl) H. apply (rotof_edge _ _ _ _ Hl) in H. apply (Permutation_NoDup (rotof_perm _ _ Hl)) in ND.
  destruct H as [E|[E|H]]; [injection E; auto|injection E; auto|]. right; right.
  assert (N : ~ In b (c :: l ++ [a])).
  { inversion ND as [|? ? N1 ND1]; subst. inversion ND1 as [|? ? N2 _]; subst. intros I. change (c :: l ++ [a]) with ((c :: l) ++ [a]) in I.
    apply in_app_or in I as [I|[<-|[]]]; [contradiction|]. apply N1. now left. }
  apply links_In in H as [H1 H2]. split; intros ->; contradiction.
Qed.
Lemma corner_In {A} (P : list A) a b c : corner P a b c -> In a P /\ In b P /\ In c P.
Proof. intros (l & Hl). rewrite !(rotof_In _ _ _ Hl). cbn. tauto. Qed.
Lemma corner_distinct {A} (P : list A) a b c : NoDup P -> corner P a b c -> a <> b /\ b <> c /\ a <> c.
Proof.
  intros ND (l & Hl). apply (Permutation_NoDup (rotof_perm _ _ Hl)) in ND. inversion ND as [|? ? N1 ND1]; subst. inversion ND1 as [|? ? N2 _]; subst.
  cbn in *. repeat split; intros ->; tauto.
Qed.
(** a quantity that does not change from an edge to the next is the same for all edges *)
Lemma edges_const {A B} (f : A -> A -> B) P : (3 <= length P)%nat -> (forall a b c, corner P a b c -> f a b = f b c) ->
  forall a b c d, edge P a b -> edge P c d -> f a b = f c d.
Proof.
  intros HL H.
  assert (K : forall L : list A, (forall u x y z v, L = u ++ x :: y :: z :: v -> f x y = f y z) -> forall x y z v c d, L = x :: y :: z :: v -> In (c, d) (links L) -> f c d = f x y).
  { intros L HC. induction L as [|x0 L IH]; intros x y z v c d E I; [discriminate|]. injection E as -> E. rewrite E in I. change (links (x :: y :: z :: v)) with ((x, y) :: links (y :: z :: v)) in I.
    destruct I as [I|I]; [injection I as <- <-; reflexivity|]. rewrite (HC [] x y z v) by (cbn; now rewrite E).
    destruct v as [|w v]; [destruct I as [I|[]]; injection I as <- <-; reflexivity|].
    eapply IH; [|exact E|rewrite E; exact I]. intros u x' y' z' v' E'. apply (HC (x :: u) x' y' z' v'). cbn. now rewrite E'. }
  assert (G : forall a b, edge P a b -> forall x y z v, P = x :: y :: z :: v -> f a b = f x y).
  { intros a b Hab x y z v E. subst P. eapply (K ((x :: y :: z :: v) ++ [x])); [|cbn [app]; reflexivity|exact Hab].
    intros u x' y' z' v' E. apply H. destruct v' as [|w v'] using rev_ind.
    - change (u ++ [x'; y'; z']) with (u ++ [x'; y'] ++ [z']) in E. rewrite app_assoc in E. apply app_inj_tail in E as [E <-].
      destruct u as [|x1 u]; [discriminate|]. cbn [app] in E. injection E as <- E. rewrite E. exists u. exists (x :: u), [x'; y']. auto.
    - clear IHv'. change (u ++ x' :: y' :: z' :: v' ++ [w]) with (u ++ (x' :: y' :: z' :: v') ++ [w]) in E. rewrite app_assoc in E. apply app_inj_tail in E as [E _].
      rewrite E. exists (v' ++ u). now exists u, (x' :: y' :: z' :: v'). }
  intros a b c d H1 H2. destruct P as [|x [|y [|z v]]]; [cbn in HL; lia..|]. rewrite (G a b H1 x y z v eq_refl). symmetry. now apply (G c d H2 x y z v).
Qed.

(** ** Moving the point around a closed polygon *)
Definition lin (d p : P2) : R := x2 d * x2 p + y2 d * y2 p.
(** a line keeps the segments [q r] and [a b] apart *)
Definition nocross (q r a b : P2) : Prop := exists d k, lin d q < k /\ lin d r < k /\ k < lin d a /\ k < lin d b.
Lemma nocross_flip q r a b : nocross q r a b -> nocross a b q r.
Proof. intros (d & k & H). exists (V2 (- x2 d) (- y2 d)), (- k). unfold lin in *. cbn [x2 y2]. lra. Qed.
Lemma nocross_l q r a b : 0 < T a b q * T a b r -> nocross q r a b.
Proof.
  intros H. set (d := V2 (- (y2 b - y2 a)) (x2 b - x2 a)).
  assert (E : forall p, T a b p = lin d p - lin d a) by (intros p; unfold tri_area2, lin, d; cbn [x2 y2]; ring).
  assert (Eb : lin d b = lin d a) by (unfold lin, d; cbn [x2 y2]; ring).
  assert (C : (T a b q < 0 /\ T a b r < 0) \/ (0 < T a b q /\ 0 < T a b r)).
  { destruct (Rtotal_order (T a b q) 0) as [G|[G|G]]; [left|rewrite G in H; lra|right]; (split; [assumption|]).
    - destruct (Rlt_le_dec (T a b r) 0) as [Q|Q]; [assumption|]. pose proof (mul_np (T a b q) (T a b r) ltac:(lra) Q). lra.
    - destruct (Rlt_le_dec 0 (T a b r)) as [Q|Q]; [assumption|]. pose proof (mul_pn (T a b q) (T a b r) ltac:(lra) Q). lra. }
  rewrite !E in C. destruct C as [C|C].
  - exists d, ((Rmax (lin d q) (lin d r) + lin d a) / 2). rewrite Eb. pose proof (Rmax_l (lin d q) (lin d r)). pose proof (Rmax_r (lin d q) (lin d r)).
    assert (Rmax (lin d q) (lin d r) < lin d a) by (apply Rmax_lub_lt; lra). lra.
  - exists (V2 (- x2 d) (- y2 d)), (- ((Rmin (lin d q) (lin d r) + lin d a) / 2)).
    assert (En : forall p, lin (V2 (- x2 d) (- y2 d)) p = - lin d p) by (intros p; unfold lin; cbn [x2 y2]; ring). rewrite !En, Eb.
    pose proof (Rmin_l (lin d q) (lin d r)). pose proof (Rmin_r (lin d q) (lin d r)).
    assert (lin d a < Rmin (lin d q) (lin d r)) by (apply Rmin_glb_lt; lra). lra.
Qed.
Lemma nocross_r q r a b : 0 < T q r a * T q r b -> nocross q r a b.
Proof. intros H. now apply nocross_flip, nocross_l. Qed.
Lemma T_lin d k a b q r : T q r b * (lin d a - k) - T q r a * (lin d b - k) + T a b r * (lin d q - k) - T a b q * (lin d r - k) = 0.
Proof. unfold tri_area2, lin. ring. Qed.
Lemma nocross_cases q r a b : nocross q r a b -> 0 < T a b q * T a b r \/ 0 < T q r a * T q r b \/ (T a b q = 0 /\ T a b r = 0 /\ T q r a = 0 /\ T q r b = 0).
Proof.
  intros (d & k & H1 & H2 & H3 & H4). pose proof (T_sum a b q r) as S. pose proof (T_lin d k a b q r) as D. revert S D.
  generalize (T a b q) (T a b r) (T q r a) (T q r b). intros s1 s2 s3 s4 S D.
  destruct (Rlt_le_dec 0 (s1 * s2)) as [|P1]; [auto|]. destruct (Rlt_le_dec 0 (s3 * s4)) as [|P2]; [auto|]. right. right.
  assert (SG : forall x y, x * y <= 0 -> y < x -> 0 <= x /\ y <= 0).
  { intros x y Hxy L. split.
    - destruct (Rle_lt_dec 0 x) as [|N]; [assumption|]. pose proof (mul_pp (- x) (- y) ltac:(lra) ltac:(lra)). lra.
    - destruct (Rle_lt_dec y 0) as [|N]; [assumption|]. pose proof (mul_pp x y ltac:(lra) ltac:(lra)). lra. }
  assert (Z : forall x, x * x <= 0 -> x = 0). { intros x Hx. destruct (Req_dec x 0) as [|N]; [assumption|]. assert (0 < x * x) by nra. lra. }
  destruct (Rtotal_order s1 s2) as [L|[L|L]].
  - exfalso. destruct (SG s2 s1 ltac:(lra) L) as [A1 A2]. destruct (SG s3 s4 P2 ltac:(lra)) as [A3 A4].
    pose proof (mul_np s4 (lin d a - k) A4 ltac:(lra)). pose proof (mul_p s3 (lin d b - k) A3 ltac:(lra)). pose proof (mul_pn s2 (lin d q - k) A1 ltac:(lra)). pose proof (mul_nn s1 (lin d r - k) A2 ltac:(lra)).
    destruct (Rlt_le_dec 0 s2) as [K|K]; [pose proof (mul_pp s2 (- (lin d q - k)) K ltac:(lra)); lra|]. pose proof (mul_pp (- s1) (- (lin d r - k)) ltac:(lra) ltac:(lra)). lra.
  - subst s2. apply Z in P1. assert (s4 = s3) by lra. subst s4. apply Z in P2. auto.
  - exfalso. destruct (SG s1 s2 P1 L) as [A1 A2]. destruct (SG s4 s3 ltac:(lra) ltac:(lra)) as [A3 A4].
    pose proof (mul_p s4 (lin d a - k) A3 ltac:(lra)). pose proof (mul_np s3 (lin d b - k) A4 ltac:(lra)). pose proof (mul_nn s2 (lin d q - k) A2 ltac:(lra)). pose proof (mul_pn s1 (lin d r - k) A1 ltac:(lra)).
    destruct (Rlt_le_dec 0 s1) as [K|K]; [pose proof (mul_pp s1 (- (lin d r - k)) K ltac:(lra)); lra|]. pose proof (mul_pp (- s2) (- (lin d q - k)) ltac:(lra) ltac:(lra)). lra.
Qed.
Lemma nocross_move q r a b : nocross q r a b -> wind r a b - wind q a b = ph q r b - ph q r a.
Proof.
  intros H. apply nocross_cases in H as [H|[H|(H1 & H2 & H3 & H4)]]; [now apply move_side|now apply move_line|].
  unfold wind, ph. rewrite H1, H2, H3, H4. rewrite (proj2 (Rltb_false 0 0)) by lra. rewrite !andb_false_r. lra.
Qed.
Lemma chain_move q r l : (forall a b, In (a, b) (links l) -> nocross q r a b) -> forall x l', l = x :: l' ->
  chain (wind r) l - chain (wind q) l = ph q r (last l x) - ph q r x.
Proof.
  induction l as [|y l IH]; intros H x l' E; [discriminate|]. injection E as -> ->. destruct l' as [|z l']; [cbn; lra|].
  change (chain (wind r) (x :: z :: l')) with (wind r x z + chain (wind r) (z :: l')). change (chain (wind q) (x :: z :: l')) with (wind q x z + chain (wind q) (z :: l')).
  pose proof (nocross_move q r x z (H x z (or_introl eq_refl))) as E1.
  specialize (IH (fun a b I => H a b (or_intror I)) z l' eq_refl). change (last (x :: z :: l') x) with (last (z :: l') x).
  replace (last (z :: l') x) with (last (z :: l') z); [lra|]. clear. revert z. induction l' as [|w l IH]; intros z; [reflexivity|]. cbn in *. destruct l; [reflexivity|apply IH].
Qed.
Lemma winding_move P q r : (forall a b, edge P a b -> nocross q r a b) -> winding P r = winding P q.
Proof.
  destruct P as [|x l]; [reflexivity|]. intros H. unfold winding, cyc.
  pose proof (chain_move q r ((x :: l) ++ [x]) H x (l ++ [x]) eq_refl) as E. rewrite last_last in E. lra.
Qed.
Lemma winding_cross P q r a b l : rotof P (b :: l ++ [a]) -> (forall x y, In (x, y) (links (b :: l ++ [a])) -> nocross q r x y) ->
  T a b q < 0 -> 0 < T a b r -> T q r a * T q r b < 0 -> winding P r = winding P q + 1.
Proof.
  intros HR H H1 H2 H3. unfold winding. rewrite !(rotof_cyc _ _ _ HR), !cyc_ends.
  pose proof (chain_move q r (b :: l ++ [a]) H b (l ++ [a]) eq_refl) as E. change (b :: l ++ [a]) with ((b :: l) ++ [a]) in E. rewrite last_last in E.
  pose proof (move_cross q r a b H1 H2 H3). cbn [app] in E. lra.
Qed.
