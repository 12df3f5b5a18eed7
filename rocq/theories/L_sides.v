(** The two sides of a simple polygon in general position. *)
From Coq Require Import Reals Lra Psatz Lia Arith Permutation.
From Verif Require Import Prelude Num M_vec M_utils M_polygon L_base L_vec L_geom L_cycle L_polygon Props_polygon Props_ears L_simple.
Open Scope R_scope.

(** ** Small positive numbers *)
Definition ev (Q : R -> Prop) : Prop := exists e0, 0 < e0 /\ forall e, 0 < e -> e < e0 -> Q e.
Lemma ev_and (Q S : R -> Prop) : ev Q -> ev S -> ev (fun e => Q e /\ S e).
Proof.
  intros (e0 & H0 & HQ) (e1 & H1 & HS). exists (Rmin e0 e1). split; [now apply Rmin_pos|]. intros e He Hm.
  pose proof (Rmin_l e0 e1). pose proof (Rmin_r e0 e1). split; [apply HQ|apply HS]; lra.
Qed.
Lemma ev_imp (Q S : R -> Prop) : (forall e, 0 < e -> Q e -> S e) -> ev Q -> ev S.
Proof. intros H (e0 & H0 & HQ). exists e0. split; [exact H0|]. intros e He Hm. apply H; [exact He|]. now apply HQ. Qed.
Lemma ev_all (Q : R -> Prop) : (forall e, 0 < e -> Q e) -> ev Q.
Proof. intros H. exists 1. split; [lra|]. intros; now apply H. Qed.
Lemma ev_list {A} (l : list A) (Q : A -> R -> Prop) : (forall x, In x l -> ev (Q x)) -> ev (fun e => forall x, In x l -> Q x e).
Proof.
  induction l as [|x l IH]; intros H; [apply ev_all; intros e _ x []|].
  apply (ev_imp (fun e => Q x e /\ forall y, In y l -> Q y e)); [intros e _ [H1 H2] y [<-|Hy]; auto|].
  apply ev_and; [apply H; now left|apply IH; intros; apply H; now right].
Qed.
Lemma ev_ex (Q : R -> Prop) : ev Q -> exists e, 0 < e /\ Q e.
Proof. intros (e0 & H0 & HQ). exists (e0 / 2). split; [lra|]. apply HQ; lra. Qed.
Lemma ev_lt d : 0 < d -> ev (fun e => e < d).
Proof. intros H. exists d. auto. Qed.
(** limits at 0 from the right *)
Definition lim0 (f : R -> R) (l : R) : Prop := forall d, 0 < d -> ev (fun e => Rabs (f e - l) < d).
Lemma lim_const c : lim0 (fun _ => c) c.
Proof. intros d Hd. apply ev_all. intros. rewrite Rminus_diag_eq by reflexivity. now rewrite Rabs_R0. Qed.
Lemma lim_id : lim0 (fun e => e) 0.
Proof. intros d Hd. apply (ev_imp (fun e => e < d)); [|now apply ev_lt]. intros e He H. rewrite Rminus_0_r, Rabs_right; lra. Qed.
Lemma lim_add f g a b : lim0 f a -> lim0 g b -> lim0 (fun e => f e + g e) (a + b).
Proof.
  intros Hf Hg d Hd. apply (ev_imp (fun e => Rabs (f e - a) < d / 2 /\ Rabs (g e - b) < d / 2)); [|apply ev_and; [apply Hf|apply Hg]; lra].
  intros e _ [H1 H2]. replace (f e + g e - (a + b)) with ((f e - a) + (g e - b)) by ring. pose proof (Rabs_triang (f e - a) (g e - b)). lra.
Qed.
Lemma lim_mul f g a b : lim0 f a -> lim0 g b -> lim0 (fun e => f e * g e) (a * b).
Proof.
  intros Hf Hg d Hd. set (k := Rabs a + Rabs b + 1). assert (Hk : 1 <= k) by (unfold k; pose proof (Rabs_pos a); pose proof (Rabs_pos b); lra).
  assert (Hd' : 0 < Rmin 1 (d / (2 * k))) by (apply Rmin_pos; [lra|apply Rdiv_lt_0_compat; lra]).
  apply (ev_imp (fun e => Rabs (f e - a) < Rmin 1 (d / (2 * k)) /\ Rabs (g e - b) < Rmin 1 (d / (2 * k)))); [|apply ev_and; [apply Hf|apply Hg]; assumption].
  intros e _ [H1 H2]. replace (f e * g e - a * b) with ((f e - a) * (g e - b) + (a * (g e - b) + (f e - a) * b)) by ring.
  pose proof (Rabs_triang ((f e - a) * (g e - b)) (a * (g e - b) + (f e - a) * b)). pose proof (Rabs_triang (a * (g e - b)) ((f e - a) * b)).
  rewrite !Rabs_mult in *. pose proof (Rmin_l 1 (d / (2 * k))). pose proof (Rmin_r 1 (d / (2 * k))).
  set (m := Rmin 1 (d / (2 * k))) in *. pose proof (Rabs_pos (f e - a)). pose proof (Rabs_pos (g e - b)). pose proof (Rabs_pos a). pose proof (Rabs_pos b).
  assert (m * (2 * k) <= d).
  { apply (Rmult_le_compat_r (2 * k)) in H4; [|lra]. replace (d / (2 * k) * (2 * k)) with d in H4 by (field; lra). lra. }
  assert (Rabs (f e - a) * Rabs (g e - b) <= m * 1) by (apply Rmult_le_compat; lra).
  assert (Rabs a * Rabs (g e - b) <= Rabs a * m) by (apply Rmult_le_compat_l; lra).
  assert (Rabs (f e - a) * Rabs b <= m * Rabs b) by (apply Rmult_le_compat_r; lra).
  assert (0 < m * k) by (apply Rmult_lt_0_compat; lra). unfold k in *. nra.
Qed.
Lemma lim_sub f g a b : lim0 f a -> lim0 g b -> lim0 (fun e => f e - g e) (a - b).
Proof.
  intros Hf Hg. replace (a - b) with (a + (-1) * b) by ring. intros d Hd.
  apply (ev_imp (fun e => Rabs (f e + (-1) * g e - (a + (-1) * b)) < d)).
  - intros e _ H. replace (f e - g e - (a + -1 * b)) with (f e + (-1) * g e - (a + (-1) * b)) by ring. exact H.
  - revert d Hd. change (lim0 (fun e => f e + (-1) * g e) (a + (-1) * b)). apply lim_add; [exact Hf|]. apply lim_mul; [apply lim_const|exact Hg].
Qed.
Lemma lim_pos f l : lim0 f l -> 0 < l -> ev (fun e => 0 < f e).
Proof. intros H Hl. apply (ev_imp (fun e => Rabs (f e - l) < l)); [|now apply H]. intros e _ K. apply Rabs_def2 in K. lra. Qed.
Lemma lim_neg f l : lim0 f l -> l < 0 -> ev (fun e => f e < 0).
Proof. intros H Hl. apply (ev_imp (fun e => Rabs (f e - l) < - l)); [|apply H; lra]. intros e _ K. apply Rabs_def2 in K. lra. Qed.
Lemma lim_eq f l l' : l = l' -> lim0 f l -> lim0 f l'.
Proof. now intros ->. Qed.
(** a moving point *)
Definition limp (q : R -> P2) (x : P2) : Prop := lim0 (fun e => x2 (q e)) (x2 x) /\ lim0 (fun e => y2 (q e)) (y2 x).
Lemma limp_const x : limp (fun _ => x) x.
Proof. split; apply lim_const. Qed.
Lemma lim_T q r s x y z : limp q x -> limp r y -> limp s z -> lim0 (fun e => T (q e) (r e) (s e)) (T x y z).
Proof. intros [Q1 Q2] [R1 R2] [S1 S2]. unfold tri_area2. apply lim_sub; apply lim_mul; apply lim_sub; assumption. Qed.
Definition mv (p : P2) (e : R) (d : P2) : P2 := V2 (x2 p + e * x2 d) (y2 p + e * y2 d).
Lemma limp_mv p d : limp (fun e => mv p e d) p.
Proof.
  split; unfold mv; cbn [x2 y2].
  - apply (lim_eq _ (x2 p + 0 * x2 d)); [ring|]. apply lim_add; [apply lim_const|apply lim_mul; [apply lim_id|apply lim_const]].
  - apply (lim_eq _ (y2 p + 0 * y2 d)); [ring|]. apply lim_add; [apply lim_const|apply lim_mul; [apply lim_id|apply lim_const]].
Qed.
Lemma limp_mvk p k d : limp (fun e => mv p (k * e) d) p.
Proof.
  split; unfold mv; cbn [x2 y2].
  - apply (lim_eq _ (x2 p + k * 0 * x2 d)); [ring|]. apply lim_add; [apply lim_const|apply lim_mul; [apply lim_mul; [apply lim_const|apply lim_id]|apply lim_const]].
  - apply (lim_eq _ (y2 p + k * 0 * y2 d)); [ring|]. apply lim_add; [apply lim_const|apply lim_mul; [apply lim_mul; [apply lim_const|apply lim_id]|apply lim_const]].
Qed.
(** a segment that keeps clear of an edge still does after a small move *)
Lemma lim_lin d q x : limp q x -> lim0 (fun e => lin d (q e)) (lin d x).
Proof. intros [H1 H2]. unfold lin. apply lim_add; apply lim_mul; auto using lim_const. Qed.
Lemma nocross_near q r x y a b : limp q x -> limp r y -> nocross x y a b -> ev (fun e => nocross (q e) (r e) a b).
Proof.
  intros Hq Hr (d & k & H1 & H2 & H3 & H4).
  apply (ev_imp (fun e => lin d (q e) - k < 0 /\ lin d (r e) - k < 0)); [intros e _ [K1 K2]; exists d, k; repeat split; lra|].
  apply ev_and; (eapply lim_neg; [apply lim_sub; [apply lim_lin; eassumption|apply lim_const]|lra]).
Qed.

(** ** Segments *)
Definition at_ (a b : P2) (t : R) : P2 := V2 ((1 - t) * x2 a + t * x2 b) ((1 - t) * y2 a + t * y2 b).
Definition on (a b z : P2) : Prop := exists t, 0 <= t <= 1 /\ z = at_ a b t.
Lemma classic_eq (a b : P2) : {a = b} + {a <> b}.
Proof.
  destruct a as [x y], b as [x' y']. destruct (Req_EM_T x x') as [->|N]; [destruct (Req_EM_T y y') as [->|N]|]; [now left| |]; right; intros E; injection E; auto.
Qed.
Lemma v2_ext (a b : P2) : x2 a = x2 b -> y2 a = y2 b -> a = b.
Proof. destruct a, b. cbn. now intros -> ->. Qed.
Lemma at_0 a b : at_ a b 0 = a.
Proof. apply v2_ext; cbn [at_ x2 y2]; ring. Qed.
Lemma at_1 a b : at_ a b 1 = b.
Proof. apply v2_ext; cbn [at_ x2 y2]; ring. Qed.
Lemma at_swap a b t : at_ b a t = at_ a b (1 - t).
Proof. apply v2_ext; cbn [at_ x2 y2]; ring. Qed.
Lemma at_at a b s t m : at_ (at_ a b s) (at_ a b t) m = at_ a b ((1 - m) * s + m * t).
Proof. apply v2_ext; cbn [at_ x2 y2]; ring. Qed.
Lemma at_tail a b s m : at_ b (at_ a b s) m = at_ a b (1 + m * (s - 1)).
Proof. apply v2_ext; cbn [at_ x2 y2]; ring. Qed.
Lemma at_inj a b s t : a <> b -> at_ a b s = at_ a b t -> s = t.
Proof.
  intros N E. pose proof (f_equal x2 E) as E1. pose proof (f_equal y2 E) as E2. cbn [at_ x2 y2] in E1, E2.
  destruct (Req_dec (x2 a) (x2 b)) as [X|X]; [destruct (Req_dec (y2 a) (y2 b)) as [Y|Y]; [exfalso; apply N; now apply v2_ext|]|].
  - apply (Rmult_eq_reg_r (y2 b - y2 a)); lra.
  - apply (Rmult_eq_reg_r (x2 b - x2 a)); lra.
Qed.
Lemma on_l a b : on a b a.
Proof. exists 0. split; [lra|]. now rewrite at_0. Qed.
Lemma on_r a b : on a b b.
Proof. exists 1. split; [lra|]. now rewrite at_1. Qed.
Lemma on_swap a b z : on a b z -> on b a z.
Proof. intros (t & Ht & ->). exists (1 - t). split; [lra|]. now rewrite at_swap. Qed.
Lemma on_sub a b s t z : on a b s -> on a b t -> on s t z -> on a b z.
Proof.
  intros (u & Hu & ->) (v & Hv & ->) (m & Hm & ->). rewrite at_at. exists ((1 - m) * u + m * v). split; [|reflexivity].
  assert (0 <= (1 - m) * u) by (apply Rmult_le_pos; lra). assert (0 <= m * v) by (apply Rmult_le_pos; lra).
  assert ((1 - m) * u <= (1 - m) * 1) by (apply Rmult_le_compat_l; lra). assert (m * v <= m * 1) by (apply Rmult_le_compat_l; lra). lra.
Qed.
Lemma T_at a b x y t : T a b (at_ x y t) = (1 - t) * T a b x + t * T a b y.
Proof. unfold tri_area2, at_; cbn [x2 y2]. ring. Qed.
Lemma lin_at d x y t : lin d (at_ x y t) = (1 - t) * lin d x + t * lin d y.
Proof. unfold lin, at_; cbn [x2 y2]. ring. Qed.
Lemma on_T a b z : on a b z -> T a b z = 0.
Proof. intros (t & _ & ->). rewrite T_at. unfold tri_area2. ring. Qed.
Lemma dsub_pos b c : b <> c -> 0 < (x2 c - x2 b) * (x2 c - x2 b) + (y2 c - y2 b) * (y2 c - y2 b).
Proof.
  intros N. destruct b as [xb yb], c as [xc yc]. cbn [x2 y2]. destruct (Req_dec xc xb) as [->|Nx].
  - assert (H : yc - yb <> 0) by (intros E; apply N; f_equal; lra). assert (0 < (yc - yb) * (yc - yb)) by nra. replace (xb - xb) with 0 by ring. lra.
  - assert (H : xc - xb <> 0) by lra. assert (0 < (xc - xb) * (xc - xb)) by nra. pose proof (Rle_0_sqr (yc - yb)). unfold Rsqr in *. lra.
Qed.
(** a point on the line *)
Lemma on_line a b z : a <> b -> T a b z = 0 -> exists t, z = at_ a b t.
Proof.
  intros N H. pose proof (dsub_pos a b N) as D. set (w := (x2 b - x2 a) * (x2 b - x2 a) + (y2 b - y2 a) * (y2 b - y2 a)) in *.
  set (u := (x2 z - x2 a) * (x2 b - x2 a) + (y2 z - y2 a) * (y2 b - y2 a)). assert (E : u / w * w = u) by (field; lra).
  exists (u / w). set (t := u / w) in *. unfold tri_area2 in H.
  apply v2_ext; cbn [at_ x2 y2]; apply (Rmult_eq_reg_r w); try lra.
  - replace (((1 - t) * x2 a + t * x2 b) * w) with (x2 a * w + (t * w) * (x2 b - x2 a)) by ring. rewrite E. unfold u, w.
    assert (E1 : (x2 z - x2 a) * (y2 b - y2 a) = (x2 b - x2 a) * (y2 z - y2 a)) by lra.
    transitivity (x2 a * ((x2 b - x2 a) * (x2 b - x2 a) + (y2 b - y2 a) * (y2 b - y2 a)) + ((x2 z - x2 a) * (x2 b - x2 a) * (x2 b - x2 a) + (x2 z - x2 a) * (y2 b - y2 a) * (y2 b - y2 a))); [ring|]. rewrite E1. ring.
  - replace (((1 - t) * y2 a + t * y2 b) * w) with (y2 a * w + (t * w) * (y2 b - y2 a)) by ring. rewrite E. unfold u, w.
    assert (E1 : (x2 b - x2 a) * (y2 z - y2 a) = (x2 z - x2 a) * (y2 b - y2 a)) by lra.
    transitivity (y2 a * ((x2 b - x2 a) * (x2 b - x2 a) + (y2 b - y2 a) * (y2 b - y2 a)) + ((x2 b - x2 a) * (y2 z - y2 a) * (x2 b - x2 a) + (y2 z - y2 a) * (y2 b - y2 a) * (y2 b - y2 a))); [ring|]. rewrite E1. ring.
Qed.
(** on one line: two intervals meet or are apart *)
Lemma interval_meet a b q r : (exists t m, 0 <= t <= 1 /\ 0 <= m <= 1 /\ (1 - t) * a + t * b = (1 - m) * q + m * r) \/
  (q < a /\ q < b /\ r < a /\ r < b) \/ (a < q /\ b < q /\ a < r /\ b < r).
Proof.
  assert (M : forall u v z, (u <= z <= v \/ v <= z <= u) -> exists t, 0 <= t <= 1 /\ (1 - t) * u + t * v = z).
  { intros u v z H. destruct (Req_dec u v) as [->|N]; [exists 0; split; lra|]. exists ((z - u) / (v - u)). assert (v - u <> 0) by lra. split; [|field; assumption].
    destruct (Rdichotomy _ _ N) as [L|L].
    - split; [apply Rmult_le_pos; [lra|left; apply Rinv_0_lt_compat; lra]|]. apply (Rmult_le_reg_r (v - u)); [lra|]. replace ((z - u) / (v - u) * (v - u)) with (z - u) by (field; lra). lra.
    - replace ((z - u) / (v - u)) with ((u - z) / (u - v)) by (field; lra). split; [apply Rmult_le_pos; [lra|left; apply Rinv_0_lt_compat; lra]|].
      apply (Rmult_le_reg_r (u - v)); [lra|]. replace ((u - z) / (u - v) * (u - v)) with (u - z) by (field; lra). lra. }
  assert (K : forall z, (a <= z <= b \/ b <= z <= a) -> (q <= z <= r \/ r <= z <= q) -> exists t m, 0 <= t <= 1 /\ 0 <= m <= 1 /\ (1 - t) * a + t * b = (1 - m) * q + m * r).
  { intros z H1 H2. destruct (M _ _ _ H1) as (t & Ht & E1). destruct (M _ _ _ H2) as (m & Hm & E2). exists t, m. rewrite E1, E2. auto. }
  destruct (Rle_lt_dec a b), (Rle_lt_dec q r), (Rtotal_order a q) as [?|[?|?]], (Rtotal_order q b) as [?|[?|?]], (Rtotal_order a r) as [?|[?|?]], (Rtotal_order r b) as [?|[?|?]]; try (exfalso; lra);
    first [right; left; repeat split; lra|right; right; repeat split; lra|left; apply (K q); first [left; lra|right; lra]|left; apply (K a); first [left; lra|right; lra]|left; apply (K r); first [left; lra|right; lra]|left; apply (K b); first [left; lra|right; lra]].
Qed.
Lemma nocross_on q r a b z : nocross q r a b -> on q r z -> on a b z -> False.
Proof.
  intros (d & k & H1 & H2 & H3 & H4) (t & Ht & ->) (m & Hm & E). apply (f_equal (lin d)) in E. rewrite !lin_at in E.
  assert (A : (1 - t) * lin d q + t * lin d r < k).
  { destruct (Req_dec t 0) as [->|N]; [lra|]. assert ((1 - t) * lin d q <= (1 - t) * k) by (apply Rmult_le_compat_l; lra). assert (t * lin d r < t * k) by (apply Rmult_lt_compat_l; lra). lra. }
  assert (k < (1 - m) * lin d a + m * lin d b).
  { destruct (Req_dec m 0) as [->|N]; [lra|]. assert ((1 - m) * k <= (1 - m) * lin d a) by (apply Rmult_le_compat_l; lra). assert (m * k < m * lin d b) by (apply Rmult_lt_compat_l; lra). lra. }
  lra.
Qed.
Lemma nocross_sub q r a b q' r' : nocross q r a b -> on q r q' -> on q r r' -> nocross q' r' a b.
Proof.
  intros (d & k & H1 & H2 & H3 & H4) Hq Hr. exists d, k.
  assert (A : forall z, on q r z -> lin d z < k).
  { intros z (t & Ht & ->). rewrite lin_at. destruct (Req_dec t 0) as [->|N]; [lra|]. assert ((1 - t) * lin d q <= (1 - t) * k) by (apply Rmult_le_compat_l; lra). assert (t * lin d r < t * k) by (apply Rmult_lt_compat_l; lra). lra. }
  split; [now apply A|]. split; [now apply A|]. auto.
Qed.
(** two segments share a point or a line keeps them apart *)
Lemma meet_or_apart q r a b : nocross q r a b \/ exists z, on q r z /\ on a b z.
Proof.
  destruct (Rlt_le_dec 0 (T a b q * T a b r)) as [|P1]; [left; now apply nocross_l|]. destruct (Rlt_le_dec 0 (T q r a * T q r b)) as [|P2]; [left; now apply nocross_r|].
  pose proof (T_sum a b q r) as S.
  destruct (Req_dec (T a b q) (T a b r)) as [E|N].
  - (* one line *)
    assert (Z : forall x, x * x <= 0 -> x = 0). { intros x Hx. destruct (Req_dec x 0) as [|K]; [assumption|]. assert (0 < x * x) by nra. lra. }
    rewrite <- E in P1. apply Z in P1. rewrite P1 in E. symmetry in E. replace (T q r b) with (T q r a) in P2 by lra. apply Z in P2. assert (P3 : T q r b = 0) by lra. clear S Z.
    assert (L : exists u v sa sb sq sr, u <> v /\ a = at_ u v sa /\ b = at_ u v sb /\ q = at_ u v sq /\ r = at_ u v sr).
    { destruct (classic_eq q r) as [<-|Nqr]; [destruct (classic_eq a b) as [<-|Nab]|].
      - destruct (classic_eq a q) as [<-|Naq].
        + exists a, (V2 (x2 a + 1) (y2 a)), 0, 0, 0, 0. rewrite at_0. split; [|auto]. intros K. apply (f_equal x2) in K. cbn [x2] in K. lra.
        + exists a, q, 0, 0, 1, 1. rewrite at_0, at_1. auto.
      - destruct (on_line a b q Nab P1) as (s & Hs). exists a, b, 0, 1, s, s. rewrite at_0, at_1. auto.
      - destruct (on_line q r a Nqr P2) as (s & Hs). destruct (on_line q r b Nqr P3) as (s' & Hs'). exists q, r, s, s', 0, 1. rewrite at_0, at_1. auto. }
    destruct L as (u & v & sa & sb & sq & sr & Nuv & -> & -> & -> & ->).
    pose proof (dsub_pos u v Nuv) as D. set (d := V2 (x2 v - x2 u) (y2 v - y2 u)).
    assert (Ld : forall t, lin d (at_ u v t) = lin d u + t * ((x2 v - x2 u) * (x2 v - x2 u) + (y2 v - y2 u) * (y2 v - y2 u))) by (intros t; unfold lin, d, at_; cbn [x2 y2]; ring).
    set (w := (x2 v - x2 u) * (x2 v - x2 u) + (y2 v - y2 u) * (y2 v - y2 u)) in *.
    assert (Mo : forall s t, s < t -> lin d (at_ u v s) < lin d (at_ u v t)) by (intros s t Hst; rewrite !Ld; assert (s * w < t * w) by (apply Rmult_lt_compat_r; lra); lra).
    assert (Ap : forall q r a b, q < a -> q < b -> r < a -> r < b -> nocross (at_ u v q) (at_ u v r) (at_ u v a) (at_ u v b)).
    { intros q r a b H1 H2 H3 H4. assert (H : Rmax q r < Rmin a b) by (apply Rmax_lub_lt; apply Rmin_glb_lt; assumption).
      exists d, (lin d (at_ u v ((Rmax q r + Rmin a b) / 2))). pose proof (Rmax_l q r). pose proof (Rmax_r q r). pose proof (Rmin_l a b). pose proof (Rmin_r a b). repeat split; apply Mo; lra. }
    destruct (interval_meet sa sb sq sr) as [(t & m & Ht & Hm & K)|[(K1 & K2 & K3 & K4)|(K1 & K2 & K3 & K4)]].
    + right. exists (at_ u v ((1 - t) * sa + t * sb)). split; [exists m|exists t]; (split; [assumption|]); rewrite at_at; now rewrite ?K.
    + left. now apply Ap.
    + left. apply nocross_flip. now apply Ap.
  - right. set (D := T a b q - T a b r) in *. assert (ND : D <> 0) by (unfold D; lra). assert (ED : T q r b - T q r a = D) by (unfold D; lra).
    assert (U : forall x y, x - y = D -> x * y <= 0 -> 0 <= x / D <= 1).
    { intros x y Exy Hxy. destruct (Rdichotomy _ _ ND) as [L|L].
      - assert (x <= 0 /\ 0 <= y).
        { split; [destruct (Rle_lt_dec x 0) as [|G]; [assumption|]; pose proof (mul_pp x y G ltac:(lra)); lra|destruct (Rle_lt_dec 0 y) as [|G]; [assumption|]; pose proof (mul_pp (- x) (- y) ltac:(lra) ltac:(lra)); lra]. }
        replace (x / D) with ((- x) / (- D)) by (field; lra). split; [apply Rmult_le_pos; [lra|left; apply Rinv_0_lt_compat; lra]|].
        apply (Rmult_le_reg_r (- D)); [lra|]. replace (- x / - D * - D) with (- x) by (field; lra). lra.
      - assert (0 <= x /\ y <= 0).
        { split; [destruct (Rle_lt_dec 0 x) as [|G]; [assumption|]; pose proof (mul_pp (- x) (- y) ltac:(lra) ltac:(lra)); lra|destruct (Rle_lt_dec y 0) as [|G]; [assumption|]; pose proof (mul_pp x y ltac:(lra) ltac:(lra)); lra]. }
        split; [apply Rmult_le_pos; [lra|left; apply Rinv_0_lt_compat; lra]|].
        apply (Rmult_le_reg_r D); [lra|]. replace (x / D * D) with x by (field; lra). lra. }
    exists (at_ q r (T a b q / D)). split; [exists (T a b q / D); split; [apply (U _ (T a b r)); [reflexivity|assumption]|reflexivity]|].
    exists (1 - T q r b / D). pose proof (U (T q r b) (T q r a) ED ltac:(lra)) as HU. split; [lra|].
    apply v2_ext; cbn [at_ x2 y2]; apply (Rmult_eq_reg_r D); try exact ND.
    + replace (((1 - T a b q / D) * x2 q + T a b q / D * x2 r) * D) with ((D - T a b q) * x2 q + T a b q * x2 r) by (field; exact ND).
      replace (((1 - (1 - T q r b / D)) * x2 a + (1 - T q r b / D) * x2 b) * D) with (T q r b * x2 a + (D - T q r b) * x2 b) by (field; exact ND).
      unfold D, tri_area2. ring.
    + replace (((1 - T a b q / D) * y2 q + T a b q / D * y2 r) * D) with ((D - T a b q) * y2 q + T a b q * y2 r) by (field; exact ND).
      replace (((1 - (1 - T q r b / D)) * y2 a + (1 - T q r b / D) * y2 b) * D) with (T q r b * y2 a + (D - T q r b) * y2 b) by (field; exact ND).
      unfold D, tri_area2. ring.
Qed.
(** segments that share a point cross properly or an end of one is on the other *)
Lemma touch b c x y z : b <> c -> x <> y -> on b c z -> on x y z -> ~ (T b c x * T b c y < 0 /\ T x y b * T x y c < 0) -> on b c x \/ on b c y \/ on x y b \/ on x y c.
Proof.
  assert (K : forall b c x y z, b <> c -> on b c z -> on x y z -> 0 <= T b c x * T b c y -> on b c x \/ on b c y \/ on x y b \/ on x y c).
  { clear. intros b c x y z Nbc Hz (m & Hm & Em) P. pose proof (on_T _ _ _ Hz) as Z. rewrite Em, T_at in Z.
    destruct (Req_dec m 0) as [->|N0]; [rewrite at_0 in Em; subst; auto|]. destruct (Req_dec m 1) as [->|N1]; [rewrite at_1 in Em; subst; auto|].
    assert (Zx : T b c x = 0).
    { destruct (Req_dec (T b c x) 0) as [|N]; [assumption|exfalso]. assert (E : m * (T b c x * T b c y) = - ((1 - m) * (T b c x * T b c x))).
      { replace (m * (T b c x * T b c y)) with (T b c x * (m * T b c y)) by ring. replace (m * T b c y) with (- ((1 - m) * T b c x)) by lra. ring. }
      pose proof (mul_p m _ ltac:(lra) P). assert (0 < T b c x * T b c x) by nra. pose proof (mul_pp (1 - m) _ ltac:(lra) H0). lra. }
    assert (Zy : T b c y = 0) by (rewrite Zx in Z; apply (Rmult_eq_reg_l m); lra). clear Z.
    destruct (on_line b c x Nbc Zx) as (s1 & E1). destruct (on_line b c y Nbc Zy) as (s2 & E2). destruct Hz as (t & Ht & Et).
    rewrite E1, E2, at_at in Em. rewrite Et in Em. apply (at_inj _ _ _ _ Nbc) in Em.
    destruct (Rle_lt_dec 0 s1) as [A1|A1]; [destruct (Rle_lt_dec s1 1) as [A2|A2]; [left; exists s1; auto|]|].
    - destruct (Rle_lt_dec s2 1) as [B2|B2]; [destruct (Rle_lt_dec 0 s2) as [B1|B1]; [right; left; exists s2; auto|]|].
      + right. right. left. exists (s1 / (s1 - s2)). assert (0 < s1 - s2) by lra. split.
        * split; [apply Rmult_le_pos; [lra|left; now apply Rinv_0_lt_compat]|]. apply (Rmult_le_reg_r (s1 - s2)); [lra|]. replace (s1 / (s1 - s2) * (s1 - s2)) with s1 by (field; lra). lra.
        * rewrite E1, E2, at_at. replace ((1 - s1 / (s1 - s2)) * s1 + s1 / (s1 - s2) * s2) with 0 by (field; lra). now rewrite at_0.
      + exfalso. pose proof (mul_pp (1 - m) (s1 - 1) ltac:(lra) ltac:(lra)). pose proof (mul_pp m (s2 - 1) ltac:(lra) ltac:(lra)). lra.
    - destruct (Rle_lt_dec 0 s2) as [B1|B1]; [destruct (Rle_lt_dec s2 1) as [B2|B2]; [right; left; exists s2; auto|]|].
      + right. right. left. exists (- s1 / (s2 - s1)). assert (0 < s2 - s1) by lra. split.
        * split; [apply Rmult_le_pos; [lra|left; now apply Rinv_0_lt_compat]|]. apply (Rmult_le_reg_r (s2 - s1)); [lra|]. replace (- s1 / (s2 - s1) * (s2 - s1)) with (- s1) by (field; lra). lra.
        * rewrite E1, E2, at_at. replace ((1 - - s1 / (s2 - s1)) * s1 + - s1 / (s2 - s1) * s2) with 0 by (field; lra). now rewrite at_0.
      + exfalso. pose proof (mul_pp (1 - m) (- s1) ltac:(lra) ltac:(lra)). pose proof (mul_pp m (- s2) ltac:(lra) ltac:(lra)). lra. }
  intros Nbc Nxy H1 H2 HN. destruct (Rle_lt_dec 0 (T b c x * T b c y)) as [P|P]; [now apply (K b c x y z)|].
  destruct (Rle_lt_dec 0 (T x y b * T x y c)) as [P'|P']; [|exfalso; tauto]. pose proof (K x y b c z Nxy H2 H1 P'). tauto.
Qed.
(** two segments from one point, neither along the other *)
Lemma hinge b c y z : b <> c -> ~ on b c y -> ~ on c y b -> on b c z -> on c y z -> z = c.
Proof.
  intros Nbc N1 N2 H1 (m & Hm & Em). pose proof (on_T _ _ _ H1) as Z. rewrite Em, T_at in Z. replace (T b c c) with 0 in Z by (unfold tri_area2; ring).
  destruct (Req_dec (T b c y) 0) as [E|N].
  - destruct (on_line b c y Nbc E) as (s & Es). destruct H1 as (t & Ht & Et).
    assert (Hs : s < 0 \/ 1 < s). { destruct (Rlt_le_dec s 0); [auto|]. destruct (Rlt_le_dec 1 s); [auto|]. exfalso. apply N1. exists s. split; [lra|assumption]. }
    assert (Ez : at_ b c t = at_ b c (1 + m * (s - 1))).
    { rewrite <- Et, Em, Es. apply at_tail. }
    apply (at_inj _ _ _ _ Nbc) in Ez. destruct Hs as [Hs|Hs].
    + exfalso. apply N2. exists (/ (1 - s)). split.
      * split; [left; apply Rinv_0_lt_compat; lra|]. rewrite <- Rinv_1 at 2. apply Rinv_le_contravar; lra.
      * rewrite Es, at_tail. replace (1 + / (1 - s) * (s - 1)) with 0 by (field; lra). now rewrite at_0.
    + assert (m = 0). { destruct (Req_dec m 0) as [|M]; [assumption|]. pose proof (mul_pp m (s - 1) ltac:(lra) ltac:(lra)). lra. } subst m. now rewrite Em, at_0.
  - assert (m = 0). { destruct (Req_dec m 0) as [|M]; [assumption|]. exfalso. apply N. apply (Rmult_eq_reg_l m); lra. } subst m. now rewrite Em, at_0.
Qed.

(** ** Simple polygons *)
(** no corner occurs twice, and no corner lies on an edge it does not belong to *)
Definition gp (P : list P2) : Prop := NoDup P /\ forall x y v, edge P x y -> In v P -> v <> x -> v <> y -> ~ on x y v.
(** the segment crosses no edge; it meets no vertex but its ends *)
Definition xfree (P : list P2) (b c : P2) : Prop := forall x y, edge P x y -> ~ (T b c x * T b c y < 0 /\ T x y b * T x y c < 0).
Definition vfree (P : list P2) (b c : P2) : Prop := forall v, In v P -> v <> b -> v <> c -> ~ on b c v.
Definition free (P : list P2) (b c : P2) : Prop := xfree P b c /\ vfree P b c.
Definition simple (P : list P2) : Prop := forall b c, edge P b c -> xfree P b c.
Lemma edge_free P b c : gp P -> simple P -> edge P b c -> free P b c.
Proof. intros G S E. split; [now apply S|]. intros v Iv N1 N2. now apply (proj2 G). Qed.
Lemma edge_neq {A} (P : list A) a b : NoDup P -> (2 <= length P)%nat -> edge P a b -> a <> b.
Proof.
  intros ND HL H. destruct (edge_rot P a b HL H) as (l & Hl). apply (Permutation_NoDup (rotof_perm _ _ Hl)) in ND.
  inversion ND as [|? ? N1 _]; subst. intros ->. apply N1. now left.
Qed.
(** a free segment shares with an edge at most a common end *)
Lemma free_meet P b c x y z : gp P -> (2 <= length P)%nat -> In b P -> In c P -> b <> c -> free P b c -> edge P x y -> on b c z -> on x y z ->
  ((z = b \/ z = c) /\ (z = x \/ z = y)) \/ (b = x /\ c = y) \/ (b = y /\ c = x).
Proof.
  intros [ND G] HL Ib Ic Nbc [XF VF] E H1 H2. pose proof (edge_neq P x y ND HL E) as Nxy. destruct (edge_In _ _ _ E) as [Ix Iy].
  destruct (classic_eq b x) as [<-|M1].
  - destruct (classic_eq c y) as [<-|M2]; [auto|]. left. assert (z = b); [|auto]. apply (hinge c b y z); [congruence| | |now apply on_swap|exact H2].
    + intros K. apply (VF y); try congruence. now apply on_swap.
    + apply (G b y c); congruence || auto.
  - destruct (classic_eq b y) as [<-|M2].
    + destruct (classic_eq c x) as [<-|M3]; [auto|]. left. assert (z = b); [|auto]. apply (hinge c b x z); [congruence| | |now apply on_swap|now apply on_swap].
      * intros K. apply (VF x); try congruence. now apply on_swap.
      * intros K. apply (G x b c); try congruence. now apply on_swap.
    + destruct (classic_eq c x) as [<-|M3].
      * left. assert (z = c); [|auto]. apply (hinge b c y z); [congruence| | |exact H1|exact H2]; [apply VF|apply (G c y b)]; congruence.
      * destruct (classic_eq c y) as [<-|M4].
        -- left. assert (z = c); [|auto]. apply (hinge b c x z); [congruence|apply VF; congruence| |exact H1|now apply on_swap]. intros K. apply (G x c b); try congruence. now apply on_swap.
        -- exfalso. destruct (touch b c x y z Nbc Nxy H1 H2 (XF x y E)) as [K|[K|[K|K]]].
           ++ apply (VF x); congruence || auto.
           ++ apply (VF y); congruence || auto.
           ++ apply (G x y b); congruence || auto.
           ++ apply (G x y c); congruence || auto.
Qed.
Definition mid (b c : P2) : P2 := V2 ((x2 b + x2 c) / 2) ((y2 b + y2 c) / 2).
Definition nrm (b c : P2) : P2 := V2 (- (y2 c - y2 b)) (x2 c - x2 b).
Definition dsub (a b : P2) : P2 := V2 (x2 a - x2 b) (y2 a - y2 b).
Definition crs (u v : P2) : R := x2 u * y2 v - x2 v * y2 u.
Lemma mid_T a b x y : T x y (mid a b) = (T x y a + T x y b) / 2.
Proof. unfold tri_area2, mid; cbn [x2 y2]. field. Qed.
Lemma mid_T2 b c x : T b (mid b c) x = T b c x / 2.
Proof. unfold tri_area2, mid; cbn [x2 y2]. field. Qed.
Lemma mid_T3 b c x : T c (mid b c) x = T c b x / 2.
Proof. unfold tri_area2, mid; cbn [x2 y2]. field. Qed.
Lemma mid_sym a b : mid a b = mid b a.
Proof. unfold mid. f_equal; field. Qed.
Lemma sq_pos x : x <> 0 -> 0 < x * x.
Proof. intros. nra. Qed.
Lemma prod_cases x y : x <> 0 -> y <> 0 -> 0 < x * y \/ x * y < 0.
Proof. intros Hx Hy. destruct (Rtotal_order (x * y) 0) as [H|[H|H]]; auto. apply Rmult_integral in H. tauto. Qed.
Lemma mid_at b c : mid b c = at_ b c (/ 2).
Proof. apply v2_ext; cbn [mid at_ x2 y2]; field. Qed.
(** from the vertex [b], halfway along a free segment to another vertex, no edge away from [b] is met *)
Lemma free_half P b c x y : gp P -> (2 <= length P)%nat -> In b P -> In c P -> b <> c -> free P b c -> edge P x y -> x <> b -> y <> b -> nocross b (mid b c) x y.
Proof.
  intros G HL Ib Ic Nbc HF He Nx Ny. destruct (meet_or_apart b (mid b c) x y) as [H|(z & (t & Ht & Ez) & H2)]; [exact H|exfalso].
  assert (Ez' : z = at_ b c (t / 2)). { rewrite Ez, mid_at. rewrite <- (at_0 b c) at 1. rewrite at_at. f_equal. field. }
  assert (H1 : on b c z) by (exists (t / 2); split; [lra|exact Ez']).
  destruct (free_meet P b c x y z G HL Ib Ic Nbc HF He H1 H2) as [[[K|K] K']|[K|K]]; try (destruct K; congruence).
  - destruct K'; congruence.
  - rewrite <- (at_1 b c) in K. rewrite Ez' in K. apply (at_inj _ _ _ _ Nbc) in K. lra.
Qed.
Lemma slide P a b c t d (m : R -> P2) : gp P -> (3 <= length P)%nat -> corner P a b c -> In t P -> t <> b -> free P b t -> limp m (mid b t) ->
  ev (fun e => nocross (mv b e d) (m e) a b) -> ev (fun e => nocross (mv b e d) (m e) b c) -> ev (fun e => winding P (m e) = winding P (mv b e d)).
Proof.
  intros G HL HC It Nt HF Hm Hab Hbc. destruct (corner_In _ _ _ _ HC) as (Ia & Ib & Ic).
  apply (ev_imp (fun e => forall xy, In xy (edges P) -> nocross (mv b e d) (m e) (fst xy) (snd xy))).
  { intros e _ H. apply winding_move. intros x y He. exact (H (x, y) He). }
  apply ev_list. intros [x y] He. cbn [fst snd]. destruct (corner_edges P a b c x y (proj1 G) HC He) as [[-> ->]|[[-> ->]|[Nx Ny]]]; [exact Hab|exact Hbc|].
  apply (nocross_near _ _ b (mid b t)); [apply limp_mv|exact Hm|]. apply (free_half P); auto. lia.
Qed.
(** three successive corners on a line run straight on *)
Lemma corner_straight P a b c : gp P -> corner P a b c -> T a b c = 0 -> exists s, 1 < s /\ c = at_ a b s.
Proof.
  intros G HC Z. destruct (corner_In _ _ _ _ HC) as (Ia & Ib & Ic). destruct (corner_distinct _ _ _ _ (proj1 G) HC) as (Nab & Nbc & Nac). destruct (corner_edge _ _ _ _ HC) as [Eab Ebc].
  destruct (on_line a b c Nab Z) as (s & Es). exists s. split; [|exact Es]. destruct (Rlt_le_dec 1 s) as [|L]; [assumption|exfalso]. destruct (Rle_lt_dec 0 s) as [L'|L'].
  - apply (proj2 G a b c Eab Ic); [congruence..|]. exists s. split; [lra|exact Es].
  - apply (proj2 G b c a Ebc Ia); [congruence..|]. exists (/ (1 - s)). split.
    + split; [left; apply Rinv_0_lt_compat; lra|]. rewrite <- Rinv_1 at 2. apply Rinv_le_contravar; lra.
    + rewrite Es, at_tail. replace (1 + / (1 - s) * (s - 1)) with 0 by (field; lra). now rewrite at_0.
Qed.
Lemma T_mv a b x e d : T a b (mv x e d) = T a b x + e * crs (dsub b a) d.
Proof. unfold tri_area2, mv, crs, dsub; cbn [x2 y2]. ring. Qed.
Lemma T_mv_b a b e d : T a b (mv b e d) = e * crs (dsub b a) d.
Proof. unfold tri_area2, mv, crs, dsub; cbn [x2 y2]. ring. Qed.
Lemma T_mv_a a b e d : T a b (mv a e d) = e * crs (dsub b a) d.
Proof. unfold tri_area2, mv, crs, dsub; cbn [x2 y2]. ring. Qed.
Lemma T_mv_q b e d m : T (mv b e d) m b = e * crs d (dsub m b).
Proof. unfold tri_area2, mv, crs, dsub; cbn [x2 y2]. ring. Qed.
Lemma T_mid_nrm b c k : T b c (mv (mid b c) k (nrm b c)) = k * (x2 (dsub c b) * x2 (dsub c b) + y2 (dsub c b) * y2 (dsub c b)).
Proof. unfold tri_area2, mv, mid, nrm, dsub; cbn [x2 y2]. field. Qed.
Definition dp (a b c : P2) : P2 := V2 ((x2 a - x2 b) + (x2 c - x2 b)) ((y2 a - y2 b) + (y2 c - y2 b)).
Definition dm (a b c : P2) : P2 := V2 (- ((x2 a - x2 b) + 2 * (x2 c - x2 b))) (- ((y2 a - y2 b) + 2 * (y2 c - y2 b))).
Definition sp (e : R) (a b c : P2) : P2 := mv b e (dp a b c).
Definition sn (e : R) (a b c : P2) : P2 := mv b e (dm a b c).
Definition ms (k e : R) (b c : P2) : P2 := mv (mid b c) (k * e) (nrm b c).
Lemma crs_dp1 a b c : crs (dsub b a) (dp a b c) = T a b c.
Proof. unfold crs, dsub, dp, tri_area2; cbn [x2 y2]. ring. Qed.
Lemma crs_dp2 a b c : crs (dsub c b) (dp a b c) = T a b c.
Proof. unfold crs, dsub, dp, tri_area2; cbn [x2 y2]. ring. Qed.
Lemma crs_dm1 a b c : crs (dsub b a) (dm a b c) = - 2 * T a b c.
Proof. unfold crs, dsub, dm, tri_area2; cbn [x2 y2]. ring. Qed.
Lemma crs_dm2 a b c : crs (dsub c b) (dm a b c) = - T a b c.
Proof. unfold crs, dsub, dm, tri_area2; cbn [x2 y2]. ring. Qed.
Lemma crs_nrm b c d k : crs (dsub b c) (V2 (k * x2 d) (k * y2 d)) = k * crs (dsub b c) d.
Proof. unfold crs, dsub. cbn [x2 y2]. ring. Qed.
Lemma T_ms_out a b s k e : T a b (ms k e b (at_ a b s)) = k * e * (s - 1) * ((x2 b - x2 a) * (x2 b - x2 a) + (y2 b - y2 a) * (y2 b - y2 a)).
Proof. unfold tri_area2, ms, mv, mid, nrm, at_; cbn [x2 y2]. field. Qed.
Lemma T_ms_in a b s k e : T b (at_ a b s) (ms k e a b) = k * e * (s - 1) * ((x2 b - x2 a) * (x2 b - x2 a) + (y2 b - y2 a) * (y2 b - y2 a)).
Proof. unfold tri_area2, ms, mv, mid, nrm, at_; cbn [x2 y2]. field. Qed.
(** along the edge that leaves the vertex *)
Lemma slide_out P a b c d k : gp P -> simple P -> (3 <= length P)%nat -> corner P a b c -> 0 < k * crs (dsub c b) d ->
  0 < T a b c * crs (dsub b a) d \/ 0 < - crs (dsub c b) d * T a b c \/ (T a b c = 0 /\ 0 < k * crs (dsub b a) d) ->
  ev (fun e => winding P (ms k e b c) = winding P (mv b e d)).
Proof.
  intros G S HL HC Hk HT. destruct (corner_In _ _ _ _ HC) as (Ia & Ib & Ic). destruct (corner_distinct _ _ _ _ (proj1 G) HC) as (Nab & Nbc & Nac).
  destruct (corner_edge _ _ _ _ HC) as [Eab Ebc]. assert (LM : limp (fun e => ms k e b c) (mid b c)) by apply limp_mvk.
  apply (slide P a b c c d); auto.
  - now apply edge_free.
  - (* the edge that arrives *)
    destruct HT as [HT|[HT|[HT Hk']]].
    + apply (ev_imp (fun e => 0 < crs (dsub b a) d * T a b (ms k e b c))).
      * intros e He H. apply nocross_l. rewrite T_mv_b. rewrite Rmult_assoc. now apply mul_pp.
      * eapply lim_pos; [apply lim_mul; [apply lim_const|apply lim_T; [apply limp_const|apply limp_const|exact LM]]|].
        rewrite mid_T. replace (T a b b) with 0 by (unfold tri_area2; ring). lra.
    + apply (ev_imp (fun e => 0 < T (mv b e d) (ms k e b c) a * crs d (dsub (ms k e b c) b))).
      * intros e He H. apply nocross_r. rewrite T_mv_q. pose proof (mul_pp _ _ He H). lra.
      * eapply lim_pos; [apply lim_mul; [apply lim_T; [apply limp_mv|exact LM|apply limp_const]|]|].
        -- unfold crs, dsub. cbn [x2 y2]. destruct LM as [LM1 LM2]. repeat first [apply lim_const|exact LM1|exact LM2|apply lim_sub|apply lim_mul].
        -- rewrite mid_T2. rewrite (T_rot a b c).
           replace (x2 d * (y2 (mid b c) - y2 b) - (x2 (mid b c) - x2 b) * y2 d) with (- crs (dsub c b) d / 2) by (unfold crs, dsub, mid; cbn [x2 y2]; field). lra.
    + destruct (corner_straight P a b c G HC HT) as (s & Hs & ->). apply ev_all. intros e He. apply nocross_l. rewrite T_mv_b, T_ms_out. pose proof (dsub_pos a b Nab) as Hp.
      set (w := (x2 b - x2 a) * (x2 b - x2 a) + (y2 b - y2 a) * (y2 b - y2 a)) in *. set (v := crs (dsub b a) d) in *.
      replace (e * v * (k * e * (s - 1) * w)) with ((e * e) * ((k * v) * ((s - 1) * w))) by ring. apply mul_pp; [now apply mul_pp|]. apply mul_pp; [exact Hk'|]. apply mul_pp; lra.
  - (* the edge itself *)
    apply ev_all. intros e He. apply nocross_l. rewrite T_mv_a. unfold ms. rewrite T_mid_nrm. pose proof (dsub_pos b c Nbc) as Hp. unfold dsub at 2 3 4 5. cbn [x2 y2].
    replace (e * crs (dsub c b) d * (k * e * ((x2 c - x2 b) * (x2 c - x2 b) + (y2 c - y2 b) * (y2 c - y2 b))))
      with ((e * e) * ((k * crs (dsub c b) d) * ((x2 c - x2 b) * (x2 c - x2 b) + (y2 c - y2 b) * (y2 c - y2 b)))) by ring.
    apply mul_pp; [now apply mul_pp|now apply mul_pp].
Qed.
(** along the edge that arrives at the vertex *)
Lemma slide_in P a b c d k : gp P -> simple P -> (3 <= length P)%nat -> corner P a b c -> 0 < k * crs (dsub b a) d ->
  0 < T a b c * crs (dsub c b) d \/ 0 < - crs (dsub b a) d * T a b c \/ (T a b c = 0 /\ 0 < k * crs (dsub c b) d) ->
  ev (fun e => winding P (ms k e a b) = winding P (mv b e d)).
Proof.
  intros G S HL HC Hk HT. destruct (corner_In _ _ _ _ HC) as (Ia & Ib & Ic). destruct (corner_distinct _ _ _ _ (proj1 G) HC) as (Nab & Nbc & Nac).
  destruct (corner_edge _ _ _ _ HC) as [Eab Ebc]. assert (LM : limp (fun e => ms k e a b) (mid b a)) by (rewrite mid_sym; apply limp_mvk).
  apply (slide P a b c a d); auto.
  - split.
    + intros x y He [H1 H2]. apply (S a b Eab x y He). split.
      * rewrite (T_swap b a x), (T_swap b a y). lra.
      * lra.
    + intros v Iv N1 N2 K. apply (proj2 G a b v Eab Iv N2 N1). now apply on_swap.
  - apply ev_all. intros e He. apply nocross_l. rewrite T_mv_b. unfold ms. rewrite T_mid_nrm. pose proof (dsub_pos a b Nab) as Hp. unfold dsub at 2 3 4 5. cbn [x2 y2].
    replace (e * crs (dsub b a) d * (k * e * ((x2 b - x2 a) * (x2 b - x2 a) + (y2 b - y2 a) * (y2 b - y2 a))))
      with ((e * e) * ((k * crs (dsub b a) d) * ((x2 b - x2 a) * (x2 b - x2 a) + (y2 b - y2 a) * (y2 b - y2 a)))) by ring.
    apply mul_pp; [now apply mul_pp|now apply mul_pp].
  - destruct HT as [HT|[HT|[HT Hk']]].
    + apply (ev_imp (fun e => 0 < crs (dsub c b) d * T b c (ms k e a b))).
      * intros e He H. apply nocross_l. rewrite T_mv_a. rewrite Rmult_assoc. now apply mul_pp.
      * eapply lim_pos; [apply lim_mul; [apply lim_const|apply lim_T; [apply limp_const|apply limp_const|exact LM]]|].
        rewrite mid_T. replace (T b c b) with 0 by (unfold tri_area2; ring). rewrite T_rot. lra.
    + apply (ev_imp (fun e => 0 < T (mv b e d) (ms k e a b) c * crs d (dsub (ms k e a b) b))).
      * intros e He H. apply nocross_r. rewrite T_mv_q. pose proof (mul_pp _ _ He H). lra.
      * eapply lim_pos; [apply lim_mul; [apply lim_T; [apply limp_mv|exact LM|apply limp_const]|]|].
        -- unfold crs, dsub. cbn [x2 y2]. destruct LM as [LM1 LM2]. repeat first [apply lim_const|exact LM1|exact LM2|apply lim_sub|apply lim_mul].
        -- rewrite mid_T2. rewrite (T_swap a b c).
           replace (x2 d * (y2 (mid b a) - y2 b) - (x2 (mid b a) - x2 b) * y2 d) with (crs (dsub b a) d / 2) by (unfold crs, dsub, mid; cbn [x2 y2]; field). lra.
    + destruct (corner_straight P a b c G HC HT) as (s & Hs & ->). apply ev_all. intros e He. apply nocross_l. rewrite T_mv_a, T_ms_in. pose proof (dsub_pos a b Nab) as Hp.
      set (w := (x2 b - x2 a) * (x2 b - x2 a) + (y2 b - y2 a) * (y2 b - y2 a)) in *. set (v := crs (dsub (at_ a b s) b) d) in *.
      replace (e * v * (k * e * (s - 1) * w)) with ((e * e) * ((k * v) * ((s - 1) * w))) by ring. apply mul_pp; [now apply mul_pp|]. apply mul_pp; [exact Hk'|]. apply mul_pp; lra.
Qed.
(** from one side of the polygon to the other, in the middle of an edge *)
Lemma T_ms_ends b c e : let w := (x2 c - x2 b) * (x2 c - x2 b) + (y2 c - y2 b) * (y2 c - y2 b) in
  T (ms (- (1)) e b c) (ms 1 e b c) b = e * w /\ T (ms (- (1)) e b c) (ms 1 e b c) c = - (e * w).
Proof. unfold ms, mv, mid, nrm, tri_area2; cbn [x2 y2]. split; field. Qed.
Lemma jump P b c : gp P -> simple P -> (3 <= length P)%nat -> edge P b c -> ev (fun e => winding P (ms 1 e b c) = winding P (ms (- (1)) e b c) + 1).
Proof.
  intros G S HL E. destruct (edge_rot P b c ltac:(lia) E) as (l & Hl). destruct (edge_In _ _ _ E) as [Ib Ic]. pose proof (edge_neq P b c (proj1 G) ltac:(lia) E) as Nbc.
  assert (R : rotof P (c :: l ++ [b])) by (eapply rotof_trans; [exact Hl|apply (rotof_cons b)]). pose proof (dsub_pos b c Nbc) as Hp. unfold ms.
  apply (ev_imp (fun e => forall xy, In xy (links (c :: l ++ [b])) -> nocross (ms (- (1)) e b c) (ms 1 e b c) (fst xy) (snd xy))).
  - intros e He H. pose proof (T_ms_ends b c e) as K. cbv zeta in K. destruct K as [K1 K2].
    set (w := (x2 c - x2 b) * (x2 c - x2 b) + (y2 c - y2 b) * (y2 c - y2 b)) in *.
    apply (winding_cross P _ _ b c l R).
    + intros x y Hxy. exact (H (x, y) Hxy).
    + rewrite T_mid_nrm. unfold dsub. cbn [x2 y2]. fold w. pose proof (mul_pp e w He Hp). lra.
    + rewrite T_mid_nrm. unfold dsub. cbn [x2 y2]. fold w. pose proof (mul_pp e w He Hp). lra.
    + fold (ms (- (1)) e b c) (ms 1 e b c). rewrite K1, K2. pose proof (mul_pp e w He Hp) as Hq. pose proof (mul_pp _ _ Hq Hq). lra.
  - apply ev_list. intros [x y] Hxy. cbn [fst snd].
    assert (He : edge P x y).
    { apply (rotof_edge _ _ _ _ R). unfold edge, edges. cbn [app] in *. rewrite <- app_assoc. cbn [app].
      change (c :: l ++ [b; c]) with ((c :: l) ++ b :: [c]). rewrite links_app. apply in_or_app. now left. }
    pose proof (Permutation_NoDup (rotof_perm _ _ R) (proj1 G)) as ND. pose proof (Permutation_length (rotof_perm _ _ R)) as HLr. cbn [length] in HLr. rewrite app_length in HLr. cbn [length] in HLr.
    apply (nocross_near _ _ (mid b c) (mid b c)); [apply limp_mvk|apply limp_mvk|].
    destruct (meet_or_apart (mid b c) (mid b c) x y) as [K|(z & (t & Ht & Ez) & H2)]; [exact K|exfalso].
    assert (Ez' : z = at_ b c (/ 2)). { rewrite Ez, mid_at, at_at. f_equal. ring. }
    assert (H1 : on b c z) by (exists (/ 2); split; [lra|exact Ez']).
    destruct (free_meet P b c x y z G ltac:(lia) Ib Ic Nbc (edge_free P b c G S E) He H1 H2) as [[[K|K] _]|[[<- <-]|[<- <-]]].
    + rewrite <- (at_0 b c) in K. rewrite Ez' in K. apply (at_inj _ _ _ _ Nbc) in K. lra.
    + rewrite <- (at_1 b c) in K. rewrite Ez' in K. apply (at_inj _ _ _ _ Nbc) in K. lra.
    + (* the edge itself is not among the others *)
      inversion ND as [|? ? N1 N2]; subst. apply links_split in Hxy as (u & v & Eu). destruct u as [|u0 u]; cbn [app] in Eu; injection Eu; [congruence|].
      intros Eu' <-. apply N1. rewrite Eu'. apply in_or_app. right. right. now left.
    + inversion ND as [|? ? N1 N2]; subst. destruct l as [|l0 l]; [cbn in HLr; lia|]. cbn [app] in Hxy. destruct Hxy as [Hxy|Hxy].
      * injection Hxy as ->. inversion N2 as [|? ? N3 _]; subst. apply N3. apply in_or_app. right. now left.
      * apply links_In in Hxy as [Hxy _]. contradiction.
Qed.
(** *** The two sides *)
(** the sample next to a vertex on the left, on the right *)
Definition lft (e : R) (a b c : P2) : P2 := if Rlt_dec 0 (T a b c) then sp e a b c else if Rlt_dec (T a b c) 0 then sn e a b c else mv b e (nrm a c).
Definition rgt (e : R) (a b c : P2) : P2 := if Rlt_dec 0 (T a b c) then sn e a b c else if Rlt_dec (T a b c) 0 then sp e a b c else mv b e (nrm c a).
(** the winding number is [k] along the right side and [k + 1] along the left side *)
Definition sides (P : list P2) (k e : R) : Prop :=
  (forall b c, edge P b c -> winding P (ms 1 e b c) = k + 1 /\ winding P (ms (- (1)) e b c) = k) /\
  (forall a b c, corner P a b c -> winding P (lft e a b c) = k + 1 /\ winding P (rgt e a b c) = k).
Lemma corner_iff {A} (P : list A) a b c : NoDup P -> (3 <= length P)%nat -> corner P a b c <-> edge P a b /\ edge P b c.
Proof.
  intros ND HL. split; [apply corner_edge|]. intros [H1 H2]. destruct (edge_prev P b c HL H2) as (a' & HC).
  destruct (corner_edges P a' b c a b ND HC H1) as [[-> _]|[[E _]|[_ E]]]; [exact HC| |congruence]. subst a. exfalso. revert H1. intros H1. apply (edge_neq P b b ND) in H1; [congruence|lia].
Qed.
Lemma corner_list (P : list P2) : NoDup P -> (3 <= length P)%nat -> exists cs : list (P2 * P2 * P2), forall a b c, corner P a b c <-> In (a, b, c) cs.
Proof.
  intros ND HL.
  set (al := list_prod (list_prod P P) P).
  assert (D : forall (l : list (P2 * P2 * P2)), exists cs, forall x, In x cs <-> In x l /\ corner P (fst (fst x)) (snd (fst x)) (snd x)).
  { induction l as [|x l (cs & IH)]; [exists []; cbn; tauto|].
    assert (DC : corner P (fst (fst x)) (snd (fst x)) (snd x) \/ ~ corner P (fst (fst x)) (snd (fst x)) (snd x)).
    { destruct x as [[a b] c]. cbn [fst snd]. rewrite !(corner_iff P a b c ND HL). unfold edge.
      assert (Dp : forall u v : P2 * P2, {u = v} + {u <> v}) by (decide equality; apply classic_eq).
      destruct (in_dec Dp (a, b) (edges P)), (in_dec Dp (b, c) (edges P)); tauto. }
    destruct DC as [DC|DC]; [exists (x :: cs)|exists cs]; intros y; cbn [In]; rewrite IH; split; intuition (subst; auto). exfalso; auto. }
  destruct (D al) as (cs & H). exists cs. intros a b c. rewrite H. cbn [fst snd]. split; [|tauto]. intros HC. split; [|exact HC].
  destruct (corner_In _ _ _ _ HC) as (Ia & Ib & Ic). apply in_prod; [apply in_prod|]; assumption.
Qed.
Lemma crs_straight a b s : crs (dsub b a) (nrm a (at_ a b s)) = s * ((x2 b - x2 a) * (x2 b - x2 a) + (y2 b - y2 a) * (y2 b - y2 a)) /\
  crs (dsub (at_ a b s) b) (nrm a (at_ a b s)) = (s - 1) * s * ((x2 b - x2 a) * (x2 b - x2 a) + (y2 b - y2 a) * (y2 b - y2 a)).
Proof. unfold crs, dsub, nrm, at_; cbn [x2 y2]. split; ring. Qed.
Lemma crs_nrm_swap u a c : crs u (nrm c a) = - crs u (nrm a c).
Proof. unfold crs, nrm; cbn [x2 y2]. ring. Qed.
Lemma corner_slides P a b c : gp P -> simple P -> (3 <= length P)%nat -> corner P a b c -> ev (fun e =>
  (winding P (ms 1 e b c) = winding P (lft e a b c) /\ winding P (ms (- (1)) e b c) = winding P (rgt e a b c)) /\
  (winding P (ms 1 e a b) = winding P (lft e a b c) /\ winding P (ms (- (1)) e a b) = winding P (rgt e a b c))).
Proof.
  intros G S HL HC. unfold lft, rgt. destruct (Rlt_dec 0 (T a b c)) as [K|K]; [|destruct (Rlt_dec (T a b c) 0) as [K'|K']].
  - pose proof (mul_pp _ _ K K) as HTT.
    pose proof (slide_out P a b c (dp a b c) 1 G S HL HC ltac:(rewrite crs_dp2; lra) ltac:(left; rewrite crs_dp1; lra)) as A1.
    pose proof (slide_out P a b c (dm a b c) (- (1)) G S HL HC ltac:(rewrite crs_dm2; lra) ltac:(right; left; rewrite crs_dm2; lra)) as A2.
    pose proof (slide_in P a b c (dp a b c) 1 G S HL HC ltac:(rewrite crs_dp1; lra) ltac:(left; rewrite crs_dp2; lra)) as A3.
    pose proof (slide_in P a b c (dm a b c) (- (1)) G S HL HC ltac:(rewrite crs_dm1; lra) ltac:(right; left; rewrite crs_dm1; lra)) as A4.
    exact (ev_and _ _ (ev_and _ _ A1 A2) (ev_and _ _ A3 A4)).
  - assert (HTT : 0 < T a b c * T a b c) by nra.
    pose proof (slide_out P a b c (dp a b c) (- (1)) G S HL HC ltac:(rewrite crs_dp2; lra) ltac:(left; rewrite crs_dp1; lra)) as A1.
    pose proof (slide_out P a b c (dm a b c) 1 G S HL HC ltac:(rewrite crs_dm2; lra) ltac:(right; left; rewrite crs_dm2; lra)) as A2.
    pose proof (slide_in P a b c (dp a b c) (- (1)) G S HL HC ltac:(rewrite crs_dp1; lra) ltac:(left; rewrite crs_dp2; lra)) as A3.
    pose proof (slide_in P a b c (dm a b c) 1 G S HL HC ltac:(rewrite crs_dm1; lra) ltac:(right; left; rewrite crs_dm1; lra)) as A4.
    exact (ev_and _ _ (ev_and _ _ A2 A1) (ev_and _ _ A4 A3)).
  - assert (Z : T a b c = 0) by lra. destruct (corner_straight P a b c G HC Z) as (s & Hs & Ec). destruct (corner_distinct _ _ _ _ (proj1 G) HC) as (Nab & _ & _).
    destruct (crs_straight a b s) as [C1 C2]. rewrite <- Ec in C1, C2. pose proof (dsub_pos a b Nab) as Hp. set (w := (x2 b - x2 a) * (x2 b - x2 a) + (y2 b - y2 a) * (y2 b - y2 a)) in *.
    assert (X1 : 0 < crs (dsub b a) (nrm a c)) by (rewrite C1; apply mul_pp; lra).
    assert (X2 : 0 < crs (dsub c b) (nrm a c)) by (rewrite C2; apply mul_pp; [apply mul_pp|]; lra).
    pose proof (slide_out P a b c (nrm a c) 1 G S HL HC ltac:(lra) ltac:(right; right; split; [exact Z|lra])) as A1.
    pose proof (slide_out P a b c (nrm c a) (- (1)) G S HL HC ltac:(rewrite crs_nrm_swap; lra) ltac:(right; right; split; [exact Z|rewrite crs_nrm_swap; lra])) as A2.
    pose proof (slide_in P a b c (nrm a c) 1 G S HL HC ltac:(lra) ltac:(right; right; split; [exact Z|lra])) as A3.
    pose proof (slide_in P a b c (nrm c a) (- (1)) G S HL HC ltac:(rewrite crs_nrm_swap; lra) ltac:(right; right; split; [exact Z|rewrite crs_nrm_swap; lra])) as A4.
    exact (ev_and _ _ (ev_and _ _ A1 A2) (ev_and _ _ A3 A4)).
Qed.
Theorem two_sides P : gp P -> simple P -> (3 <= length P)%nat -> ev (fun e => exists k, sides P k e).
Proof.
  intros G S HL. destruct (corner_list P (proj1 G) HL) as (cs & Hcs).
  assert (K1 : ev (fun e => forall x, In x cs -> let '(a, b, c) := x in
    (winding P (ms 1 e b c) = winding P (lft e a b c) /\ winding P (ms (- (1)) e b c) = winding P (rgt e a b c)) /\
    (winding P (ms 1 e a b) = winding P (lft e a b c) /\ winding P (ms (- (1)) e a b) = winding P (rgt e a b c)))).
  { apply ev_list. intros [[a b] c] HC. apply Hcs in HC. now apply corner_slides. }
  assert (K2 : ev (fun e => forall x, In x (edges P) -> winding P (ms 1 e (fst x) (snd x)) = winding P (ms (- (1)) e (fst x) (snd x)) + 1)).
  { apply ev_list. intros [b c] E. now apply jump. }
  eapply ev_imp; [|exact (ev_and _ _ K1 K2)]. cbv beta. clear K1 K2. intros e He [K1 K2].
  assert (HL' : forall a b c, corner P a b c ->
    (winding P (ms 1 e b c) = winding P (lft e a b c) /\ winding P (ms (- (1)) e b c) = winding P (rgt e a b c)) /\
    (winding P (ms 1 e a b) = winding P (lft e a b c) /\ winding P (ms (- (1)) e a b) = winding P (rgt e a b c))).
  { intros a b c HC. exact (K1 (a, b, c) (proj1 (Hcs a b c) HC)). }
  assert (CL : forall a b c, corner P a b c -> winding P (ms 1 e a b) = winding P (ms 1 e b c)) by (intros a b c HC; destruct (HL' a b c HC) as ((-> & ?) & -> & ?); reflexivity).
  assert (CR : forall a b c, corner P a b c -> winding P (ms (- (1)) e a b) = winding P (ms (- (1)) e b c)) by (intros a b c HC; destruct (HL' a b c HC) as ((? & ->) & ? & ->); reflexivity).
  destruct P as [|x [|y [|z v]]] eqn:EP; [cbn in HL; lia..|]. rewrite <- EP in *.
  assert (Exy : edge P x y) by (rewrite EP; left; reflexivity).
  assert (ED : forall b c, edge P b c -> winding P (ms 1 e b c) = winding P (ms (- (1)) e x y) + 1 /\ winding P (ms (- (1)) e b c) = winding P (ms (- (1)) e x y)).
  { intros b c Hbc. pose proof (edges_const (fun a b => winding P (ms (- (1)) e a b)) P HL CR b c x y Hbc Exy) as E2. cbn beta in E2. pose proof (K2 (b, c) Hbc) as E1. cbn [fst snd] in E1. rewrite E1, E2. auto. }
  exists (winding P (ms (- (1)) e x y)). split; [exact ED|].
  intros a b c HC. destruct (HL' _ _ _ HC) as ((A1 & B1) & _). destruct (corner_edge _ _ _ _ HC) as [_ Hbc]. destruct (ED b c Hbc) as [E1 E2]. rewrite <- A1, <- B1. auto.
Qed.
