(** Property C72: knot insertion, splitting and decomposition into Bezier pieces, in doubles. *)
From Coq Require Import ZArith NArith Reals Lra Lia List Bool Arith Floats.SpecFloat Psatz Permutation.
From Verif Require Import Prelude Num M_vec M_utils M_curve L_base L_vec L_bezier L_cdb L_knot L_bspline L_float L_grid L_err L_bserr L_cycle L_geom L_polygon Props_utils Props_polygon Props_knot Props_bezier Props_bspline Props_split Props_accuracy Props_robust.
Open Scope R_scope.

(** ** The insertion ratio *)
Lemma coef64' (a b u : f64) : moderate_knot a -> moderate_knot b -> moderate_knot u -> val b <= val u <= val a -> (val a <> val b -> apart (val a) (val b)) ->
  let g := (val u - val b) * ratio 1 (val a - val b) in
  num64 (fmul (fsub u b) (inv_or_zero (fsub a b))) /\ 0 <= g <= 1 /\ Rabs (val (fmul (fsub u b) (inv_or_zero (fsub a b))) - g) <= 8 * eps.
Proof.
  intros Ka Kb Ku Hu Hs. assert (Hab : val b <= val a) by lra. pose proof eta_pos as H0. pose proof eta_small as H1. pose proof pow2_500 as P5. pose proof pow2_1000_1023 as P6. pose proof big_pow2 as P7.
  destruct (inv64 a b Ka Kb Hab Hs) as (Ni & Bi & Ei). destruct (diff64 u b Ku Kb) as [Nn [En Zn]].
  set (ih := val (inv_or_zero (fsub a b))) in *. set (nh := val (fsub u b)) in *. set (n := val u - val b) in *.
  assert (Bn : Rabs n <= 2 * pow2 500).
  { destruct Kb as [_ Kb]. destruct Ku as [_ Ku]. unfold n. pose proof (Rabs_triang (val u) (- val b)) as K. rewrite Rabs_Ropp in K. unfold Rminus. lra. }
  assert (Bnh : Rabs nh <= 3 * pow2 500).
  { replace nh with (n + (nh - n)) by ring. eapply Rle_trans; [apply Rabs_triang|]. unfold eps in *. lra. }
  assert (Pr : Rabs (nh * ih) < pow2 1023).
  { rewrite Rmult_comm, Rabs_mult. apply Rle_lt_trans with (2251799813685248 * (3 * pow2 500)); [apply Rmult_le_compat; auto using Rabs_pos|]. lra. }
  destruct (mul64 _ _ Nn Ni Pr) as [Nm [Em _]]. fold ih nh in Em. cbv zeta. split; [exact Nm|].
  destruct (Req_dec (val a) (val b)) as [E|NE].
  - assert (n = 0) by (unfold n; lra). destruct (diff64_zero u b (proj1 Ku) (proj1 Kb) ltac:(unfold n in *; lra)) as [_ V0]. fold nh in V0. rewrite H. rewrite V0 in Em. rewrite Rmult_0_l, Rabs_R0 in Em. rewrite Rmult_0_l. split; [lra|].
    rewrite !Rminus_0_r in *. rewrite Rmult_0_r, Rplus_0_l in Em. eapply Rle_trans; [exact Em|]. unfold eps in *. lra.
  - assert (L : val b < val a) by lra. specialize (Ei L).
    set (d := val a - val b) in *. set (id := / d) in *. assert (Pd : 0 < d) by (unfold d; lra). assert (Pid : 0 < id) by (apply Rinv_0_lt_compat; exact Pd).
    assert (RT : ratio 1 d = id). { unfold ratio. destruct (Req_EM_T d 0); [lra|]. unfold id. lra. } rewrite RT.
    assert (Bid : id <= 1125899906842624).
    { specialize (Hs NE). unfold apart in Hs. assert (M1 : 1 <= Rmax 1 (Rmax (Rabs (val a)) (Rabs (val b)))) by apply Rmax_l. fold d in Hs. rewrite Rabs_right in Hs by lra.
      replace 1125899906842624 with (/ / 1125899906842624) by lra. apply Rinv_le_contravar; lra. }
    assert (Hn : 0 <= n <= d) by (unfold n, d; lra). rewrite (Rabs_right n) in En by lra.
    assert (Hr : 0 <= n * id <= 1).
    { split; [apply Rmult_le_pos; lra|]. apply Rle_trans with (d * id); [apply Rmult_le_compat_r; lra|]. unfold id. rewrite Rinv_r by lra. lra. }
    split; [exact Hr|].
    assert (HE : eta * id <= eps / 4).
    { apply Rle_trans with (eps * eps * 1125899906842624); [apply Rmult_le_compat; lra|]. unfold eps. lra. }
    assert (HE0 : 0 <= eta * id) by (apply Rmult_le_pos; lra).
    assert (Bn2 : Rabs nh <= n * (1 + eps) + eta) by (pose proof (abs_between _ _ _ En); apply Rabs_le; unfold eps in *; lra).
    assert (D : Rabs (nh * ih - n * id) <= 13 / 2 * eps).
    { replace (nh * ih - n * id) with ((ih - id) * nh + (nh - n) * id) by ring. eapply Rle_trans; [apply Rabs_triang|]. rewrite !Rabs_mult, (Rabs_right id) by lra.
      assert (T1 : Rabs (ih - id) * Rabs nh <= 5 * eps * id * (n * (1 + eps) + eta)) by (apply Rmult_le_compat; auto using Rabs_pos).
      assert (T2 : Rabs (nh - n) * id <= (eps * n + eta) * id) by (apply Rmult_le_compat_r; lra).
      replace (5 * eps * id * (n * (1 + eps) + eta)) with (5 * eps * ((1 + eps) * (n * id) + eta * id)) in T1 by ring. replace ((eps * n + eta) * id) with (eps * (n * id) + eta * id) in T2 by ring.
      unfold eps in *. lra. }
    assert (Mg : Rabs (nh * ih) <= 1 + 13 / 2 * eps).
    { replace (nh * ih) with (n * id + (nh * ih - n * id)) by ring. eapply Rle_trans; [apply Rabs_triang|]. rewrite (Rabs_right (n * id)) by lra. lra. }
    match goal with |- Rabs (?x - _) <= _ => replace (x - n * id) with ((x - nh * ih) + (nh * ih - n * id)) by ring end.
    eapply Rle_trans; [apply Rabs_triang|]. unfold eps in *. lra.
Qed.

(** ** One new coordinate *)
Lemma scale_ok M : pow2 (-900) <= M <= pow2 900 -> 0 < M /\ eta <= eps * M * / 1024 /\ 8 * M < pow2 1023.
Proof.
  intros [H1 H2]. pose proof (pow2_pos (-900)). split; [lra|]. split.
  - unfold eta. apply Rle_trans with (pow2 (-53) * pow2 (-900) * pow2 (-10)).
    + rewrite <- !pow2_add. apply pow2_le. lia.
    + rewrite <- eps_pow2. replace (pow2 (-10)) with (/ 1024). 2: { unfold pow2. change (powerRZ 2 (-10)) with (/ 2 ^ 10). f_equal. lra. }
      apply Rmult_le_compat_r; [lra|]. apply Rmult_le_compat_l; [apply Rlt_le, pow2_pos|exact H1].
  - apply Rle_lt_trans with (pow2 903); [|apply pow2_lt; lia]. change 903%Z with (3 + 900)%Z. rewrite pow2_add. replace (pow2 3) with 8 by (rewrite <- (pow2_Z 3) by lia; reflexivity). lra.
Qed.
Lemma mix_coord M E (q0 q1 a : f64) x0 x1 g : pow2 (-900) <= M <= pow2 900 -> 0 <= E <= M -> num64 q0 -> num64 q1 -> num64 a -> 0 <= g <= 1 -> Rabs (val a - g) <= 8 * eps ->
  Rabs x0 <= M -> Rabs x1 <= M -> Rabs (val q0 - x0) <= E -> Rabs (val q1 - x1) <= E ->
  let z := fadd (fmul q0 (fsub f1 a)) (fmul q1 a) in num64 z /\ Rabs (val z - (x0 * (1 - g) + x1 * g)) <= E + 64 * (eps * M) /\ Rabs (x0 * (1 - g) + x1 * g) <= M.
Proof.
  intros HM HE N0 N1 Na Hg Ha B0 B1 D0 D1 z. destruct (scale_ok M HM) as (PM & HEt & HMx). pose proof eta_pos as Pe.
  destruct (one_minus_err a g Na Hg Ha) as [Nb Hb]. set (b := fsub f1 a) in *. set (h := 1 - g) in *. assert (Hh : 0 <= h <= 1) by (unfold h; lra).
  assert (PE : 0 < eps) by (unfold eps; lra). assert (EM : 0 < eps * M) by (apply Rmult_lt_0_compat; assumption).
  assert (P : forall (q c : f64) x w k, num64 q -> num64 c -> 0 <= w <= 1 -> 0 <= k <= 10 -> Rabs (val c - w) <= k * eps -> Rabs x <= M -> Rabs (val q - x) <= E ->
    num64 (fmul q c) /\ Rabs (val (fmul q c) - x * w) <= E * w + 23 * (eps * M) /\ Rabs (val (fmul q c)) <= 3 * M).
  { intros q c x w k Nq Nc Hw Hk Hc Bx Dx. assert (Bq : Rabs (val q) <= 2 * M) by (replace (val q) with (x + (val q - x)) by ring; eapply Rle_trans; [apply Rabs_triang|]; lra).
    assert (Hc' : Rabs (val c - w) <= 10 * eps) by (eapply Rle_trans; [exact Hc|]; apply Rmult_le_compat_r; lra).
    assert (Bc : Rabs (val c) <= 1 + 10 * eps) by (replace (val c) with (w + (val c - w)) by ring; eapply Rle_trans; [apply Rabs_triang|]; rewrite (Rabs_right w) by lra; lra).
    assert (Bp : Rabs (val q * val c) <= 2 * M * (1 + 10 * eps)) by (rewrite Rabs_mult; apply Rmult_le_compat; auto using Rabs_pos).
    assert (Bp' : Rabs (val q * val c) <= 2 * M + 20 * (eps * M)) by lra.
    assert (S : eps * M <= M / 1024) by (unfold eps; lra).
    destruct (mul64 q c Nq Nc) as [Np [Ep _]]; [lra|]. split; [exact Np|].
    assert (D : Rabs (val q * val c - x * w) <= E * w + 20 * (eps * M)).
    { replace (val q * val c - x * w) with (val q * (val c - w) + (val q - x) * w) by ring. eapply Rle_trans; [apply Rabs_triang|]. rewrite !Rabs_mult, (Rabs_right w) by lra.
      assert (Rabs (val q) * Rabs (val c - w) <= 2 * M * (10 * eps)) by (apply Rmult_le_compat; auto using Rabs_pos). assert (Rabs (val q - x) * w <= E * w) by (apply Rmult_le_compat_r; lra). lra. }
    assert (R1 : Rabs (val (fmul q c) - val q * val c) <= 3 * (eps * M)).
    { eapply Rle_trans; [exact Ep|]. assert (eps * Rabs (val q * val c) <= eps * (2 * M + 20 * (eps * M))) by (apply Rmult_le_compat_l; lra). assert (eps * (20 * (eps * M)) <= eps * M / 2) by (unfold eps in *; lra). lra. }
    split.
    - replace (val (fmul q c) - x * w) with ((val (fmul q c) - val q * val c) + (val q * val c - x * w)) by ring. eapply Rle_trans; [apply Rabs_triang|]. lra.
    - replace (val (fmul q c)) with ((val (fmul q c) - val q * val c) + val q * val c) by ring. eapply Rle_trans; [apply Rabs_triang|]. lra. }
  destruct (P q0 b x0 h 10 N0 Nb Hh ltac:(lra) Hb B0 D0) as (Np0 & Ep0 & Bp0). destruct (P q1 a x1 g 8 N1 Na Hg ltac:(lra) Ha B1 D1) as (Np1 & Ep1 & Bp1). clear P.
  assert (X : Rabs (x0 * h + x1 * g) <= M).
  { eapply Rle_trans; [apply Rabs_triang|]. rewrite !Rabs_mult, (Rabs_right h), (Rabs_right g) by lra. assert (Rabs x0 * h <= M * h) by (apply Rmult_le_compat_r; lra). assert (Rabs x1 * g <= M * g) by (apply Rmult_le_compat_r; lra). unfold h in *. lra. }
  set (p0 := fmul q0 b) in *. set (p1 := fmul q1 a) in *.
  assert (D : Rabs (val p0 + val p1 - (x0 * h + x1 * g)) <= E + 46 * (eps * M)).
  { replace (val p0 + val p1 - (x0 * h + x1 * g)) with ((val p0 - x0 * h) + (val p1 - x1 * g)) by ring. eapply Rle_trans; [apply Rabs_triang|]. replace E with (E * h + E * g) by (unfold h; ring). lra. }
  assert (Bs : Rabs (val p0 + val p1) <= 6 * M) by (eapply Rle_trans; [apply Rabs_triang|]; lra).
  destruct (add64 p0 p1 Np0 Np1) as [Nz [Ez _]]; [lra|]. fold z in Nz, Ez. split; [exact Nz|]. split; [|exact X].
  replace (val z - (x0 * h + x1 * g)) with ((val z - (val p0 + val p1)) + (val p0 + val p1 - (x0 * h + x1 * g))) by ring. eapply Rle_trans; [apply Rabs_triang|].
  assert (eps * Rabs (val p0 + val p1) <= eps * (6 * M)) by (apply Rmult_le_compat_l; lra). lra.
Qed.

(** ** Lockstep of the computation in doubles and the exact one *)
Lemma foldM_sim {A B X} (f : A -> X -> outcome A) (g : B -> X -> outcome B) (I : list X -> A -> B -> Prop) :
  (forall x l a b b', I (x :: l) a b -> g b x = Ok b' -> exists a', f a x = Ok a' /\ I l a' b') ->
  forall l a b b', I l a b -> foldM g b l = Ok b' -> exists a', foldM f a l = Ok a' /\ I [] a' b'.
Proof.
  intros H. induction l as [|x l IH]; intros a b b' HI E; cbn [foldM] in *; [apply Ok_inj in E; subst b'; eauto|]. bindas E b1 E1. destruct (H x l a b b1 HI E1) as (a1 & -> & H1). cbn [obind]. exact (IH _ _ _ H1 E).
Qed.
Lemma idx_map {A B} (f : A -> B) l i b : idx (map f l) i = Ok b -> exists a, idx l i = Ok a /\ b = f a.
Proof. intros E. apply idx_Ok in E. rewrite nth_error_map in E. destruct (nth_error l i) as [a|] eqn:N; [|discriminate]. injection E as <-. exists a. split; [now apply idx_Ok|reflexivity]. Qed.
Lemma F2_rev {A B} (P : A -> B -> Prop) l m : Forall2 P l m -> Forall2 P (rev l) (rev m).
Proof. induction 1; cbn [rev]; [constructor|]. apply Forall2_app; [assumption|]. constructor; [assumption|constructor]. Qed.
Lemma F2_idx {A B} (P : A -> B -> Prop) l m i b : Forall2 P l m -> idx m i = Ok b -> exists a, idx l i = Ok a /\ P a b.
Proof.
  intros H. revert i. induction H as [|x y l m Hx _ IH]; intros i E; [now rewrite idx_Panic in E by (cbn; lia)|]. destruct i as [|i]; [cbn in E; apply Ok_inj in E; subst; exists x; now split|]. apply (IH i). exact E.
Qed.
Lemma F2_firstn {A B} (P : A -> B -> Prop) l m : Forall2 P l m -> forall n, Forall2 P (firstn n l) (firstn n m).
Proof. induction 1; intros [|n]; cbn [firstn]; constructor; auto. Qed.
Lemma F2_skipn {A B} (P : A -> B -> Prop) l m : Forall2 P l m -> forall n, Forall2 P (skipn n l) (skipn n m).
Proof. induction 1; intros [|n]; cbn [skipn]; auto. Qed.
Lemma F2_len {A B} (P : A -> B -> Prop) l m : Forall2 P l m -> length l = length m.
Proof. induction 1; cbn; auto. Qed.
Lemma F2_insert {A B} (P : A -> B -> Prop) l m i x y m' : Forall2 P l m -> P x y -> insert_at m i y = Ok m' -> exists l', insert_at l i x = Ok l' /\ Forall2 P l' m'.
Proof.
  intros H Hx E. apply insert_at_inv in E as [Hi ->]. rewrite <- (F2_len _ _ _ H) in Hi. exists (firstn i l ++ x :: skipn i l). split; [now apply insert_at_Ok|]. apply Forall2_app; [now apply F2_firstn|]. constructor; [exact Hx|now apply F2_skipn].
Qed.
Lemma F2_slice {A B} (P : A -> B -> Prop) l m a b m' : Forall2 P l m -> slice m a b = Ok m' -> exists l', slice l a b = Ok l' /\ Forall2 P l' m'.
Proof.
  intros H E. apply slice_inv in E as (H1 & H2 & ->). rewrite <- (F2_len _ _ _ H) in H2. eexists. split; [now apply slice_Ok|]. now apply F2_firstn, F2_skipn.
Qed.
Lemma F2_weak {A B} (P Q : A -> B -> Prop) l m : (forall a b, P a b -> Q a b) -> Forall2 P l m -> Forall2 Q l m.
Proof. intros H. induction 1; constructor; auto. Qed.
Lemma F2_set {A B} (P : A -> B -> Prop) l m i x y : Forall2 P l m -> P x y -> Forall2 P (set_nth l i x) (set_nth m i y).
Proof. intros H Hx. revert i. induction H; intros [|i]; cbn [set_nth]; constructor; auto. Qed.

Lemma nth_error_set_nth_neq {A} (l : list A) i j x : i <> j -> nth_error (set_nth l i x) j = nth_error l j.
Proof. revert i j. induction l as [|a l IH]; intros [|i] [|j] N; cbn [set_nth nth_error]; auto; congruence. Qed.

(** the comparison of two parameters up to 1e-7 does not depend on rounding *)
Definition clear_of_tolerance (a b : R) : Prop := Rabs (a - b) <= TOL * (1 - / 1048576) \/ TOL * (1 + / 1048576) <= Rabs (a - b).
Lemma near_knots (a b : f64) : moderate_knot a -> moderate_knot b -> clear_of_tolerance (val a) (val b) -> near a b = near (val a) (val b).
Proof.
  intros Ka Kb H. unfold clear_of_tolerance in H. destruct (diff64 a b Ka Kb) as [N [D _]]. pose proof eta_pos as H0. pose proof eta_small as H1. pose proof ftol_close as FT.
  unfold near, abs_diff_eq. transitivity (Rleb (val (fabs (fsub a b))) (val (ftol : f64))); [apply leb_val; [now apply fabs_num|exact ftol_num]|]. rewrite fabs_val. rnum. change (@ftol R RNum) with TOL.
  set (d := val a - val b) in *. set (z := val (fsub a b)) in *. set (ft := val (ftol : f64)) in *. apply abs_between in FT.
  assert (Dz : Rabs z <= Rabs d + (eps * Rabs d + eta) /\ Rabs d <= Rabs z + (eps * Rabs d + eta)).
  { split; [replace z with (d + (z - d)) by ring|replace (Rabs d) with (Rabs (z - (z - d))) at 1 by (f_equal; ring)]; (eapply Rle_trans; [apply Rabs_triang|]); rewrite ?Rabs_Ropp; lra. }
  pose proof (Rabs_pos d). destruct H as [H|H].
  - transitivity true; [|symmetry]; apply Rleb_true; unfold TOL, eps in *; lra.
  - transitivity false; [|symmetry]; apply Rleb_false; unfold TOL, eps in *; lra.
Qed.

Section Lockstep.
(** the knots that occur, and a bound for the exact control points *)
Variable K : list f64.
Variable M : R.
Hypothesis HK : forall k, In k K -> moderate_knot k.
Hypothesis HS : separated (val_list K).
Hypothesis HM : pow2 (-900) <= M <= pow2 900.

Definition point_ok (E : R) (p : vec3 f64) (q : vec3 R) : Prop := close3 E p q /\ within M q.
Definition unit64 : R := 64 * (eps * M).
(** [c] is what doubles make of [r] with at most [e] insertions on top of each other *)
Record sim (e : nat) (c : BSpline f64 (vec3 f64)) (r : BSpline R (vec3 R)) : Prop := {
  sm_degree : bs_degree c = bs_degree r;
  sm_knots : bs_knots r = val_list (bs_knots c);
  sm_pool : incl (bs_knots c) K;
  sm_sorted : sorted (bs_knots r);
  sm_points : Forall2 (point_ok (INR e * unit64)) (bs_cps c) (bs_cps r);
}.
Lemma unit_pos : 0 < unit64 /\ 0 < M. Proof. destruct (scale_ok M HM) as [H _]. unfold unit64, eps. lra. Qed.
Lemma small_e e : (Z.of_nat e <= 2 ^ 40)%Z -> 0 <= INR e * unit64 <= M.
Proof.
  intros H. destruct unit_pos as [Hu HP]. pose proof (pos_INR e). split; [apply Rmult_le_pos; lra|]. assert (INR e <= 1099511627776) by (apply small_INR; exact H). unfold unit64 in *. unfold eps in *.
  apply Rle_trans with (1099511627776 * (64 * (/ 9007199254740992 * M))); [apply Rmult_le_compat_r; lra|lra].
Qed.
Lemma point_weak E E' p q : E <= E' -> point_ok E p q -> point_ok E' p q.
Proof. intros H ((F & H1 & H2 & H3) & W). split; [|exact W]. split; [exact F|]. lra. Qed.
Lemma point_zero E : 0 <= E -> point_ok E vzero vzero.
Proof.
  intros H. destruct unit_pos as [_ HP]. assert (Z : forall x, Rabs (x - x) <= E) by (intros x; rewrite Rminus_eq_0, Rabs_R0; exact H).
  split; [split; [repeat split|]|]. 
  - cbn. change (B2R f0) with (val (f0 : f64)). fold (val (f0 : f64)). repeat split; rewrite ?f0_val; rnum; apply Z.
  - cbn. unfold within. cbn. rnum. rewrite Rabs_R0. lra.
Qed.
Lemma pool_knot t : In t K -> moderate_knot t. Proof. apply HK. Qed.
Lemma pool_apart a b : In a K -> In b K -> val a <> val b -> apart (val a) (val b).
Proof. intros Ia Ib N. apply HS; [apply in_map_iff; eauto|apply in_map_iff; eauto|exact N]. Qed.
Lemma knot_add_64 ks t : incl ks K -> In t K -> exists ks' j, knot_add ks t = Ok (ks', j) /\ knot_add (val_list ks) (val t) = Ok (val_list ks', j) /\ incl ks' K /\ length ks' = S (length ks).
Proof.
  intros HI It. destruct (C16_add_knot_inserts ks t) as (j & Hj & E & _). exists (firstn j ks ++ t :: skipn j ks), j. split; [exact E|]. split; [|split].
  - unfold knot_add in *. assert (ER : rposition (fun x => fleb x (val t)) (val_list ks) = rposition (fun x => fleb x t) ks).
    { apply rposition_map. intros x Hx. symmetry. apply leb_val; [apply HK, HI, Hx|apply HK, It]. }
    rewrite ER. assert (IA : forall n ks1 n1, (ks0 <- insert_at ks n t ;; Ok (ks0, n1)) = Ok (ks1, j) -> (ks0 <- insert_at (val_list ks) n (val t) ;; Ok (ks0, n1)) = Ok (val_list ks1, j)).
    { intros n ks1 n1 X. bindas X l E1. apply Ok_inj in X. injection X as <- <-. apply insert_at_inv in E1 as [L ->]. rewrite insert_at_Ok by (unfold val_list; now rewrite map_length). cbn [obind]. unfold val_list. rewrite map_app. cbn [map]. now rewrite firstn_map, skipn_map. }
    destruct (rposition (fun x => fleb x t) ks) as [i|]; now apply IA.
  - intros x I. apply in_app_or in I as [I|[<-|I]]; [apply HI; rewrite <- (firstn_skipn j ks); apply in_or_app; now left|exact It|apply HI; rewrite <- (firstn_skipn j ks); apply in_or_app; now right].
  - rewrite app_length. cbn [length]. rewrite firstn_length, skipn_length. lia.
Qed.
Lemma mix_point E (q0 q1 : vec3 f64) (a : f64) x0 x1 g : 0 <= E <= M -> point_ok E q0 x0 -> point_ok E q1 x1 -> num64 a -> 0 <= g <= 1 -> Rabs (val a - g) <= 8 * eps ->
  point_ok (E + unit64) (vadd (vmulr q0 (fsub f1 a)) (vmulr q1 a)) (vadd (vmulr x0 (1 - g)) (vmulr x1 g)).
Proof.
  intros HE (((N1 & N2 & N3) & D1 & D2 & D3) & (W1 & W2 & W3)) (((N4 & N5 & N6) & D4 & D5 & D6) & (W4 & W5 & W6)) Na Hg Ha. destruct q0 as [qa qb qc], q1 as [qd qe qf], x0 as [xa xb xc], x1 as [xd xe xf]. cbn [x3 y3 z3] in *.
  destruct (mix_coord M E qa qd a xa xd g HM HE N1 N4 Na Hg Ha W1 W4 D1 D4) as (R1 & R2 & R3). destruct (mix_coord M E qb qe a xb xe g HM HE N2 N5 Na Hg Ha W2 W5 D2 D5) as (R4 & R5 & R6). destruct (mix_coord M E qc qf a xc xf g HM HE N3 N6 Na Hg Ha W3 W6 D3 D6) as (R7 & R8 & R9).
  split; [split; [split; [exact R1|split; [exact R4|exact R7]]|split; [exact R2|split; [exact R5|exact R8]]]|split; [exact R3|split; [exact R6|exact R9]]].
Qed.
Definition descending (l : list nat) : Prop := forall a x b, l = a ++ x :: b -> forall y, In y b -> (y < x)%nat.
Lemma descending_tl x l : descending (x :: l) -> descending l.
Proof. intros H a y b -> z Hz. exact (H (x :: a) y b eq_refl z Hz). Qed.
Lemma descending_rev a n : descending (rev (seq a n)).
Proof.
  induction n as [|n IH]; [intros [|? ?] ? ? E; discriminate|]. rewrite seq_S, rev_app_distr. cbn [rev app]. intros [|y l] x b E z Hz.
  - injection E as <- <-. apply in_rev, in_seq in Hz. lia.
  - injection E as _ E. exact (IH l x b E z Hz).
Qed.
(** one insertion *)
Lemma add_knot_sim e c r t r' : (Z.of_nat (S e) <= 2 ^ 40)%Z -> sim e c r -> In t K -> bspline_add_knot r (val t) = Ok r' -> exists c', bspline_add_knot c t = Ok c' /\ sim (S e) c' r'.
Proof.
  intros He [Hd Hk Hp Hs Hpt] It E. destruct unit_pos as [Hu HMp]. set (ee := INR e * unit64) in *. assert (EE : 0 <= ee <= M) by (apply small_e; lia). assert (ES : INR (S e) * unit64 = ee + unit64) by (rewrite S_INR; unfold ee; ring).
  destruct (knot_add_64 (bs_knots c) t Hp It) as (ks' & j & E1 & E2 & Hp' & Lk). destruct (knot_add_sorted (bs_knots r) (val t) Hs) as (j' & Hj & E3 & Hlo & Hhi & Hs'). rewrite Hk in E3, Hj. rewrite E2 in E3. apply Ok_inj in E3. injection E3 as Ek <-.
  unfold bspline_add_knot in *. rewrite Hk, E2 in E. rewrite E1. cbn [obind] in *. rewrite <- Hd in E. set (p := bs_degree c) in *.
  assert (Weak : Forall2 (point_ok (ee + unit64)) (bs_cps c) (bs_cps r)) by (eapply F2_weak; [|exact Hpt]; intros; eapply point_weak; [|eassumption]; lra).
  assert (Knot : forall i, (i < length ks')%nat -> In (nth i ks' f0) K /\ nth i (val_list ks') 0 = val (nth i ks' f0)).
  { intros i Hi. split; [apply Hp', nth_In, Hi|]. unfold val_list. now rewrite (nth_map_default _ _ _ f0). }
  assert (Sorted' : sorted (val_list ks')) by (rewrite Ek, <- Hk; exact Hs').
  assert (At : nth j (val_list ks') 0 = val t). { rewrite Ek. rewrite app_nth2; rewrite firstn_length_le by lia; [|lia]. now rewrite Nat.sub_diag. }
  assert (Lv : length (val_list ks') = length ks') by apply map_length.
  assert (Lj : (j < length ks')%nat). { rewrite Lk. unfold val_list in Hj. rewrite map_length in Hj. lia. }
  destruct (j =? 0)%nat eqn:J0.
  { bindas E cps Ec. apply Ok_inj in E. subst r'. destruct (F2_insert _ _ _ 0%nat vzero vzero cps Weak ltac:(apply point_zero; lra) Ec) as (l' & El & Fl). rewrite El. cbn [obind]. eexists. split; [reflexivity|].
    constructor; cbn [bs_degree bs_knots bs_cps]; auto. now rewrite ES. }
  apply Nat.eqb_neq in J0. rewrite <- (F2_len _ _ _ Hpt) in E. set (n := length (bs_cps c)) in *. set (start := if (p <? j)%nat then (j - p)%nat else 0%nat) in *.
  assert (Hst : (j <= start + p)%nat) by (unfold start; destruct (Nat.ltb_spec p j); lia).
  bindas E ce Ec. destruct ce as [rc en].
  assert (C1 : exists cc, (if (n <? j)%nat then Ok (bs_cps c ++ [vzero], n + 1)%nat else x <- idx (bs_cps c) (j - 1) ;; cps <- insert_at (bs_cps c) (j - 1) x ;; Ok (cps, j)) = Ok (cc, en) /\ Forall2 (point_ok ee) cc rc /\ (en <= j)%nat).
  { destruct (Nat.ltb_spec n j).
    - apply Ok_inj in Ec. injection Ec as <- <-. eexists. split; [reflexivity|]. split; [|lia]. apply Forall2_app; [exact Hpt|]. constructor; [apply point_zero; lra|constructor].
    - bindas Ec x Ex. bindas Ec l El. apply Ok_inj in Ec. injection Ec as <- <-. destruct (F2_idx _ _ _ _ _ Hpt Ex) as (x' & -> & Px). cbn [obind]. destruct (F2_insert _ _ _ _ x' x l Hpt Px El) as (l' & -> & Fl). cbn [obind]. eexists. split; [reflexivity|]. split; [exact Fl|lia]. }
  destruct C1 as (cc & -> & Fc & Hen). cbn [obind]. bindas E rc' Ef. apply Ok_inj in E. subst r'.
  set (I := fun (l : list nat) (a : list (vec3 f64)) (b : list (vec3 R)) => descending l /\ (forall i, In i l -> (start <= i < j)%nat) /\ Forall2 (point_ok (ee + unit64)) a b /\
              forall i k q, In i l -> (k <= i)%nat -> idx b k = Ok q -> exists q', idx a k = Ok q' /\ point_ok ee q' q).
  assert (I0 : I (rev (Prelude.range start en)) cc rc).
  { split; [apply descending_rev|]. split; [intros i Hi; apply in_rev in Hi; unfold Prelude.range in Hi; apply in_seq in Hi; lia|]. split; [eapply F2_weak; [|exact Fc]; intros; eapply point_weak; [|eassumption]; lra|]. intros i k q _ _ Eq. exact (F2_idx _ _ _ _ _ Fc Eq). }
  pattern rc' in Ef. match type of Ef with (fun _ => foldM ?g _ _ = _) _ => 
    match goal with |- exists c', obind (foldM ?f _ _) _ = _ /\ _ => assert (Step : forall x l a b b', I (x :: l) a b -> g b x = Ok b' -> exists a', f a x = Ok a' /\ I l a' b') end end.
  { intros i l a b b' (D & Rg & Fa & Lo) G. bindas G thi G1. bindas G tlo G2. bindas G i1 G3. bindas G x0 G4. bindas G x1 G5. apply usub_inv in G3 as [Hi1 ->]. apply upd_inv in G as [Lb ->].
    unfold val_list in G1, G2. apply idx_map in G1 as (thi' & F1 & ->). apply idx_map in G2 as (tlo' & F2 & ->).
    destruct (idx_Ok_nth _ _ _ f0 F1) as [Lh Nh]. destruct (idx_Ok_nth _ _ _ f0 F2) as [Ll Nl]. destruct (Knot _ Lh) as [Ih Vh]. destruct (Knot _ Ll) as [Il Vl]. rewrite Nh in *. rewrite Nl in *.
    destruct (Rg i (or_introl eq_refl)) as [Ri1 Ri2].
    assert (B1 : val tlo' <= val t). { rewrite <- Vl, <- At. apply Sorted'. lia. }
    assert (B2 : val t <= val thi'). { rewrite <- Vh, <- At. apply Sorted'. lia. }
    destruct (Lo i (i - 1)%nat x0 (or_introl eq_refl) ltac:(lia) G4) as (q0 & F4 & P0). destruct (Lo i i x1 (or_introl eq_refl) ltac:(lia) G5) as (q1 & F5 & P1).
    rewrite F1. cbn [obind]. rewrite F2. cbn [obind]. rewrite usub_Ok by lia. cbn [obind]. rewrite F4. cbn [obind]. rewrite F5. cbn [obind].
    assert (La : (i < length a)%nat) by (rewrite (F2_len _ _ _ Fa); exact Lb). rewrite upd_Ok by exact La. eexists. split; [reflexivity|].
    destruct (coef64' thi' tlo' t (HK _ Ih) (HK _ Il) (HK _ It) (conj B1 B2) (pool_apart _ _ Ih Il)) as (Na & Hg & Da). cbv zeta in Hg, Da.
    assert (IZ : inv_or_zero (val thi' - val tlo') = ratio 1 (val thi' - val tlo')) by (apply (inv_or_zero_sep (val_list K)); [exact HS|apply in_map_iff; eauto|apply in_map_iff; eauto]).
    pose proof (mix_point ee q0 q1 _ x0 x1 _ EE P0 P1 Na Hg Da) as PM.
    split; [now apply descending_tl in D|]. split; [intros; apply Rg; now right|]. split.
    - rnum. rewrite IZ. apply F2_set; assumption.
    - intros i' k q Ii' Lk' Eq. assert (i' < i)%nat by exact (D [] i l eq_refl i' Ii'). destruct (Lo i' k q (or_intror Ii') Lk') as (q' & Eq' & Pq).
      + apply idx_Ok in Eq. apply idx_Ok. rewrite nth_error_set_nth_neq in Eq by lia. exact Eq.
      + exists q'. split; [|exact Pq]. apply idx_Ok. rewrite nth_error_set_nth_neq by lia. now apply idx_Ok. }
  destruct (foldM_sim _ _ I Step _ _ _ _ I0 Ef) as (a' & -> & _ & _ & Fa & _). cbn [obind]. eexists. split; [reflexivity|]. constructor; cbn [bs_degree bs_knots bs_cps]; auto. now rewrite ES.
Qed.
Lemma sim_weak e e' c r : (e <= e')%nat -> sim e c r -> sim e' c r.
Proof.
  intros H [H1 H2 H3 H4 H5]. constructor; auto. eapply F2_weak; [|exact H5]. intros p q. apply point_weak. apply Rmult_le_compat_r; [destruct unit_pos; lra|now apply le_INR].
Qed.
Lemma add_knots_sim n : forall e c r t r', (Z.of_nat (e + n) <= 2 ^ 40)%Z -> sim e c r -> In t K -> bspline_add_knots n r (val t) = Ok r' -> exists c', bspline_add_knots n c t = Ok c' /\ sim (e + n) c' r'.
Proof.
  induction n as [|n IH]; intros e c r t r' He H It E; cbn [bspline_add_knots] in *.
  - apply Ok_inj in E. subst r'. rewrite Nat.add_0_r. eauto.
  - bindas E r1 E1. destruct (add_knot_sim e c r t r1 ltac:(lia) H It E1) as (c1 & -> & H1). cbn [obind]. replace (e + S n)%nat with (S e + n)%nat by lia. apply (IH (S e) c1 r1 t r'); auto. lia.
Qed.
Lemma add_own_sim n : forall e c r i r', (Z.of_nat (e + n) <= 2 ^ 40)%Z -> sim e c r -> bspline_add_own_knot n r i = Ok r' -> exists c', bspline_add_own_knot n c i = Ok c' /\ sim (e + n) c' r'.
Proof.
  induction n as [|n IH]; intros e c r i r' He H E; cbn [bspline_add_own_knot] in *.
  - apply Ok_inj in E. subst r'. rewrite Nat.add_0_r. eauto.
  - bindas E t Et. rewrite (sm_knots _ _ _ H) in Et. apply idx_map in Et as (t' & Et & ->). rewrite Et. cbn [obind] in *. bindas E r1 E1.
    destruct (add_knot_sim e c r t' r1 ltac:(lia) H (sm_pool _ _ _ H _ (idx_In _ _ _ Et)) E1) as (c1 & -> & H1).
    cbn [obind]. replace (e + S n)%nat with (S e + n)%nat by lia. apply (IH (S e) c1 r1 i r'); auto. lia.
Qed.
Lemma pool_sub ks : incl ks K -> (forall k, In k ks -> moderate_knot k) /\ separated (val_list ks).
Proof.
  intros H. split; [auto|]. apply (separated_incl (val_list K)); [exact HS|]. intros a Ia. apply in_map_iff in Ia as (x & <- & Ix). apply in_map_iff. eauto.
Qed.
Lemma sorted_part ks a n : sorted ks -> sorted (firstn n (skipn a ks)).
Proof.
  intros H i j [Hij Hj]. rewrite firstn_length, skipn_length in Hj. rewrite !nth_firstn by lia. rewrite !nth_skipn. apply H. lia.
Qed.
Lemma incl_part {A} (ks : list A) a n : incl (firstn n (skipn a ks)) ks.
Proof. intros x I. rewrite <- (firstn_skipn a ks). apply in_or_app. right. rewrite <- (firstn_skipn n (skipn a ks)). apply in_or_app. now left. Qed.
Lemma slice_knots ks a b l : slice (val_list ks) a b = Ok l -> exists l', slice ks a b = Ok l' /\ l = val_list l' /\ incl l' ks.
Proof.
  intros E. apply slice_inv in E as (H1 & H2 & ->). unfold val_list in H2. rewrite map_length in H2. eexists. split; [now apply slice_Ok|]. split; [unfold val_list; now rewrite skipn_map, firstn_map|apply incl_part].
Qed.
Lemma val_len ks : length (val_list ks) = length ks.
Proof. apply map_length. Qed.
Lemma split_sim e c r t r0 r1 : (Z.of_nat (e + bs_degree c + 1) <= 2 ^ 40)%Z -> sim e c r -> In t K -> (forall k, In k (bs_knots c) -> clear_of_tolerance (val t) (val k)) -> bspline_split r (val t) = Ok (r0, r1) ->
  exists c0 c1, bspline_split c t = Ok (c0, c1) /\ sim (e + bs_degree c + 1) c0 r0 /\ sim (e + bs_degree c + 1) c1 r1.
Proof.
  intros He H It HC E. pose proof H as [Hd Hk Hp Hs Hpt]. unfold bspline_split in *. rewrite <- Hd in E. set (p := bs_degree c) in *. rewrite Hk in E. destruct (pool_sub _ Hp) as [Hm Hsp].
  rewrite <- span_index_64 in E by (auto; apply HK, It). bindas E i Ei. rewrite Ei. cbn [obind]. bindas E ti Et. apply idx_map in Et as (ti' & Et & ->). rewrite Et. cbn [obind]. pose proof (Hp _ (idx_In _ _ _ Et)) as Iti.
  rewrite <- near_knots in E by (auto; apply HC, (idx_In _ _ _ Et)). rewrite <- multiplicity_64 in E by auto. bindas E ts Ets. destruct ts as [x s].
  assert (K1 : exists t', (if near t ti' then m <- multiplicity (bs_knots c) i ;; Ok (ti', m) else Ok (t, 0%nat)) = Ok (t', s) /\ In t' K /\ x = val t').
  { destruct (near t ti').
    - bindas Ets m Em. rewrite Em. cbn [obind]. apply Ok_inj in Ets. injection Ets as <- <-. eauto.
    - apply Ok_inj in Ets. injection Ets as <- <-. eauto. }
  destruct K1 as (t' & -> & It' & ->). cbn [obind]. bindas E r2 E2. assert (Ln : (length (range_incl s p) <= p + 1)%nat) by (unfold range_incl; rewrite seq_length; lia).
  destruct (add_knots_sim (length (range_incl s p)) e c r t' r2 ltac:(lia) H It' E2) as (c2 & -> & H2). cbn [obind]. pose proof (sim_weak (e + length (range_incl s p)) (e + p + 1) _ _ ltac:(lia) H2) as [Hd2 Hk2 Hp2 Hs2 Hpt2]. clear H2.
  destruct (pool_sub _ Hp2) as [Hm2 Hsp2]. rewrite Hk2 in E. rewrite <- span_index_64 in E by (auto; apply HK, It'). bindas E k Ek. rewrite Ek. cbn [obind]. rewrite val_len in E. rewrite <- (F2_len _ _ _ Hpt2) in E.
  bindas E k0 E0. bindas E kp Ep. bindas E k1 E1. bindas E p0 Ep0. bindas E p1 Ep1. apply Ok_inj in E. injection E as <- <-.
  pose proof E0 as E0'. pose proof E1 as E1'. apply slice_inv in E0' as (_ & _ & Es0). apply slice_inv in E1' as (_ & _ & Es1).
  destruct (slice_knots _ _ _ _ E0) as (l0 & -> & V0 & I0). cbn [obind]. rewrite Ep. cbn [obind]. destruct (slice_knots _ _ _ _ E1) as (l1 & -> & V1 & I1). cbn [obind]. destruct (F2_slice _ _ _ _ _ _ Hpt2 Ep0) as (q0 & -> & F0). cbn [obind]. destruct (F2_slice _ _ _ _ _ _ Hpt2 Ep1) as (q1 & -> & F1). cbn [obind].
  exists (mkBSpline q0 l0 p), (mkBSpline q1 l1 p). split; [reflexivity|]. rewrite <- Hk2 in Es0, Es1. split; constructor; cbn [bs_degree bs_knots bs_cps]; auto.
  - intros a Ia. apply Hp2, I0, Ia.
  - rewrite Es0. now apply sorted_part.
  - intros a Ia. apply Hp2, I1, Ia.
  - rewrite Es1. now apply sorted_part.
Qed.
Lemma clamp_sim e c r r' : (Z.of_nat (e + 2 * (bs_degree c + 1)) <= 2 ^ 40)%Z -> sim e c r -> bspline_clamp r = Ok r' -> exists c', bspline_clamp c = Ok c' /\ sim (e + 2 * (bs_degree c + 1)) c' r'.
Proof.
  intros He H E. pose proof H as [Hd Hk Hp Hs Hpt]. unfold bspline_clamp in *. rewrite <- Hd in E. set (p := bs_degree c) in *. destruct (pool_sub _ Hp) as [Hm Hsp]. rewrite Hk, <- multiplicity_64 in E by auto.
  bindas E s Es. rewrite Es. cbn [obind]. bindas E r1 E1. assert (L1 : (length (range_incl s p) <= p + 1)%nat) by (unfold range_incl; rewrite seq_length; lia).
  destruct (add_own_sim (length (range_incl s p)) e c r 0%nat r1 ltac:(lia) H E1) as (c1 & -> & H1). cbn [obind]. pose proof (sim_weak (e + length (range_incl s p)) (e + (p + 1)) _ _ ltac:(lia) H1) as H1'. pose proof H1' as [Hd1 Hk1 Hp1 Hs1 Hpt1]. destruct (pool_sub _ Hp1) as [Hm1 Hsp1].
  rewrite Hk1 in E. rewrite val_len in E. bindas E n1 En. rewrite En. cbn [obind]. rewrite <- multiplicity_64 in E by auto. bindas E s1 Es1. rewrite Es1. cbn [obind].
  assert (L2 : (length (range_incl s1 p) <= p + 1)%nat) by (unfold range_incl; rewrite seq_length; lia).
  destruct (add_own_sim (length (range_incl s1 p)) (e + (p + 1)) c1 r1 n1 r' ltac:(lia) H1' E) as (c' & -> & H'). exists c'. split; [reflexivity|]. eapply sim_weak; [|exact H']. lia.
Qed.
Hypothesis HC : forall a b, In a K -> In b K -> clear_of_tolerance (val a) (val b).
Lemma near_pool a b : In a K -> In b K -> near a b = near (val a) (val b).
Proof. intros Ia Ib. apply near_knots; auto. Qed.
Lemma dedup_from_map l : forall k, In k K -> incl l K -> dedup_by_from (fun a b => near a b) (val k) (val_list l) = val_list (dedup_by_from (fun a b => near a b) k l).
Proof.
  induction l as [|a l IH]; intros k Ik Il; [reflexivity|]. change (val_list (a :: l)) with (val a :: val_list l). cbn [dedup_by_from]. rewrite <- near_pool by (auto; apply Il; now left).
  destruct (near a k); [apply IH; [exact Ik|]|]. { intros x Ix. apply Il. now right. }
  change (val_list (a :: dedup_by_from (fun a b => near a b) a l)) with (val a :: val_list (dedup_by_from (fun a b => near a b) a l)). f_equal. apply IH; [apply Il; now left|]. intros x Ix. apply Il. now right.
Qed.
Lemma dedup_incl {A} (f : A -> A -> bool) l : incl (dedup_by f l) l.
Proof.
  destruct l as [|a l]; [intros x []|]. intros x [<-|I]; [now left|]. right. revert a I. induction l as [|b l IH]; intros a I; [destruct I|]. cbn [dedup_by_from] in I. destruct (f b a); [right; eauto|]. destruct I as [<-|I]; [now left|right; eauto].
Qed.
Lemma dedup_map l : incl l K -> dedup_by (fun a b => near a b) (val_list l) = val_list (dedup_by (fun a b => near a b) l).
Proof.
  destruct l as [|a l]; intros H; [reflexivity|]. change (val_list (a :: l)) with (val a :: val_list l). cbn [dedup_by]. change (val_list (a :: dedup_by_from (fun a b => near a b) a l)) with (val a :: val_list (dedup_by_from (fun a b => near a b) a l)).
  f_equal. apply dedup_from_map; [apply H; now left|]. intros x Ix. apply H. now right.
Qed.
Lemma add_knot_degree {F} {NF : Num F} (c c' : BSpline F (vec3 F)) t : bspline_add_knot c t = Ok c' -> bs_degree c' = bs_degree c.
Proof.
  unfold bspline_add_knot. intros E. bindas E ki Ek. destruct ki as [l n]. destruct (n =? 0)%nat.
  - bindas E x Ex. apply Ok_inj in E. now subst c'.
  - bindas E ce Ec. destruct ce as [x en]. bindas E x' Ex. apply Ok_inj in E. now subst c'.
Qed.
Lemma add_own_degree {F} {NF : Num F} n : forall (c c' : BSpline F (vec3 F)) i, bspline_add_own_knot n c i = Ok c' -> bs_degree c' = bs_degree c.
Proof.
  induction n as [|n IH]; intros c c' i E; cbn [bspline_add_own_knot] in E; [apply Ok_inj in E; now subst c'|]. bindas E t Et. bindas E c1 E1. rewrite (IH _ _ _ E). now apply add_knot_degree in E1.
Qed.
Lemma clamp_degree {F} {NF : Num F} (c c' : BSpline F (vec3 F)) : bspline_clamp c = Ok c' -> bs_degree c' = bs_degree c.
Proof.
  unfold bspline_clamp. intros E. bindas E s Es. bindas E c1 E1. bindas E n1 En. bindas E s1 Es1. rewrite (add_own_degree _ _ _ _ E). now apply add_own_degree in E1.
Qed.
Lemma split_degree {F} {NF : Num F} (c c0 c1 : BSpline F (vec3 F)) t : bspline_split c t = Ok (c0, c1) -> bs_degree c0 = bs_degree c.
Proof.
  unfold bspline_split. intros E. bindas E i Ei. bindas E ti Et. bindas E ts Ets. destruct ts as [x s]. bindas E r2 E2. bindas E k Ek. bindas E k0 E0. bindas E kp Ep. bindas E k1 E1. bindas E p0 Ep0. bindas E p1 Ep1. apply Ok_inj in E. now injection E as <- <-.
Qed.
Lemma piecewise_sim c r pieces : let n := length (dedup_by (fun a b => near a b) (bs_knots c)) in (Z.of_nat (S n * (bs_degree c + 1)) <= 2 ^ 40)%Z -> sim 0 c r -> to_piecewise_bezier r = Ok pieces ->
  exists pieces', to_piecewise_bezier c = Ok pieces' /\ Forall2 (Forall2 (point_ok (INR (S n * (bs_degree c + 1)) * unit64))) pieces' pieces.
Proof.
  intros n He H E. pose proof H as [Hd Hk Hp Hs Hpt]. unfold to_piecewise_bezier in *. bindas E r1 E1. set (p := bs_degree c) in *.
  rewrite Hk, dedup_map in E by exact Hp. fold n. set (ds := dedup_by (fun a b => near a b) (bs_knots c)) in *. rewrite val_len in E. fold n in E. bindas E n1 En. apply usub_inv in En as [Hn ->].
  assert (HB : (2 * (p + 1) <= S n * (p + 1))%nat) by (apply Nat.mul_le_mono_r; lia).
  destruct (clamp_sim 0 c r r1 ltac:(lia) H E1) as (c1 & -> & H1). cbn [obind]. rewrite usub_Ok by lia. cbn [obind]. cbn [Nat.add] in H1.
  assert (D1 : bs_degree c1 = p). { rewrite (sm_degree _ _ _ H1), (clamp_degree _ _ E1). now symmetry. }
  bindas E st Ef. destruct st as [res rl]. apply Ok_inj in E. subst pieces.
  set (B := (S n * (p + 1))%nat) in *.
  set (I := fun (l : list nat) (a : list (list (vec3 f64)) * BSpline f64 (vec3 f64)) (b : list (list (vec3 R)) * BSpline R (vec3 R)) =>
    Forall2 (Forall2 (point_ok (INR B * unit64))) (fst a) (fst b) /\ bs_degree (snd a) = p /\ exists e, (e + length l * (p + 1) <= B)%nat /\ sim e (snd a) (snd b)).
  assert (W : forall e q q', (e <= B)%nat -> Forall2 (point_ok (INR e * unit64)) q q' -> Forall2 (point_ok (INR B * unit64)) q q').
  { intros e q q' He' F. eapply F2_weak; [|exact F]. intros x y Hxy. eapply point_weak; [|exact Hxy]. apply Rmult_le_compat_r; [left; exact (proj1 unit_pos)|now apply le_INR]. }
  match type of Ef with foldM ?g _ _ = _ => match goal with |- context [foldM ?f _ _] =>
    assert (Step : forall x l a b b', I (x :: l) a b -> g b x = Ok b' -> exists a', f a x = Ok a' /\ I l a' b') end end.
  { intros x l [ra ca] [rb cb] b' (FF & Da & e & Le & S0) Eg. cbn [fst snd] in *. cbn [length Nat.mul] in Le. bindas Eg ni Eni. rewrite Eni. cbn [obind]. bindas Eg t Et. apply idx_map in Et as (t' & Et & ->). rewrite Et. cbn [obind].
    bindas Eg pr Esp. destruct pr as [r0 r1']. apply Ok_inj in Eg. subst b'.
    assert (It : In t' K) by (apply Hp, (dedup_incl (fun a b => near a b)), (idx_In _ _ _ Et)).
    destruct (split_sim e ca cb t' r0 r1' ltac:(rewrite Da; lia) S0 It ltac:(intros k Ik; apply HC; [exact It|exact (sm_pool _ _ _ S0 k Ik)]) Esp) as (c0 & c1' & Esp' & S1 & S2). rewrite Esp'. cbn [obind]. eexists. split; [reflexivity|]. rewrite Da in S1, S2. split; [|split].
    - cbn [fst]. apply Forall2_app; [exact FF|]. constructor; [|constructor]. apply (W (e + p + 1)%nat); [lia|]. apply (sm_points _ _ _ S2).
    - cbn [snd]. now rewrite (split_degree _ _ _ _ Esp').
    - exists (e + p + 1)%nat. split; [lia|exact S1]. }
  assert (I0 : I (Prelude.range 2 n) ([], c1) ([], r1)).
  { split; [constructor|]. split; [exact D1|]. exists (2 * (p + 1))%nat. split; [|exact H1]. unfold Prelude.range. rewrite seq_length, <- Nat.mul_add_distr_r. apply Nat.mul_le_mono_r. lia. }
  destruct (foldM_sim _ _ I Step _ _ _ _ I0 Ef) as ([res' cl] & -> & FF & _ & e & Le & S0). cbn [obind fst snd] in *. eexists. split; [reflexivity|]. apply F2_rev, Forall2_app; [exact FF|]. constructor; [|constructor]. apply (W e); [lia|]. apply (sm_points _ _ _ S0).
Qed.
End Lockstep.

(** ** Moving the control points by at most E moves the curve by at most E *)
Lemma sumf_abs f n : Rabs (sumf f n) <= sumf (fun i => Rabs (f i)) n.
Proof. induction n as [|n IH]; [rewrite !sumf_0, Rabs_R0; lra|]. rewrite !sumf_S. eapply Rle_trans; [apply Rabs_triang|]. lra. Qed.
Lemma cdb_sum_le t s k N u : mono t -> t s < t (s + 1)%nat -> t s <= u <= t (s + 1)%nat -> sumf (fun i => cdb t s k i u) N <= 1.
Proof.
  intros Ht Hs Hu.
  assert (G : forall k N, (s < N)%nat -> sumf (fun i => cdb t s k i u) N <= 1).
  { intros k' N'. revert k'. induction k' as [|k' IH]; intros HN.
    - rewrite (sumf_single _ _ s HN); cbn [cdb]; [rewrite Nat.eqb_refl; lra|]. intros i _ NE. now rewrite (proj2 (Nat.eqb_neq i s)).
    - rewrite (cdb_sum_gen t s Ht Hs) by assumption. specialize (IH HN). destruct (le_lt_dec s k') as [H|H].
      + assert (0 <= ratio (t (0 + S k')%nat - u) (t (0 + S k')%nat - t 0%nat) * cdb t s k' 0 u); [|lra]. apply Rmult_le_pos; [|now apply cdb_nonneg].
        pose proof (Ht (s + 1)%nat (0 + S k')%nat ltac:(lia)). pose proof (Ht 0%nat s ltac:(lia)). apply ratio_nonneg; lra.
      + rewrite (cdb_support t s k' 0 u) by lia. lra. }
  destruct (le_lt_dec N s) as [H|H]; [|now apply G]. pose proof (G k (N + S s)%nat ltac:(lia)) as G'. rewrite sumf_app in G'.
  assert (0 <= sumf (fun i => cdb t s k (N + i) u) (S s)) by (apply sumf_nonneg; intros; now apply cdb_nonneg). lra.
Qed.
Definition apart3 (E : R) (p q : vec3 R) : Prop := within E (vsub p q).
Lemma F2_nth {A B} (P : A -> B -> Prop) l m i d d' : Forall2 P l m -> (i < length l)%nat -> P (nth i l d) (nth i m d').
Proof. intros H. revert i. induction H as [|a b l m Hab H IH]; intros i Hi; cbn [length] in Hi; [lia|]. destruct i; cbn [nth]; [exact Hab|apply IH; lia]. Qed.
Lemma comb3_apart w ps qs E : 0 <= E -> Forall2 (apart3 E) ps qs -> (forall i, (i < length ps)%nat -> 0 <= w i) -> sumf w (length ps) <= 1 -> apart3 E (comb3 w ps) (comb3 w qs).
Proof.
  intros HE HF Hw Hs. pose proof (F2_len _ _ _ HF) as HL.
  assert (G : forall g : vec3 R -> R, (forall p q, apart3 E p q -> Rabs (g p - g q) <= E) -> Rabs (sumf (fun i => w i * g (nth i ps vzero)) (length ps) - sumf (fun i => w i * g (nth i qs vzero)) (length qs)) <= E).
  { intros g Hg. rewrite <- HL, <- sumf_minus. eapply Rle_trans; [apply sumf_abs|]. eapply Rle_trans with (sumf (fun i => w i * E) (length ps)).
    - apply sumf_le. intros i Hi. rewrite <- Rmult_minus_distr_l, Rabs_mult, (Rabs_right (w i)) by (apply Rle_ge, Hw; exact Hi). apply Rmult_le_compat_l; [now apply Hw|]. apply Hg. now apply F2_nth.
    - rewrite sumf_scal_r. rewrite <- (Rmult_1_l E) at 2. now apply Rmult_le_compat_r. }
  repeat split; [apply (G x3)|apply (G y3)|apply (G z3)]; intros p q (H1 & H2 & H3); assumption.
Qed.
Lemma bspline_apart (c d : BSpline R (vec3 R)) E u : valid_bspline c -> bs_degree d = bs_degree c -> bs_knots d = bs_knots c -> Forall2 (apart3 E) (bs_cps d) (bs_cps c) -> 0 <= E ->
  first_knot (bs_knots c) < last_knot (bs_knots c) -> first_knot (bs_knots c) <= u <= last_knot (bs_knots c) ->
  exists p q, bspline3_get_point d u = Ok p /\ bspline3_get_point c u = Ok q /\ apart3 E p q.
Proof.
  intros Hv Hd Hk HF HE Hne Hu. pose proof Hv as [Hs Hsp HL Hn]. pose proof (F2_len _ _ _ HF) as L2. unfold first_knot, last_knot in *.
  assert (Hvd : valid_bspline d) by (constructor; rewrite ?Hk, ?Hd, ?L2; assumption).
  destruct (span_exists (bs_knots c) u Hs ltac:(lia) Hne (proj1 Hu)) as [s Hspan].
  rewrite (bspline_eval d u s Hvd) by now rewrite Hk. rewrite (bspline_eval c u s Hv Hspan). rewrite Hk, Hd. do 2 eexists. split; [reflexivity|]. split; [reflexivity|].
  pose proof Hspan as (H1 & H2 & H3 & H4). set (D := nth (length (bs_knots c) - 1) (bs_knots c) 0).
  assert (HT : mono (fun i => nth i (bs_knots c) D)) by (apply sorted_mono; [assumption|]; intros; now apply sorted_le_last).
  assert (HU : nth s (bs_knots c) D <= u <= nth (s + 1) (bs_knots c) D). { rewrite !(nth_indep (bs_knots c) D 0) by lia. destruct H4 as [H4|[H4 H5]]; lra. }
  assert (HX : forall i, (i < length (bs_cps d))%nat -> cdb (fun i => nth i (bs_knots c) 0) s (bs_degree c) i u = cdb (fun i => nth i (bs_knots c) D) s (bs_degree c) i u).
  { intros i Hi. apply cdb_ext. intros j Hj. apply nth_indep. lia. }
  apply comb3_apart; [exact HE|exact HF| |].
  - intros i Hi. rewrite HX by exact Hi. apply cdb_nonneg; [exact HT|exact HU].
  - rewrite (sumf_ext _ _ _ HX). apply cdb_sum_le; [exact HT| |exact HU]. rewrite !(nth_indep (bs_knots c) D 0) by lia. assumption.
Qed.
Lemma bezier_apart ps qs E s : (1 <= length ps)%nat -> Forall2 (apart3 E) ps qs -> 0 <= E -> 0 <= s <= 1 ->
  exists p q, bezier3_get_point ps s = Ok p /\ bezier3_get_point qs s = Ok q /\ apart3 E p q.
Proof.
  intros HL HF HE Hs. pose proof (F2_len _ _ _ HF) as L2. rewrite !bezier_eval_Bern by lia. do 2 eexists. split; [reflexivity|]. split; [reflexivity|]. rewrite <- L2. apply comb3_apart; [exact HE|exact HF| |].
  - intros i Hi. apply Bern_nonneg; lra.
  - destruct (length ps) as [|n]; [lia|]. replace (S n - 1)%nat with n by lia. rewrite Bern_sum. lra.
Qed.

(** ** The three operations *)
(** a curve all of whose numbers are finite and of ordinary size *)
Record good64 (M : R) (c : BSpline f64 (vec3 f64)) : Prop := {
  gd_knots : forall k, In k (bs_knots c) -> moderate_knot k;
  gd_valid : valid_bspline (val_bspline c);
  gd_points : forall p, In p (bs_cps c) -> finite3 p /\ within M (val3 p);
  gd_scale : pow2 (-900) <= M <= pow2 900;
}.
Lemma unit_47 M : unit64 M = pow2 (-47) * M.
Proof. unfold unit64. change (-47)%Z with (6 + -53)%Z. rewrite pow2_add, eps_pow2, <- (pow2_Z 6) by lia. change (2 ^ 6)%Z with 64%Z. ring. Qed.
Lemma sim_start M c K : good64 M c -> incl (bs_knots c) K -> sim K M 0 c (val_bspline c).
Proof.
  intros [H1 [Hs Hsp HL Hn] H3 H4] HI. constructor; auto. cbn [val_bspline bs_cps] in *. clear - H3. induction (bs_cps c) as [|p l IH]; cbn [map]; constructor.
  - destruct (H3 p (or_introl eq_refl)) as [F W]. split; [|exact W]. split; [exact F|]. unfold val3. cbn [x3 y3 z3 INR]. rewrite !Rminus_eq_0, Rabs_R0. lra.
  - apply IH. intros q Iq. apply H3. now right.
Qed.
Lemma points_apart M E ps qs : Forall2 (point_ok M E) ps qs -> Forall2 (apart3 E) (map val3 ps) qs /\ forall p, In p ps -> finite3 p /\ within (M + E) (val3 p).
Proof.
  induction 1 as [|p q ps qs [(F & H1 & H2 & H3) (W1 & W2 & W3)] HF [IH1 IH2]]; split; [constructor|intros p []| |].
  - cbn [map]. constructor; [|exact IH1]. repeat split; assumption.
  - intros p' [<-|I]; [|now apply IH2]. split; [exact F|]. assert (T : forall a b e m : R, Rabs (a - b) <= e -> Rabs b <= m -> Rabs a <= m + e).
    { intros a b e m A B. replace a with (b + (a - b)) by ring. eapply Rle_trans; [apply Rabs_triang|]. lra. }
    unfold within, val3. cbn [x3 y3 z3]. repeat split; eapply T; eassumption.
Qed.
Lemma insert_knots_fold (xs : list R) : forall c, insert_knots c xs = foldM bspline_add_knot c xs.
Proof. induction xs as [|x xs IH]; intros c; cbn [insert_knots foldM]; [reflexivity|]. destruct (bspline_add_knot c x); cbn [obind]; auto. Qed.
Lemma insert_sim K M : (forall k, In k K -> moderate_knot k) -> separated (val_list K) -> pow2 (-900) <= M <= pow2 900 ->
  forall xs e c r r', (Z.of_nat (e + length xs) <= 2 ^ 40)%Z -> sim K M e c r -> incl xs K -> foldM bspline_add_knot r (val_list xs) = Ok r' -> exists c', foldM bspline_add_knot c xs = Ok c' /\ sim K M (e + length xs) c' r'.
Proof.
  intros HK HS HM. induction xs as [|x xs IH]; intros e c r r' He H HI E; cbn [foldM val_list map length] in *.
  - apply Ok_inj in E. subst r'. rewrite Nat.add_0_r. eauto.
  - bindas E r1 E1. destruct (add_knot_sim K M HK HS HM e c r x r1) as (c1 & -> & H1); [lia|exact H|apply HI; now left|exact E1|]. cbn [obind]. rewrite Nat.add_succ_r in *. apply (IH (S e) c1 r1 r' He H1); [|exact E]. intros y Iy. apply HI. now right.
Qed.
Lemma sorted_ends l y : sorted l -> In y l -> first_knot l <= y <= last_knot l /\ In (first_knot l) l /\ In (last_knot l) l.
Proof.
  intros H I. destruct (In_nth _ _ 0 I) as (i & Hi & <-). unfold first_knot, last_knot. repeat split; try (apply H; lia); apply nth_In; lia.
Qed.
Lemma ends_kept l l' xs : sorted l -> sorted l' -> l <> [] -> Permutation l' (xs ++ l) -> (forall x, In x xs -> first_knot l <= x <= last_knot l) -> first_knot l' = first_knot l /\ last_knot l' = last_knot l.
Proof.
  intros Hs Hs' Hn HP Hx. assert (A : exists a, In a l) by (destruct l as [|a l]; [congruence|exists a; now left]). destruct A as [a Ia]. destruct (sorted_ends l a Hs Ia) as (_ & F1 & L1).
  assert (I' : forall y, In y l -> In y l') by (intros y Iy; apply (Permutation_in _ (Permutation_sym HP)), in_or_app; now right). destruct (sorted_ends l' a Hs' (I' a Ia)) as (_ & F2 & L2).
  assert (B : forall y, In y l' -> first_knot l <= y <= last_knot l) by (intros y Iy; apply (Permutation_in _ HP), in_app_or in Iy as [Iy|Iy]; [auto|now apply sorted_ends]).
  pose proof (B _ F2). pose proof (B _ L2). destruct (sorted_ends l' _ Hs' (I' _ F1)) as [? _]. destruct (sorted_ends l' _ Hs' (I' _ L1)) as [? _]. lra.
Qed.
Theorem C72_insertions64 (M : R) (c : BSpline f64 (vec3 f64)) (xs : list f64) :
  let ks := val_list (bs_knots c) in let k := INR (length xs) in
  good64 M c -> (forall x, In x xs -> moderate_knot x /\ nth (bs_degree c) ks 0 <= val x <= last_knot ks) -> separated (val_list (xs ++ bs_knots c)) -> first_knot ks < last_knot ks -> moderate (length xs) ->
  exists c', foldM bspline_add_knot c xs = Ok c' /\ bs_degree c' = bs_degree c /\
    Permutation (val_list (bs_knots c')) (val_list (xs ++ bs_knots c)) /\ sorted (val_list (bs_knots c')) /\
    length (bs_cps c') = (length xs + length (bs_cps c))%nat /\
    (forall p, In p (bs_cps c') -> finite3 p /\ within (2 * M) (val3 p)) /\
    forall u, first_knot ks <= u <= last_knot ks -> exists p q,
      bspline3_get_point (val_bspline c') u = Ok p /\ bspline3_get_point (val_bspline c) u = Ok q /\ apart3 (k * (pow2 (-47) * M)) p q.
Proof.
  intros ks k HG Hx Hsp Hne Hm. pose proof HG as [HK Hv Hp HM].
  destruct (C11_insertion_sequences (val_list xs) (val_bspline c)) as (r' & E & Hv' & Hd' & HP & HL & Hc); [exact Hv| |intros y Iy; apply in_map_iff in Iy as (x & <- & Ix); now apply Hx|exact Hne|].
  { cbn [val_bspline bs_knots]. unfold val_list in *. now rewrite <- map_app. }
  rewrite insert_knots_fold in E. assert (HKK : forall x, In x (xs ++ bs_knots c) -> moderate_knot x) by (intros x Ix; apply in_app_or in Ix as [Ix|Ix]; [now apply Hx|now apply HK]).
  destruct (insert_sim (xs ++ bs_knots c) M HKK Hsp HM xs 0 c (val_bspline c) r') as (c' & E' & [Sd Sk Sp Ss Spt]); [exact Hm|apply sim_start; [exact HG|apply incl_appr, incl_refl]|apply incl_appl, incl_refl|exact E|]. cbn [Nat.add] in Spt.
  destruct (points_apart _ _ _ _ Spt) as [PA PW]. cbn [val_bspline bs_knots bs_degree bs_cps] in *. rewrite map_length in HL. pose proof (small_e M HM (length xs) Hm) as SE. destruct (unit_pos M HM) as [U0 U1].
  exists c'. split; [exact E'|]. split; [congruence|]. split; [rewrite <- Sk; unfold val_list in *; now rewrite map_app|]. split; [now rewrite <- Sk|]. split; [rewrite (F2_len _ _ _ Spt), HL; unfold val_list; now rewrite map_length|]. split.
  { intros p Ip. destruct (PW p Ip) as [F (W1 & W2 & W3)]. split; [exact F|]. unfold within. lra. }
  intros u Hu. rewrite <- unit_47.
  assert (FL : first_knot (bs_knots r') = first_knot ks /\ last_knot (bs_knots r') = last_knot ks).
  { apply (ends_kept ks (bs_knots r') (val_list xs)); [apply Hv|apply Hv'| |exact HP|].
    - destruct Hv as [_ _ VL _]. cbn [val_bspline bs_knots bs_cps bs_degree] in VL. fold ks in VL. destruct ks; [cbn in VL; lia|congruence].
    - intros y Iy. apply in_map_iff in Iy as (x & <- & Ix). destruct (Hx x Ix) as [_ [X1 X2]]. split; [|exact X2]. eapply Rle_trans; [|exact X1]. destruct Hv as [VS _ VL _]. cbn [val_bspline bs_knots bs_cps bs_degree] in VS, VL. apply VS. fold ks in VL |- *. lia. }
  destruct FL as [FL1 FL2].
  destruct (bspline_apart r' (val_bspline c') (k * unit64 M) u) as (p & q & E1 & E2 & A); [exact Hv'|cbn; congruence|cbn; congruence|exact PA|unfold k; lra|rewrite FL1, FL2; exact Hne|rewrite FL1, FL2; exact Hu|].
  exists p, q. split; [exact E1|]. split; [|exact A]. rewrite <- E2. symmetry. apply Hc. apply Hu.
Qed.
(** inserted and evaluated in doubles, against the original curve evaluated exactly *)
Theorem C72_evaluated64 (M : R) (c c' : BSpline f64 (vec3 f64)) (xs : list f64) (u : f64) :
  let ks := val_list (bs_knots c) in
  good64 M c -> (forall x, In x xs -> moderate_knot x /\ nth (bs_degree c) ks 0 <= val x <= last_knot ks) -> separated (val_list (xs ++ bs_knots c)) -> first_knot ks < last_knot ks -> moderate (length xs) ->
  foldM bspline_add_knot c xs = Ok c' -> evaluable (bs_knots c') (bs_degree c') (length (bs_cps c')) u -> first_knot ks <= val u <= last_knot ks ->
  exists p q, bspline3_get_point c' u = Ok p /\ bspline3_get_point (val_bspline c) (val u) = Ok q /\
    close3 (INR (length (bs_cps c') + 8 * bs_degree c) * (pow2 (-50) * M + pow2 (-1073)) + INR (length xs) * (pow2 (-47) * M)) p q.
Proof.
  intros ks HG Hx Hsp Hne Hm E He Hu. pose proof HG as [_ _ _ HM]. destruct (unit_pos M HM) as [_ M0].
  destruct (C72_insertions64 M c xs HG Hx Hsp Hne Hm) as (c2 & E2 & Hd & _ & _ & _ & HP & HC). rewrite E in E2. apply Ok_inj in E2. subst c2.
  destruct (HC (val u) Hu) as (p & q & E1 & E2 & (A1 & A2 & A3)).
  destruct (C62_bspline_f64 c' u (2 * M) He) as (p' & q' & E1' & E2' & (F & B1 & B2 & B3)); [|exact HP|].
  { destruct HM as [_ HM]. pose proof (pow2_le 900 999 ltac:(lia)) as P1. assert (P2 : pow2 1000 = 2 * pow2 999) by (change 1000%Z with (1 + 999)%Z; rewrite pow2_add, <- (pow2_Z 1) by lia; reflexivity). lra. }
  rewrite E1 in E2'. apply Ok_inj in E2'. subst q'. exists p', q. split; [exact E1'|]. split; [exact E2|]. rewrite Hd in *.
  assert (P50 : pow2 (-50) * M = pow2 (-51) * (2 * M)) by (change (-50)%Z with (1 + -51)%Z; rewrite pow2_add, <- (pow2_Z 1) by lia; change (2 ^ 1)%Z with 2%Z; ring). rewrite P50.
  assert (T : forall a b d e m : R, Rabs (a - b) <= e -> Rabs (b - d) <= m -> Rabs (a - d) <= e + m).
  { intros a b d e m A B. replace (a - d) with ((a - b) + (b - d)) by ring. eapply Rle_trans; [apply Rabs_triang|]. lra. }
  split; [exact F|]. repeat split; eapply T; eassumption.
Qed.

(** splitting at [t] *)
Theorem C72_split64 (M : R) (c : BSpline f64 (vec3 f64)) (t : f64) (x : R) :
  let ks := val_list (bs_knots c) in let p := bs_degree c in
  good64 M c -> moderate (p + 1) -> moderate_knot t -> separated (val t :: ks) -> (forall k, In k ks -> clear_of_tolerance (val t) k) ->
  cut_parameter ks (val t) x -> first_knot ks < x -> nth p ks 0 <= x ->
  exists c0 c1, bspline_split c t = Ok (c0, c1) /\ bs_degree c0 = p /\ bs_degree c1 = p /\
    first_knot (val_list (bs_knots c0)) = first_knot ks /\ last_knot (val_list (bs_knots c0)) = x /\
    first_knot (val_list (bs_knots c1)) = x /\ last_knot (val_list (bs_knots c1)) = last_knot ks /\
    (forall q, In q (bs_cps c0 ++ bs_cps c1) -> finite3 q) /\
    let same d u := exists a b, bspline3_get_point (val_bspline d) u = Ok a /\ bspline3_get_point (val_bspline c) u = Ok b /\ apart3 (INR (p + 1) * (pow2 (-47) * M)) a b in
    (forall u, first_knot ks <= u < x -> same c0 u) /\ (forall u, x <= u <= last_knot ks -> x < last_knot ks -> same c1 u).
Proof.
  intros ks p HG Hm Ht Hsp Hcl Hcut Hx0 Hxp. pose proof HG as [HK Hv Hp HM]. destruct (unit_pos M HM) as [U0 U1].
  assert (Hsx : separated (x :: ks)).
  { destruct Hcut as (i & Hi & _ & [[_ ->]|[_ ->]]); [|exact Hsp]. apply (separated_incl (val t :: ks)); [exact Hsp|]. intros a [<-|Ia]; right; [apply nth_In; lia|exact Ia]. }
  destruct (C12_split (val_bspline c) (val t) x Hv Hcut Hsx Hx0 Hxp) as (r0 & r1 & E & V0 & V1 & D0 & D1 & F0 & L0 & _ & F1 & L1 & _ & C0 & _ & C1).
  cbn [val_bspline bs_degree bs_knots] in D0, D1, F0, L0, F1, L1, C0, C1. fold ks in F0, L0, F1, L1, C0, C1. fold p in D0, D1.
  assert (HKK : forall k, In k (t :: bs_knots c) -> moderate_knot k) by (intros k [<-|Ik]; auto).
  destruct (split_sim (t :: bs_knots c) M HKK Hsp HM 0 c (val_bspline c) t r0 r1) as (c0 & c1 & E' & [Sd0 Sk0 _ _ Sp0] & [Sd1 Sk1 _ _ Sp1]); [cbn [Nat.add]; unfold moderate in Hm; fold p; lia|apply sim_start; [exact HG|apply incl_tl, incl_refl]|now left|intros k Ik; apply Hcl, in_map, Ik|exact E|].
  cbn [Nat.add] in Sp0, Sp1. fold p in Sp0, Sp1. destruct (points_apart _ _ _ _ Sp0) as [PA0 PW0]. destruct (points_apart _ _ _ _ Sp1) as [PA1 PW1]. pose proof (pos_INR (p + 1)) as PI.
  assert (E0 : 0 <= INR (p + 1) * unit64 M) by (apply Rmult_le_pos; lra).
  exists c0, c1. split; [exact E'|]. rewrite <- Sk0, <- Sk1. split; [congruence|]. split; [congruence|]. do 4 (split; [assumption|]). split.
  { intros q Iq. apply in_app_or in Iq as [Iq|Iq]; [now apply PW0|now apply PW1]. }
  intros same. split; intros u Hu; [|intros Hne]; unfold same; rewrite <- unit_47.
  - destruct (bspline_apart r0 (val_bspline c0) (INR (p + 1) * unit64 M) u) as (a & b & Ea & Eb & A); [exact V0|cbn; congruence|cbn; congruence|exact PA0|exact E0|rewrite F0, L0; exact Hx0|rewrite F0, L0; lra|].
    exists a, b. split; [exact Ea|]. split; [|exact A]. rewrite <- Eb. symmetry. now apply C0.
  - destruct (bspline_apart r1 (val_bspline c1) (INR (p + 1) * unit64 M) u) as (a & b & Ea & Eb & A); [exact V1|cbn; congruence|cbn; congruence|exact PA1|exact E0|rewrite F1, L1; exact Hne|rewrite F1, L1; exact Hu|].
    exists a, b. split; [exact Ea|]. split; [|exact A]. rewrite <- Eb. symmetry. now apply C1.
Qed.

Lemma incr_nodup ds : strictly_increasing ds -> NoDup ds.
Proof.
  intros H. apply (NoDup_nth ds 0). intros i j Hi Hj E. destruct (lt_eq_lt_dec i j) as [[L|L]|L]; [|exact L|]; exfalso.
  - pose proof (H i j ltac:(lia)). lra.
  - pose proof (H j i ltac:(lia)). lra.
Qed.
(** decomposition into Bezier pieces *)
Theorem C72_piecewise64 (M : R) (c : BSpline f64 (vec3 f64)) :
  let ks := val_list (bs_knots c) in let p := bs_degree c in
  good64 M c -> moderate ((length ks + 1) * (p + 1)) -> first_knot ks < last_knot ks -> nth p ks 0 = first_knot ks -> nth (length (bs_cps c)) ks 0 = last_knot ks -> (forall x, (mult ks x <= p + 1)%nat) ->
  (forall a b, In a ks -> In b ks -> a <> b -> / 10000000 * (1 + / 1048576) <= Rabs (a - b)) ->
  exists ds pieces, strictly_increasing ds /\ (forall a, In a ds <-> In a ks) /\ to_piecewise_bezier c = Ok pieces /\ length ds = S (length pieces) /\
    forall r, (r < length pieces)%nat -> let piece := nth r pieces [] in
      length piece = (p + 1)%nat /\ (forall q, In q piece -> finite3 q) /\
      forall s, 0 <= s < 1 -> exists a b, bezier3_get_point (map val3 piece) s = Ok a /\
        bspline3_get_point (val_bspline c) (nth r ds 0 + s * (nth (r + 1) ds 0 - nth r ds 0)) = Ok b /\ apart3 (INR ((length ds + 1) * (p + 1)) * (pow2 (-47) * M)) a b.
Proof.
  intros ks p HG Hm Hne Hst Hen Hmu Htol. pose proof HG as [HK Hv Hp HM]. destruct (unit_pos M HM) as [U0 U1].
  destruct (C14_piecewise_bezier (val_bspline c) Hv Hne Hst) as (ds & pieces & Hds & HdsI & E & HL & HB); [cbn [val_bspline bs_cps]; rewrite map_length; exact Hen|exact Hmu| |].
  { intros a b Ia Ib Hab. specialize (Htol a b Ia Ib Hab). lra. }
  cbn [val_bspline bs_knots] in HdsI. fold ks in HdsI.
  assert (HC : forall a b, In a (bs_knots c) -> In b (bs_knots c) -> clear_of_tolerance (val a) (val b)).
  { intros a b Ia Ib. unfold clear_of_tolerance, TOL. destruct (Req_EM_T (val a) (val b)) as [Q|Q]; [left; rewrite Q, Rminus_eq_0, Rabs_R0; lra|right]. specialize (Htol (val a) (val b) ltac:(now apply in_map) ltac:(now apply in_map) Q). lra. }
  assert (HS : separated ks) by apply Hv.
  pose proof (piecewise_sim (bs_knots c) M HK HS HM HC c (val_bspline c) pieces) as PS. cbv zeta in PS. set (n := length (dedup_by (fun a b => near a b) (bs_knots c))) in *.
  assert (Hn : n = length ds).
  { assert (Q : strictly_increasing (val_list (dedup_by (fun a b => near a b) (bs_knots c))) /\ forall a, In a (val_list (dedup_by (fun a b => near a b) (bs_knots c))) <-> In a ks).
    { rewrite <- (dedup_map (bs_knots c) HK HC) by apply incl_refl. change (val_list (bs_knots c)) with ks. assert (KN : exists k0 l, ks = k0 :: l). { destruct Hv as [_ _ VL _]. cbn [val_bspline bs_knots bs_cps bs_degree] in VL. fold ks in VL. destruct ks as [|k0 l]; [cbn in VL; lia|eauto]. }
      destruct KN as (k0 & l & KN). rewrite KN. apply (dedup_spec k0 l); rewrite <- KN; [apply Hv|]. intros a b Ia Ib Hab. specialize (Htol a b Ia Ib Hab). lra. }
    destruct Q as [Q1 Q2]. unfold n. rewrite <- (val_len (dedup_by (fun a b => near a b) (bs_knots c))). apply Permutation_length, NoDup_Permutation; [now apply incr_nodup|now apply incr_nodup|]. intros a. now rewrite Q2, HdsI. }
  assert (Ln : (n <= length ks)%nat) by (rewrite Hn; apply NoDup_incl_length; [now apply incr_nodup|]; intros a Ia; now apply HdsI).
  destruct PS as (pieces' & E' & FF).
  { unfold moderate in Hm. fold p. assert ((S n * (p + 1) <= (length ks + 1) * (p + 1))%nat) by (apply Nat.mul_le_mono_r; lia). lia. }
  { apply sim_start; [exact HG|apply incl_refl]. }
  { exact E. }
  fold p in FF. replace (S n) with (length ds + 1)%nat in FF by lia. set (Er := INR ((length ds + 1) * (p + 1))) in *.
  assert (E0 : 0 <= Er * unit64 M) by (apply Rmult_le_pos; [apply pos_INR|lra]).
  pose proof (F2_len _ _ _ FF) as L2. exists ds, pieces'. split; [exact Hds|]. split; [exact HdsI|]. split; [exact E'|]. split; [congruence|].
  intros r Hr piece. pose proof (F2_nth _ _ _ r [] [] FF Hr) as F. fold piece in F. destruct (points_apart _ _ _ _ F) as [PA PW]. destruct (HB r ltac:(lia)) as (BL & BE & _). cbn [val_bspline bs_degree] in BL. fold p in BL.
  pose proof (F2_len _ _ _ F) as LF. split; [congruence|]. split; [intros q Iq; now apply PW|]. intros s Hs.
  destruct (bezier_apart (map val3 piece) (nth r pieces []) (Er * unit64 M) s) as (a & b & Ea & Eb & A); [rewrite map_length; lia|exact PA|exact E0|lra|]. exists a, b. split; [exact Ea|]. split; [rewrite <- (BE s Hs); exact Eb|]. rewrite <- unit_47. exact A.
Qed.

(** ** Concrete cases *)
Lemma decimal_unit x : is_fin x && valid_binary p64 e64 x && fleb (fabs x) f1 = true -> moderate_knot x.
Proof. intros H. apply checked_unit in H. destruct H as [N H]. split; [exact N|]. apply Rle_trans with (pow2 0); [rewrite pow2_0; exact H|apply pow2_le; lia]. Qed.
Lemma decimal_values : val_list decimal_knots = [0; 0; 0; 5404319552844595 / 18014398509481984; 1; 1; 1].
Proof. unfold val_list, decimal_knots. cbn [map]. rewrite tenth_3. rewrite f1_val, f0_val. reflexivity. Qed.
Lemma decimal_good : good64 1 decimal_curve.
Proof.
  destruct decimal_evaluable as (A & _ & B & C & D & _). constructor.
  - exact A.
  - constructor; [exact B|exact C|reflexivity|cbn; lia].
  - apply checked_points. vm_compute. reflexivity.
  - rewrite <- pow2_0. split; apply pow2_le; lia.
Qed.
Lemma decimal_pool (ks : list R) : (forall x, In x ks -> x = 0 \/ x = 5404319552844595 / 18014398509481984 \/ x = 6305039478318694 / 9007199254740992 \/ x = 1) ->
  separated ks /\ forall a b, In a ks -> In b ks -> a <> b -> 1 / 4 <= Rabs (a - b).
Proof.
  intros S.
  assert (D : forall a b, In a ks -> In b ks -> a <> b -> 1 / 4 <= Rabs (a - b)).
  { intros a b Ha Hb NE. apply S in Ha, Hb. destruct Ha as [Ha|[Ha|[Ha|Ha]]], Hb as [Hb|[Hb|[Hb|Hb]]]; subst a b; try congruence; first [rewrite Rabs_right by lra; lra|rewrite Rabs_left by lra; lra]. }
  split; [|exact D]. intros a b Ha Hb NE. specialize (D a b Ha Hb NE). apply S in Ha, Hb.
  assert (B : Rmax 1 (Rmax (Rabs a) (Rabs b)) <= 1) by (repeat apply Rmax_lub; [lra| |]; apply Rabs_le; intuition; subst; lra). lra.
Qed.
Example C72_insertions64_nonvacuous : exists c', foldM bspline_add_knot decimal_curve [tenth 7; tenth 3] = Ok c' /\ length (bs_cps c') = 6%nat /\
  forall u, 0 <= u <= 1 -> exists p q, bspline3_get_point (val_bspline c') u = Ok p /\ bspline3_get_point (val_bspline decimal_curve) u = Ok q /\ apart3 (2 * pow2 (-47)) p q.
Proof.
  destruct (C72_insertions64 1 decimal_curve [tenth 7; tenth 3]) as (c' & E & _ & _ & _ & L & _ & H).
  - exact decimal_good.
  - cbn [decimal_curve bs_knots bs_degree]. rewrite decimal_values. intros x [<-|[<-|[]]]; (split; [apply decimal_unit; vm_compute; reflexivity|]); unfold last_knot; cbn [length Nat.sub nth]; rewrite ?tenth_7, ?tenth_3; lra.
  - cbn [decimal_curve bs_knots]. unfold val_list. rewrite map_app. fold (val_list decimal_knots). rewrite decimal_values. cbn [map app]. rewrite tenth_7, tenth_3. apply decimal_pool. intros x Hx. cbn in Hx. intuition.
  - cbn [decimal_curve bs_knots]. rewrite decimal_values. unfold first_knot, last_knot. cbn [length Nat.sub nth]. lra.
  - vm_compute. discriminate.
  - exists c'. split; [exact E|]. split; [exact L|]. intros u Hu. destruct (H u) as (p & q & A & B & D).
    + cbn [decimal_curve bs_knots]. rewrite decimal_values. unfold first_knot, last_knot. cbn [length Nat.sub nth]. exact Hu.
    + exists p, q. split; [exact A|]. split; [exact B|]. cbn [length INR] in D. rewrite Rmult_1_r in D. exact D.
Qed.
Example C72_evaluated64_nonvacuous : exists c' p q, foldM bspline_add_knot decimal_curve [tenth 7] = Ok c' /\ bspline3_get_point c' (tenth 7) = Ok p /\ bspline3_get_point (val_bspline decimal_curve) (val (tenth 7)) = Ok q /\
  close3 (21 * (pow2 (-50) + pow2 (-1073)) + pow2 (-47)) p q.
Proof.
  assert (X : exists c', foldM bspline_add_knot decimal_curve [tenth 7] = Ok c' /\ bs_knots c' = [f0; f0; f0; tenth 3; tenth 7; f1; f1; f1] /\ bs_degree c' = 2%nat /\ length (bs_cps c') = 5%nat) by (eexists; split; [vm_compute; reflexivity|]; split; [vm_compute; reflexivity|]; split; reflexivity).
  destruct X as (c' & E & Hk & Hd & HL). exists c'.
  assert (V : val_list [f0; f0; f0; tenth 3; tenth 7; f1; f1; f1] = [0; 0; 0; 5404319552844595 / 18014398509481984; 6305039478318694 / 9007199254740992; 1; 1; 1]).
  { unfold val_list. cbn [map]. rewrite tenth_3, tenth_7. rewrite f1_val, f0_val. reflexivity. }
  destruct (C72_evaluated64 1 decimal_curve c' [tenth 7] (tenth 7)) as (p & q & A & B & D).
  - exact decimal_good.
  - cbn [decimal_curve bs_knots bs_degree]. rewrite decimal_values. intros x [<-|[]]; (split; [apply decimal_unit; vm_compute; reflexivity|]); unfold last_knot; cbn [length Nat.sub nth]; rewrite ?tenth_7; lra.
  - cbn [decimal_curve bs_knots]. unfold val_list. rewrite map_app. fold (val_list decimal_knots). rewrite decimal_values. cbn [map app]. rewrite tenth_7. apply decimal_pool. intros x Hx. cbn in Hx. intuition.
  - cbn [decimal_curve bs_knots]. rewrite decimal_values. unfold first_knot, last_knot. cbn [length Nat.sub nth]. lra.
  - vm_compute. discriminate.
  - exact E.
  - rewrite Hk, Hd, HL. split; [intros k [<-|[<-|[<-|[<-|[<-|[<-|[<-|[<-|[]]]]]]]]]; apply decimal_unit; vm_compute; reflexivity|]. split; [apply decimal_unit; vm_compute; reflexivity|]. rewrite V. split; [|split; [|split; [reflexivity|split; [lia|split; [vm_compute; discriminate|]]]]].
    + intros i j Hij. cbn [length] in Hij. do 8 (destruct i as [|i]; [do 8 (destruct j as [|j]; [try (exfalso; lia); cbn [nth]; lra|]); exfalso; lia|]). exfalso; lia.
    + apply decimal_pool. intros x Hx. cbn in Hx. intuition.
    + unfold in_domain. cbn [length Nat.sub nth]. rewrite tenth_7. split; [lra|left; lra].
  - cbn [decimal_curve bs_knots]. rewrite decimal_values, tenth_7. unfold first_knot, last_knot. cbn [length Nat.sub nth]. lra.
  - exists p, q. split; [exact E|]. split; [exact A|]. split; [exact B|]. rewrite HL in D. cbn [decimal_curve bs_degree length] in D. rewrite !Rmult_1_r in D. replace (INR (5 + 8 * 2)) with 21 in D by (cbn; ring). replace (INR 1 * pow2 (-47)) with (pow2 (-47)) in D by (cbn; ring). exact D.
Qed.
Example C72_split64_nonvacuous : exists c0 c1, bspline_split decimal_curve (tenth 7) = Ok (c0, c1) /\
  (forall u, 0 <= u < val (tenth 7) -> exists a b, bspline3_get_point (val_bspline c0) u = Ok a /\ bspline3_get_point (val_bspline decimal_curve) u = Ok b /\ apart3 (3 * pow2 (-47)) a b) /\
  (forall u, val (tenth 7) <= u <= 1 -> exists a b, bspline3_get_point (val_bspline c1) u = Ok a /\ bspline3_get_point (val_bspline decimal_curve) u = Ok b /\ apart3 (3 * pow2 (-47)) a b).
Proof.
  assert (P : forall x, In x (val (tenth 7) :: val_list decimal_knots) -> x = 0 \/ x = 5404319552844595 / 18014398509481984 \/ x = 6305039478318694 / 9007199254740992 \/ x = 1) by (rewrite decimal_values, tenth_7; intros x Hx; cbn in Hx; intuition).
  destruct (decimal_pool _ P) as [P1 P2].
  destruct (C72_split64 1 decimal_curve (tenth 7) (val (tenth 7))) as (c0 & c1 & E & _ & _ & _ & _ & _ & _ & _ & H0 & H1).
  - exact decimal_good.
  - vm_compute. discriminate.
  - apply decimal_unit; vm_compute; reflexivity.
  - exact P1.
  - intros k Ik. right. unfold TOL. apply Rle_trans with (1 / 4); [lra|]. apply P2; [now left|now right|]. intros Q. subst k. cbn [decimal_curve bs_knots] in Ik. rewrite decimal_values, tenth_7 in Ik. cbn [In] in Ik. lra.
  - cbn [decimal_curve bs_knots]. rewrite decimal_values, tenth_7. exists 3%nat. cbn [length Nat.add nth]. split; [lia|]. split; [lra|]. right. split; lra.
  - cbn [decimal_curve bs_knots]. rewrite decimal_values, tenth_7. unfold first_knot. cbn [nth]. lra.
  - cbn [decimal_curve bs_knots bs_degree]. rewrite decimal_values, tenth_7. cbn [nth]. lra.
  - exists c0, c1. split; [exact E|]. cbn [decimal_curve bs_knots bs_degree Nat.add INR] in H0, H1. rewrite decimal_values in H0, H1. unfold first_knot, last_knot in H0, H1. cbn [length Nat.sub nth] in H0, H1. rewrite Rmult_1_r in H0, H1. replace (1 + 1 + 1) with 3 in H0, H1 by ring.
    split; [exact H0|]. intros u Hu. apply H1; [exact Hu|]. rewrite tenth_7. lra.
Qed.
Example C72_piecewise64_nonvacuous : exists p0 p1, to_piecewise_bezier decimal_curve = Ok [p0; p1] /\ length p0 = 3%nat /\ length p1 = 3%nat /\
  forall s, 0 <= s < 1 -> exists a b, bezier3_get_point (map val3 p0) s = Ok a /\ bspline3_get_point (val_bspline decimal_curve) (s * val (tenth 3)) = Ok b /\ apart3 (12 * pow2 (-47)) a b.
Proof.
  assert (P : forall x, In x (val_list decimal_knots) -> x = 0 \/ x = 5404319552844595 / 18014398509481984 \/ x = 6305039478318694 / 9007199254740992 \/ x = 1) by (rewrite decimal_values; intros x Hx; cbn in Hx; intuition).
  destruct (decimal_pool _ P) as [P1 P2].
  destruct (C72_piecewise64 1 decimal_curve) as (ds & pieces & Hi & HI & E & HL & H).
  - exact decimal_good.
  - vm_compute. discriminate.
  - cbn [decimal_curve bs_knots]. rewrite decimal_values. unfold first_knot, last_knot. cbn [length Nat.sub nth]. lra.
  - cbn [decimal_curve bs_knots]. rewrite decimal_values. reflexivity.
  - cbn [decimal_curve bs_knots]. rewrite decimal_values. reflexivity.
  - cbn [decimal_curve bs_knots bs_degree]. rewrite decimal_values. intros x. unfold mult. cbn [count_occ]. repeat (destruct (Req_EM_T _ x)); try lia; exfalso; lra.
  - intros a b Ia Ib Hab. apply Rle_trans with (1 / 4); [lra|]. now apply P2.
  - cbn [decimal_curve bs_knots] in HI. rewrite decimal_values in HI.
    assert (L : exists p0 p1, to_piecewise_bezier decimal_curve = Ok [p0; p1]) by (vm_compute; do 2 eexists; reflexivity). destruct L as (p0 & p1 & L). rewrite L in E. apply Ok_inj in E. subst pieces. exists p0, p1. split; [exact L|].
    destruct ds as [|d0 [|d1 [|d2 [|]]]]; try discriminate HL. pose proof (Hi 0%nat 1%nat ltac:(cbn; lia)) as I1. pose proof (Hi 1%nat 2%nat ltac:(cbn; lia)) as I2. cbn [nth] in I1, I2.
    assert (D : d0 = 0 /\ d1 = val (tenth 3)).
    { rewrite tenth_3. assert (A0 := proj1 (HI d0) ltac:(now left)). assert (A1 := proj1 (HI d1) ltac:(right; now left)). assert (A2 := proj1 (HI d2) ltac:(right; right; now left)). cbn [In] in A0, A1, A2. split; lra. }
    destruct D as [-> ->]. destruct (H 0%nat ltac:(cbn; lia)) as (L0 & _ & H0). destruct (H 1%nat ltac:(cbn; lia)) as (L1 & _ & _). split; [exact L0|]. split; [exact L1|]. intros s Hs. destruct (H0 s Hs) as (a & b & A & B & C). exists a, b. split; [exact A|].
    cbn [nth Nat.add] in B. replace (0 + s * (val (tenth 3) - 0)) with (s * val (tenth 3)) in B by ring. split; [exact B|]. cbn [length decimal_curve bs_degree] in C. rewrite Rmult_1_r in C. replace (INR ((3 + 1) * (2 + 1))) with 12 in C by (cbn; ring). exact C.
Qed.
(** in doubles the curve does change: the value at 0.1 before and after inserting 0.7 *)
Theorem C72_same_bits_refuted : exists c' p q, bspline_add_knot decimal_curve (tenth 7) = Ok c' /\ bspline3_get_point decimal_curve (tenth 1) = Ok p /\ bspline3_get_point c' (tenth 1) = Ok q /\ p <> q.
Proof.
  do 3 eexists. split; [vm_compute; reflexivity|]. split; [vm_compute; reflexivity|]. split; [vm_compute; reflexivity|]. discriminate.
Qed.
