(** Properties C21-C26, C55, C58: the helpers of utils.rs and curve sampling. *)
From Coq Require Import Reals Lra Psatz Lia Arith Floats.SpecFloat.
From Verif Require Import Prelude Num M_vec M_utils M_curve L_base L_bezier L_vec L_knot L_bspline L_geom L_f64 Props_bezier Props_knot Props_bspline.
Open Scope R_scope.

(** ** C21: uniform_divide *)
Section Uniform.
Context {F : Type} {NF : Num F}.
Local Open Scope num_scope.
Fixpoint steps (beg step : F) (i : nat) : F := match i with O => beg | S i => steps beg step i + step end.

Lemma uniform_divide_list (a b : F) n : (1 <= n)%nat ->
  uniform_divide (a, b) n = Ok (map (steps a ((b - a) / fofnat n)) (seq 0 n) ++ [b]).
Proof.
  intros Hn. unfold uniform_divide. rewrite usub_Ok by lia. cbn [obind]. set (step := (b - a) / fofnat n).
  assert (G : forall m, fold_left (fun '(ps, u) _ => (ps ++ [u + step], u + step)) (Prelude.range 0 m) ([a], a)
    = (map (steps a step) (seq 0 (S m)), steps a step m)).
  { induction m as [|m IH]; [reflexivity|]. rewrite range_snoc, fold_left_app, IH by lia. cbn [fold_left].
    f_equal. rewrite (seq_S (S m)), map_app. reflexivity. }
  specialize (G (n - 1)%nat). cbv zeta. rewrite G. replace (S (n - 1)) with n by lia. reflexivity.
Qed.

(** any arithmetic: n+1 values, both ends exact, each further value is the one before plus the step *)
Theorem C21_uniform_divide_any_arithmetic (a b : F) (n : nat) (d : F) : (1 <= n)%nat ->
  exists l, uniform_divide (a, b) n = Ok l /\ length l = (n + 1)%nat /\ nth 0 l d = a /\ nth n l d = b /\
    forall i, (i + 1 < n)%nat -> nth (i + 1) l d = nth i l d + (b - a) / fofnat n.
Proof.
  intros Hn. exists (map (steps a ((b - a) / fofnat n)) (seq 0 n) ++ [b]).
  assert (G : forall i, (i < n)%nat -> nth i (map (steps a ((b - a) / fofnat n)) (seq 0 n) ++ [b]) d = steps a ((b - a) / fofnat n) i).
  { intros i Hi. rewrite app_nth1 by (rewrite map_length, seq_length; lia).
    rewrite (nth_map_default _ _ _ 0%nat) by now rewrite seq_length. now rewrite seq_nth by lia. }
  split; [now apply uniform_divide_list|]. split; [rewrite app_length, map_length, seq_length; reflexivity|].
  split; [now rewrite G by lia|]. split.
  - rewrite app_nth2 by (rewrite map_length, seq_length; lia). now rewrite map_length, seq_length, Nat.sub_diag.
  - intros i Hi. rewrite !G by lia. now rewrite Nat.add_1_r.
Qed.
Theorem C21_uniform_divide_zero_panics (r : F * F) : uniform_divide r 0 = Panic.
Proof. destruct r. reflexivity. Qed.
End Uniform.

Theorem C21_uniform_divide_exact (a b : R) (n : nat) : (1 <= n)%nat ->
  uniform_divide (a, b) n = Ok (map (fun i => a + INR i * (b - a) / INR n) (seq 0 (n + 1))).
Proof.
  intros Hn. rewrite uniform_divide_list by assumption. f_equal.
  assert (Hn0 : INR n <> 0) by (apply not_0_INR; lia).
  rewrite seq_app, map_app. cbn [Nat.add seq map]. f_equal.
  - apply map_ext. intros i. rnum. induction i as [|i IH]; cbn [steps]; rnum; [cbn [INR]; field; assumption|].
    rewrite IH. rewrite S_INR. field. assumption.
  - f_equal. field. assumption.
Qed.
Lemma uniform_divide_in_range (a b : R) n l : uniform_divide (a, b) n = Ok l -> forall u, In u l -> Rmin a b <= u <= Rmax a b.
Proof.
  intros E u Hu. destruct n as [|n]; [discriminate|]. rewrite C21_uniform_divide_exact in E by lia. apply Ok_inj in E. subst l.
  apply in_map_iff in Hu. destruct Hu as [i [<- Hi]]. apply in_seq in Hi.
  assert (0 < INR (S n)) by (apply lt_0_INR; lia).
  assert (Hr : 0 <= INR i / INR (S n) <= 1).
  { split; [apply Rmult_le_pos; [apply pos_INR|left; now apply Rinv_0_lt_compat]|].
    apply (Rmult_le_reg_r (INR (S n))); [assumption|]. unfold Rdiv. rewrite Rmult_assoc, Rinv_l by lra. rewrite Rmult_1_r, Rmult_1_l. apply le_INR. lia. }
  replace (a + INR i * (b - a) / INR (S n)) with (a + INR i / INR (S n) * (b - a)) by (field; lra).
  unfold Rmin, Rmax. destruct (Rle_dec a b); nra.
Qed.
Example C21_nonvacuous : (1 <= 4)%nat /\ uniform_divide (1, 3) 4 = Ok [1; 3/2; 2; 5/2; 3].
Proof.
  split; [lia|]. rewrite C21_uniform_divide_exact by lia. f_equal. cbn. repeat (f_equal; [lra|]). f_equal. lra.
Qed.

(** ** C22: adaptive parameter division, shape *)
Section Division.
Context {F : Type} {NF : Num F}.
Variables (rnd : list bool -> F) (gp : F -> outcome (vec3 F)) (tol : F).

(** the chord from a to b is within tol of the curve at one random probe *)
Definition flat (a b : F) : Prop :=
  exists path pa pb q, gp a = Ok pa /\ gp b = Ok pb /\
    gp (range_at (a, b) (probe (rnd path))) = Ok q /\
    fltb (distance3 q (vadd pa (vmulr (vsub pb pa) (probe (rnd path))))) tol = true.

Definition consecutive {A} (P : A -> A -> Prop) (l : list A) : Prop :=
  forall i a b, nth_error l i = Some a -> nth_error l (i + 1) = Some b -> P a b.

Lemma consecutive_cons {A} (P : A -> A -> Prop) a b l : P a b -> consecutive P (b :: l) -> consecutive P (a :: b :: l).
Proof.
  intros H C i x y Hx Hy. destruct i as [|i]; cbn in Hx, Hy; [injection Hx as <-; injection Hy as <-; assumption|].
  apply (C i); assumption.
Qed.
Lemma consecutive_tail {A} (P : A -> A -> Prop) a l : consecutive P (a :: l) -> consecutive P l.
Proof. intros C i x y Hx Hy. apply (C (S i)); assumption. Qed.
Lemma consecutive_2 {A} (P : A -> A -> Prop) a b : P a b -> consecutive P [a; b].
Proof. intros H. apply consecutive_cons; [assumption|]. intros i x y Hx Hy. destruct i; cbn in Hy; [discriminate|]. destruct i; discriminate. Qed.

(** joining two lists that share an end *)
Lemma consecutive_join {A} (P : A -> A -> Prop) l m r :
  consecutive P (l ++ [m]) -> consecutive P (m :: r) -> consecutive P (l ++ m :: r).
Proof.
  induction l as [|a l IH]; cbn; intros H1 H2; [assumption|].
  destruct l as [|b l]; cbn in *.
  - apply consecutive_cons; [|assumption]. apply (H1 0%nat); reflexivity.
  - apply consecutive_cons; [apply (H1 0%nat); reflexivity|]. apply IH; [|assumption]. now apply consecutive_tail in H1.
Qed.

Theorem C22_division_shape (fuel : nat) (path : list bool) (a b : F) (l : list F) :
  parameter_division fuel rnd path gp (a, b) tol = Ok l ->
  (exists mid, l = a :: mid ++ [b]) /\ consecutive flat l.
Proof.
  revert path a b l. induction fuel as [|fuel IH]; intros path a b l E; cbn [parameter_division fst snd] in E; [discriminate|].
  obind_inv E. obind_inv E. obind_inv E.
  match type of E with context [fltb ?x tol] => destruct (fltb x tol) eqn:El end.
  - apply Ok_inj in E. subst l. split; [exists []; reflexivity|]. apply consecutive_2.
    exists path. do 3 eexists. repeat (split; [eassumption|]). exact El.
  - obind_inv E. obind_inv E. apply Ok_inj in E. subst l.
    match goal with H1 : parameter_division _ _ (false :: _) _ _ _ = Ok _ |- _ => apply IH in H1; destruct H1 as [[m1 ->] C1] end.
    match goal with H1 : parameter_division _ _ (true :: _) _ _ _ = Ok _ |- _ => apply IH in H1; destruct H1 as [[m2 ->] C2] end.
    rewrite app_comm_cons, removelast_last. split.
    + eexists (m1 ++ _ :: m2). cbn. now rewrite <- app_assoc.
    + apply consecutive_join; assumption.
Qed.
End Division.

(** over R: strictly monotone in the direction of the range *)
Theorem C22_division_strictly_monotone (rnd : list bool -> R) gp tol fuel path (a b : R) l :
  parameter_division fuel rnd path gp (a, b) tol = Ok l ->
  (a < b -> consecutive Rlt l) /\ (b < a -> consecutive Rgt l).
Proof.
  revert path a b l. induction fuel as [|fuel IH]; intros path a b l E; cbn [parameter_division fst snd] in E; [discriminate|].
  obind_inv E. obind_inv E. obind_inv E.
  match type of E with context [fltb ?x tol] => destruct (fltb x tol) eqn:El end.
  - apply Ok_inj in E. subst l. split; intros H; now apply consecutive_2.
  - obind_inv E. obind_inv E. apply Ok_inj in E. subst l.
    match goal with H1 : parameter_division _ _ (false :: _) _ _ _ = Ok _ |- _ =>
      pose proof (C22_division_shape _ _ _ _ _ _ _ _ H1) as [[m1 ->] _]; apply IH in H1; destruct H1 as [I1 I2] end.
    match goal with H1 : parameter_division _ _ (true :: _) _ _ _ = Ok _ |- _ =>
      pose proof (C22_division_shape _ _ _ _ _ _ _ _ H1) as [[m2 ->] _]; apply IH in H1; destruct H1 as [J1 J2] end.
    rewrite app_comm_cons, removelast_last. unfold f2 in *. rnum.
    split; intros H; apply consecutive_join; first [apply I1|apply I2|apply J1|apply J2]; lra.
Qed.
(** the probe lies in [0.4, 0.6) whenever the generator returns a number of [0, 1) *)
Theorem C22_probe_range (r : R) : 0 <= r < 1 -> 2/5 <= probe r < 3/5.
Proof. intros H. unfold probe. rnum. lra. Qed.

(** ** C23: termination *)
Definition lipschitz (gp : R -> outcome (vec3 R)) (L a b : R) : Prop :=
  forall u v, Rmin a b <= u <= Rmax a b -> Rmin a b <= v <= Rmax a b ->
    exists p q, gp u = Ok p /\ gp v = Ok q /\ length3 (vsub p q) <= L * Rabs (u - v).

(** The recursion depth is at most 1 + log2(2 L |b-a| / tol), whatever the generator returns. *)
Theorem C23_division_terminates (rnd : list bool -> R) (gp : R -> outcome (vec3 R)) (tol L a b : R) (fuel : nat) (path : list bool) :
  (forall path, 0 <= rnd path < 1) -> 0 <= L -> lipschitz gp L a b ->
  2 * L * Rabs (b - a) < tol * 2 ^ fuel ->
  exists l, parameter_division (S fuel) rnd path gp (a, b) tol = Ok l.
Proof.
  intros Hr HL. revert path a b. induction fuel as [|fuel IH]; intros path a b Hlip Htol.
  - cbn [parameter_division fst snd].
    assert (Ha : Rmin a b <= a <= Rmax a b) by (split; [apply Rmin_l|apply Rmax_l]).
    assert (Hb : Rmin a b <= b <= Rmax a b) by (split; [apply Rmin_r|apply Rmax_r]).
    pose proof (C22_probe_range _ (Hr path)) as Hp. set (p := probe (rnd path)) in *.
    set (t := range_at (a, b) p).
    assert (Et : t = a + (b - a) * p) by reflexivity.
    assert (Ht : Rmin a b <= t <= Rmax a b).
    { rewrite Et. unfold Rmin, Rmax. destruct (Rle_dec a b); nra. }
    destruct (Hlip t a Ht Ha) as [q [pa (Eq & Ea & H1)]]. destruct (Hlip b a Hb Ha) as [pb [pa' (Eb & Ea' & H2)]].
    rewrite Ea in Ea'. apply Ok_inj in Ea'. subst pa'. rewrite Ea, Eb, Eq. cbn [obind].
    assert (Hd : distance3 q (vadd pa (vmulr (vsub pb pa) p)) < tol); [|rnum; rewrite (proj2 (Rltb_true _ _) Hd); eexists; reflexivity].
    unfold distance3.
    replace (vsub q (vadd pa (vmulr (vsub pb pa) p))) with (vadd (vsub q pa) (vmulr (vsub pb pa) (- p))) by (apply vec3_ext; vsimp; rnum; ring).
    eapply Rle_lt_trans; [apply triangle3|]. rewrite length3_scale, Rabs_Ropp, (Rabs_right p) by lra.
    replace (t - a) with ((b - a) * p) in H1 by (rewrite Et; ring). rewrite Rabs_mult, (Rabs_right p) in H1 by lra.
    cbn [pow] in Htol. pose proof (Rabs_pos (b - a)). set (D := Rabs (b - a)) in *.
    pose proof (length3_nonneg (vsub pb pa)).
    assert (p * length3 (vsub pb pa) <= 1 * (L * D)) by (apply Rmult_le_compat; lra).
    assert (L * (D * p) <= L * (D * 1)) by (apply Rmult_le_compat_l; [assumption|]; apply Rmult_le_compat_l; lra).
    lra.
  - remember (S fuel) as fuel1 eqn:Ef. cbn [parameter_division fst snd].
    assert (Ha : Rmin a b <= a <= Rmax a b) by (split; [apply Rmin_l|apply Rmax_l]).
    assert (Hb : Rmin a b <= b <= Rmax a b) by (split; [apply Rmin_r|apply Rmax_r]).
    pose proof (C22_probe_range _ (Hr path)) as Hp. set (p := probe (rnd path)) in *.
    set (t := range_at (a, b) p).
    assert (Ht : Rmin a b <= t <= Rmax a b).
    { change t with (a + (b - a) * p). unfold Rmin, Rmax. destruct (Rle_dec a b); nra. }
    destruct (Hlip t a Ht Ha) as [q [pa (Eq & Ea & _)]]. destruct (Hlip b a Hb Ha) as [pb [pa' (Eb & _)]].
    rewrite Ea, Eb, Eq. cbn [obind].
    match goal with |- context [fltb ?x tol] => destruct (fltb x tol) end; [eexists; reflexivity|].
    set (m := fdiv (fadd a b) f2). assert (Em : m = (a + b) / 2) by (unfold m, f2; rnum; field).
    rewrite Ef in Htol. cbn [pow] in Htol.
    destruct (IH (false :: path) a m) as [l1 E1].
    { intros u v Hu Hv. apply Hlip; rewrite Em in *; split; unfold Rmin, Rmax in *; destruct (Rle_dec a b); destruct (Rle_dec a ((a + b) / 2)); lra. }
    { rewrite Em. replace ((a + b) / 2 - a) with ((b - a) * / 2) by field. rewrite Rabs_mult, (Rabs_right (/ 2)) by lra. lra. }
    destruct (IH (true :: path) m b) as [l2 E2].
    { intros u v Hu Hv. apply Hlip; rewrite Em in *; split; unfold Rmin, Rmax in *; destruct (Rle_dec a b); destruct (Rle_dec ((a + b) / 2) b); lra. }
    { rewrite Em. replace (b - (a + b) / 2) with ((b - a) * / 2) by field. rewrite Rabs_mult, (Rabs_right (/ 2)) by lra. lra. }
    rewrite E1. cbn [obind]. rewrite E2. eexists. reflexivity.
Qed.
(** such a depth exists for every positive tolerance *)
Theorem C23_division_terminates_exists (gp : R -> outcome (vec3 R)) (tol L a b : R) :
  0 < tol -> 0 <= L -> lipschitz gp L a b ->
  exists fuel, forall rnd, (forall path, 0 <= rnd path < 1) -> forall path, exists l, parameter_division fuel rnd path gp (a, b) tol = Ok l.
Proof.
  intros Ht HL Hlip.
  destruct (Pow_x_infinity 2 ltac:(rewrite Rabs_right by lra; lra) (2 * L * Rabs (b - a) / tol + 1)) as [n Hn].
  exists (S n). intros rnd Hr path. apply (C23_division_terminates rnd gp tol L); auto.
  specialize (Hn n ltac:(lia)). rewrite Rabs_right in Hn by (apply Rle_ge, pow_le; lra).
  assert (2 * L * Rabs (b - a) / tol < 2 ^ n) by lra.
  apply (Rmult_lt_compat_r tol) in H; [|assumption]. unfold Rdiv in H. rewrite Rmult_assoc, Rinv_l in H by lra. lra.
Qed.
Example C23_nonvacuous : lipschitz (fun u => Ok (V3 u 0 0)) 1 0 5 /\ 0 < / 10.
Proof.
  split; [|lra]. intros u v _ _. do 2 eexists. split; [reflexivity|]. split; [reflexivity|].
  apply length3_le_sq; [pose proof (Rabs_pos (u - v)); lra|]. unfold dot3; vsimp; rnum. rewrite !Rmult_1_l.
  replace (Rabs (u - v) * Rabs (u - v)) with ((u - v) * (u - v)) by (unfold Rabs; destruct (Rcase_abs _); ring). lra.
Qed.

(** With a tolerance that no distance is below, the recursion has no end. *)
Lemma division_endless {F} {NF : Num F} rnd (gp : F -> outcome (vec3 F)) tol :
  (forall u, exists p, gp u = Ok p) -> (forall d : vec3 F, fltb (length3 d) tol = false) ->
  forall fuel path r, parameter_division fuel rnd path gp r tol = OutOfFuel.
Proof.
  intros Ht Hd. induction fuel as [|fuel IH]; intros path r; cbn [parameter_division]; [reflexivity|].
  destruct (Ht (fst r)) as [p0 ->]. destruct (Ht (snd r)) as [p1 ->]. cbn [obind].
  destruct (Ht (range_at r (probe (rnd path)))) as [q ->]. cbn [obind]. unfold distance3. rewrite Hd.
  now rewrite IH.
Qed.
Theorem C23_division_endless_R (rnd : list bool -> R) (gp : R -> outcome (vec3 R)) (tol : R) :
  (forall u, exists p, gp u = Ok p) -> tol <= 0 ->
  forall fuel path r, parameter_division fuel rnd path gp r tol = OutOfFuel.
Proof. intros Ht Hd. apply division_endless; [assumption|]. intros d. rnum. apply Rltb_false. pose proof (length3_nonneg d). lra. Qed.
(** the same in binary64, for zero, negative and NaN tolerances *)
Theorem C23_division_endless_f64 (rnd : list bool -> f64) (gp : f64 -> outcome (vec3 f64)) (tol : f64) :
  (forall u, exists p, gp u = Ok p) -> not_positive tol ->
  forall fuel path r, parameter_division (NF := F64Num) fuel rnd path gp r tol = OutOfFuel.
Proof.
  intros Ht Hd. apply (division_endless (NF := F64Num)); [assumption|]. intros d.
  apply nonneg_not_below; [apply SFsqrt_nonneg|assumption].
Qed.
Example C23_endless_nonvacuous : not_positive (S754_zero false) /\ (forall u : f64, exists p, (fun u => Ok (V3 u u u)) u = Ok p).
Proof. split; [exact I|]. intros u. eexists. reflexivity. Qed.

(** ** C24: nearest point search *)
Section Nearest.
Context {F : Type} {NF : Num F}.
Variables (points : list (vec3 F)) (point : vec3 F).
Hypothesis lt_irrefl : forall a : F, fltb a a = false.
Hypothesis lt_trans : forall a b c : F, fltb a b = true -> fltb b c = true -> fltb a c = true.
Hypothesis le_lt_trans : forall a b c : F, fleb a b = true -> fltb b c = true -> fltb a c = true.
(** the squared distance as computed *)
Definition sqd (v : vec3 F) : F := length_squared3 (vsub point v).
Definition nearest_step (st : F * nat) (iv : nat * vec3 F) : F * nat :=
  let '(min, min_index) := st in let '(index, vertex) := iv in
  if fltb (sqd vertex) min then (sqd vertex, index) else (min, min_index).

Definition is_nearest (l : list (vec3 F)) (st : F * nat) : Prop :=
  let '(m, r) := st in
  (m = fmaxval /\ r = 0%nat /\ (forall v, In v l -> fltb (sqd v) fmaxval = false)) \/
  (exists vr, nth_error l r = Some vr /\ m = sqd vr /\ fltb (sqd vr) fmaxval = true /\
     (forall v, In v l -> fltb (sqd v) (sqd vr) = false) /\
     (forall i v, (i < r)%nat -> nth_error l i = Some v -> fleb (sqd v) (sqd vr) = false)).
Lemma nearest_fold l : is_nearest l (fold_left nearest_step (enumerate l) (fmaxval, 0%nat)).
Proof.
  induction l as [|v l IH] using rev_ind.
  - left. repeat split; auto. intros v [].
  - rewrite enumerate_snoc, fold_left_app. destruct (fold_left nearest_step (enumerate l) (fmaxval, 0%nat)) as [m r]. cbn [fold_left nearest_step].
    destruct (fltb (sqd v) m) eqn:E.
    + right. exists v. rewrite nth_error_app2, Nat.sub_diag by lia. split; [reflexivity|]. split; [reflexivity|].
      destruct IH as [(-> & -> & H)|[vr (H1 & -> & H2 & H3 & H4)]].
      * split; [assumption|]. split.
        -- intros w Hw. apply in_app_or in Hw. destruct Hw as [Hw|[<-|[]]]; [|apply lt_irrefl].
           destruct (fltb (sqd w) (sqd v)) eqn:E'; [|reflexivity]. rewrite <- (H w Hw). symmetry. eapply lt_trans; eauto.
        -- intros i w Hi Hw. rewrite nth_error_app1 in Hw by lia. apply nth_error_In in Hw.
           destruct (fleb (sqd w) (sqd v)) eqn:E'; [|reflexivity]. rewrite <- (H w Hw). symmetry. eapply le_lt_trans; eauto.
      * split; [eapply lt_trans; eauto|]. split.
        -- intros w Hw. apply in_app_or in Hw. destruct Hw as [Hw|[<-|[]]]; [|apply lt_irrefl].
           destruct (fltb (sqd w) (sqd v)) eqn:E'; [|reflexivity]. rewrite <- (H3 w Hw). symmetry. eapply lt_trans; eauto.
        -- intros i w Hi Hw. rewrite nth_error_app1 in Hw by lia. apply nth_error_In in Hw.
           destruct (fleb (sqd w) (sqd v)) eqn:E'; [|reflexivity]. rewrite <- (H3 w Hw). symmetry. eapply le_lt_trans; eauto.
    + destruct IH as [(-> & -> & H)|[vr (H1 & -> & H2 & H3 & H4)]].
      * left. repeat split; auto. intros w Hw. apply in_app_or in Hw. destruct Hw as [Hw|[<-|[]]]; auto.
      * right. exists vr. assert (Hr : (r < length l)%nat) by (apply nth_error_Some; congruence).
        rewrite nth_error_app1 by assumption. repeat split; auto.
        -- intros w Hw. apply in_app_or in Hw. destruct Hw as [Hw|[<-|[]]]; auto.
        -- intros i w Hi Hw. rewrite nth_error_app1 in Hw by lia. eauto.
Qed.
Lemma find_nearest_fold l : find_nearest_point l point = snd (fold_left nearest_step (enumerate l) (fmaxval, 0%nat)).
Proof.
  unfold find_nearest_point. f_equal. generalize (fmaxval, 0%nat). generalize (enumerate l). intros L. induction L as [|[i v] L IH]; intros [m r]; cbn; [reflexivity|].
  apply IH.
Qed.
Lemma nearest_spec l : let r := find_nearest_point l point in
  (r = 0%nat /\ (forall v, In v l -> fltb (sqd v) fmaxval = false)) \/
  (exists vr, nth_error l r = Some vr /\ fltb (sqd vr) fmaxval = true /\
     (forall v, In v l -> fltb (sqd v) (sqd vr) = false) /\
     (forall i v, (i < r)%nat -> nth_error l i = Some v -> fleb (sqd v) (sqd vr) = false)).
Proof.
  cbv zeta. rewrite find_nearest_fold. pose proof (nearest_fold l) as H. destruct (fold_left _ _ _) as [m r]. cbn [snd].
  destruct H as [(-> & -> & H)|[vr (H1 & -> & H2)]]; [left; auto|right; exists vr; auto].
Qed.
End Nearest.

(** Real arithmetic: a valid index, the distance is minimal, and it is the first such index
    (distances below f64::MAX, which is where the search starts). *)
Theorem C24_nearest_R (points : list (vec3 R)) (point : vec3 R) :
  points <> [] -> (forall v, In v points -> dot3 (vsub point v) (vsub point v) < RMAX) ->
  let r := find_nearest_point points point in let d i := length3 (vsub point (nth i points vzero)) in
  (r < length points)%nat /\ (forall i, (i < length points)%nat -> d r <= d i) /\ (forall i, (i < r)%nat -> d r < d i).
Proof.
  intros Hne Hmax r d.
  assert (T1 : forall a b c : R, fltb a b = true -> fltb b c = true -> fltb a c = true) by (intros a b c; rnum; rewrite !Rltb_true; lra).
  assert (T2 : forall a b c : R, fleb a b = true -> fltb b c = true -> fltb a c = true) by (intros a b c; rnum; rewrite !Rltb_true, Rleb_true; lra).
  assert (T0 : forall a : R, fltb a a = false) by (intros a; rnum; apply Rltb_false; lra).
  destruct (nearest_spec point T0 T1 T2 points) as [[_ H]|[vr (H1 & H2 & H3 & H4)]].
  - exfalso. destruct points as [|v l]; [contradiction|]. specialize (H v (or_introl eq_refl)). specialize (Hmax v (or_introl eq_refl)).
    rnum. apply Rltb_false in H. unfold sqd, length_squared3 in H. lra.
  - fold r in H1, H4. assert (Hr : (r < length points)%nat) by (apply nth_error_Some; congruence).
    apply (nth_error_nth _ _ vzero) in H1. split; [assumption|]. unfold d. rewrite H1. unfold sqd, length_squared3 in *. rnum. split.
    + intros i Hi. apply sqrt_le_1; [apply dot3_nonneg|apply dot3_nonneg|]. apply Rltb_false. apply H3. now apply nth_In.
    + intros i Hi. apply sqrt_lt_1; [apply dot3_nonneg|apply dot3_nonneg|]. apply Rleb_false. apply (H4 i); [assumption|].
      apply nth_error_nth'. lia.
Qed.
Example C24_nonvacuous : find_nearest_point [V3 5 0 0; V3 1 0 0; V3 (-1) 0 0] (V3 0 0 0 : vec3 R) = 1%nat.
Proof.
  assert (HM : 26 < RMAX) by (unfold RMAX; apply IZR_lt; vm_compute; reflexivity).
  unfold find_nearest_point, length_squared3, dot3. cbn -[RMAX]. rnum.
  rdec. reflexivity.
Qed.

(** IEEE double arithmetic: minimal for the distances as computed; NaN distances are never chosen. *)
Theorem C24_nearest_f64 (points : list (vec3 f64)) (point : vec3 f64) :
  let d v := sqd (NF := F64Num) point v in
  let r := find_nearest_point (NF := F64Num) points point in
  (exists v, In v points /\ SFltb (d v) fmaxval = true) ->
  exists vr, nth_error points r = Some vr /\ (forall v, In v points -> SFltb (d v) (d vr) = false) /\
    (forall v, In v points -> not_nan (d v) -> SFleb (d vr) (d v) = true) /\
    (forall i v, (i < r)%nat -> nth_error points i = Some v -> SFleb (d v) (d vr) = false).
Proof.
  intros d r [v0 [Hv0 Hlt]].
  destruct (nearest_spec (NF := F64Num) point SFltb_irrefl SFltb_trans SFleb_ltb_trans points) as [[_ H]|[vr (H1 & H2 & H3 & H4)]].
  - specialize (H v0 Hv0). change (SFltb (d v0) fmaxval = false) in H. rewrite H in Hlt. discriminate.
  - exists vr. repeat split; auto. intros v Hv Hn. apply SFltb_false_leb; auto.
    cbn [fltb F64Num] in H2. apply SFltb_spec in H2. apply H2.
Qed.
Example C24_f64_nonvacuous : SFltb (sqd (NF := F64Num) (v64 0 0 0) (v64 3 4 0)) fmaxval = true /\
  find_nearest_point (NF := F64Num) [V3 S754_nan S754_nan S754_nan; v64 3 4 0; v64 4 3 0] (v64 0 0 0) = 1%nat.
Proof. vm_compute. split; reflexivity. Qed.
Theorem C24_empty_gives_0 {F} {NF : Num F} (point : vec3 F) : find_nearest_point [] point = 0%nat.
Proof. reflexivity. Qed.

(** the grid search is the list search on the row-major data *)
Theorem C24_grid_search {F} {NF : Num F} (rows cols : nat) (data : list (vec3 F)) (point : vec3 F) :
  (1 <= cols)%nat -> length data = (rows * cols)%nat ->
  let r := find_nearest_point data point in
  find_nearest_point_in_grid (mkGrid cols data) point = Ok ((r / cols)%nat, (r mod cols)%nat).
Proof.
  intros Hc HL r. unfold find_nearest_point_in_grid. cbn [g_cols g_data].
  assert (HR : g_rows (mkGrid cols data) = rows).
  { unfold g_rows. cbn [g_cols g_data]. destruct cols as [|c]; [lia|]. rewrite HL. apply Nat.div_mul. lia. }
  rewrite HR.
  set (St := fun k => let '(m, q) := fold_left (nearest_step point) (enumerate (firstn k data)) (fmaxval, 0%nat) in (m, ((q / cols)%nat, (q mod cols)%nat))).
  destruct (foldM_range (fun i st => st = St (i * cols)%nat) (fun st i =>
         foldM (fun '(min, min_index) j =>
                  v <- grid_idx (mkGrid cols data) i j ;;
                  let distance := length_squared3 (vsub point v) in
                  Ok (if fltb distance min then (distance, (i, j)) else (min, min_index)))
               st (Prelude.range 0 cols)) 0 rows (fmaxval, (0%nat, 0%nat))) as [st [E Est]].
  - lia.
  - unfold St. cbn [firstn Nat.mul]. cbn. now rewrite Nat.div_0_l, Nat.mod_0_l by lia.
  - intros i st Hi ->.
    destruct (foldM_range (fun j st => st = St (i * cols + j)%nat) (fun '(min, min_index) j =>
                  v <- grid_idx (mkGrid cols data) i j ;;
                  let distance := length_squared3 (vsub point v) in
                  Ok (if fltb distance min then (distance, (i, j)) else (min, min_index))) 0 cols (St (i * cols)%nat)) as [st [E Est]].
    + lia.
    + now rewrite Nat.add_0_r.
    + intros j st Hj ->.
      assert (Hk : (i * cols + j < length data)%nat) by (rewrite HL; nia).
      destruct (nth_error data (i * cols + j)) as [v|] eqn:Ev; [|apply nth_error_None in Ev; lia].
      assert (EF : firstn (i * cols + (j + 1)) data = firstn (i * cols + j) data ++ [v]).
      { replace (i * cols + (j + 1))%nat with (S (i * cols + j)) by lia.
        rewrite <- (firstn_skipn (i * cols + j) data) at 1. rewrite firstn_app, firstn_firstn, firstn_length.
        rewrite Nat.min_r by lia. replace (S (i * cols + j) - Nat.min (i * cols + j) (length data))%nat with 1%nat by lia. f_equal.
        destruct (skipn (i * cols + j) data) as [|w l'] eqn:Es.
        - assert (length (skipn (i * cols + j) data) = 0%nat) by now rewrite Es. rewrite skipn_length in H. lia.
        - cbn [firstn]. f_equal. rewrite <- (firstn_skipn (i * cols + j) data) in Ev. rewrite nth_error_app2 in Ev by (rewrite firstn_length; lia).
          rewrite firstn_length, Nat.min_l, Nat.sub_diag, Es in Ev by lia. now injection Ev. }
      unfold St at 1.
      destruct (fold_left (nearest_step point) (enumerate (firstn (i * cols + j) data)) (fmaxval, 0%nat)) as [m q] eqn:Ef. eexists.
      unfold grid_idx. rewrite HR. cbn [g_cols g_data]. rewrite (proj2 (Nat.ltb_lt i rows)), (proj2 (Nat.ltb_lt j cols)) by lia. cbn [andb].
      unfold idx. rewrite Ev. cbn [obind]. split; [reflexivity|].
      unfold St. rewrite EF, enumerate_snoc, fold_left_app, Ef. cbn [fold_left nearest_step].
      rewrite firstn_length, Nat.min_l by lia. change (sqd point v) with (length_squared3 (vsub point v)).
      destruct (fltb _ m); [|reflexivity]. f_equal. f_equal.
      * rewrite Nat.div_add_l by lia. rewrite Nat.div_small by lia. lia.
      * rewrite Nat.add_comm, Nat.mod_add by lia. symmetry. apply Nat.mod_small. lia.
    + exists st. split; [exact E|]. rewrite Est. f_equal. lia.
  - match goal with |- obind ?x _ = _ => replace x with (Ok st) by (symmetry; exact E) end. cbn [obind]. rewrite Est. unfold St. rewrite <- HL, firstn_all. unfold r. rewrite find_nearest_fold.
    destruct (fold_left _ _ _) as [m q]. reflexivity.
Qed.
Example C24_grid_nonvacuous :
  find_nearest_point_in_grid (NF := F64Num) (mkGrid 2 [v64 9 0 0; v64 8 0 0; v64 1 0 0; v64 2 0 0]) (v64 0 0 0) = Ok (1, 0)%nat.
Proof. vm_compute. reflexivity. Qed.

(** ** C25: distance to a line segment *)
Definition on_segment3 (a b : vec3 R) (s : R) : vec3 R := V3 (x3 a + s * (x3 b - x3 a)) (y3 a + s * (y3 b - y3 a)) (z3 a + s * (z3 b - z3 a)).
Definition dist3 (p q : vec3 R) : R := sqrt ((x3 p - x3 q) ^ 2 + (y3 p - y3 q) ^ 2 + (z3 p - z3 q) ^ 2).
Definition on_segment2 (a b : vec2 R) (s : R) : vec2 R := V2 (x2 a + s * (x2 b - x2 a)) (y2 a + s * (y2 b - y2 a)).
Definition dist2 (p q : vec2 R) : R := sqrt ((x2 p - x2 q) ^ 2 + (y2 p - y2 q) ^ 2).
(** [d] is the minimum of the distances from [p] to the points of the segment *)
Definition is_min_distance {P} (dist : P -> P -> R) (seg : R -> P) (p : P) (d : R) : Prop :=
  (forall s, 0 <= s <= 1 -> d <= dist p (seg s)) /\ (exists s, 0 <= s <= 1 /\ dist p (seg s) = d).

(** the real-number content: minimise A - 2 s B + s^2 C for s in [0,1], with A C >= B^2 *)
Lemma min_quadratic A B C : 0 <= A -> 0 <= C -> B * B <= A * C ->
  let q s := A - 2 * s * B + s * s * C in
  (forall s, 0 <= s <= 1 -> B <= 0 -> A <= q s) /\
  (forall s, 0 <= s <= 1 -> C <= B -> A - 2 * B + C <= q s) /\
  (0 < B < C -> forall s, (A * C - B * B) / C <= q s) /\
  (0 < B < C -> q (B / C) = (A * C - B * B) / C).
Proof.
  intros HA HC HB q. unfold q. repeat split.
  - intros s Hs H. nra.
  - intros s Hs H. assert (C * s <= C) by nra. assert (0 <= (1 - s) * (2 * B - C * (1 + s))) by (apply Rmult_le_pos; lra). lra.
  - intros H s. replace (A - 2 * s * B + s * s * C) with ((A * C - B * B) / C + (s * C - B) * (s * C - B) / C) by (field; intro; lra).
    assert (0 <= (s * C - B) * (s * C - B) / C); [|lra]. apply Rmult_le_pos; [apply Rle_0_sqr|]. apply Rlt_le, Rinv_0_lt_compat; lra.
  - intros H. field. intro; lra.
Qed.

Lemma sqrt_div_length (X C : R) : 0 <= X -> 0 < C -> sqrt X / sqrt C = sqrt (X / C).
Proof. intros HX HC. symmetry. apply sqrt_div; assumption. Qed.

Theorem C25_segment_distance_3d (a b p : vec3 R) :
  is_min_distance dist3 (on_segment3 a b) p (distance_to_line_segment3 a b p).
Proof.
  set (A := dot3 (vsub p a) (vsub p a)). set (B := dot3 (vsub p a) (vsub b a)). set (C := dot3 (vsub b a) (vsub b a)).
  assert (HA : 0 <= A) by apply dot3_nonneg. assert (HC : 0 <= C) by apply dot3_nonneg.
  assert (HB : B * B <= A * C) by apply cauchy3.
  assert (Eq : forall s, dist3 p (on_segment3 a b s) = sqrt (A - 2 * s * B + s * s * C)).
  { intros s. unfold dist3, on_segment3, A, B, C, dot3; vsimp; rnum. f_equal. ring. }
  destruct (min_quadratic A B C HA HC HB) as (M1 & M2 & M3 & M4).
  assert (Q : forall s, 0 <= A - 2 * s * B + s * s * C).
  { intros s. replace (A - 2 * s * B + s * s * C) with (dot3 (vsub p (on_segment3 a b s)) (vsub p (on_segment3 a b s))); [apply dot3_nonneg|].
    unfold on_segment3, A, B, C, dot3; vsimp; rnum. ring. }
  unfold distance_to_line_segment3, length3, length_squared3. rnum. fold A B C.
  destruct (Rleb B 0) eqn:E1; [apply Rleb_true in E1|apply Rleb_false in E1].
  { split.
    - intros s Hs. rewrite Eq. apply sqrt_le_1; auto.
    - exists 0. split; [lra|]. rewrite Eq. f_equal. ring. }
  destruct (Rleb C B) eqn:E2; [apply Rleb_true in E2|apply Rleb_false in E2].
  { replace (dot3 (vsub p b) (vsub p b)) with (A - 2 * B + C) by (unfold A, B, C, dot3; vsimp; rnum; ring).
    split.
    - intros s Hs. rewrite Eq. apply sqrt_le_1; auto. replace (A - 2 * B + C) with (A - 2 * 1 * B + 1 * 1 * C) by ring. apply Q.
    - exists 1. split; [lra|]. rewrite Eq. f_equal. ring. }
  assert (H0 : 0 < B < C) by lra.
  rewrite lagrange3. fold A B C. rewrite sqrt_div_length by lra. split.
  - intros s Hs. rewrite Eq. apply sqrt_le_1; auto.
    apply Rmult_le_pos; [lra|]. apply Rlt_le, Rinv_0_lt_compat; lra.
  - exists (B / C). split.
    + assert (0 < / C) by (apply Rinv_0_lt_compat; lra). split; unfold Rdiv; [nra|].
      apply Rmult_le_reg_r with C; [lra|]. rewrite Rmult_assoc, Rinv_l by lra. lra.
    + rewrite Eq. f_equal. apply M4. assumption.
Qed.
Theorem C25_segment_distance_2d (a b p : vec2 R) :
  is_min_distance dist2 (on_segment2 a b) p (distance_to_line_segment2 p a b).
Proof.
  set (A := dot2 (vsub p a) (vsub p a)). set (B := dot2 (vsub p a) (vsub b a)). set (C := dot2 (vsub b a) (vsub b a)).
  assert (HA : 0 <= A) by apply dot2_nonneg. assert (HC : 0 <= C) by apply dot2_nonneg.
  pose proof (lagrange2 (vsub p a) (vsub b a)) as HL. fold A B C in HL.
  assert (HB : B * B <= A * C) by nra.
  assert (Eq : forall s, dist2 p (on_segment2 a b s) = sqrt (A - 2 * s * B + s * s * C)).
  { intros s. unfold dist2, on_segment2, A, B, C, dot2; vsimp; rnum. f_equal. ring. }
  destruct (min_quadratic A B C HA HC HB) as (M1 & M2 & M3 & M4).
  assert (Q : forall s, 0 <= A - 2 * s * B + s * s * C).
  { intros s. replace (A - 2 * s * B + s * s * C) with (dot2 (vsub p (on_segment2 a b s)) (vsub p (on_segment2 a b s))); [apply dot2_nonneg|].
    unfold on_segment2, A, B, C, dot2; vsimp; rnum. ring. }
  unfold distance_to_line_segment2, length2, length_squared2. rnum. fold A B C.
  destruct (Rleb B 0) eqn:E1; [apply Rleb_true in E1|apply Rleb_false in E1].
  { split.
    - intros s Hs. rewrite Eq. apply sqrt_le_1; auto.
    - exists 0. split; [lra|]. rewrite Eq. f_equal. ring. }
  destruct (Rleb C B) eqn:E2; [apply Rleb_true in E2|apply Rleb_false in E2].
  { replace (dot2 (vsub p b) (vsub p b)) with (A - 2 * B + C) by (unfold A, B, C, dot2; vsimp; rnum; ring).
    split.
    - intros s Hs. rewrite Eq. apply sqrt_le_1; auto. replace (A - 2 * B + C) with (A - 2 * 1 * B + 1 * 1 * C) by ring. apply Q.
    - exists 1. split; [lra|]. rewrite Eq. f_equal. ring. }
  assert (H0 : 0 < B < C) by lra.
  replace (Rabs (perp_dot (vsub p a) (vsub b a))) with (sqrt (A * C - B * B)) by (rewrite <- HL; apply sqrt_Rsqr_abs).
  rewrite sqrt_div_length by lra. split.
  - intros s Hs. rewrite Eq. apply sqrt_le_1; auto.
    apply Rmult_le_pos; [lra|]. apply Rlt_le, Rinv_0_lt_compat; lra.
  - exists (B / C). split.
    + assert (0 < / C) by (apply Rinv_0_lt_compat; lra). split; unfold Rdiv; [nra|].
      apply Rmult_le_reg_r with C; [lra|]. rewrite Rmult_assoc, Rinv_l by lra. lra.
    + rewrite Eq. f_equal. apply M4. assumption.
Qed.
Lemma min_distance_unique {P} (dist : P -> P -> R) f g p d e :
  (forall s, 0 <= s <= 1 -> exists t, 0 <= t <= 1 /\ f s = g t) -> (forall s, 0 <= s <= 1 -> exists t, 0 <= t <= 1 /\ g s = f t) ->
  is_min_distance dist f p d -> is_min_distance dist g p e -> d = e.
Proof.
  intros Hfg Hgf [D1 [s [Hs D2]]] [E1 [t [Ht E2]]]. apply Rle_antisym.
  - destruct (Hgf t Ht) as [t' [Ht' Eq]]. rewrite <- E2, Eq. auto.
  - destruct (Hfg s Hs) as [s' [Hs' Eq]]. rewrite <- D2, Eq. auto.
Qed.
Theorem C25_symmetric_3d (a b p : vec3 R) : distance_to_line_segment3 a b p = distance_to_line_segment3 b a p.
Proof.
  eapply min_distance_unique; try apply C25_segment_distance_3d.
  - intros s Hs. exists (1 - s). split; [lra|]. unfold on_segment3. f_equal; ring.
  - intros s Hs. exists (1 - s). split; [lra|]. unfold on_segment3. f_equal; ring.
Qed.
Theorem C25_symmetric_2d (a b p : vec2 R) : distance_to_line_segment2 p a b = distance_to_line_segment2 p b a.
Proof.
  eapply min_distance_unique; try apply C25_segment_distance_2d.
  - intros s Hs. exists (1 - s). split; [lra|]. unfold on_segment2. f_equal; ring.
  - intros s Hs. exists (1 - s). split; [lra|]. unfold on_segment2. f_equal; ring.
Qed.
Example C25_nonvacuous : distance_to_line_segment3 (NF := F64Num) (v64 0 0 0) (v64 10 0 0) (v64 4 3 4) = f64_of_Z 5 /\
  distance_to_line_segment3 (NF := F64Num) (v64 0 0 0) (v64 10 0 0) (v64 13 0 4) = f64_of_Z 5.
Proof. vm_compute. split; reflexivity. Qed.

(** ** C58 (first part): clamp_in_range returns the nearest value of the range *)
Theorem C58_clamp_in_range (v a b : R) :
  exists w, clamp_in_range v (a, b) = Ok w /\ Rmin a b <= w <= Rmax a b /\
    forall x, Rmin a b <= x <= Rmax a b -> Rabs (w - v) <= Rabs (x - v).
Proof.
  assert (K : forall lo hi, lo <= hi -> exists w, fclamp v lo hi = Ok w /\ lo <= w <= hi /\ forall x, lo <= x <= hi -> Rabs (w - v) <= Rabs (x - v)).
  { intros lo hi H. unfold fclamp. rnum. rewrite (proj2 (Rleb_true _ _) H). cbv zeta. eexists. split; [reflexivity|].
    destruct (Rltb v lo) eqn:E1; [apply Rltb_true in E1|apply Rltb_false in E1].
    - rewrite (proj2 (Rltb_false hi lo)) by lra. split; [lra|]. intros x Hx. rewrite !Rabs_right; lra.
    - destruct (Rltb hi v) eqn:E2; [apply Rltb_true in E2|apply Rltb_false in E2]; (split; [lra|]); intros x Hx.
      + rewrite !Rabs_left1; lra.
      + rewrite Rminus_diag_eq, Rabs_R0 by reflexivity. apply Rabs_pos. }
  unfold clamp_in_range. cbn [fst snd]. rnum. destruct (Rltb a b) eqn:E; [apply Rltb_true in E|apply Rltb_false in E].
  - rewrite Rmin_left, Rmax_right by lra. apply K. lra.
  - rewrite Rmin_right, Rmax_left by lra. apply K. lra.
Qed.

(** ** C26: Newton projection *)
Definition in_range (r : R * R) (u : R) : Prop := Rmin (fst r) (snd r) <= u <= Rmax (fst r) (snd r).
Lemma newton_in_range (c d1 d2 : R -> outcome (vec3 R)) p r trials : forall u,
  in_range r u -> forall v, newton trials c d1 d2 p r u = Ok v -> in_range r v.
Proof.
  induction trials; intros u Hu v E; cbn [newton] in E.
  - apply Ok_inj in E. now subst.
  - obind_inv E. destruct (near (length_squared3 (vsub a p)) f0); [apply Ok_inj in E; now subst|].
    obind_inv E. destruct (near (dot3 a0 (vsub a p)) f0); [apply Ok_inj in E; now subst|].
    obind_inv E. destruct r as [ra rb].
    match type of E with context [clamp_in_range ?v _] => destruct (C58_clamp_in_range v ra rb) as [w [Ew [Hw _]]] end.
    rewrite Ew in E. cbn [obind] in E.
    eapply IHtrials; [|eassumption]. exact Hw.
Qed.
Lemma newton_total (c d1 d2 : R -> outcome (vec3 R)) p r trials :
  (forall u, in_range r u -> (exists q, c u = Ok q) /\ (exists q, d1 u = Ok q) /\ (exists q, d2 u = Ok q)) ->
  forall u, in_range r u -> exists v, newton trials c d1 d2 p r u = Ok v.
Proof.
  intros HT. induction trials; intros u Hu; cbn [newton]; [eauto|].
  destruct (HT u Hu) as ([q0 E0] & [q1 E1] & [q2 E2]). rewrite E0. cbn [obind]. destruct (near _ _); [eauto|].
  rewrite E1. cbn [obind]. destruct (near _ _); [eauto|]. rewrite E2. cbn [obind]. destruct r as [ra rb].
  match goal with |- context [clamp_in_range ?v _] => destruct (C58_clamp_in_range v ra rb) as [w [Ew [Hw _]]] end.
  rewrite Ew. cbn [obind]. apply IHtrials. exact Hw.
Qed.
(** A point of the curve is not moved. *)
Theorem C26_exact_hit_is_kept (c d1 d2 : R -> outcome (vec3 R)) p r trials u :
  c u = Ok p -> newton trials c d1 d2 p r u = Ok u.
Proof.
  intros E. destruct trials; cbn [newton]; [reflexivity|]. rewrite E. cbn [obind].
  replace (near _ _) with true; [reflexivity|]. symmetry. unfold near, abs_diff_eq, length_squared3, dot3, ftol; vsimp; rnum. apply Rleb_true.
  replace ((x3 p - x3 p) * (x3 p - x3 p) + (y3 p - y3 p) * (y3 p - y3 p) + (z3 p - z3 p) * (z3 p - z3 p) - 0) with 0 by ring.
  rewrite Rabs_R0. lra.
Qed.
Theorem C26_in_range (c d1 d2 : R -> outcome (vec3 R)) (p : vec3 R) (r : R * R) (division trials : nat) (u : R) :
  find_nearest_parameter c d1 d2 p r division trials = Ok u -> in_range r u.
Proof.
  intros E. unfold find_nearest_parameter in E. obind_inv E. obind_inv E. obind_inv E. eapply newton_in_range; [|eassumption].
  destruct r as [ra rb]. match goal with H : idx ?l _ = Ok _, H' : uniform_divide _ _ = Ok ?l |- _ =>
    apply idx_In in H; apply (uniform_divide_in_range _ _ _ _ H' _ H) end.
Qed.
(** It returns as soon as the curve and its derivatives can be evaluated on the range. *)
Theorem C26_total (c d1 d2 : R -> outcome (vec3 R)) (p : vec3 R) (r : R * R) (division trials : nat) :
  (1 <= division)%nat ->
  (forall u, in_range r u -> (exists q, c u = Ok q) /\ (exists q, d1 u = Ok q) /\ (exists q, d2 u = Ok q)) ->
  exists u, find_nearest_parameter c d1 d2 p r division trials = Ok u /\ in_range r u.
Proof.
  intros Hd HT. destruct r as [ra rb]. unfold find_nearest_parameter.
  destruct (uniform_divide (ra, rb) division) as [l| |] eqn:El.
  2,3: exfalso; pose proof (uniform_divide_list ra rb division Hd) as K; rewrite El in K; discriminate.
  cbn [obind].
  assert (Hl : forall u, In u l -> in_range (ra, rb) u) by exact (uniform_divide_in_range ra rb division l El).
  destruct (mapM_total c l) as [pts Ep]; [intros u Hu; apply (HT u (Hl u Hu))|]. rewrite Ep. cbn [obind].
  assert (HLp : length pts = length l) by (eapply mapM_length; eauto).
  assert (Hne : (0 < length l)%nat).
  { rewrite uniform_divide_list in El by assumption. apply Ok_inj in El. subst l. cbn. rewrite app_length. cbn. lia. }
  assert (Hr : (find_nearest_point pts p < length l)%nat).
  { assert (T1 : forall a b c : R, fltb a b = true -> fltb b c = true -> fltb a c = true) by (intros a b e; rnum; rewrite !Rltb_true; lra).
    assert (T2 : forall a b c : R, fleb a b = true -> fltb b c = true -> fltb a c = true) by (intros a b e; rnum; rewrite !Rltb_true, Rleb_true; lra).
    assert (T0 : forall a : R, fltb a a = false) by (intros a; rnum; apply Rltb_false; lra).
    destruct (nearest_spec p T0 T1 T2 pts) as [[-> _]|[vr [H _]]]; [assumption|].
    rewrite <- HLp. apply nth_error_Some. congruence. }
  destruct (idx l (find_nearest_point pts p)) as [u| |] eqn:Eu.
  2,3: exfalso; rewrite (idx_nth l _ 0 Hr) in Eu; discriminate.
  cbn [obind]. assert (Hu : in_range (ra, rb) u) by (apply Hl; now apply idx_In in Eu).
  destruct (newton_total c d1 d2 p (ra, rb) trials HT u Hu) as [v Ev]. exists v. split; [assumption|].
  eapply newton_in_range; eauto.
Qed.
Theorem C26_bezier_project (cps : list (vec3 R)) (p : vec3 R) : (3 <= length cps)%nat ->
  exists u, bezier3_project cps p = Ok u /\ 0 <= u <= 1.
Proof.
  intros HL. unfold bezier3_project, bezier_degree. rewrite usub_Ok by lia. cbn [obind].
  rewrite (proj2 (Nat.eqb_neq _ _)) by lia.
  destruct (bezier_derivative cps) as [d1| |] eqn:E1.
  2,3: exfalso; unfold bezier_derivative, bezier_degree in E1; rewrite usub_Ok in E1 by lia; discriminate.
  cbn [obind]. destruct (C04_bezier_derivative cps d1 ltac:(lia) E1) as [L1 _].
  destruct (bezier_derivative d1) as [d2| |] eqn:E2.
  2,3: exfalso; unfold bezier_derivative, bezier_degree in E2; rewrite usub_Ok in E2 by lia; discriminate.
  cbn [obind]. destruct (C04_bezier_derivative d1 d2 ltac:(lia) E2) as [L2 _].
  destruct (C26_total (bezier3_get_point cps) (bezier3_get_point d1) (bezier3_get_point d2) p (f0, f1) ((length cps - 1) * 4) 10) as [u [E Hu]]; [lia| |].
  - intros u _. rewrite !C01_bezier_eval by lia. repeat split; eauto.
  - exists u. split; [exact E|]. unfold in_range in Hu. cbn [fst snd f0 f1 RNum] in Hu. rewrite Rmin_left, Rmax_right in Hu by lra. exact Hu.
Qed.
Lemma derivative_valid (c : BSpline R (vec3 R)) : valid_bspline c -> (1 <= bs_degree c)%nat -> (2 <= length (bs_cps c))%nat ->
  exists d, bspline_derivative c = Ok d /\ valid_bspline d /\ bs_degree d = (bs_degree c - 1)%nat /\ length (bs_cps d) = (length (bs_cps c) - 1)%nat /\
    length (bs_knots d) = (length (bs_knots c) - 2)%nat /\
    (forall i, (i + 2 < length (bs_knots c))%nat -> nth i (bs_knots d) 0 = nth (i + 1) (bs_knots c) 0).
Proof.
  intros Hv Hp Hn. destruct (C10_bspline_derivative c Hv Hp) as [d (E & Hd & Hcp & HL & Hk & _)]. exists d.
  destruct Hv as [Hs Hsep HLk Hne].
  repeat split; auto.
  - intros i j Hij. rewrite !Hk by lia. apply Hs. lia.
  - apply (separated_incl (bs_knots c)); [assumption|]. intros a Ha. apply (In_nth _ _ 0) in Ha. destruct Ha as [i [Hi <-]].
    rewrite Hk by lia. apply nth_In. lia.
  - lia.
  - lia.
Qed.
Lemma get_point_total (c : BSpline R (vec3 R)) u : valid_bspline c ->
  nth 0 (bs_knots c) 0 < nth (length (bs_knots c) - 1) (bs_knots c) 0 -> nth 0 (bs_knots c) 0 <= u -> exists q, bspline3_get_point c u = Ok q.
Proof.
  intros Hv Hlt Hu. pose proof Hv as [Hs Hsep HL Hne]. destruct (span_exists (bs_knots c) u) as [s Hsp]; auto.
  - destruct (Nat.le_gt_cases 2 (length (bs_knots c))); [assumption|]. destruct (length (bs_knots c)) as [|[|?]]; cbn in Hlt; try lra. lia.
  - rewrite (bspline_eval c u s); eauto.
Qed.
Theorem C26_bspline_project (c : BSpline R (vec3 R)) (p : vec3 R) :
  let t i := nth i (bs_knots c) 0 in let first := t 0%nat in let last := t (length (bs_knots c) - 1)%nat in
  valid_bspline c -> (2 <= bs_degree c)%nat -> first < last ->
  t (bs_degree c) = first -> t (length (bs_cps c)) = last ->
  exists u, bspline3_project c p = Ok u /\ first <= u <= last.
Proof.
  intros t first last Hv Hd Hne Hst Hen. pose proof Hv as [Hs Hsep HL Hn].
  set (n := length (bs_cps c)) in *. set (k := bs_degree c) in *. set (m := length (bs_knots c)) in *.
  assert (Hkn : (k < n)%nat).
  { destruct (Nat.lt_ge_cases k n); [assumption|]. assert (t n <= t k) by (apply Hs; unfold m in *; lia). lra. }
  destruct (derivative_valid c Hv ltac:(unfold k in *; lia) ltac:(unfold n in *; lia)) as [d1 (E1 & Hv1 & D1 & N1 & M1 & K1)].
  destruct (derivative_valid d1 Hv1 ltac:(unfold k in *; lia) ltac:(unfold n in *; lia)) as [d2 (E2 & Hv2 & D2 & N2 & M2 & K2)].
  unfold bspline3_project. rewrite (proj2 (Nat.eqb_neq _ _)) by (unfold k in *; lia).
  rewrite E1. cbn [obind]. rewrite E2. cbn [obind].
  assert (ER : knot_range (bs_knots c) = Ok (first, last)).
  { unfold knot_range. rewrite (idx_nth _ _ 0) by (fold m; lia). cbn [obind]. rewrite usub_Ok by (fold m; lia). cbn [obind]. rewrite (idx_nth _ _ 0) by (fold m; lia). reflexivity. }
  rewrite ER. cbn [obind].
  assert (Hlo : forall i, (i <= k)%nat -> t i = first).
  { intros i Hi. apply Rle_antisym; [rewrite <- Hst; apply Hs; unfold m in *; lia|apply Hs; unfold m in *; lia]. }
  assert (Hhi : forall i, (n <= i < m)%nat -> t i = last).
  { intros i Hi. apply Rle_antisym; [apply Hs; fold m; lia|rewrite <- Hen; apply Hs; fold m; lia]. }
  lazymatch goal with |- context [find_nearest_parameter _ _ _ _ (first, last) _ _] => idtac end.
  destruct (C26_total (bspline3_get_point c) (bspline3_get_point d1) (bspline3_get_point d2) p (first, last) (n * 4) 10) as [u [E Hu]]; [lia| |].
  - intros u Hu. unfold in_range in Hu. cbn [fst snd] in Hu. rewrite Rmin_left, Rmax_right in Hu by lra.
    fold m in M1. 
    repeat split; apply get_point_total; auto; fold m; try (fold (t 0%nat) (t (m - 1)%nat)); fold first last; try lra.
    + rewrite !K1 by lia. rewrite M1. fold (t (0 + 1)%nat) (t (m - 2 - 1 + 1)%nat). rewrite Hlo, Hhi by (unfold m in *; lia). lra.
    + rewrite !K1 by lia. fold (t (0 + 1)%nat). rewrite Hlo by lia. lra.
    + rewrite !K2 by lia. rewrite !K1 by lia. rewrite M2, M1. fold (t (0 + 1 + 1)%nat) (t (m - 2 - 2 - 1 + 1 + 1)%nat).
      rewrite Hlo, Hhi by (unfold m in *; lia). lra.
    + rewrite !K2 by lia. rewrite !K1 by lia. fold (t (0 + 1 + 1)%nat). rewrite Hlo by lia. lra.
  - exists u. split; [exact E|]. unfold in_range in Hu. cbn [fst snd] in Hu. rewrite Rmin_left, Rmax_right in Hu by lra. exact Hu.
Qed.
Example C26_nonvacuous : valid_bspline c_ex /\ (2 <= bs_degree c_ex)%nat /\ nth 2 (bs_knots c_ex) 0 = 0 /\ nth 4 (bs_knots c_ex) 0 = 2 /\
  bezier3_project (NF := F64Num) [v64 0 0 0; v64 1 0 0; v64 2 0 0] (v64 1 5 0) = Ok (flit 1 2).
Proof. split; [apply c_ex_valid|]. repeat split. vm_compute. reflexivity. Qed.
(** IEEE double arithmetic: NaN, or inside the range. *)
Lemma clamp_f64 (v lo hi w : f64) : SFleb lo hi = true -> fclamp (NF := F64Num) v lo hi = Ok w ->
  w = S754_nan \/ (SFleb lo w = true /\ SFleb w hi = true).
Proof.
  intros H E. unfold fclamp in E. change (fleb lo hi) with (SFleb lo hi) in E. rewrite H in E. cbv zeta in E.
  change (@fltb f64 F64Num) with SFltb in E. apply Ok_inj in E.
  assert (Hlh := H). apply SFleb_spec in Hlh. destruct Hlh as (Hl & Hh & Hlt).
  assert (Rf : forall x, not_nan x -> SFleb x x = true) by (intros x Hx; apply SFltb_false_leb; auto; apply SFltb_irrefl).
  destruct (SFltb v lo) eqn:E1.
  - destruct (SFltb hi lo) eqn:E2; subst w; right; auto.
  - destruct (SFltb hi v) eqn:E2; subst w; [right; auto|].
    destruct v; try (left; reflexivity); right; split; apply SFltb_false_leb; auto; unfold not_nan; discriminate.
Qed.
Theorem C26_newton_f64 (c d1 d2 : f64 -> outcome (vec3 f64)) (p : vec3 f64) (a b : f64) (trials : nat) (u v : f64) :
  not_nan a -> not_nan b ->
  newton (NF := F64Num) trials c d1 d2 p (a, b) u = Ok v ->
  v = u \/ v = S754_nan \/ (SFleb a v = true /\ SFleb v b = true) \/ (SFleb b v = true /\ SFleb v a = true).
Proof.
  intros Ha Hb. revert u. induction trials; intros u E; cbn [newton] in E.
  - left. apply Ok_inj in E. now subst.
  - obind_inv E. destruct (near _ _); [left; apply Ok_inj in E; now subst|].
    obind_inv E. destruct (near _ _); [left; apply Ok_inj in E; now subst|].
    obind_inv E. obind_inv E. destruct (IHtrials _ E) as [->|H]; [|auto]. right.
    unfold clamp_in_range in E3. cbn [fst snd] in E3. change (fltb a b) with (SFltb a b) in E3.
    destruct (SFltb a b) eqn:Eab.
    + apply clamp_f64 in E3; [tauto|]. apply SFleb_spec. apply SFltb_spec in Eab. destruct Eab as (? & ? & H). repeat split; auto.
      intros H'. eapply lex_lt_irrefl, lex_lt_trans; eauto.
    + apply clamp_f64 in E3; [tauto|]. now apply SFltb_false_leb.
Qed.

(** ** C55: sampling a curve segment *)
Theorem C55_segment_points {F} {NF : Num F} (fuel : nat) (rnd : list bool -> F) (s : CurveSegment F) (pts : list (vec3 F)) :
  segment_get_points fuel rnd s = Ok pts ->
  exists p q mid, pts = p :: mid ++ [q] /\ c_get_point (s_curve s) (fst (s_range s)) = Ok p /\ c_get_point (s_curve s) (snd (s_range s)) = Ok q.
Proof.
  intros E. unfold segment_get_points in E. obind_inv E. destruct (s_range s) as [a0 b0] eqn:Er.
  pose proof (C22_division_shape _ _ _ _ _ _ _ _ E0) as [[mid ->] _]. cbn [fst snd]. cbn [mapM] in E.
  obind_inv E. obind_inv E. apply Ok_inj in E. subst pts. rewrite mapM_app in E2. obind_inv E2. obind_inv E2. apply Ok_inj in E2. subst.
  match goal with H : mapM _ [_] = Ok _ |- _ => cbn [mapM] in H; obind_inv H; apply Ok_inj in H; subst end. eauto 10.
Qed.
Theorem C55_samples_on_curve {F} {NF : Num F} (fuel : nat) (rnd : list bool -> F) (s : CurveSegment F) (pts : list (vec3 F)) :
  segment_get_points fuel rnd s = Ok pts ->
  exists us, parameter_division fuel rnd [] (c_get_point (s_curve s)) (s_range s) (s_tolerance s) = Ok us /\
    Forall2 (fun u p => c_get_point (s_curve s) u = Ok p) us pts.
Proof. intros E. unfold segment_get_points in E. obind_inv E. eexists. split; [eassumption|]. now apply mapM_inv. Qed.
Example C55_nonvacuous :
  let c := bezier3_curve (NF := F64Num) [v64 0 0 0; v64 8 16 0; v64 16 0 0] in
  exists pts, segment_get_points (NF := F64Num) 5 (fun _ => f0)
     {| s_curve := c; s_range := (f0, f1); s_tolerance := f64_of_Z 1; s_division := 8 |} = Ok pts /\ length pts = 5%nat.
Proof. cbv zeta. eexists. split; [vm_compute; reflexivity|]. reflexivity. Qed.
Example C22_nonvacuous :
  let c := bezier3_get_point (NF := F64Num) [v64 0 0 0; v64 8 16 0; v64 16 0 0] in
  parameter_division (NF := F64Num) 5 (fun _ => f0) [] c (f0, f1) (f64_of_Z 1) = Ok [f0; flit 1 4; flit 1 2; flit 3 4; f1].
Proof. vm_compute. reflexivity. Qed.

(** ** C58: the remaining helpers *)
Theorem C58_inv_or_zero (x : R) :
  (Rabs x <= / 4503599627370496 -> inv_or_zero x = 0) /\ (/ 4503599627370496 < Rabs x -> inv_or_zero x * x = 1).
Proof.
  unfold inv_or_zero, ulps_eq, abs_diff_eq, feps. rnum. rewrite Rminus_0_r. split; intros H.
  - rewrite (proj2 (Rleb_true _ _)) by lra. reflexivity.
  - rewrite (proj2 (Rleb_false _ _)) by lra. cbn [orb]. unfold Rulps4. rewrite Rmult_0_r.
    rewrite (proj2 (Rltb_false 0 0)) by lra. cbn [andb]. field. intros ->. rewrite Rabs_R0 in H. lra.
Qed.
Theorem C58_range_at (a b s t : R) :
  range_at (a, b) 0 = a /\ range_at (a, b) 1 = b /\ (0 <= t <= 1 -> in_range (a, b) (range_at (a, b) t)) /\
  (s < t -> a < b -> range_at (a, b) s < range_at (a, b) t) /\
  (a <> b -> forall x, range_at (a, b) ((x - a) / (b - a)) = x).
Proof.
  unfold range_at, in_range. cbn [fst snd]. rnum. repeat split; try ring.
  - unfold Rmin. destruct (Rle_dec a b); nra.
  - unfold Rmax. destruct (Rle_dec a b); nra.
  - intros; nra.
  - intros Hab x. field. lra.
Qed.
Theorem C58_min_max {T} (items : list T) (key : T -> R) :
  items <> [] -> (forall i, In i items -> - RMAX < key i < RMAX) ->
  let '(lo, hi) := get_min_max_by_key items key in
  (exists i, In i items /\ key i = lo) /\ (exists i, In i items /\ key i = hi) /\
  forall i, In i items -> lo <= key i <= hi.
Proof.
  intros Hne HB.
  assert (K : forall l, (forall i, In i l -> - RMAX < key i < RMAX) ->
     let '(lo, hi) := get_min_max_by_key l key in
     (l = [] /\ lo = RMAX /\ hi = - RMAX) \/
     ((exists i, In i l /\ key i = lo) /\ (exists i, In i l /\ key i = hi) /\ forall i, In i l -> lo <= key i <= hi)).
  { clear. intros l. induction l as [|x l IH] using rev_ind; intros HB.
    - left. cbn. auto.
    - assert (Hx : - RMAX < key x < RMAX) by (apply HB; apply in_or_app; right; now left).
      specialize (IH (fun i Hi => HB i (in_or_app _ _ _ (or_introl Hi)))).
      unfold get_min_max_by_key in *. rewrite fold_left_app. destruct (fold_left _ l _) as [lo hi]. cbn [fold_left]. rnum. right.
      assert (Hin : In x (l ++ [x])) by (apply in_or_app; right; now left).
      destruct IH as [(-> & -> & ->)|([i0 [Hi0 E0]] & [i1 [Hi1 E1]] & Hall)].
      + rewrite (proj2 (Rltb_true _ _)), (proj2 (Rltb_true _ _)) by lra. repeat split; eauto; destruct H as [<-|[]]; lra.
      + destruct (Rltb hi (key x)) eqn:F1; destruct (Rltb (key x) lo) eqn:F2; first [apply Rltb_true in F1|apply Rltb_false in F1]; first [apply Rltb_true in F2|apply Rltb_false in F2];
          (split; [first [solve [exists x; auto]|exists i0; split; [apply in_or_app; now left|assumption]]|]);
          (split; [first [solve [exists x; auto]|exists i1; split; [apply in_or_app; now left|assumption]]|]);
          intros i Hi; apply in_app_or in Hi; destruct Hi as [Hi|[<-|[]]]; try specialize (Hall i Hi); split; lra. }
  specialize (K items HB). destruct (get_min_max_by_key items key) as [lo hi].
  destruct K as [[H _]|H]; [contradiction|exact H].
Qed.
Theorem C58_near (a b : R) : near a a = true /\ near a b = near b a /\ (near a b = true <-> Rabs (a - b) <= 1 / 10000000).
Proof.
  unfold near, abs_diff_eq, ftol. rnum. split; [|split].
  - apply Rleb_true. rewrite Rminus_diag_eq, Rabs_R0 by reflexivity. lra.
  - now rewrite Rabs_minus_sym.
  - apply Rleb_true.
Qed.
Theorem C58_near_not_transitive : exists a b c : R, near a b = true /\ near b c = true /\ near a c = false.
Proof.
  exists 0, (1 / 10000000), (2 / 10000000). unfold near, abs_diff_eq, ftol. rnum.
  rewrite !Rleb_true, Rleb_false. rewrite !(Rabs_left1 (_ - _)) by lra. lra.
Qed.
(** doubles: a finite number is near itself; infinities and NaN are not *)
Theorem C58_near_f64 (x : f64) :
  near (NF := F64Num) x x = match x with S754_zero _ => true | S754_finite _ _ _ => true | _ => false end.
Proof.
  unfold near, abs_diff_eq. cbn [fsub fabs fleb F64Num].
  destruct x as [[]|[]| |s m e]; [vm_compute; reflexivity..|].
  assert (E : exists z, SFsub p64 e64 (S754_finite s m e) (S754_finite s m e) = S754_zero z).
  { unfold SFsub. rewrite Z.min_id, Z.sub_diag. eexists. reflexivity. }
  destruct E as [z ->]. destruct z; vm_compute; reflexivity.
Qed.
