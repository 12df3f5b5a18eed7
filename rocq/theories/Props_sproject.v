(** Property C61: BSplineSurface::project_points (surface/bspline.rs:110-166). *)
From Coq Require Import Reals Lra Psatz Lia Arith Floats.SpecFloat.
From Verif Require Import Prelude Num M_vec M_utils M_curve M_surface L_base L_bezier L_vec L_cdb L_knot L_bspline L_geom L_f64 L_surface
  Props_bezier Props_knot Props_bspline Props_utils Props_surface Props_polygon Props_gridmesh.
Open Scope R_scope.

(** ** Specification: one clamped Newton step for the foot of a point on a surface *)
(** y is the number of the range closest to x. *)
Definition clamped_to (r : R * R) (x y : R) : Prop := in_range r y /\ forall z, in_range r z -> Rabs (y - x) <= Rabs (z - x).

Section Iteration.
Variables (S Su Sv Suu Suv Svu Svv : R -> R -> outcome (vec3 R)) (ru rv : R * R) (P : vec3 R).
(** The point is hit, or the residual is orthogonal to both tangents, up to the tolerance. *)
Definition settled (w : vec2 R) : Prop := exists c, S (x2 w) (y2 w) = Ok c /\ let r := vsub c P in
  (dot3 r r <= TOL \/
   exists a b, Su (x2 w) (y2 w) = Ok a /\ Sv (x2 w) (y2 w) = Ok b /\ Rabs (dot3 a r) <= TOL /\ Rabs (dot3 b r) <= TOL).
(** The linear system of the Newton step for (S-P).Su = 0, (S-P).Sv = 0, and the clamping of its solution. *)
Definition newton_step (w w' : vec2 R) : Prop := exists c a b auu auv avu avv,
  let u := x2 w in let v := y2 w in
  S u v = Ok c /\ Su u v = Ok a /\ Sv u v = Ok b /\ Suu u v = Ok auu /\ Suv u v = Ok auv /\ Svu u v = Ok avu /\ Svv u v = Ok avv /\
  let r := vsub c P in
  let fu := dot3 a a + dot3 auu r in let fv := dot3 a b + dot3 auv r in
  let gu := dot3 b a + dot3 avu r in let gv := dot3 b b + dot3 avv r in
  exists du dv, (fu * gv - fv * gu <> 0 -> fu * du + fv * dv = - dot3 a r /\ gu * du + gv * dv = - dot3 b r) /\
    clamped_to ru (u + du) (x2 w') /\ clamped_to rv (v + dv) (y2 w').
(** A run of at most [trials] steps that stops at the first settled parameter pair. *)
Definition newton_run (trials : nat) (w0 w : vec2 R) : Prop := exists (k : nat) (f : nat -> vec2 R),
  (k <= trials)%nat /\ f 0%nat = w0 /\ f k = w /\
  (forall i, (i < k)%nat -> ~ settled (f i) /\ newton_step (f i) (f (i + 1)%nat)) /\ (k = trials \/ settled w).

Lemma near_0 (x : R) : near x f0 = true <-> Rabs x <= TOL.
Proof. unfold near, abs_diff_eq, ftol; rnum. rewrite Rleb_true. unfold TOL. rewrite Rminus_0_r. reflexivity. Qed.
Lemma near_0_false (x : R) : near x f0 = false -> ~ Rabs x <= TOL.
Proof. intros H K. apply near_0 in K. congruence. Qed.
Lemma dot3_nonneg (w : vec3 R) : 0 <= dot3 w w.
Proof. destruct w as [x y z]. unfold dot3; rnum; cbn [x3 y3 z3]. nra. Qed.

Lemma bss_newton_run trials : forall u v w,
  bss_newton trials S Su Sv Suu Suv Svu Svv ru rv P u v = Ok w -> newton_run trials (V2 u v) w.
Proof.
  induction trials as [|n IH]; intros u v w E; cbn [bss_newton] in E.
  - apply Ok_inj in E. subst w. exists 0%nat, (fun _ => V2 u v). repeat split; auto; lia.
  - assert (Halt : settled (V2 u v) -> newton_run (Datatypes.S n) (V2 u v) (V2 u v)).
    { intros Hs. exists 0%nat, (fun _ => V2 u v). repeat split; auto; lia. }
    obind_inv E. rename a into c, E0 into Ec. destruct (near (length_squared3 _) f0) eqn:E1.
    { apply Ok_inj in E. subst w. apply Halt. exists c. split; [exact Ec|]. left. apply near_0 in E1. unfold length_squared3 in E1. rewrite Rabs_right in E1; [exact E1|]. apply Rle_ge, dot3_nonneg. }
    apply near_0_false in E1. unfold length_squared3 in E1. rewrite Rabs_right in E1 by (apply Rle_ge, dot3_nonneg).
    obind_inv E. rename E0 into Ea. obind_inv E. rename a0 into b, E0 into Eb.
    destruct (near (dot3 a _) f0 && near (dot3 b _) f0) eqn:E2.
    { apply Ok_inj in E. subst w. apply Halt. apply andb_prop in E2 as [A B]. apply near_0 in A, B. exists c. split; [exact Ec|]. right. exists a, b. auto. }
    assert (Hns : ~ settled (V2 u v)).
    { intros [c' (Ec' & [H|(a' & b' & Ea' & Eb' & Ha & Hb)])]; cbn [x2 y2] in *; rewrite Ec in Ec'; apply Ok_inj in Ec'; subst c'; [now apply E1|].
      rewrite Ea in Ea'. rewrite Eb in Eb'. apply Ok_inj in Ea', Eb'. subst a' b'. apply near_0 in Ha, Hb. rewrite Ha, Hb in E2. discriminate. }
    obind_inv E. rename a0 into auu, E0 into Euu. obind_inv E. rename a0 into auv, E0 into Euv.
    obind_inv E. rename a0 into avu, E0 into Evu. obind_inv E. rename a0 into avv, E0 into Evv. cbv zeta in E.
    obind_inv E. rename a0 into u', E0 into Eu'. obind_inv E. rename a0 into v', E0 into Ev'.
    destruct (IH _ _ _ E) as (k & f & Hk & H0 & Hkw & Hst & Hend).
    exists (Datatypes.S k), (fun i => match i with O => V2 u v | Datatypes.S i => f i end). split; [lia|]. split; [reflexivity|]. split; [exact Hkw|]. split.
    + intros [|i] Hi.
      * split; [exact Hns|]. rewrite Nat.add_0_l, H0.
        match type of Eu' with context [mat2_inverse_mul ?a1 ?a2 ?a3 ?a4 ?a5] => set (m := mat2_inverse_mul a1 a2 a3 a4 a5) in * end.
        exists c, a, b, auu, auv, avu, avv. cbn [x2 y2]. do 7 (split; [assumption|]).
        exists (x2 m), (y2 m). split.
        { intros Hdet. unfold m, mat2_inverse_mul; cbn [x2 y2 vadd vmulr VecOps2]; rnum. unfold length_squared3.
          set (r := vsub c P) in *.
          assert (Eq : forall x y : vec3 R, dot3 x y = dot3 y x) by (intros; unfold dot3; rnum; ring).
          rewrite !(Eq r). rewrite (Eq b a) in *.
          set (fu := dot3 a a + dot3 auu r) in *. set (fv := dot3 a b + dot3 auv r) in *. set (gu := dot3 a b + dot3 avu r) in *. set (gv := dot3 b b + dot3 avv r) in *.
          split; field; intro K; apply Hdet; lra. }
        destruct ru as [a1 b1], rv as [a2 b2].
        destruct (C58_clamp_in_range (u + x2 m) a1 b1) as [w1 (W1 & R1 & N1)]. change (@fadd R RNum) with Rplus in *. rewrite W1 in Eu'. apply Ok_inj in Eu'. subst w1.
        destruct (C58_clamp_in_range (v + y2 m) a2 b2) as [w2 (W2 & R2 & N2)]. rewrite W2 in Ev'. apply Ok_inj in Ev'. subst w2.
        split; (split; [assumption|]); assumption.
      * apply (Hst i). lia.
    + destruct Hend as [->|Hs]; [now left|now right].
Qed.
Lemma newton_run_in_range trials w0 w : in_range ru (x2 w0) -> in_range rv (y2 w0) -> newton_run trials w0 w -> in_range ru (x2 w) /\ in_range rv (y2 w).
Proof.
  intros H1 H2 (k & f & _ & <- & <- & Hst & _). destruct k as [|k]; [now split|].
  destruct (Hst k ltac:(lia)) as [_ (c & a & b & auu & auv & avu & avv & _ & _ & _ & _ & _ & _ & _ & du & dv & _ & [A _] & [B _])].
  rewrite Nat.add_1_r in *. now split.
Qed.
Lemma bss_newton_total trials :
  (forall u v, in_range ru u -> in_range rv v -> forall T, In T [S; Su; Sv; Suu; Suv; Svu; Svv] -> exists q, T u v = Ok q) ->
  forall u v, in_range ru u -> in_range rv v -> exists w, bss_newton trials S Su Sv Suu Suv Svu Svv ru rv P u v = Ok w.
Proof.
  intros HT. induction trials as [|n IH]; intros u v Hu Hv; cbn [bss_newton]; [eauto|].
  assert (G : forall T, In T [S; Su; Sv; Suu; Suv; Svu; Svv] -> exists q, T u v = Ok q) by (intros; apply HT; auto).
  destruct (G S) as [c ->]; [cbn; tauto|]. cbn [obind]. destruct (near _ f0); [eauto|].
  destruct (G Su) as [a ->]; [cbn; tauto|]. cbn [obind]. destruct (G Sv) as [b ->]; [cbn; tauto|]. cbn [obind].
  destruct (near _ f0 && near _ f0); [eauto|].
  destruct (G Suu) as [auu ->]; [cbn; tauto|]. destruct (G Suv) as [auv ->]; [cbn; tauto|].
  destruct (G Svu) as [avu ->]; [cbn; tauto|]. destruct (G Svv) as [avv ->]; [cbn; tauto|]. cbn [obind]. cbv zeta.
  match goal with |- context [clamp_in_range (u + ?x)%num _] => set (m := x) end.
  match goal with |- context [clamp_in_range (v + ?x)%num _] => set (m' := x) end.
  destruct ru as [a1 b1], rv as [a2 b2]. change (@fadd R RNum) with Rplus.
  destruct (C58_clamp_in_range (u + m) a1 b1) as [w1 (W1 & R1 & _)]. rewrite W1. cbn [obind].
  destruct (C58_clamp_in_range (v + m') a2 b2) as [w2 (W2 & R2 & _)]. rewrite W2. cbn [obind]. apply IH; assumption.
Qed.
End Iteration.

(** ** Clamped surfaces and their derivatives *)
(** Both knot vectors repeat their end knots degree + 1 times. *)
Record clamped_surface (s : BSplineSurface R (vec3 R)) (r c : nat) (u0 u1 v0 v1 : R) : Prop := {
  cs_valid : valid_surface s r c;
  cs_u : u0 < u1; cs_v : v0 < v1;
  cs_u0 : forall i, (i <= fst (bss_degree s))%nat -> nth i (fst (bss_knots s)) 0 = u0;
  cs_u1 : forall i, (r <= i < length (fst (bss_knots s)))%nat -> nth i (fst (bss_knots s)) 0 = u1;
  cs_v0 : forall i, (i <= snd (bss_degree s))%nat -> nth i (snd (bss_knots s)) 0 = v0;
  cs_v1 : forall i, (c <= i < length (snd (bss_knots s)))%nat -> nth i (snd (bss_knots s)) 0 = v1
}.
Section Clamped.
Variables (u0 u1 v0 v1 : R).
Lemma cs_degree_u s r c : clamped_surface s r c u0 u1 v0 v1 -> (fst (bss_degree s) < r)%nat.
Proof.
  intros [[_ Hr _ _ _ _ L1 _] Hu _ A B _ _]. destruct (Nat.lt_ge_cases (fst (bss_degree s)) r) as [?|H]; [assumption|].
  pose proof (A r H) as E1. rewrite (B r) in E1 by lia. lra.
Qed.
Lemma cs_degree_v s r c : clamped_surface s r c u0 u1 v0 v1 -> (snd (bss_degree s) < c)%nat.
Proof.
  intros [[_ Hr _ _ _ _ _ L2] _ Hv _ _ A B]. destruct (Nat.lt_ge_cases (snd (bss_degree s)) c) as [?|H]; [assumption|].
  pose proof (A c H) as E1. rewrite (B c) in E1 by lia. lra.
Qed.
Lemma cs_ends s r c : clamped_surface s r c u0 u1 v0 v1 ->
  first_of (fst (bss_knots s)) = u0 /\ last_of (fst (bss_knots s)) = u1 /\ first_of (snd (bss_knots s)) = v0 /\ last_of (snd (bss_knots s)) = v1.
Proof.
  intros H. pose proof (cs_degree_u _ _ _ H). pose proof (cs_degree_v _ _ _ H). destruct H as [[_ Hr _ _ _ _ L1 L2] _ _ A B A' B'].
  unfold first_of, last_of. rewrite A, B, A', B' by lia. auto.
Qed.
Lemma cs_point s r c u v : clamped_surface s r c u0 u1 v0 v1 -> u0 <= u -> v0 <= v -> exists q, bss3_get_point s u v = Ok q.
Proof.
  intros H Hu Hv. destruct (cs_ends _ _ _ H) as (A & B & A' & B'). destruct H as [V Lu Lv _ _ _ _].
  destruct (C18_get_point s r c u v V) as [su [sv (_ & _ & E)]]; [now rewrite ?A, ?B, ?A', ?B'..|]. eauto.
Qed.
Lemma der_u_knots (s d : BSplineSurface R (vec3 R)) : (1 <= fst (bss_degree s))%nat -> bss_derivative_u s = Ok d ->
  shrink (fst (bss_knots s)) = Ok (fst (bss_knots d)) /\ snd (bss_knots d) = snd (bss_knots s).
Proof.
  unfold bss_derivative_u. destruct s as [g [ku kv] [p q]]. cbn [bss_cps bss_knots bss_degree fst snd]. intros Hp E.
  rewrite (proj2 (Nat.eqb_neq p 0)) in E by lia. obind_inv E. do 4 (obind_inv E). apply Ok_inj in E. subst d. now cbn [bss_knots fst snd].
Qed.
Lemma der_v_knots (s d : BSplineSurface R (vec3 R)) : (1 <= snd (bss_degree s))%nat -> bss_derivative_v s = Ok d ->
  shrink (snd (bss_knots s)) = Ok (snd (bss_knots d)) /\ fst (bss_knots d) = fst (bss_knots s).
Proof.
  unfold bss_derivative_v. destruct s as [g [ku kv] [p q]]. cbn [bss_cps bss_knots bss_degree fst snd]. intros Hp E.
  rewrite (proj2 (Nat.eqb_neq q 0)) in E by lia. obind_inv E. repeat (obind_inv E). apply Ok_inj in E. subst d. now cbn [bss_knots fst snd].
Qed.
Lemma cs_der_u s r c : clamped_surface s r c u0 u1 v0 v1 -> (1 <= fst (bss_degree s))%nat ->
  exists d, bss_derivative_u s = Ok d /\ clamped_surface d (r - 1) c u0 u1 v0 v1 /\ bss_degree d = (fst (bss_degree s) - 1, snd (bss_degree s))%nat.
Proof.
  intros H Hp. pose proof (cs_degree_u _ _ _ H) as Hd. destruct H as [V Lu Lv A B A' B'].
  destruct (C19_derivative_u s r c V Hp ltac:(lia)) as [d (E & Vd & Dd & _)]. exists d. split; [exact E|]. split; [|exact Dd].
  destruct (der_u_knots s d Hp E) as [K1 K2]. pose proof V as [_ Hr _ _ _ _ L1 L2].
  destruct (shrink_nth (fst (bss_knots s)) ltac:(lia)) as [ku' (Ek & HLk & Hk)]. rewrite K1 in Ek. apply Ok_inj in Ek. subst ku'.
  constructor; auto; rewrite ?Dd, ?K2; cbn [fst snd]; auto.
  - intros i Hi. rewrite Hk by lia. apply A. lia.
  - intros i Hi. rewrite Hk by lia. apply B. lia.
Qed.
Lemma cs_der_v s r c : clamped_surface s r c u0 u1 v0 v1 -> (1 <= snd (bss_degree s))%nat ->
  exists d, bss_derivative_v s = Ok d /\ clamped_surface d r (c - 1) u0 u1 v0 v1 /\ bss_degree d = (fst (bss_degree s), snd (bss_degree s) - 1)%nat.
Proof.
  intros H Hp. pose proof (cs_degree_v _ _ _ H) as Hd. destruct H as [V Lu Lv A B A' B'].
  destruct (C19_derivative_v s r c V Hp ltac:(lia)) as [d (E & Vd & Dd & _)]. exists d. split; [exact E|]. split; [|exact Dd].
  destruct (der_v_knots s d Hp E) as [K1 K2]. pose proof V as [[_ [_ Hc]] Hr _ _ _ _ L1 L2].
  destruct (shrink_nth (snd (bss_knots s)) ltac:(lia)) as [kv' (Ek & HLk & Hk)]. rewrite K1 in Ek. apply Ok_inj in Ek. subst kv'.
  constructor; auto; rewrite ?Dd, ?K2; cbn [fst snd]; auto.
  - intros i Hi. rewrite Hk by lia. apply A'. lia.
  - intros i Hi. rewrite Hk by lia. apply B'. lia.
Qed.
(** The derivative surface can be evaluated on the whole parameter rectangle, also when it is the
    zero surface that stands for the derivative of degree 0. *)
Lemma cs_der_u_point s r c : clamped_surface s r c u0 u1 v0 v1 ->
  exists d, bss_derivative_u s = Ok d /\ forall u v, u0 <= u -> v0 <= v -> exists q, bss3_get_point d u v = Ok q.
Proof.
  intros H. destruct (fst (bss_degree s)) as [|p] eqn:E.
  - destruct (C19_degree0_u s r c (cs_valid _ _ _ _ _ _ _ H) E) as [d (Ed & Hp & _)]. exists d. split; [exact Ed|]. intros u v _ _. rewrite Hp. eauto.
  - destruct (cs_der_u s r c H ltac:(lia)) as [d (Ed & Hd & _)]. exists d. split; [exact Ed|]. intros u v Hu Hv. eapply cs_point; eauto.
Qed.
Lemma cs_der_v_point s r c : clamped_surface s r c u0 u1 v0 v1 ->
  exists d, bss_derivative_v s = Ok d /\ forall u v, u0 <= u -> v0 <= v -> exists q, bss3_get_point d u v = Ok q.
Proof.
  intros H. destruct (snd (bss_degree s)) as [|p] eqn:E.
  - destruct (C19_degree0_v s r c (cs_valid _ _ _ _ _ _ _ H) E) as [d (Ed & Hp & _)]. exists d. split; [exact Ed|]. intros u v _ _. rewrite Hp. eauto.
  - destruct (cs_der_v s r c H ltac:(lia)) as [d (Ed & Hd & _)]. exists d. split; [exact Ed|]. intros u v Hu Hv. eapply cs_point; eauto.
Qed.
End Clamped.

(** ** C61 *)
(** Node (i, j) of the start grid: 4 intervals per control point in each direction. *)
Definition node (r c : nat) (u0 u1 v0 v1 : R) (i j : nat) : vec2 R :=
  V2 (u0 + INR i * (u1 - u0) / INR (r * 4)) (v0 + INR j * (v1 - v0) / INR (c * 4)).
(** The six derivative surfaces of a projection. *)
Definition second_derivatives (s du dv duu duv dvu dvv : BSplineSurface R (vec3 R)) : Prop :=
  bss_derivative_u s = Ok du /\ bss_derivative_v s = Ok dv /\ bss_derivative_u du = Ok duu /\ bss_derivative_v du = Ok duv /\
  bss_derivative_u dv = Ok dvu /\ bss_derivative_v dv = Ok dvv.
Definition sq_distance_at (s : BSplineSurface R (vec3 R)) (P : vec3 R) (w : vec2 R) (d : R) : Prop :=
  exists q, bss3_get_point s (x2 w) (y2 w) = Ok q /\ d = dot3 (vsub P q) (vsub P q).

Theorem C61_project_points (s : BSplineSurface R (vec3 R)) (r c : nat) (u0 u1 v0 v1 : R) (points : list (vec3 R)) :
  clamped_surface s r c u0 u1 v0 v1 -> (1 <= fst (bss_degree s))%nat -> (1 <= snd (bss_degree s))%nat ->
  exists out du dv duu duv dvu dvv, bss_project_points s points = Ok out /\ length out = length points /\
  second_derivatives s du dv duu duv dvu dvv /\
  forall k, (k < length points)%nat -> let P := nth k points vzero in let w := nth k out (V2 0 0) in
    (u0 <= x2 w <= u1 /\ v0 <= y2 w <= v1) /\
    exists i j, (i <= r * 4)%nat /\ (j <= c * 4)%nat /\ let w0 := node r c u0 u1 v0 v1 i j in
      newton_run (bss3_get_point s) (bss3_get_point du) (bss3_get_point dv) (bss3_get_point duu) (bss3_get_point duv)
        (bss3_get_point dvu) (bss3_get_point dvv) (u0, u1) (v0, v1) P 20 w0 w /\
      ((exists i' j' d, (i' <= r * 4)%nat /\ (j' <= c * 4)%nat /\ sq_distance_at s P (node r c u0 u1 v0 v1 i' j') d /\ d < RMAX) ->
       forall i' j' d d', (i' <= r * 4)%nat -> (j' <= c * 4)%nat ->
         sq_distance_at s P w0 d -> sq_distance_at s P (node r c u0 u1 v0 v1 i' j') d' -> d <= d').
Proof.
  intros H Hp Hq. pose proof (cs_degree_u _ _ _ _ _ _ _ H) as Hpr. pose proof (cs_degree_v _ _ _ _ _ _ _ H) as Hqc.
  destruct (cs_ends _ _ _ _ _ _ _ H) as (F1 & L1 & F2 & L2). pose proof H as [V Hu Hv _ _ _ _]. pose proof V as [W _ _ _ _ _ LK1 LK2].
  destruct (cs_der_u _ _ _ _ s r c H Hp) as [du (Eu & Hdu & Du)]. destruct (cs_der_v _ _ _ _ s r c H Hq) as [dv (Ev & Hdv & Dv)].
  destruct (cs_der_u_point _ _ _ _ _ _ _ Hdu) as [duu (Euu & Puu)]. destruct (cs_der_v_point _ _ _ _ _ _ _ Hdu) as [duv (Euv & Puv)].
  destruct (cs_der_u_point _ _ _ _ _ _ _ Hdv) as [dvu (Evu & Pvu)]. destruct (cs_der_v_point _ _ _ _ _ _ _ Hdv) as [dvv (Evv & Pvv)].
  set (nu := (r * 4)%nat). set (nv := (c * 4)%nat).
  set (us := map (fun i => u0 + INR i * (u1 - u0) / INR nu) (seq 0 (nu + 1))).
  set (vs := map (fun i => v0 + INR i * (v1 - v0) / INR nv) (seq 0 (nv + 1))).
  assert (LU : length us = (nu + 1)%nat) by (unfold us; now rewrite map_length, seq_length).
  assert (LV : length vs = (nv + 1)%nat) by (unfold vs; now rewrite map_length, seq_length).
  assert (NU : forall i, (i <= nu)%nat -> nth i us 0 = u0 + INR i * (u1 - u0) / INR nu).
  { intros i Hi. unfold us. rewrite (nth_map_default _ _ _ 0%nat) by (rewrite seq_length; lia). rewrite seq_nth by lia. reflexivity. }
  assert (NV : forall i, (i <= nv)%nat -> nth i vs 0 = v0 + INR i * (v1 - v0) / INR nv).
  { intros i Hi. unfold vs. rewrite (nth_map_default _ _ _ 0%nat) by (rewrite seq_length; lia). rewrite seq_nth by lia. reflexivity. }
  assert (EU : uniform_divide (u0, u1) nu = Ok us) by (apply C21_uniform_divide_exact; unfold nu; lia).
  assert (EV : uniform_divide (v0, v1) nv = Ok vs) by (apply C21_uniform_divide_exact; unfold nv; lia).
  assert (IU : forall u, In u us -> u0 <= u <= u1).
  { intros u Iu. pose proof (uniform_divide_in_range _ _ _ _ EU u Iu) as K. now rewrite Rmin_left, Rmax_right in K by lra. }
  assert (IV : forall u, In u vs -> v0 <= u <= v1).
  { intros u Iu. pose proof (uniform_divide_in_range _ _ _ _ EV u Iu) as K. now rewrite Rmin_left, Rmax_right in K by lra. }
  set (cells := flat_map (fun u => map (fun v => (u, v)) vs) us).
  assert (LC : length cells = ((nu + 1) * (nv + 1))%nat) by (unfold cells; rewrite (grid_list_length (fun u v => (u, v))), LU, LV; reflexivity).
  assert (NC : forall i j, (i <= nu)%nat -> (j <= nv)%nat -> nth (i * (nv + 1) + j) cells (0, 0) = (nth i us 0, nth j vs 0)).
  { intros i j Hi Hj. unfold cells. rewrite <- LV. apply (grid_list_nth (fun u v => (u, v))); lia. }
  destruct (mapM_total (fun '(u, v) => bss3_get_point s u v) cells) as [pts Ep].
  { intros [u v] Iuv. unfold cells in Iuv. apply in_flat_map in Iuv as [u' [Iu Iuv]]. apply in_map_iff in Iuv as [v' [Evv' Iv]]. injection Evv' as -> ->.
    apply IU in Iu. apply IV in Iv. eapply cs_point; eauto; lra. }
  assert (LP : length pts = ((nu + 1) * (nv + 1))%nat) by (rewrite (mapM_length _ _ _ Ep); exact LC).
  assert (NP : forall i j, (i <= nu)%nat -> (j <= nv)%nat -> bss3_get_point s (nth i us 0) (nth j vs 0) = Ok (nth (i * (nv + 1) + j) pts vzero)).
  { intros i j Hi Hj. assert (Hb : (i * (nv + 1) + j < length cells)%nat) by (rewrite LC; nia).
    pose proof (mapM_nth _ _ _ _ (0, 0) vzero Ep Hb) as K. cbv beta in K. rewrite NC in K by assumption. exact K. }
  destruct (grid_from_vec_wf pts (nu + 1) (nv + 1) LP ltac:(lia) ltac:(lia)) as [EG _].
  assert (ER1 : knot_range (fst (bss_knots s)) = Ok (u0, u1)).
  { unfold knot_range. rewrite (idx_nth _ _ 0) by lia. cbn [obind]. rewrite usub_Ok by lia. cbn [obind]. rewrite (idx_nth _ _ 0) by lia. cbn [obind].
    unfold first_of in F1. unfold last_of in L1. now rewrite F1, L1. }
  assert (ER2 : knot_range (snd (bss_knots s)) = Ok (v0, v1)).
  { unfold knot_range. rewrite (idx_nth _ _ 0) by lia. cbn [obind]. rewrite usub_Ok by lia. cbn [obind]. rewrite (idx_nth _ _ 0) by lia. cbn [obind].
    unfold first_of in F2. unfold last_of in L2. now rewrite F2, L2. }
  set (go := fun point : vec3 R => ' (i, j) <- find_nearest_point_in_grid (mkGrid (nv + 1) pts) point ;; u <- idx us i ;; v <- idx vs j ;;
    bss_newton 20 (bss3_get_point s) (bss3_get_point du) (bss3_get_point dv) (bss3_get_point duu) (bss3_get_point duv) (bss3_get_point dvu) (bss3_get_point dvv)
      (u0, u1) (v0, v1) point u v).
  assert (Epr : bss_project_points s points = mapM go points).
  { unfold bss_project_points. rewrite Eu. cbn [obind]. rewrite Ev. cbn [obind]. rewrite Euu. cbn [obind]. rewrite Euv. cbn [obind]. rewrite Evu. cbn [obind]. rewrite Evv. cbn [obind]. rewrite (wf_rows _ _ _ W). destruct W as (Wc & _). unfold g_cols in *.
    rewrite Wc. rewrite ER1, ER2. cbn [obind]. fold nu nv. rewrite EU, EV. cbn [obind]. fold cells. rewrite Ep. cbn [obind]. rewrite EG. reflexivity. }
  assert (Gr : forall P, let m := find_nearest_point pts P in
     let i := (m / (nv + 1))%nat in let j := (m mod (nv + 1))%nat in (i <= nu)%nat /\ (j <= nv)%nat /\ m = (i * (nv + 1) + j)%nat /\
     go P = bss_newton 20 (bss3_get_point s) (bss3_get_point du) (bss3_get_point dv) (bss3_get_point duu) (bss3_get_point duv) (bss3_get_point dvu) (bss3_get_point dvv)
      (u0, u1) (v0, v1) P (nth i us 0) (nth j vs 0)).
  { intros P m i j.
    assert (Hm : (m < (nu + 1) * (nv + 1))%nat).
    { assert (T1 : forall a b c : R, fltb a b = true -> fltb b c = true -> fltb a c = true) by (intros a b e; rnum; rewrite !Rltb_true; lra).
      assert (T2 : forall a b c : R, fleb a b = true -> fltb b c = true -> fltb a c = true) by (intros a b e; rnum; rewrite !Rltb_true, Rleb_true; lra).
      assert (T0 : forall a : R, fltb a a = false) by (intros a; rnum; apply Rltb_false; lra).
      destruct (nearest_spec P T0 T1 T2 pts) as [[E0 _]|[vr [K _]]]; [unfold m; rewrite E0; nia|].
      rewrite <- LP. apply nth_error_Some. fold m in K. congruence. }
    assert (Hi : (i <= nu)%nat) by (assert (i < nu + 1)%nat by (apply Nat.div_lt_upper_bound; lia); lia).
    assert (Hj : (j <= nv)%nat) by (pose proof (Nat.mod_upper_bound m (nv + 1) ltac:(lia)); unfold j; lia).
    split; [exact Hi|]. split; [exact Hj|]. split; [unfold i, j; rewrite (Nat.div_mod m (nv + 1)) at 1 by lia; lia|].
    unfold go. rewrite (C24_grid_search (nu + 1) (nv + 1) pts P ltac:(lia) LP). fold m. cbn [obind]. fold i j.
    rewrite (idx_nth us i 0) by lia. cbn [obind]. rewrite (idx_nth vs j 0) by lia. reflexivity. }
  assert (Rg : forall i j, (i <= nu)%nat -> (j <= nv)%nat -> in_range (u0, u1) (nth i us 0) /\ in_range (v0, v1) (nth j vs 0)).
  { intros i j Hi Hj. unfold in_range. cbn [fst snd]. rewrite !Rmin_left, !Rmax_right by lra. split; [apply IU|apply IV]; apply nth_In; lia. }
  destruct (mapM_total go points) as [out Eo].
  { intros P _. destruct (Gr P) as (Hi & Hj & _ & ->). destruct (Rg _ _ Hi Hj) as [R1 R2]. apply bss_newton_total; [|assumption|assumption].
    intros u v Iu Iv T IT. unfold in_range in Iu, Iv. cbn [fst snd] in Iu, Iv. rewrite Rmin_left, Rmax_right in Iu, Iv by lra.
    destruct IT as [<-|[<-|[<-|[<-|[<-|[<-|[<-|[]]]]]]]]; [eapply cs_point; eauto; lra|eapply cs_point; [exact Hdu| |]; lra|eapply cs_point; [exact Hdv| |]; lra|
      apply Puu; lra|apply Puv; lra|apply Pvu; lra|apply Pvv; lra]. }
  exists out, du, dv, duu, duv, dvu, dvv. split; [congruence|]. split; [now apply mapM_length in Eo|]. split; [repeat split; assumption|].
  intros k Hk P w. pose proof (mapM_nth _ _ _ k vzero (V2 0 0) Eo Hk) as Ew. fold P w in Ew.
  destruct (Gr P) as (Hi & Hj & Hm & EgP). rewrite EgP in Ew. set (m := find_nearest_point pts P) in *. set (i := (m / (nv + 1))%nat) in *. set (j := (m mod (nv + 1))%nat) in *.
  apply bss_newton_run in Ew. destruct (Rg i j Hi Hj) as [R1 R2]. split.
  { destruct (newton_run_in_range _ _ _ _ _ _ _ _ _ _ _ (V2 (nth i us 0) (nth j vs 0)) w R1 R2 Ew) as [A B].
    unfold in_range in A, B. cbn [fst snd] in A, B. rewrite Rmin_left, Rmax_right in A, B by lra. now split. }
  exists i, j. split; [exact Hi|]. split; [exact Hj|]. cbv zeta. unfold node. fold nu nv. rewrite <- (NU i Hi), <- (NV j Hj). split; [exact Ew|].
  intros (i1 & j1 & d1 & Hi1 & Hj1 & [q1 (Eq1 & ->)] & Hmax) i' j' d d' Hi' Hj' [q (Eq & ->)] [q' (Eq' & ->)]. cbn [x2 y2] in *.
  rewrite <- (NU i' Hi'), <- (NV j' Hj') in Eq'. rewrite <- (NU i1 Hi1), <- (NV j1 Hj1) in Eq1.
  rewrite (NP i j Hi Hj) in Eq. rewrite (NP i' j' Hi' Hj') in Eq'. rewrite (NP i1 j1 Hi1 Hj1) in Eq1. apply Ok_inj in Eq, Eq', Eq1. subst q q' q1. rewrite <- Hm.
  assert (Hb : (i' * (nv + 1) + j' < length pts)%nat) by (rewrite LP; nia). assert (Hb1 : (i1 * (nv + 1) + j1 < length pts)%nat) by (rewrite LP; nia).
  assert (T1 : forall a b c : R, fltb a b = true -> fltb b c = true -> fltb a c = true) by (intros a b e; rnum; rewrite !Rltb_true; lra).
  assert (T2 : forall a b c : R, fleb a b = true -> fltb b c = true -> fltb a c = true) by (intros a b e; rnum; rewrite !Rltb_true, Rleb_true; lra).
  assert (T0 : forall a : R, fltb a a = false) by (intros a; rnum; apply Rltb_false; lra).
  destruct (nearest_spec P T0 T1 T2 pts) as [[_ K]|[vr (K1 & _ & K3 & _)]].
  - specialize (K _ (nth_In pts vzero Hb1)). rnum. apply Rltb_false in K. unfold sqd, length_squared3 in K. exfalso. apply Rlt_not_le in Hmax. now apply Hmax.
  - fold m in K1. apply (nth_error_nth _ _ vzero) in K1. rewrite K1. specialize (K3 _ (nth_In pts vzero Hb)). rnum. apply Rltb_false in K3. exact K3.
Qed.

(** A point that equals a node of the start grid is hit exactly. *)
Theorem C61_sample_is_hit (s : BSplineSurface R (vec3 R)) (r c : nat) (u0 u1 v0 v1 : R) (P : vec3 R) (i j : nat) :
  clamped_surface s r c u0 u1 v0 v1 -> (1 <= fst (bss_degree s))%nat -> (1 <= snd (bss_degree s))%nat ->
  (i <= r * 4)%nat -> (j <= c * 4)%nat ->
  bss3_get_point s (x2 (node r c u0 u1 v0 v1 i j)) (y2 (node r c u0 u1 v0 v1 i j)) = Ok P ->
  exists w, bss_project_points s [P] = Ok [w] /\ bss3_get_point s (x2 w) (y2 w) = Ok P.
Proof.
  intros H Hp Hq Hi Hj E.
  destruct (C61_project_points s r c u0 u1 v0 v1 [P] H Hp Hq) as (out & du & dv & duu & duv & dvu & dvv & Eo & HL & _ & HK).
  destruct out as [|w [|? ?]]; try discriminate HL. exists w. split; [exact Eo|].
  destruct (HK 0%nat ltac:(cbn; lia)) as (_ & i0 & j0 & Hi0 & Hj0 & (k & f & _ & F0 & Fk & Hst & _) & Hn). cbn [nth] in *.
  assert (EP : sq_distance_at s P (node r c u0 u1 v0 v1 i j) 0) by (exists P; split; [exact E|]; unfold dot3; vsimp; ring).
  assert (Hmax : 0 < RMAX) by (unfold RMAX; apply IZR_lt; reflexivity).
  specialize (Hn (ex_intro _ i (ex_intro _ j (ex_intro _ 0 (conj Hi (conj Hj (conj EP Hmax))))))). set (w0 := node r c u0 u1 v0 v1 i0 j0) in *.
  assert (E0 : bss3_get_point s (x2 w0) (y2 w0) = Ok P).
  { assert (R0 : u0 <= x2 w0 /\ v0 <= y2 w0).
    { assert (K : forall a b n m, a < b -> a <= a + INR n * (b - a) / INR m).
      { intros a b n m Hab. assert (0 <= INR n * (b - a) / INR m); [|lra]. destruct m as [|m]; [cbn [INR]; unfold Rdiv; rewrite Rinv_0; lra|].
        apply Rmult_le_pos; [apply Rmult_le_pos; [apply pos_INR|lra]|left; apply Rinv_0_lt_compat, lt_0_INR; lia]. }
      destruct H as [_ Hu Hv _ _ _ _]. split; apply K; assumption. }
    destruct (cs_point _ _ _ _ s r c (x2 w0) (y2 w0) H (proj1 R0) (proj2 R0)) as [q Eq].
    assert (Hd : dot3 (vsub P q) (vsub P q) <= 0).
    { apply (Hn i j _ 0 Hi Hj); [exists q; auto|exact EP]. }
    destruct q as [qx qy qz], P as [px py pz]. unfold dot3 in Hd. vsimp.
    pose proof (Rle_0_sqr (px - qx)) as Px. pose proof (Rle_0_sqr (py - qy)) as Py. pose proof (Rle_0_sqr (pz - qz)) as Pz.
    assert (K1 : px - qx = 0) by (apply Rsqr_0_uniq; unfold Rsqr in *; lra). assert (K2 : py - qy = 0) by (apply Rsqr_0_uniq; unfold Rsqr in *; lra).
    assert (K3 : pz - qz = 0) by (apply Rsqr_0_uniq; unfold Rsqr in *; lra).
    rewrite Eq. f_equal. f_equal; lra. }
  destruct k as [|k]; [congruence|]. exfalso. destruct (Hst 0%nat ltac:(lia)) as [Hs _]. apply Hs. rewrite F0. exists P. split; [exact E0|]. left.
  replace (dot3 (vsub P P) (vsub P P)) with 0; [unfold TOL; lra|]. unfold dot3. vsimp. ring.
Qed.

(** ** The linear system is the second-order expansion of the squared distance *)
Definition at3 (o : outcome (vec3 R)) : vec3 R := match o with Ok q => q | _ => V3 0 0 0 end.
(** half the squared distance from P, and the product of a vector field with the residual *)
Definition half_sqdist (S : R -> R -> outcome (vec3 R)) (P : vec3 R) (u v : R) : R := dot3 (vsub (at3 (S u v)) P) (vsub (at3 (S u v)) P) / 2.
Definition slope (T S : R -> R -> outcome (vec3 R)) (P : vec3 R) (u v : R) : R := dot3 (at3 (T u v)) (vsub (at3 (S u v)) P).

Definition moves (f : R -> outcome (vec3 R)) (x : R) (d : vec3 R) : Prop :=
  derivable_pt_lim (curve_coord f x3) x (x3 d) /\ derivable_pt_lim (curve_coord f y3) x (y3 d) /\ derivable_pt_lim (curve_coord f z3) x (z3 d).
Lemma at3_coord (f : R -> outcome (vec3 R)) x : at3 (f x) = V3 (curve_coord f x3 x) (curve_coord f y3 x) (curve_coord f z3 x).
Proof. unfold at3, curve_coord. destruct (f x) as [[a b c]| |]; reflexivity. Qed.
Lemma dot_derivative (f g : R -> outcome (vec3 R)) P x df dg : moves f x df -> moves g x dg ->
  derivable_pt_lim (fun t => dot3 (at3 (f t)) (vsub (at3 (g t)) P)) x (dot3 df (vsub (at3 (g x)) P) + dot3 (at3 (f x)) dg).
Proof.
  intros (F1 & F2 & F3) (G1 & G2 & G3). rewrite !at3_coord.
  set (f1 := curve_coord f x3) in *. set (f2 := curve_coord f y3) in *. set (f3 := curve_coord f z3) in *.
  set (g1 := curve_coord g x3) in *. set (g2 := curve_coord g y3) in *. set (g3 := curve_coord g z3) in *.
  destruct P as [px py pz]. unfold dot3. vsimp.
  apply (derivable_pt_lim_ext (((f1 * (g1 - fct_cte px)) + (f2 * (g2 - fct_cte py)) + (f3 * (g3 - fct_cte pz)))%F)).
  { intros t. rewrite !at3_coord. reflexivity. }
  match goal with |- derivable_pt_lim _ _ ?l => replace l with
    (x3 df * (g1 x - px) + f1 x * (x3 dg - 0) + (y3 df * (g2 x - py) + f2 x * (y3 dg - 0)) + (z3 df * (g3 x - pz) + f3 x * (z3 dg - 0))) by ring end.
  repeat apply derivable_pt_lim_plus;
    (match goal with |- derivable_pt_lim (mult_fct ?a (minus_fct ?b ?k)) _ _ => apply (derivable_pt_lim_mult a (minus_fct b k)) end;
     [assumption|apply derivable_pt_lim_minus; [assumption|apply derivable_pt_lim_const]]).
Qed.
Lemma half_derivative (g : R -> outcome (vec3 R)) P x dg : moves g x dg ->
  derivable_pt_lim (fun t => dot3 (vsub (at3 (g t)) P) (vsub (at3 (g t)) P) / 2) x (dot3 dg (vsub (at3 (g x)) P)).
Proof.
  intros (G1 & G2 & G3). rewrite !at3_coord.
  set (g1 := curve_coord g x3) in *. set (g2 := curve_coord g y3) in *. set (g3 := curve_coord g z3) in *.
  destruct P as [px py pz]. unfold dot3. vsimp.
  apply (derivable_pt_lim_ext (fun t => / 2 * (((g1 - fct_cte px) * (g1 - fct_cte px)) + ((g2 - fct_cte py) * (g2 - fct_cte py)) + ((g3 - fct_cte pz) * (g3 - fct_cte pz)))%F t)).
  { intros t. rewrite !at3_coord. cbn [x3 y3 z3]. unfold plus_fct, mult_fct, minus_fct, fct_cte. fold g1 g2 g3. unfold Rdiv. ring. }
  match goal with |- derivable_pt_lim _ _ ?l => replace l with
    (/ 2 * ((x3 dg - 0) * (g1 x - px) + (g1 x - px) * (x3 dg - 0) + ((y3 dg - 0) * (g2 x - py) + (g2 x - py) * (y3 dg - 0)) + ((z3 dg - 0) * (g3 x - pz) + (g3 x - pz) * (z3 dg - 0)))) by field end.
  match goal with |- derivable_pt_lim (fun t => / 2 * ?h t) _ _ => apply (derivable_pt_lim_scal h (/ 2)) end.
  repeat apply derivable_pt_lim_plus;
    (match goal with |- derivable_pt_lim (mult_fct ?a ?b) _ _ => apply (derivable_pt_lim_mult a b) end;
     apply derivable_pt_lim_minus; [assumption|apply derivable_pt_lim_const|assumption|apply derivable_pt_lim_const]).
Qed.

(** Inside a knot span of each direction: the right hand side of the system of a Newton step is
    minus the gradient of half the squared distance to P, its matrix the derivative of that gradient. *)
Theorem C61_newton_system (s : BSplineSurface R (vec3 R)) (r c k l : nat) (P : vec3 R) (u v : R) :
  let ku := fst (bss_knots s) in let kv := snd (bss_knots s) in let p := fst (bss_degree s) in let q := snd (bss_degree s) in
  valid_surface s r c -> (1 <= p)%nat -> (1 <= q)%nat ->
  (p <= k < r)%nat -> (q <= l < c)%nat -> nth k ku 0 < u < nth (k + 1) ku 0 -> nth l kv 0 < v < nth (l + 1) kv 0 ->
  exists du dv duu duv dvu dvv pt a b auu auv avu avv, second_derivatives s du dv duu duv dvu dvv /\
    bss3_get_point s u v = Ok pt /\ bss3_get_point du u v = Ok a /\ bss3_get_point dv u v = Ok b /\
    bss3_get_point duu u v = Ok auu /\ bss3_get_point duv u v = Ok auv /\ bss3_get_point dvu u v = Ok avu /\ bss3_get_point dvv u v = Ok avv /\
    let S := bss3_get_point s in let Su := bss3_get_point du in let Sv := bss3_get_point dv in let rr := vsub pt P in
    derivable_pt_lim (fun x => half_sqdist S P x v) u (dot3 a rr) /\
    derivable_pt_lim (fun y => half_sqdist S P u y) v (dot3 b rr) /\
    slope Su S P u v = dot3 a rr /\ slope Sv S P u v = dot3 b rr /\
    derivable_pt_lim (fun x => slope Su S P x v) u (dot3 a a + dot3 auu rr) /\
    derivable_pt_lim (fun y => slope Su S P u y) v (dot3 a b + dot3 auv rr) /\
    derivable_pt_lim (fun x => slope Sv S P x v) u (dot3 b a + dot3 avu rr) /\
    derivable_pt_lim (fun y => slope Sv S P u y) v (dot3 b b + dot3 avv rr).
Proof.
  intros ku kv p q V Hp Hq Hk Hl Hu Hv. pose proof V as [W Hr S1 _ S2 _ L1 L2]. fold ku p in L1, S1. fold kv q in L2, S2.
  assert (A1 : first_of ku <= nth k ku 0) by (apply S1; lia). assert (A2 : nth (k + 1) ku 0 <= last_of ku) by (apply S1; lia).
  assert (B1 : first_of kv <= nth l kv 0) by (apply S2; lia). assert (B2 : nth (l + 1) kv 0 <= last_of kv) by (apply S2; lia).
  destruct (C19_derivative_u s r c V Hp ltac:(lia)) as [du (Eu & Vu & Du & Pu)]. destruct (C19_derivative_v s r c V Hq ltac:(lia)) as [dv (Ev & Vv & Dv & Pv)].
  fold ku kv p q in Pu, Pv, Du, Dv.
  destruct (der_u_knots s du Hp Eu) as [Ku1 Ku2]. destruct (der_v_knots s dv Hq Ev) as [Kv1 Kv2]. fold ku kv in Ku1, Ku2, Kv1, Kv2.
  destruct (shrink_nth ku ltac:(lia)) as [ku' (Ek & HLk & Hk')]. rewrite Ku1 in Ek. apply Ok_inj in Ek. subst ku'.
  destruct (shrink_nth kv ltac:(lia)) as [kv' (Ek & HLk' & Hl')]. rewrite Kv1 in Ek. apply Ok_inj in Ek. subst kv'.
  destruct (C18_get_point s r c u v V) as [su [sv (_ & _ & Ept)]]; [fold ku kv; lra..|].
  match type of Ept with _ = Ok ?x => set (pt := x) in * end.
  destruct (Pu k u v Hk Hu) as [a (Ea & Ma)]; [lra..|]. destruct (Pv l u v Hl Hv) as [b (Eb & Mb)]; [lra..|].
  assert (Hk1 : nth (k - 1) (fst (bss_knots du)) 0 < u < nth (k - 1 + 1) (fst (bss_knots du)) 0).
  { rewrite !Hk' by lia. now replace (k - 1 + 1)%nat with k by lia. }
  assert (Hl1 : nth (l - 1) (snd (bss_knots dv)) 0 < v < nth (l - 1 + 1) (snd (bss_knots dv)) 0).
  { rewrite !Hl' by lia. now replace (l - 1 + 1)%nat with l by lia. }
  pose proof Vu as [Wu Hru Su1 _ Su2 _ Lu1 Lu2]. pose proof Vv as [Wv Hrv Sv1 _ Sv2 _ Lv1 Lv2]. rewrite Du in Lu1, Lu2. rewrite Dv in Lv1, Lv2. cbn [fst snd] in *.
  assert (C1 : first_of (fst (bss_knots du)) <= nth (k - 1) (fst (bss_knots du)) 0) by (apply Su1; lia).
  assert (C2 : nth (k - 1 + 1) (fst (bss_knots du)) 0 <= last_of (fst (bss_knots du))) by (apply Su1; lia).
  assert (C3 : first_of (snd (bss_knots dv)) <= nth (l - 1) (snd (bss_knots dv)) 0) by (apply Sv2; lia).
  assert (C4 : nth (l - 1 + 1) (snd (bss_knots dv)) 0 <= last_of (snd (bss_knots dv))) by (apply Sv2; lia).
  assert (Huu : exists duu auu, bss_derivative_u du = Ok duu /\ bss3_get_point duu u v = Ok auu /\ moves (fun x => bss3_get_point du x v) u auu).
  { destruct (Nat.eq_dec p 1) as [E1|E1].
    - destruct (C19_degree0_u du (r - 1) c Vu ltac:(rewrite Du; cbn [fst]; lia)) as [d (Ed & Z & M)]. exists d, (V3 0 0 0). split; [exact Ed|]. split; [apply Z|]. apply (M (k - 1)%nat u v); [lia|exact Hk1].
    - destruct (C19_derivative_u du (r - 1) c Vu) as [d (Ed & _ & _ & M)]; [rewrite Du; cbn [fst]; lia|lia|].
      destruct (M (k - 1)%nat u v) as [z (Ez & Mz)]; [rewrite Du; cbn [fst]; lia|exact Hk1|rewrite Ku2; lra..|]. exists d, z. auto. }
  assert (Hvv : exists dvv avv, bss_derivative_v dv = Ok dvv /\ bss3_get_point dvv u v = Ok avv /\ moves (fun y => bss3_get_point dv u y) v avv).
  { destruct (Nat.eq_dec q 1) as [E1|E1].
    - destruct (C19_degree0_v dv r (c - 1) Vv ltac:(rewrite Dv; cbn [snd]; lia)) as [d (Ed & Z & M)]. exists d, (V3 0 0 0). split; [exact Ed|]. split; [apply Z|]. apply (M (l - 1)%nat u v); [lia|exact Hl1].
    - destruct (C19_derivative_v dv r (c - 1) Vv) as [d (Ed & _ & _ & M)]; [rewrite Dv; cbn [snd]; lia|lia|].
      destruct (M (l - 1)%nat u v) as [z (Ez & Mz)]; [rewrite Dv; cbn [snd]; lia|exact Hl1|rewrite Kv2; lra..|]. exists d, z. auto. }
  assert (Huv : exists duv auv, bss_derivative_v du = Ok duv /\ bss3_get_point duv u v = Ok auv /\ moves (fun y => bss3_get_point du u y) v auv).
  { destruct (C19_derivative_v du (r - 1) c Vu) as [d (Ed & _ & _ & M)]; [rewrite Du; exact Hq|lia|].
    destruct (M l u v) as [z (Ez & Mz)]; [rewrite Du; exact Hl|rewrite Ku2; exact Hv|lra..|]. exists d, z. auto. }
  assert (Hvu : exists dvu avu, bss_derivative_u dv = Ok dvu /\ bss3_get_point dvu u v = Ok avu /\ moves (fun x => bss3_get_point dv x v) u avu).
  { destruct (C19_derivative_u dv r (c - 1) Vv) as [d (Ed & _ & _ & M)]; [rewrite Dv; exact Hp|lia|].
    destruct (M k u v) as [z (Ez & Mz)]; [rewrite Dv; exact Hk|rewrite Kv2; exact Hu|lra..|]. exists d, z. auto. }
  destruct Huu as (duu & auu & Euu & Xuu & Muu). destruct Huv as (duv & auv & Euv & Xuv & Muv). destruct Hvu as (dvu & avu & Evu & Xvu & Mvu). destruct Hvv as (dvv & avv & Evv & Xvv & Mvv).
  exists du, dv, duu, duv, dvu, dvv, pt, a, b, auu, auv, avu, avv. split; [repeat split; assumption|]. do 7 (split; [assumption|]). cbv zeta.
  assert (MA : moves (fun x => bss3_get_point s x v) u a) by exact Ma. assert (MB : moves (fun y => bss3_get_point s u y) v b) by exact Mb.
  assert (X0 : at3 (bss3_get_point s u v) = pt) by now rewrite Ept. assert (X1 : at3 (bss3_get_point du u v) = a) by now rewrite Ea. assert (X2 : at3 (bss3_get_point dv u v) = b) by now rewrite Eb.
  unfold half_sqdist, slope. rewrite X0, X1, X2. repeat apply conj; try reflexivity.
  - rewrite <- X0. apply (half_derivative _ P u a MA).
  - rewrite <- X0. apply (half_derivative _ P v b MB).
  - pose proof (dot_derivative _ _ P u auu a Muu MA) as K. cbv beta in K. rewrite X0, X1, Rplus_comm in K. exact K.
  - pose proof (dot_derivative _ _ P v auv b Muv MB) as K. cbv beta in K. rewrite X0, X1, Rplus_comm in K. exact K.
  - pose proof (dot_derivative _ _ P u avu a Mvu MA) as K. cbv beta in K. rewrite X0, X2, Rplus_comm in K. exact K.
  - pose proof (dot_derivative _ _ P v avv b Mvv MB) as K. cbv beta in K. rewrite X0, X2, Rplus_comm in K. exact K.
Qed.

(** ** Double arithmetic *)
(** Whatever the surface values are: each coordinate of a result is the start value, NaN, or inside the knot range. *)
Lemma clamp_in_range_f64 (x a b y : f64) : not_nan a -> not_nan b -> clamp_in_range (NF := F64Num) x (a, b) = Ok y ->
  y = S754_nan \/ (SFleb a y = true /\ SFleb y b = true) \/ (SFleb b y = true /\ SFleb y a = true).
Proof.
  intros Ha Hb E. unfold clamp_in_range in E. cbn [fst snd] in E. change (fltb a b) with (SFltb a b) in E. destruct (SFltb a b) eqn:Eab.
  - apply clamp_f64 in E; [tauto|]. apply SFleb_spec. apply SFltb_spec in Eab. destruct Eab as (? & ? & H). repeat split; auto.
    intros H'. eapply lex_lt_irrefl, lex_lt_trans; eauto.
  - apply clamp_f64 in E; [tauto|]. now apply SFltb_false_leb.
Qed.
Definition between64 (a b x y : f64) : Prop := y = x \/ y = S754_nan \/ (SFleb a y = true /\ SFleb y b = true) \/ (SFleb b y = true /\ SFleb y a = true).
Theorem C61_newton_f64 (S Su Sv Suu Suv Svu Svv : f64 -> f64 -> outcome (vec3 f64)) (a b a' b' : f64) (P : vec3 f64) (trials : nat) (u v : f64) (w : vec2 f64) :
  not_nan a -> not_nan b -> not_nan a' -> not_nan b' ->
  bss_newton (NF := F64Num) trials S Su Sv Suu Suv Svu Svv (a, b) (a', b') P u v = Ok w -> between64 a b u (x2 w) /\ between64 a' b' v (y2 w).
Proof.
  intros Ha Hb Ha' Hb'. revert u v. induction trials as [|n IH]; intros u v E; cbn [bss_newton] in E.
  - apply Ok_inj in E. subst w. split; now left.
  - obind_inv E. destruct (near _ _); [apply Ok_inj in E; subst w; split; now left|].
    obind_inv E. obind_inv E. destruct (near _ _ && near _ _); [apply Ok_inj in E; subst w; split; now left|].
    obind_inv E. obind_inv E. obind_inv E. obind_inv E. cbv zeta in E. obind_inv E. obind_inv E.
    match goal with H : clamp_in_range _ (a, b) = Ok _ |- _ => apply clamp_in_range_f64 in H; [rename H into C1|assumption..] end.
    match goal with H : clamp_in_range _ (a', b') = Ok _ |- _ => apply clamp_in_range_f64 in H; [rename H into C2|assumption..] end.
    destruct (IH _ _ E) as [[->|H1] [->|H2]]; split; right; assumption.
Qed.

(** ** The hypotheses can be met *)
Lemma s_ex_clamped : clamped_surface s_ex 3 2 0 1 0 1.
Proof.
  constructor; [apply s_ex_valid|lra|lra|..]; cbn [s_ex bss_degree bss_knots fst snd]; intros i Hi; cbn [length] in Hi.
  - do 3 (destruct i as [|i]; [reflexivity|]). lia.
  - do 3 (destruct i as [|i]; [lia|]). do 3 (destruct i as [|i]; [reflexivity|]). lia.
  - do 2 (destruct i as [|i]; [reflexivity|]). lia.
  - do 2 (destruct i as [|i]; [lia|]). do 2 (destruct i as [|i]; [reflexivity|]). lia.
Qed.
Example C61_nonvacuous : exists w, bss_project_points s_ex [V3 5 5 5] = Ok [w] /\ 0 <= x2 w <= 1 /\ 0 <= y2 w <= 1.
Proof.
  destruct (C61_project_points s_ex 3 2 0 1 0 1 [V3 5 5 5]) as (out & du & dv & duu & duv & dvu & dvv & E & HL & _ & HK); [apply s_ex_clamped|cbn; lia..|].
  destruct out as [|w [|? ?]]; try discriminate HL. exists w. split; [exact E|]. exact (proj1 (HK 0%nat ltac:(cbn; lia))).
Qed.
Example C61_newton_system_nonvacuous : exists d, derivable_pt_lim (fun x => half_sqdist (bss3_get_point s_ex) (V3 5 5 5) x (1/3)) (1/2) d.
Proof.
  destruct (C61_newton_system s_ex 3 2 2 1 (V3 5 5 5) (1/2) (1/3)) as (du & dv & duu & duv & dvu & dvv & pt & a & b & auu & auv & avu & avv & _ & _ & _ & _ & _ & _ & _ & _ & D & _);
    [apply s_ex_valid|cbn; lia..|cbn; lra|cbn; lra|]. eauto.
Qed.
Example C61_sample_nonvacuous : exists w P, bss3_get_point s_ex (1/2) (1/2) = Ok P /\ bss_project_points s_ex [P] = Ok [w] /\ bss3_get_point s_ex (x2 w) (y2 w) = Ok P.
Proof.
  destruct (cs_point _ _ _ _ s_ex 3 2 (1/2) (1/2) s_ex_clamped ltac:(lra) ltac:(lra)) as [P E].
  destruct (C61_sample_is_hit s_ex 3 2 0 1 0 1 P 6 4 s_ex_clamped) as [w H]; [cbn; lia..| |exists w, P; auto].
  unfold node. cbn [x2 y2]. rewrite <- E. f_equal; cbn; field.
Qed.
(** Run in double arithmetic: the bilinear square [0,2]x[0,2]; a point above it drops to its foot,
    a point beyond an edge goes to the edge, on which it stays through all 20 steps. *)
Definition flat64 : BSplineSurface f64 (vec3 f64) :=
  mkBSS (mkGrid 2 [v64 0 0 0; v64 0 2 0; v64 2 0 0; v64 2 2 0]) ([flit 0 1; flit 0 1; flit 1 1; flit 1 1], [flit 0 1; flit 0 1; flit 1 1; flit 1 1]) (1, 1)%nat.
Example C61_f64_run : bss_project_points (NF := F64Num) flat64 [v64 1 1 5; v64 1 9 0; v64 (-3) 1 4] =
  Ok [V2 (flit 1 2) (flit 1 2); V2 (flit 1 2) (flit 1 1); V2 (flit 0 1) (flit 1 2)].
Proof. vm_compute. reflexivity. Qed.
