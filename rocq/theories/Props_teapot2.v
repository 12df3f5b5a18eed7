(** Property C69, second part: meshes of neighbouring Bezier patches, and the files they are read from. *)
From Coq Require Import Reals Lra Psatz Lia Arith ZArith NArith List SpecFloat.
From Verif Require Import Prelude Num M_vec M_utils M_curve M_surface M_files M_teapot L_base L_vec L_float L_grid L_err L_surface L_bezier L_cdb Props_utils Props_bezier Props_gridmesh Props_robust Props_accuracy Props_grid Props_points Props_teapot.
Import ListNotations.
Open Scope R_scope.

Lemma abs_both x y : Rabs x <= y -> - y <= x <= y.
Proof. unfold Rabs. destruct (Rcase_abs x); lra. Qed.
(** ** The parameters of a division of [0,1] in doubles *)
Lemma unit_steps64 (n : nat) : (1 <= n)%nat -> (Z.of_nat n <= 2 ^ 20)%Z ->
  let st : f64 := fdiv (fsub f1 f0) (fofnat n) in
  forall i, (i < n)%nat -> num64 (steps f0 st i) /\ 0 <= val (steps f0 st i) <= INR i * (/ INR n + 4 * eps).
Proof.
  intros Hn Hb st. assert (Nn : 1 <= INR n) by (replace 1 with (INR 1) by reflexivity; apply le_INR; lia).
  assert (Bn : INR n <= 1048576) by (rewrite INR_IZR_INZ; apply IZR_le; exact Hb).
  destruct (int_grid (Z.of_nat n) (Z.of_nat n)) as [[Ng _] Vg]; [lia|]. rewrite <- INR_IZR_INZ in Vg.
  pose proof eta_pos as E0. pose proof eta_small as E1. pose proof big_pow2 as Big. pose proof big_pow2_max as BigM.
  assert (E2 : eta <= eps / 1000) by (unfold eps in *; lra).
  assert (S0 : num64 st /\ 0 <= val st <= / INR n + 2 * eps).
  { change st with (fdiv (f1 : f64) (f64_of_Z (Z.of_nat n))).
    assert (In : 0 < / INR n <= 1) by (split; [apply Rinv_0_lt_compat; lra|rewrite <- Rinv_1; apply Rinv_le_contravar; lra]).
    destruct (div64 f1 (f64_of_Z (Z.of_nat n)) f1_num Ng) as [Ns [Es Ps]].
    - lra.
    - rewrite f1_val, Vg. unfold Rdiv. rewrite Rmult_1_l, Rabs_pos_eq by lra. lra.
    - rewrite f1_val, Vg in Es, Ps. unfold Rdiv in Es, Ps. rewrite Rmult_1_l in Es, Ps. rewrite (Rabs_pos_eq (/ INR n)) in Es by lra.
      apply abs_both in Es. split; [exact Ns|]. assert (eps * / INR n <= eps) by (unfold eps; lra). split; [nra|lra]. }
  destruct S0 as [Ns Bs]. assert (Hi1 : INR n * (4 * eps) <= 1 / 1000) by (unfold eps; lra).
  assert (Hin : INR n * / INR n = 1) by (apply Rinv_r; lra).
  induction i as [|i IH]; intros Hi.
  - cbn [steps INR]. split; [apply f0_num|]. rewrite f0_val. lra.
  - destruct (IH ltac:(lia)) as [Na Ba]. cbn [steps]. rewrite S_INR.
    assert (Bi : INR i <= INR n) by (apply le_INR; lia). pose proof (pos_INR i) as Pi. assert (In : 0 < / INR n) by (apply Rinv_0_lt_compat; lra).
    assert (Bi1 : INR (S i) <= INR n) by (apply le_INR; lia). rewrite S_INR in Bi1.
    assert (T1 : (INR i + 1) * / INR n <= 1) by nra. assert (T2 : (INR i + 1) * (4 * eps) <= 1 / 1000) by (unfold eps in *; lra).
    assert (T3 : 0 < eps) by (unfold eps; lra).
    assert (Sm : 0 <= val (steps f0 st i) + val st <= 11 / 10) by lra.
    destruct (add64 _ _ Na Ns) as [Nx [Ex Px]]; [rewrite Rabs_pos_eq; lra|]. rewrite (Rabs_pos_eq (_ + _)) in Ex by lra. apply abs_both in Ex.
    split; [exact Nx|]. 
    assert (eps * (val (steps f0 st i) + val st) <= eps * (11 / 10)) by (apply Rmult_le_compat_l; [unfold eps; lra|lra]).
    split; [|].
    + destruct (Rle_lt_or_eq_dec 0 (val (steps f0 st i) + val st) (proj1 Sm)) as [Hp|Hz]; [nra|]. rewrite <- Hz in Ex. unfold eps in Ex.
      exact (proj2 (proj2 (rounded_nonneg _ _ (SFadd_rounded p64 e64 p64_pos p64_lt _ _ Na Ns) ltac:(rewrite Rabs_pos_eq; lra) (proj1 Sm)))).
    + lra.
Qed.
Lemma unit_params64 (n : nat) (us : list f64) : (Z.of_nat n <= 2 ^ 20)%Z -> uniform_divide (f0, f1) n = Ok us -> Forall (fun u => num64 u /\ 0 <= val u <= 1) us.
Proof.
  intros Hb E. destruct (uniform_length _ _ _ E) as [Hn _]. rewrite uniform_divide_list in E by exact Hn. apply Ok_inj in E. subst us.
  apply Forall_app. split; [|repeat constructor; try apply f1_num; rewrite f1_val; lra].
  apply Forall_forall. intros u Hu. apply in_map_iff in Hu. destruct Hu as (i & <- & Hi). apply in_seq in Hi.
  destruct (unit_steps64 n Hn Hb i ltac:(lia)) as [N B]. split; [exact N|]. split; [apply B|]. eapply Rle_trans; [apply B|].
  assert (Bn : INR n <= 1048576) by (rewrite INR_IZR_INZ; apply IZR_le; exact Hb). assert (Bi : INR (S i) <= INR n) by (apply le_INR; lia). rewrite S_INR in Bi.
  assert (Nn : 1 <= INR n) by (replace 1 with (INR 1) by reflexivity; apply le_INR; lia). pose proof (pos_INR i).
  assert (Hin : INR n * / INR n = 1) by (apply Rinv_r; lra). assert (In : 0 < / INR n) by (apply Rinv_0_lt_compat; lra).
  assert (J : / 1048576 <= / INR n) by (apply Rinv_le_contravar; lra).
  assert (INR i * (4 * eps) <= 1048576 * (4 * eps)) by (apply Rmult_le_compat_r; [unfold eps; lra|lra]). assert (1048576 * (4 * eps) <= / 1048576) by (unfold eps; lra). nra.
Qed.

(** ** Meshes of neighbouring patches *)
(** patch [p] is a Bezier patch over the whole square *)
Definition bezier_patch {F} {NF : Num F} (p : SurfacePatch F) (g : Grid (vec3 F)) (r c : nat) : Prop :=
  sp_surface p = bezier3_surface g /\ sp_range p = ((f0, f1), (f0, f1)) /\ wf_grid g r c /\ (1 <= r)%nat.
(** the position in the mesh of point number [k] of side [s]; a side is divided into [side_division] parts *)
Definition side_index (d : nat * nat) (s : side) (k : nat) : nat :=
  let '(i, j) := side_cell (fst d + 1) (snd d + 1) s k in (i * (snd d + 1) + j)%nat.
Definition side_division (d : nat * nat) (s : side) : nat := match s with U0 | U1 => snd d | V0 | V1 => fst d end.
Section Sides.
Context {F : Type} {NF : Num F}.
(** the vertices along a side are the points of the side curve at the parameters of the division *)
Lemma side_vertices (p : SurfacePatch F) (g : Grid (vec3 F)) (r c : nat) (s : side) (ps : list (vec3 F)) (m : TriangleMesh F) :
  bezier_patch p g r c -> patch_get_triangle_mesh p = Ok m ->
  (forall ts t, uniform_divide (f0, f1) (side_division (sp_division p) s) = Ok ts -> In t ts ->
     bezier_surface3_get_point g (fst (side_param s t)) (snd (side_param s t)) = bezier3_get_point ps t) ->
  exists ts vs, uniform_divide (f0, f1) (side_division (sp_division p) s) = Ok ts /\ mapM (bezier3_get_point ps) ts = Ok vs /\
    length vs = (side_division (sp_division p) s + 1)%nat /\
    forall k, (k <= side_division (sp_division p) s)%nat -> nth_error (m_vertices m) (side_index (sp_division p) s k) = nth_error vs k.
Proof.
  intros (Es & Er & Hw & Hr) Em Hb. pose proof (C48_samples p m f0 Em) as H. rewrite Er, Es in H. destruct (sp_division p) as [ud vd]. cbn [fst snd] in H.
  destruct H as (us & vs & Eu & Ev & Lu & Lv & Lm & H & _).
  destruct (uniform_length _ _ _ Eu) as [Hu _]. destruct (uniform_length _ _ _ Ev) as [Hv _].
  destruct (C21_uniform_divide_any_arithmetic (f0 : F) f1 ud f0 Hu) as (us' & Eu' & _ & U0' & U1' & _). rewrite Eu' in Eu. apply Ok_inj in Eu. subst us'.
  destruct (C21_uniform_divide_any_arithmetic (f0 : F) f1 vd f0 Hv) as (vs' & Ev' & _ & V0' & V1' & _). rewrite Ev' in Ev. apply Ok_inj in Ev. subst vs'.
  set (n := side_division (ud, vd) s). set (ts := match s with U0 | U1 => vs | V0 | V1 => us end).
  assert (Et : uniform_divide (f0, f1) n = Ok ts) by (unfold n, ts; destruct s; assumption).
  assert (Lt : length ts = (n + 1)%nat) by (unfold n, ts; destruct s; assumption).
  assert (G : forall k, (k <= n)%nat -> bezier3_get_point ps (nth k ts f0) = Ok (nth (side_index (ud, vd) s k) (m_vertices m) (V3 f0 f0 f0)) /\ (side_index (ud, vd) s k < length (m_vertices m))%nat).
  { intros k Hk. rewrite <- (Hb ts (nth k ts f0) Et) by (apply nth_In; lia). rewrite Lm.
    assert (Q : exists i j, side_index (ud, vd) s k = (i * (vd + 1) + j)%nat /\ (i <= ud)%nat /\ (j <= vd)%nat /\ fst (side_param s (nth k ts f0)) = nth i us f0 /\ snd (side_param s (nth k ts f0)) = nth j vs f0).
    { unfold side_index. destruct s; cbn [side_cell side_param fst snd] in *; unfold n, ts in *; cbn [side_division fst snd] in *.
      - exists 0%nat, k. rewrite U0'. auto with arith.
      - exists ud, k. rewrite U1'. rewrite Nat.add_sub. auto with arith.
      - exists k, 0%nat. rewrite V0'. auto with arith.
      - exists k, vd. rewrite V1'. rewrite Nat.add_sub. auto with arith. }
    destruct Q as (i & j & -> & Hi & Hj & -> & ->). split; [exact (H i j Hi Hj)|nia]. }
  destruct (mapM_total (bezier3_get_point ps) ts) as [ws Ew].
  { intros t Ht. destruct (In_nth ts t f0 Ht) as (k & Hk & <-). destruct (G k ltac:(lia)) as [-> _]. eauto. }
  exists ts, ws. pose proof (mapM_length _ _ _ Ew) as Lw. repeat split; auto; [lia|].
  intros k Hk. destruct (G k Hk) as [Gk Ik]. rewrite (nth_error_nth' (m_vertices m) (V3 f0 f0 f0) Ik). rewrite (nth_error_nth' ws (V3 f0 f0 f0)) by lia.
  pose proof (mapM_nth _ _ _ k f0 (V3 f0 f0 f0) Ew ltac:(lia)) as K. rewrite Gk in K. apply Ok_inj in K. now rewrite K.
Qed.
End Sides.
(** Two patches with the same control points along a common side, in the same direction, and the same
    division of it: the vertices of the two meshes along the side are the same, in doubles bit for bit. *)
Theorem C69_joint64 (p q : SurfacePatch f64) g h r c r' c' (s t : side) (ps : list (vec3 f64)) (mp mq : TriangleMesh f64) :
  bezier_patch p g r c -> bezier_patch q h r' c' -> side_points g r c s ps -> side_points h r' c' t ps ->
  moderate r -> moderate c -> moderate r' -> moderate c' -> Forall num3 (g_data g) -> Forall num3 (g_data h) ->
  side_division (sp_division p) s = side_division (sp_division q) t -> (Z.of_nat (side_division (sp_division p) s) <= 2 ^ 20)%Z ->
  patch_get_triangle_mesh p = Ok mp -> patch_get_triangle_mesh q = Ok mq ->
  forall k, (k <= side_division (sp_division p) s)%nat -> exists v, nth_error (m_vertices mp) (side_index (sp_division p) s k) = Some v /\ nth_error (m_vertices mq) (side_index (sp_division q) t k) = Some v.
Proof.
  intros Hp Hq Sp Sq Mr Mc Mr' Mc' Ng Nh Ed Bd Ep Eq k Hk.
  destruct (side_vertices p g r c s ps mp Hp Ep) as (ts & vs & Et & Ev & Lv & V).
  { intros ts x Ets Hx. destruct Hp as (_ & _ & Hw & Hr). pose proof (unit_params64 _ _ Bd Ets) as U. rewrite Forall_forall in U. destruct (U x Hx). now apply (C69_border64 g r c). }
  destruct (side_vertices q h r' c' t ps mq Hq Eq) as (ts' & vs' & Et' & Ev' & Lv' & V').
  { intros ts' x Ets Hx. destruct Hq as (_ & _ & Hw & Hr). rewrite <- Ed in Ets. pose proof (unit_params64 _ _ Bd Ets) as U. rewrite Forall_forall in U. destruct (U x Hx). now apply (C69_border64 h r' c'). }
  rewrite <- Ed, Et in Et'. apply Ok_inj in Et'. subst ts'. rewrite Ev in Ev'. apply Ok_inj in Ev'. subst vs'.
  rewrite (V k Hk), (V' k) by now rewrite <- Ed. destruct (nth_error vs k) as [v|] eqn:E; [now exists v|]. apply nth_error_None in E. lia.
Qed.
(** In exact arithmetic the direction does not matter. *)
Lemma sumf_rev f n : sumf (fun i => f (n - 1 - i)%nat) n = sumf f n.
Proof.
  induction n as [|n IH]; [reflexivity|]. rewrite sumf_S_first, sumf_S. cbn [Nat.sub]. rewrite Nat.sub_0_r, Nat.sub_0_r, Rplus_comm. f_equal. rewrite <- IH. apply sumf_ext. intros i Hi. f_equal. lia.
Qed.
Lemma bezier_reverse (ps : list (vec3 R)) (t : R) : bezier3_get_point (rev ps) (1 - t) = bezier3_get_point ps t.
Proof.
  destruct (Nat.eq_dec (length ps) 0) as [E|Hn]; [destruct ps; [reflexivity|discriminate]|].
  rewrite !C01_bezier_eval by (rewrite ?rev_length; lia). rewrite rev_length. set (n := length ps). f_equal.
  assert (G : forall co : vec3 R -> R, sumf (fun i => C (n - 1) i * (1 - t) ^ i * (1 - (1 - t)) ^ (n - 1 - i) * co (nth i (rev ps) vzero)) n = sumf (fun i => C (n - 1) i * t ^ i * (1 - t) ^ (n - 1 - i) * co (nth i ps vzero)) n).
  { intros co. rewrite <- (sumf_rev (fun i => C (n - 1) i * t ^ i * (1 - t) ^ (n - 1 - i) * co (nth i ps vzero))). apply sumf_ext. intros i Hi. cbv beta.
    rewrite rev_nth by exact Hi. fold n. rewrite <- pascal_step1 by lia. replace (n - 1 - (n - 1 - i))%nat with i by lia. replace (n - S i)%nat with (n - 1 - i)%nat by lia. replace (1 - (1 - t)) with t by ring. ring. }
  unfold comb3. rewrite rev_length. fold n. now rewrite (G x3), (G y3), (G z3).
Qed.
Theorem C69_joint (p q : SurfacePatch R) g h r c r' c' (s t : side) (ps qs : list (vec3 R)) (mp mq : TriangleMesh R) (reversed : bool) :
  bezier_patch p g r c -> bezier_patch q h r' c' -> side_points g r c s ps -> side_points h r' c' t qs -> qs = (if reversed then rev ps else ps) ->
  side_division (sp_division p) s = side_division (sp_division q) t ->
  patch_get_triangle_mesh p = Ok mp -> patch_get_triangle_mesh q = Ok mq ->
  forall k, (k <= side_division (sp_division p) s)%nat -> exists v, nth_error (m_vertices mp) (side_index (sp_division p) s k) = Some v /\
    nth_error (m_vertices mq) (side_index (sp_division q) t (if reversed then (side_division (sp_division p) s - k)%nat else k)) = Some v.
Proof.
  intros Hp Hq Sp Sq Eqs Ed Ep Eq k Hk. set (n := side_division (sp_division p) s) in *.
  destruct (side_vertices p g r c s ps mp Hp Ep) as (ts & vs & Et & Ev & Lv & V).
  { intros ts x _ _. destruct Hp as (_ & _ & Hw & Hr). now apply (C69_border g r c). }
  destruct (side_vertices q h r' c' t qs mq Hq Eq) as (ts' & vs' & Et' & Ev' & Lv' & V').
  { intros ts' x _ _. destruct Hq as (_ & _ & Hw & Hr). now apply (C69_border h r' c'). }
  fold n in Et, Lv, V. rewrite <- Ed in Et', Lv', V'. rewrite Et in Et'. apply Ok_inj in Et'. subst ts'.
  rewrite (V k Hk), V' by (destruct reversed; lia).
  destruct (uniform_length _ _ _ Et) as [Hn Lt]. rewrite C21_uniform_divide_exact in Et by exact Hn. apply Ok_inj in Et.
  assert (Ht : forall i, (i <= n)%nat -> nth i ts 0 = INR i / INR n).
  { intros i Hi. rewrite <- Et. rewrite (nth_map_default _ _ _ 0%nat) by (rewrite seq_length; lia). rewrite seq_nth by lia. cbn [Nat.add]. rnum. field. apply not_0_INR. lia. }
  pose proof (mapM_nth _ _ _ k 0 vzero Ev ltac:(lia)) as K. pose proof (mapM_nth _ _ _ (if reversed then (n - k)%nat else k) 0 vzero Ev' ltac:(destruct reversed; lia)) as K'.
  exists (nth k vs vzero). split; [apply nth_error_nth'; lia|]. rewrite (nth_error_nth' vs' vzero) by (destruct reversed; lia). f_equal.
  apply Ok_inj. rewrite <- K, <- K'. subst qs. destruct reversed; [|reflexivity].
  rewrite !Ht by lia. rewrite minus_INR by exact Hk. replace ((INR n - INR k) / INR n) with (1 - INR k / INR n) by (field; apply not_0_INR; lia). apply bezier_reverse.
Qed.
