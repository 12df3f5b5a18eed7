(** Statements that pin down details no other theorem depended on; found by changing the
    model at random places and looking which changes no theorem noticed. *)
From Coq Require Import Reals Lra Lia List ZArith Bool Floats.SpecFloat.
From Verif Require Import Prelude Num M_vec M_utils M_curve M_surface M_files M_meshgen M_step L_base L_vec L_float Props_obj Props_step.
Import ListNotations.
Local Open Scope nat_scope.

(** ** C15: KnotVector::new accepts exactly the lists with two or more knots *)
Theorem C15_new {F} (ks : list F) : (2 <= length ks -> knot_new ks = Ok ks) /\ (length ks < 2 -> knot_new ks = Panic).
Proof.
  unfold knot_new. split; intros H.
  - rewrite (proj2 (Nat.ltb_lt _ _)) by lia. reflexivity.
  - rewrite (proj2 (Nat.ltb_ge _ _)) by lia. reflexivity.
Qed.
Example C15_new_nonvacuous : knot_new [0; 1]%nat = Ok [0; 1]%nat /\ knot_new [0]%nat = Panic.
Proof. split; reflexivity. Qed.

(** ** C58: near2, and indexing of a grid *)
Theorem C58_near2 (a b : R) : near2 a b = true <-> (Rabs (a - b) <= 1 / 10 ^ 14)%R.
Proof.
  unfold near2, abs_diff_eq, ftol. rnum. rewrite Rleb_true.
  assert (E : (1 / 10000000 * (1 / 10000000) = 1 / 10 ^ 14)%R) by lra. rewrite E. reflexivity.
Qed.
(** A grid of [r] rows and [c] columns: the entry at row [i] and column [j] is number
    [i*c+j] of the data; an index outside panics, also when [i*c+j] would be inside. *)
Theorem C58_grid_index {A} (g : Grid A) (r c i j : nat) (d : A) : g_cols g = c -> length (g_data g) = r * c -> 1 <= c ->
  grid_idx g i j = if (i <? r) && (j <? c) then Ok (nth (i * c + j) (g_data g) d) else Panic.
Proof.
  intros Hc Hd H1. unfold grid_idx, g_rows. rewrite Hc. destruct c as [|c]; [lia|]. rewrite Hd, Nat.div_mul by lia.
  destruct (Nat.ltb_spec i r) as [Hi|]; [|reflexivity]. destruct (Nat.ltb_spec j (S c)) as [Hj|]; [|reflexivity]. cbn [andb]. apply idx_nth. rewrite Hd. nia.
Qed.
Example C58_grid_index_nonvacuous : grid_idx (mkGrid 2 [10; 11; 20; 21; 30; 31]) 2 1 = Ok 31 /\ grid_idx (mkGrid 2 [10; 11; 20; 21; 30; 31]) 0 2 = Panic.
Proof. split; reflexivity. Qed.

(** ** C47: a normal counts as undefined in doubles when one of its coordinates is NaN *)
Theorem C47_undefined64 (n : vec3 f64) : isnan3 n = true <-> x3 n = S754_nan \/ y3 n = S754_nan \/ z3 n = S754_nan.
Proof.
  assert (E : forall x : f64, fisnan x = true <-> x = S754_nan).
  { intros [s|s| |s m e]; unfold fisnan; cbn [feqb F64Num]; split; intros H; try (destruct s; discriminate H); try discriminate H; try reflexivity; exfalso.
    revert H. unfold SFeqb, SFcompare. destruct s; rewrite Z.compare_refl, Pos.compare_cont_refl; intros H; discriminate H. }
  unfold isnan3. rewrite !orb_true_iff, !E. tauto.
Qed.

Lemma compare_swap x y : SFcompare y x = match SFcompare x y with Some c => Some (CompOpp c) | None => None end.
Proof.
  destruct x as [s|s| |s m e], y as [s'|s'| |s' m' e']; try destruct s; try destruct s'; try reflexivity; cbn [SFcompare].
  - rewrite (Z.compare_antisym e e'). destruct (Z.compare e e'); try reflexivity. cbn [CompOpp]. do 2 f_equal. exact (Pos.compare_antisym m m').
  - rewrite (Z.compare_antisym e e'). destruct (Z.compare e e'); try reflexivity. cbn [CompOpp]. f_equal. exact (Pos.compare_antisym m m').
Qed.

(** ** C42: the order in which nearby nodes are tried, in doubles: partial_cmp with unordered pairs as Less *)
Theorem C42_order64 (x y : f64) : plt_or_unordered x y = match SFcompare x y with Some Lt => true | None => true | _ => false end.
Proof.
  unfold plt_or_unordered. cbn [fltb fleb F64Num]. unfold SFltb, SFleb.
  destruct (SFcompare x y) as [[]|] eqn:E; try reflexivity.
  - assert (E2 : SFcompare y x = Some Lt) by (rewrite compare_swap, E; reflexivity). now rewrite E2.
  - assert (E2 : SFcompare y x = None) by (rewrite compare_swap, E; reflexivity). now rewrite E2.
Qed.
Example C42_order64_nonvacuous : plt_or_unordered (S754_nan : f64) (S754_zero false) = true /\ plt_or_unordered (S754_zero false : f64) (S754_zero true) = false.
Proof. split; reflexivity. Qed.

(** ** C50: the file of a single mesh *)
Theorem C50_single {F} (fmt : F -> list N) (parse : list N -> option F) (m : TriangleMesh F) :
  valid_mesh m -> Forall (faithful3 fmt parse) (m_vertices m) -> Forall (faithful3 fmt parse) (m_normals m) ->
  (1 + N.of_nat (length (m_vertices m)) < 2 ^ 32)%N -> (1 + N.of_nat (length (m_normals m)) < 2 ^ 32)%N ->
  exists ls fs T, mesh_save_as_obj m = Ok ls /\ read_obj parse (obj_chars fmt ls) = Some fs /\ mesh_faces m T fs.
Proof.
  intros Hm Hv Hn Nv Nn.
  destruct (C50_roundtrip fmt parse [m]) as (text & fss & E & Er & Hf).
  - constructor; [exact Hm|constructor].
  - constructor; [now split|constructor].
  - unfold total. cbn [flat_map]. now rewrite app_nil_r.
  - unfold total. cbn [flat_map]. now rewrite app_nil_r.
  - inversion Hf as [|? fs ? ? (T & HT) Hr]; subst. inversion Hr; subst. cbn [concat] in Er. rewrite app_nil_r in Er.
    unfold model_obj_file, model_save_as_obj in E. cbn [map foldM obind] in E. unfold mesh_save_as_obj.
    destruct (write_obj m 1 1) as [ls| |] eqn:Ew; cbn [obind] in E; try discriminate E.
    exists ls, fs, T. split; [reflexivity|]. split; [|exact HT].
    destruct (u32_add 1 (as_u32 (length (m_vertices m)))), (u32_add 1 (as_u32 (length (m_normals m)))); try discriminate E.
    cbn in E. apply Ok_inj in E. subst text. exact Er.
Qed.
Example C50_single_nonvacuous : (ls <- mesh_save_as_obj ex_m2 ;; Ok (read_obj decimal (obj_chars u32_chars ls))) =
  Ok (Some [[(V3 5 0 1, Some (V3 1 0 0)); (V3 5 1 0, Some (V3 1 0 0)); (V3 5 0 0, Some (V3 1 0 0))]])%N.
Proof. vm_compute. reflexivity. Qed.

(** ** C57: a multiplicity below zero is cast to usize and asks for nearly 2^64 knots *)
Theorem C57_negative_multiplicity {F} (x : F) (z : Z) : (- 2 ^ 63 <= z < 0)%Z -> extract_knot_vector [x] [z] = repeat x (Z.to_nat (2 ^ 64 + z)).
Proof.
  intros H. unfold extract_knot_vector, from_values_and_multiplicities, z_usize. cbn [map combine flat_map]. rewrite app_nil_r. do 2 f_equal.
  rewrite <- (Z.mod_add z 1) by lia. rewrite Z.mod_small by lia. lia.
Qed.

(** ** C42: the point set up over an edge lies on its normal bisector, at the length of the
    edge times the ratio, or at 1/100 times the ratio if the edge is shorter than 1/1000 *)
From Verif Require Import Props_mesh.
Local Open Scope R_scope.
Theorem C42_bisector (a b : vec2 R) (r : R) : a <> b ->
  let s := sqrt ((x2 b - x2 a) ^ 2 + (y2 b - y2 a) ^ 2) in
  exists k, point_on_normal_bisector a b r = V2 ((x2 a + x2 b) / 2 - k * (y2 b - y2 a)) ((y2 a + y2 b) / 2 + k * (x2 b - x2 a)) /\
    (1 / 1000 <= s -> k = r) /\ (s < 1 / 1000 -> k * s = r / 100).
Proof.
  intros Hn s. assert (HL : 0 < (x2 b - x2 a) ^ 2 + (y2 b - y2 a) ^ 2).
  { pose proof (pow2_ge_0 (x2 b - x2 a)) as K1. pose proof (pow2_ge_0 (y2 b - y2 a)) as K2.
    destruct (Req_dec ((x2 b - x2 a) ^ 2) 0) as [E1|E1]; [|lra]. destruct (Req_dec ((y2 b - y2 a) ^ 2) 0) as [E2|E2]; [|lra].
    exfalso. apply Hn. destruct a as [p q], b as [u v]. cbn [x2 y2] in *. f_equal; nra. }
  assert (Hs : 0 < s) by (now apply sqrt_lt_R0).
  unfold point_on_normal_bisector. cbv zeta. set (d := perp (vsub b a)).
  assert (Ed : d = V2 (- (y2 b - y2 a)) (x2 b - x2 a)) by (unfold d, perp; vsimp; rnum; reflexivity).
  assert (EL : length2 d = s) by (unfold length2, dot2, s; rewrite Ed; cbn [x2 y2]; rnum; f_equal; ring).
  rewrite EL. destruct (s <? min_grid_size)%num eqn:Q; unfold min_grid_size in Q; revert Q; rnum.
  - rewrite Rltb_true. intros Q. exists (r / 100 / s). split; [|split; [intros; lra|intros _; field; lra]].
    unfold normalize2. rewrite EL. vsimp. rewrite Ed. cbn [x2 y2]. unfold f2. rnum. f_equal; field; lra.
  - rewrite Rltb_false. intros Q. exists r. split; [|split; [reflexivity|intros; lra]]. rewrite Ed. vsimp. unfold f2. rnum. cbn [x2 y2]. f_equal; field.
Qed.
Example C42_bisector_nonvacuous : (V2 0 0 : vec2 R) <> V2 3 4 /\ sqrt ((3 - 0) ^ 2 + (4 - 0) ^ 2) = 5.
Proof. split; [intros H; injection H; lra|]. replace ((3 - 0) ^ 2 + (4 - 0) ^ 2) with (5 * 5) by ring. apply sqrt_square. lra. Qed.

(** ** C14: a curve whose knots are all within the tolerance of the first is returned, clamped, as one piece *)
Theorem C14_one_knot_value {F} {NF : Num F} (c c' : BSpline F (vec3 F)) (k : F) (ks : list F) :
  bs_knots c = k :: ks -> (forall a, In a ks -> near a k = true) -> bspline_clamp c = Ok c' ->
  to_piecewise_bezier c = Ok [bs_cps c'].
Proof.
  intros E H Ec. unfold to_piecewise_bezier. rewrite Ec, E. cbn [obind dedup_by].
  assert (D : dedup_by_from (fun a b => near a b) k ks = []).
  { clear E. induction ks as [|a ks IH]; [reflexivity|]. cbn [dedup_by_from]. rewrite (H a (or_introl eq_refl)). apply IH. intros b Hb. apply H. now right. }
  rewrite D. reflexivity.
Qed.
Example C14_one_knot_nonvacuous :
  let c := mkBSpline [V3 (f64_of_Z 1) (f64_of_Z 2) (f64_of_Z 3)] [f64_of_Z 1; f64_of_Z 1; f64_of_Z 1] 1 in
  bspline_clamp c = Ok c /\ to_piecewise_bezier c = Ok [bs_cps c].
Proof. split; vm_compute; reflexivity. Qed.

(** ** C18: without control points a surface is accepted for knot vectors of degree + 1 knots *)
Theorem C18_surface_without_points {F} {NF : Num F} (ku kv : list F) (cols du dv : nat) (g : Grid (vec3 F)) :
  grid_from_vec [] cols = Ok g ->
  ((exists s, bss_new g (ku, kv) (du, dv) = Ok s) <-> length ku = (du + 1)%nat /\ length kv = (dv + 1)%nat).
Proof.
  intros E. apply Ok_inj in E. subst g. unfold bss_new, g_rows, assert. cbn [g_cols fst snd Nat.add].
  destruct (Nat.eqb_spec (du + 1) (length ku)); destruct (Nat.eqb_spec (dv + 1) (length kv)); cbn [obind]; split; try (intros [s Hs]; discriminate); try (intros [? ?]; exfalso; congruence); intros; eauto.
Qed.
