(** Property C60: on a coordinate grid the polygon functions compute exactly in double arithmetic. *)
From Coq Require Import ZArith Reals Lra Lia List Bool Arith Floats.SpecFloat.
From Verif Require Import Prelude Num M_vec M_utils M_polygon M_meshgen L_base L_vec L_geom L_cycle L_polygon L_float L_grid Props_polygon Props_ears L_simple L_sides L_twoears L_earexist L_clip Props_simple Props_segments.
Open Scope nat_scope.

(** ** Two arithmetics with the same answers *)
(** Ear clipping looks at the coordinates only through two tests: if the tests agree on the
    given points, so do the results. *)
Section Transfer.
Context {F G : Type} {NF : Num F} {NG : Num G} (f : vec2 F -> vec2 G) (points : list (vec2 F)).
Hypothesis conv : forall a b c, In a points -> In b points -> In c points -> compute_convexity (f a) (f b) (f c) = compute_convexity a b c.
Hypothesis insd : forall a b c p, In a points -> In b points -> In c points -> In p points -> is_inside_triangle (f a) (f b) (f c) (f p) = is_inside_triangle a b c p.
Lemma idx_map {A B} (g : A -> B) l i : idx (map g l) i = (x <- idx l i ;; Ok (g x)).
Proof. unfold idx. rewrite nth_error_map. now destruct (nth_error l i). Qed.
Ltac point i := rewrite (idx_map f points i); destruct (idx points i) as [?p| |] eqn:?; cbn [obind]; try reflexivity.
Ltac ins := repeat match goal with E : idx points _ = Ok _ |- _ => apply idx_In in E end.
Lemma convexity_transfer : compute_vertex_convexity (map f points) = compute_vertex_convexity points.
Proof.
  unfold compute_vertex_convexity. rewrite map_length. apply foldM_ext. intros i [v c] _. destruct (usub (length points + i) 1) as [pp| |]; try reflexivity. cbn [obind].
  point (pp mod length points). point i. point ((i + 1) mod length points). ins. rewrite conv by assumption. reflexivity.
Qed.
Lemma find_concave_transfer vs : find_concave_vertices (map f points) vs = find_concave_vertices points vs.
Proof.
  unfold find_concave_vertices. f_equal. apply foldM_ext. intros i [v c] _. destruct (usub (length vs + i) 1) as [pp| |]; try reflexivity. cbn [obind].
  destruct (idx vs (pp mod length vs)) as [vp| |]; try reflexivity. cbn [obind]. destruct (idx vs i) as [vc| |]; try reflexivity. cbn [obind]. destruct (idx vs ((i + 1) mod length vs)) as [vn| |]; try reflexivity. cbn [obind].
  point vp. point vc. point vn. ins. rewrite conv by assumption. reflexivity.
Qed.
Lemma is_ear_transfer conc prev curr next : is_ear (map f points) conc prev curr next = is_ear points conc prev curr next.
Proof.
  induction conc as [|o conc IH]; [reflexivity|]. cbn [is_ear]. rewrite IH. destruct (negb (o =? prev) && negb (o =? next)); [|reflexivity].
  point prev. point curr. point next. point o. ins. rewrite insd by assumption. reflexivity.
Qed.
Lemma update_prev_transfer vs conc m i prev next : ear_update_prev (map f points) vs conc m i prev next = ear_update_prev points vs conc m i prev next.
Proof.
  unfold ear_update_prev. destruct (binary_search conc prev); [|reflexivity]. destruct (usub (m + i) 2) as [k| |]; try reflexivity. cbn [obind]. destruct (idx vs (k mod m)) as [pp| |]; try reflexivity. cbn [obind].
  point pp. point prev. point next. ins. rewrite conv by assumption. reflexivity.
Qed.
Lemma update_next_transfer vs conc m i prev next : ear_update_next (map f points) vs conc m i prev next = ear_update_next points vs conc m i prev next.
Proof.
  unfold ear_update_next. destruct (binary_search conc next); [|reflexivity]. destruct (idx vs ((i + 2) mod m)) as [pp| |]; try reflexivity. cbn [obind].
  point prev. point next. point pp. ins. rewrite conv by assumption. reflexivity.
Qed.
Lemma ear_step_transfer st m i : ear_step (map f points) st m i = ear_step points st m i.
Proof.
  unfold ear_step. destruct (idx (e_verts st) i) as [curr| |]; try reflexivity. cbn [obind]. destruct (binary_search (e_conc st) curr); [reflexivity|].
  destruct (usub (m + i) 1) as [pp| |]; try reflexivity. cbn [obind]. destruct (idx (e_verts st) (pp mod m)) as [prev| |]; try reflexivity. cbn [obind]. destruct (idx (e_verts st) ((i + 1) mod m)) as [next| |]; try reflexivity. cbn [obind].
  rewrite is_ear_transfer. destruct (is_ear points (e_conc st) prev curr next) as [[|]| |]; try reflexivity. cbn [obind].
  rewrite update_prev_transfer. destruct (ear_update_prev points (e_verts st) (e_conc st) m i prev next) as [[c1 d1]| |]; try reflexivity. cbn [obind]. rewrite update_next_transfer. reflexivity.
Qed.
Lemma ear_pass_transfer fuel : forall st m i, ear_pass fuel (map f points) st m i = ear_pass fuel points st m i.
Proof.
  induction fuel as [|fuel IH]; intros st m i; cbn [ear_pass]; [reflexivity|]. destruct (i <? m); [|reflexivity]. rewrite ear_step_transfer. destruct (ear_step points st m i) as [[st' m']| |]; try reflexivity. cbn [obind]. apply IH.
Qed.
Lemma ear_loop_transfer fuel : forall st pm, ear_loop fuel (map f points) st pm = ear_loop fuel points st pm.
Proof.
  induction fuel as [|fuel IH]; intros st pm; [reflexivity|]. cbn [ear_loop]. destruct (match pm with None => false | Some pm => pm <=? length (e_verts st) end); [reflexivity|].
  destruct (length (e_verts st) <? 3); [reflexivity|]. destruct (length (e_verts st) =? 3); [reflexivity|]. rewrite ear_pass_transfer. destruct (ear_pass _ points st _ 0) as [st'| |]; try reflexivity. cbn [obind]. apply IH.
Qed.
Lemma trianglate_transfer vs conc : trianglate_polygon (map f points) vs conc = trianglate_polygon points vs conc.
Proof. unfold trianglate_polygon. now rewrite ear_loop_transfer. Qed.
End Transfer.

(** ** C60 *)
Open Scope R_scope.
(** All coordinates are integer multiples of [2^s], of at most [K] units, with [8 K^2 < 2^53]
    (so [K] up to more than 33 million) and [-11 <= s <= 485]. *)
Definition on_grid (s K : Z) (ps : list (vec2 f64)) : Prop := (-11 <= s <= 485)%Z /\ (8 * (K * K) < 2 ^ 53)%Z /\ Forall (grid2 s K) ps.
(** C60: the corner test and the ear clipper return in double arithmetic what they return in exact arithmetic (panics included). *)
Theorem C60_same_triangles s K ps : on_grid s K ps ->
  compute_vertex_convexity ps = compute_vertex_convexity (map val2 ps) /\
  (forall vs, find_concave_vertices ps vs = find_concave_vertices (map val2 ps) vs) /\
  (forall vs conc, trianglate_polygon ps vs conc = trianglate_polygon (map val2 ps) vs conc).
Proof.
  intros (Hs & HK & HF). rewrite Forall_forall in HF.
  assert (C : forall a b c, In a ps -> In b ps -> In c ps -> compute_convexity (val2 a) (val2 b) (val2 c) = compute_convexity a b c) by (intros; apply (convexity_grid s K); auto).
  assert (I : forall a b c p, In a ps -> In b ps -> In c ps -> In p ps -> is_inside_triangle (val2 a) (val2 b) (val2 c) (val2 p) = is_inside_triangle a b c p) by (intros; apply (inside_grid s K); auto).
  split; [symmetry; now apply convexity_transfer|]. split; intros; symmetry; [now apply find_concave_transfer|now apply trianglate_transfer].
Qed.
(** C60: hence every simple counter-clockwise polygon on the grid, no three corners on a line, is tiled by the program as it runs. *)
Theorem C60_simple s K (ps : list (vec2 f64)) : on_grid s K ps -> let n := length ps in let rs := map val2 ps in (3 <= n)%nat -> simple_polygon rs ->
  (forall i j k, (i < n)%nat -> (j < n)%nat -> (k < n)%nat -> i <> j -> j <> k -> i <> k -> tri_area2 (pt rs i) (pt rs j) (pt rs k) <> 0) -> 0 < area2 rs ->
  exists conc T, compute_vertex_convexity ps = Ok (seq 0 n, conc) /\ trianglate_polygon ps (seq 0 n) conc = Ok (emit T) /\ length T = (n - 2)%nat /\
    Forall (fun '(a, b, c) => cyc_triple (seq 0 n) a b c /\ 0 < tri_area2 (pt rs a) (pt rs b) (pt rs c)) T /\
    area2 rs = total_area2 rs T /\
    forall q, off_all_lines rs T q -> winding rs q = INR (covers rs T q) /\ (covers rs T q <= 1)%nat.
Proof.
  intros HG. cbv zeta. intros H3 HS HN HA. set (rs := map val2 ps) in *.
  assert (EL : length rs = length ps) by apply map_length.
  assert (GP : general_position rs).
  { intros i j k Hi Hj Hk N1 N2 N3. rewrite EL in Hi, Hj, Hk. specialize (HN i j k Hi Hj Hk N1 N2 N3). destruct HG as (Hs & HK & HF). rewrite Forall_forall in HF.
    assert (P : forall i, (i < length ps)%nat -> exists p, grid2 s K p /\ pt rs i = val2 p).
    { intros i0 H0. exists (nth i0 ps (V2 f0 f0)). split; [apply HF, nth_In, H0|]. unfold pt, rs. rewrite (nth_indep _ _ (val2 (V2 f0 f0))) by (rewrite map_length; exact H0). apply map_nth. }
    destruct (P i Hi) as (a & Ga & Ea). destruct (P j Hj) as (b & Gb & Eb). destruct (P k Hk) as (c & Gc & Ec). rewrite Ea, Eb, Ec in *.
    destruct (cross_grid s K Hs HK b a c a Gb Ga Gc Ga) as [GR V].
    destruct (grid_near (s + s) _ _ GR ltac:(lia) ltac:(lia)) as [EN EZ]. 
    assert (ET : tri_area2 (val2 a) (val2 b) (val2 c) = val (perp_dot (vsub b a) (vsub c a))) by (rewrite V; unfold tri_area2, perp_dot; vsimp; rnum; ring).
    rewrite ET in *. destruct (Rle_lt_dec (Rabs (val (perp_dot (vsub b a) (vsub c a)))) TOL) as [L|L]; [exfalso|exact L].
    apply HN, EZ. rewrite EN. unfold near, abs_diff_eq, ftol. rnum. rewrite Rminus_0_r. apply Rleb_true. exact L. }
  destruct (C40_simple rs) as (conc & T & H); [lia|exact HS|exact GP|exact HA|]. rewrite EL in H. destruct (C60_same_triangles s K ps HG) as (E1 & _ & E2). exists conc, T. rewrite E1, E2. exact H.
Qed.

(** ** The orientation test *)
Lemma term_grid s K p q : (-11 <= s <= 485)%Z -> (8 * (K * K) < 2 ^ 53)%Z -> grid2 s K p -> grid2 s K q ->
  grid (s + s) (4 * (K * K)) (fmul (fsub (x2 q) (x2 p)) (fadd (y2 p) (y2 q))) /\ val (fmul (fsub (x2 q) (x2 p)) (fadd (y2 p) (y2 q))) = (val (x2 q) - val (x2 p)) * (val (y2 p) + val (y2 q)).
Proof.
  intros Hs HK Hp Hq. pose proof (K_small s K HK p Hp) as B. destruct Hp as [Px Py], Hq as [Qx Qy].
  destruct (grid_sub s K K _ _ Qx Px ltac:(lia) (spaced_s s Hs)) as [A1 A2]. destruct (grid_add s K K _ _ Py Qy ltac:(lia) (spaced_s s Hs)) as [B1 B2].
  destruct (grid_mul s s _ _ _ _ A1 B1 ltac:(nia) (spaced_2s s Hs)) as [C1 C2]. split; [eapply grid_mono; [exact C1|lia]|]. now rewrite C2, A2, B2.
Qed.
(** C60: so does the orientation test, for up to [2^53 / 4 K^2] corners. *)
Theorem C60_same_orientation s K ps : on_grid s K ps -> (Z.of_nat (length ps) * (4 * (K * K)) < 2 ^ 53)%Z ->
  is_polygon_counter_clockwise ps = is_polygon_counter_clockwise (map val2 ps).
Proof.
  intros (Hs & HK & HF) HL. unfold is_polygon_counter_clockwise. rewrite map_length. set (n := length ps) in *.
  destruct (usub n 1) as [n1| |] eqn:En; try reflexivity. cbn [obind]. unfold usub in En. destruct (Nat.leb_spec 1 n) as [H1|]; [|discriminate]. injection En as <-.
  assert (P : forall i, (i < n)%nat -> idx ps i = Ok (nth i ps (V2 f0 f0)) /\ idx (map val2 ps) i = Ok (val2 (nth i ps (V2 f0 f0))) /\ grid2 s K (nth i ps (V2 f0 f0))).
  { intros i Hi. rewrite idx_map, (idx_nth ps i (V2 f0 f0)) by exact Hi. repeat split; try reflexivity; rewrite Forall_forall in HF; apply HF, nth_In, Hi. }
  set (W := (4 * (K * K))%Z) in *.
  assert (HW : (0 <= W)%Z) by (unfold W; nia).
  assert (S : forall m, (m <= n - 1)%nat -> exists v, foldM (fun sum i => p1 <- idx ps (i + 1) ;; p <- idx ps i ;; Ok (fadd sum (fmul (fsub (x2 p1) (x2 p)) (fadd (y2 p) (y2 p1))))) f0 (Prelude.range 0 m) = Ok v /\
     foldM (fun sum i => p1 <- idx (map val2 ps) (i + 1) ;; p <- idx (map val2 ps) i ;; Ok (fadd sum (fmul (fsub (x2 p1) (x2 p)) (fadd (y2 p) (y2 p1))))) f0 (Prelude.range 0 m) = Ok (val v) /\ grid (s + s) (Z.of_nat m * W) v).
  { induction m as [|m IH]; intros Hm; [exists f0; repeat split; try reflexivity; now apply (grid_zero (s + s) 0)|].
    destruct (IH ltac:(lia)) as (v & E1 & E2 & Gv). unfold Prelude.range in *. rewrite Nat.sub_0_r in *. rewrite seq_S, !foldM_app, E1, E2. cbn [obind foldM plus].
    destruct (P m ltac:(lia)) as (I1 & I2 & G1). destruct (P (m + 1)%nat ltac:(lia)) as (J1 & J2 & G2). rewrite I1, I2, J1, J2. cbn [obind].
    destruct (term_grid s K _ _ Hs HK G1 G2) as [T1 T2]. destruct (grid_add (s + s) _ _ _ _ Gv T1 ltac:(nia) (spaced_2s s Hs)) as [A1 A2].
    eexists. split; [reflexivity|]. split; [rewrite A2, T2; reflexivity|]. eapply grid_mono; [exact A1|]. unfold W. lia. }
  destruct (S (n - 1)%nat ltac:(lia)) as (v & -> & -> & Gv). cbn [obind]. destruct (P 0%nat ltac:(lia)) as (-> & -> & G0). destruct (P (n - 1)%nat ltac:(lia)) as (-> & -> & G1). cbn [obind].
  destruct (term_grid s K _ _ Hs HK G1 G0) as [T1 T2]. destruct (grid_add (s + s) _ _ _ _ Gv T1 ltac:(nia) (spaced_2s s Hs)) as [A1 A2].
  rewrite ltb_val; [|apply A1|apply (grid_zero 0 0); lia]. rewrite A2, T2. reflexivity.
Qed.

(** ** Segments *)
Lemma fisnan_num x : num64 x -> fisnan x = false.
Proof. intros H. unfold fisnan. rewrite eqb_val by assumption. now rewrite Reqb_refl. Qed.
Lemma fmin_val x y : num64 x -> num64 y -> num64 (fmin x y) /\ val (fmin x y) = fmin (val x) (val y).
Proof. intros Hx Hy. unfold fmin. rewrite !fisnan_num, !fisnan_R, leb_val by assumption. rnum. destruct (Rleb (val x) (val y)); auto. Qed.
Lemma fmax_val x y : num64 x -> num64 y -> num64 (fmax x y) /\ val (fmax x y) = fmax (val x) (val y).
Proof. intros Hx Hy. unfold fmax. rewrite !fisnan_num, !fisnan_R, leb_val by assumption. rnum. destruct (Rleb (val y) (val x)); auto. Qed.
(** C60: the segment test is exact for coordinates of up to 3000 units (8 K^2 squared below 2^53). *)
Theorem C60_segments s K a b c d : (-11 <= s <= 240)%Z -> (64 * (K * K * (K * K)) < 2 ^ 53)%Z -> grid2 s K a -> grid2 s K b -> grid2 s K c -> grid2 s K d ->
  is_segments_intersect a b c d = true <-> segments_meet (val2 a) (val2 b) (val2 c) (val2 d).
Proof.
  intros Hs HK Ha Hb Hc Hd. rewrite <- C43_segments_intersect. assert (K0 : (0 <= K)%Z) by (destruct Ha as [(_ & k & ? & _) _]; lia).
  assert (HK' : (8 * (K * K) < 2 ^ 53)%Z) by nia. assert (Hs' : (-11 <= s <= 485)%Z) by lia.
  assert (E : is_segments_intersect a b c d = is_segments_intersect (val2 a) (val2 b) (val2 c) (val2 d)); [|now rewrite E].
  unfold is_segments_intersect. cbv zeta.
  assert (B : forall x y z w, num64 x -> num64 y -> num64 z -> num64 w -> fltb (fmax z w) (fmin x y) = fltb (fmax (val z) (val w)) (fmin (val x) (val y))).
  { intros x y z w Hx Hy Hz Hw. destruct (fmin_val x y Hx Hy) as [N1 V1]. destruct (fmax_val z w Hz Hw) as [N2 V2]. rewrite ltb_val by assumption. now rewrite V1, V2. }
  assert (M : forall p q r t p' q' r' t', grid2 s K p -> grid2 s K q -> grid2 s K r -> grid2 s K t -> grid2 s K p' -> grid2 s K q' -> grid2 s K r' -> grid2 s K t' ->
     fltb (fmul (perp_dot (vsub p q) (vsub r t)) (perp_dot (vsub p' q') (vsub r' t'))) f0 =
     fltb (fmul (perp_dot (vsub (val2 p) (val2 q)) (vsub (val2 r) (val2 t))) (perp_dot (vsub (val2 p') (val2 q')) (vsub (val2 r') (val2 t')))) f0).
  { intros p q r t p' q' r' t' Gp Gq Gr Gt Gp' Gq' Gr' Gt'. destruct (cross_grid s K Hs' HK' p q r t Gp Gq Gr Gt) as [A1 A2]. destruct (cross_grid s K Hs' HK' p' q' r' t' Gp' Gq' Gr' Gt') as [B1 B2].
    assert (HM : spaced (s + s + (s + s))%Z) by (unfold spaced; clear - Hs; lia). destruct (grid_mul (s + s)%Z (s + s)%Z _ _ _ _ A1 B1 ltac:(nia) HM) as [C1 C2]. rewrite ltb_val; [|apply C1|apply (grid_zero 0 0); lia]. rewrite C2, A2, B2. reflexivity. }
  destruct Ha as [Ax Ay], Hb as [Bx By], Hc as [Cx Cy], Hd as [Dx Dy].
  rewrite !B by (apply Ax || apply Ay || apply Bx || apply By || apply Cx || apply Cy || apply Dx || apply Dy).
  rewrite !M by (split; assumption). reflexivity.
Qed.

(** ** Integers *)
Lemma int_grid z K : (Z.abs z <= K < 2 ^ 53)%Z -> grid 0 K (f64_of_Z z) /\ val (f64_of_Z z) = IZR z.
Proof.
  intros H. unfold f64_of_Z. destruct (exact64 (binary_normalize p64 e64 z 0 false) (IZR z * pow2 0) z 0) as [N V]; [apply normalize_rounded; reflexivity|lia|unfold spaced; lia|reflexivity|].
  rewrite pow2_0, Rmult_1_r in V. split; [|exact V]. split; [exact N|]. exists z. split; [lia|]. rewrite V, pow2_0. ring.
Qed.
(** C60: a simple counter-clockwise polygon with integer corners below 2^25, no three on a line, is tiled in double arithmetic. *)
Theorem C60_integers (zs : list (Z * Z)) : let ps := map (fun '(x, y) => q64 x y) zs in let rs := map (fun '(x, y) => V2 (IZR x) (IZR y)) zs in let n := length zs in
  Forall (fun '(x, y) => Z.abs x < 2 ^ 25 /\ Z.abs y < 2 ^ 25)%Z zs -> (3 <= n)%nat -> simple_polygon rs ->
  (forall i j k, (i < n)%nat -> (j < n)%nat -> (k < n)%nat -> i <> j -> j <> k -> i <> k -> tri_area2 (pt rs i) (pt rs j) (pt rs k) <> 0) -> 0 < area2 rs ->
  exists conc T, compute_vertex_convexity ps = Ok (seq 0 n, conc) /\ trianglate_polygon ps (seq 0 n) conc = Ok (emit T) /\ length T = (n - 2)%nat /\
    Forall (fun '(a, b, c) => cyc_triple (seq 0 n) a b c /\ 0 < tri_area2 (pt rs a) (pt rs b) (pt rs c)) T /\
    area2 rs = total_area2 rs T /\
    forall q, off_all_lines rs T q -> winding rs q = INR (covers rs T q) /\ (covers rs T q <= 1)%nat.
Proof.
  cbv zeta. intros HZ. set (ps := map (fun '(x, y) => q64 x y) zs).
  assert (ER : map (fun '(x, y) => V2 (IZR x) (IZR y)) zs = map val2 ps).
  { unfold ps. rewrite map_map. apply map_ext_in. intros [x y] I. rewrite Forall_forall in HZ. specialize (HZ _ I) as [Hx Hy]. unfold val2, q64. cbn [x2 y2].
    rewrite !(fun z H => proj2 (int_grid z (2 ^ 25) H)) by lia. reflexivity. }
  assert (HG : on_grid 0 (2 ^ 25 - 1) ps).
  { split; [lia|]. split; [reflexivity|]. apply Forall_forall. intros p I. unfold ps in I. apply in_map_iff in I as ([x y] & <- & I). rewrite Forall_forall in HZ. specialize (HZ _ I) as [Hx Hy].
    split; cbn [x2 y2 q64]; apply int_grid; lia. }
  rewrite ER. assert (EL : length ps = length zs) by apply map_length. rewrite <- EL. apply (C60_simple 0 (2 ^ 25 - 1) ps HG).
Qed.
Example C60_integers_nonvacuous : exists conc T, let ps := [q64 0 0; q64 4 0; q64 1 1; q64 0 4] in
  compute_vertex_convexity ps = Ok ([0; 1; 2; 3]%nat, conc) /\ trianglate_polygon ps [0; 1; 2; 3]%nat conc = Ok (emit T) /\ length T = 2%nat.
Proof.
  destruct (C60_integers [(0, 0); (4, 0); (1, 1); (0, 4)]%Z) as (conc & T & E1 & E2 & E3 & _).
  - repeat constructor; cbn; lia.
  - cbn; lia.
  - exact dart_simple.
  - cbn [length map]. intros i j k Hi Hj Hk N1 N2 N3 E. pose proof (dart_general i j k Hi Hj Hk N1 N2 N3) as G. unfold dart in G. rewrite E, Rabs_R0 in G. unfold TOL in G. lra.
  - unfold area2, cyc, chain, cross2; cbn; lra.
  - exists conc, T. split; [exact E1|]. split; [exact E2|exact E3].
Qed.
Example C60_orientation_nonvacuous : is_polygon_counter_clockwise [q64 0 0; q64 4 0; q64 1 1; q64 0 4] = is_polygon_counter_clockwise (map val2 [q64 0 0; q64 4 0; q64 1 1; q64 0 4]).
Proof.
  apply (C60_same_orientation 0 4); [|reflexivity]. split; [lia|]. split; [reflexivity|]. repeat constructor; cbn [x2 y2 q64]; apply int_grid; cbn; lia.
Qed.
Example C60_segments_nonvacuous : is_segments_intersect (q64 0 0) (q64 2 2) (q64 0 2) (q64 2 0) = true /\ segments_meet (V2 0 0) (V2 2 2) (V2 0 2) (V2 2 0).
Proof.
  assert (E : is_segments_intersect (q64 0 0) (q64 2 2) (q64 0 2) (q64 2 0) = true) by (vm_compute; reflexivity). split; [exact E|].
  apply (C60_segments 0 2) in E; try lia; try reflexivity; try (split; cbn [x2 y2 q64]; apply int_grid; cbn; lia). unfold val2, q64 in E. cbn [x2 y2] in E.
  rewrite !(fun z H => proj2 (int_grid z 2 H)) in E by (cbn; lia). exact E.
Qed.
