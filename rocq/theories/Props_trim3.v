(** Property C45: planes, one simple loop. *)
From Coq Require Import Reals Lra Lia Arith NArith ZArith Permutation List Floats.SpecFloat.
From Verif Require Import Prelude Num M_vec M_utils M_curve M_polygon M_meshgen M_surface L_base L_vec L_geom L_cycle L_polygon L_round
  Props_utils Props_polygon Props_ears Props_merge Props_mesh Props_gridmesh Props_round Props_loops Props_knot Props_bspline
  L_simple L_sides L_twoears L_earexist L_clip Props_simple L_convex Props_trim.
Open Scope R_scope.
Lemma corner_general ps i : (3 <= length ps)%nat -> general_position ps -> (i < length ps)%nat -> TOL < Rabs (corner_at ps (seq 0 (length ps)) i).
Proof.
  intros H3 HG Hi. unfold corner_at. rewrite seq_length. set (n := length ps) in *. rewrite !seq_nth by (auto; apply Nat.mod_upper_bound; lia). cbn [Nat.add].
  assert (L1 : ((i + n - 1) mod n < n)%nat) by (apply Nat.mod_upper_bound; lia). assert (L2 : ((i + 1) mod n < n)%nat) by (apply Nat.mod_upper_bound; lia).
  rewrite (Nat.add_comm i n), prev_pos_mod, next_pos_mod in * by lia. apply HG; auto; unfold prev_pos, next_pos; destruct (Nat.eqb_spec i 0), (Nat.eqb_spec i (n - 1)); lia.
Qed.
Lemma corner_position ps x v y : (3 <= length ps)%nat -> corner ps x v y -> exists i, (i < length ps)%nat /\ T x v y = corner_at ps (seq 0 (length ps)) i.
Proof.
  intros H3 H. rewrite <- (poly_seq ps) in H. apply corner_unmap in H as (a & b & c & H & <- & <- & <-). destruct (seq_corner _ _ _ _ H3 H) as (Hb & -> & ->).
  exists b. split; [exact Hb|]. unfold corner_at. rewrite seq_length, !seq_nth by (auto; apply Nat.mod_upper_bound; lia). reflexivity.
Qed.
(** C45: a single loop without crossing edges, counter-clockwise and in general position, is tiled. *)
Theorem C45_simple (s : Plane R) fuel rnd bounds vs : proper_loops fuel rnd bounds [vs] -> let ps := map (plane_project s) vs in let n := length vs in
  (3 <= n)%nat -> (N.of_nat n < 2 ^ 32)%N -> simple_polygon ps -> general_position ps -> 0 < area2 ps ->
  exists m extra T, plane_trim s fuel rnd bounds = Ok m /\ m_vertices m = vs ++ extra /\ m_triangles m = emit T /\
    (extra = [] /\ length T = (n - 2)%nat \/ exists c, extra = [c] /\ mean_of vs c /\ length T = n) /\
    let V := map (plane_project s) (m_vertices m) in
    Forall (fun '(i, j, k) => (i < length V)%nat /\ (j < length V)%nat /\ (k < length V)%nat /\ 0 < tri_area2 (pt V i) (pt V j) (pt V k)) T /\
    total_area2 V T = area2 ps /\
    forall q, off_all_lines V T q -> INR (covering V T q) = winding ps q /\ (covering V T q <= 1)%nat.
Proof.
  intros HL ps n H3 HN HS HG HA. assert (Ln : length ps = n) by apply map_length. pose proof TOL_pos as TP.
  assert (G : good ps) by (apply simple_good; rewrite ?Ln; auto using simple_polygon_simple; apply gp_pos; [lia|exact HG]).
  assert (W1 : forall V T q, INR (covering V T q) = winding ps q -> (covering V T q <= 1)%nat).
  { intros V T q E. destruct (winding01 ps q G) as [W|W]; rewrite W in E; [change 0 with (INR 0) in E|change 1 with (INR 1) in E]; apply INR_eq in E; lia. }
  assert (BN : forall i, (i < n)%nat -> TOL < Rabs (corner_at ps (seq 0 n) i)) by (intros i Hi; rewrite <- Ln in *; apply corner_general; auto).
  set (conc0 := filter (right_turn ps (seq 0 n)) (seq 0 n)).
  destruct conc0 as [|x0 l0] eqn:Ec.
  - (* no inward corner: the polygon is convex *)
    assert (Pos : forall i, (i < n)%nat -> TOL < corner_at ps (seq 0 n) i).
    { intros i Hi. specialize (BN i Hi). revert BN. unfold Rabs. destruct (Rcase_abs _) as [K|K]; [|auto]. intros BN. exfalso. assert (I : In i conc0).
      { apply filter_In. split; [apply in_seq; lia|]. apply Rltb_true. lra. } rewrite Ec in I. destruct I. }
    assert (HC : convex_loop ps).
    { split; [|split].
      - intros i k Hi Hk. apply ordered_sees; auto. intros i0 j0 k0 Hij Hk0. left. apply left_turns_convex; auto. intros x v y Hc. apply corner_position in Hc as (t & Ht & ->); [|lia]. rewrite Ln in *. specialize (Pos t Ht). lra.
      - rewrite Ln. intros i Hi E. destruct G as [[ND _] _ _ _]. apply NoDup_nth in E; rewrite ?Ln; auto; unfold next_pos in *; destruct (Nat.eqb_spec i (n - 1)); lia.
      - exists 0%nat. rewrite Ln. split; [lia|]. apply Pos. lia. }
    destruct (C45_convex s fuel rnd bounds vs HL HC HN) as (m & c & T & E & EV & HM & ET & HT & F & A & _ & W).
    exists m, [c], T. split; [exact E|]. split; [exact EV|]. split; [exact ET|]. split; [right; now exists c|]. split; [exact F|]. split; [exact A|].
    intros q Hq. split; [now apply W|]. eapply W1. now apply W.
  - destruct (C40_simple ps) as (conc & T & EC & ET & HT & F & A & W); [lia|exact HS|exact HG|exact HA|]. rewrite Ln in *.
    exists (mkTM vs [] (emit T)), [], T. rewrite (plane_trim_single _ _ _ _ _ HL). unfold plane_trim_polygons. cbn [length Nat.eqb]. fold ps.
    pose proof EC as EC'. rewrite C38_vertex_convexity, Ln in EC'. apply Ok_inj in EC'. apply (f_equal snd) in EC'. cbn [snd] in EC'. fold conc0 in EC'. rewrite Ec in EC'. rewrite EC. cbn [obind].
    assert (C1 : (length (seq 0 n) =? length conc)%nat = false).
    { apply Nat.eqb_neq. intros E. rewrite seq_length in E. destruct (convex_corner ps G) as (x & v & y & Hc & Hp). apply corner_position in Hc as (i & Hi & Ei); [|lia]. rewrite Ln in *. rewrite Ei in Hp.
      assert (I : In i conc). { assert (P : incl (seq 0 n) conc); [|apply P, in_seq; lia]. rewrite <- EC', <- Ec in *. apply NoDup_length_incl; [apply NoDup_filter, seq_NoDup|rewrite seq_length; lia|intros z Hz; now apply filter_In in Hz]. }
      rewrite <- EC', <- Ec in I. apply filter_In in I as [_ I]. apply Rltb_true in I. lra. }
    rewrite C1. rewrite <- EC' at 1. cbn [length Nat.eqb]. rewrite ET. cbn [obind m_vertices m_triangles]. rewrite app_nil_r. fold ps.
    split; [reflexivity|]. split; [reflexivity|]. split; [reflexivity|]. split; [left; auto|]. cbv zeta. split; [|split; [now symmetry|]].
    + eapply Forall_impl; [|exact F]. intros [[a b] c] [Hct Hp]. rewrite Ln. assert (K : forall x, In x [a; b; c] -> (x < n)%nat).
      { intros x Ix. assert (I : In x (seq 0 n)); [|apply in_seq in I; lia]. destruct Hct as [S|[S|S]]; eapply sublist_In; [exact S| |exact S| |exact S|]; cbn [In] in *; tauto. }
      split; [apply K; cbn; auto|]. split; [apply K; cbn; auto|]. split; [apply K; cbn; auto|exact Hp].
    + intros q Hq. destruct (W q Hq) as [W2 W3]. split; [symmetry; exact W2|exact W3].
Qed.
Definition dart3 : list (vec3 R) := [V3 0 0 0; V3 4 0 0; V3 1 1 0; V3 0 4 0].
Lemma dart3_loops rnd : proper_loops 1 rnd [edgesR dart3] [dart3].
Proof.
  exists [dart3]. split; [|reflexivity]. split; [reflexivity|]. intros k b p. destruct k as [|[|k]]; cbn [nth_error]; try discriminate. intros E1 E2. injection E1 as <-. injection E2 as <-.
  apply C53_straight_loop; [discriminate| |].
  - cbn [edgesR dart3 app firstn pairs combine map x3 y3 z3]. repeat (constructor; [apply segR_straight|]). constructor.
  - cbn [edgesR dart3 app firstn pairs combine map x3 y3 z3]. repeat (constructor; [unfold apart, distance_squared3, length_squared3, dot3; cbn; lra|]). constructor.
Qed.
Lemma dart3_project : map (plane_project xy_plane) dart3 = dart.
Proof. unfold dart3, dart, xy_plane, plane_project, dot3. cbn [map p_origin p_u_axis p_v_axis]. vsimp. cbn [x3 y3 z3]. rnum. repeat (f_equal; try lra). Qed.
Example C45_simple_nonvacuous rnd : exists T, plane_trim xy_plane 1 rnd [edgesR dart3] = Ok (mkTM dart3 [] (emit T)) /\ length T = 2%nat.
Proof.
  pose proof (C45_nonconvex xy_plane 1 rnd _ _ (dart3_loops rnd)) as K. cbv zeta in K. rewrite dart3_project in K.
  assert (HA : area2 dart = 8) by (unfold area2, dart, cyc, chain, cross2; cbn; lra).
  destruct (C45_simple xy_plane 1 rnd _ _ (dart3_loops rnd)) as (m & extra & T & E & EV & ET & C & _); rewrite ?dart3_project; [cbn; lia|reflexivity|apply dart_simple|apply dart_general|lra|].
  assert (Cor : forall i, (i < 4)%nat -> corner_at dart (seq 0 4) i = nth i [16; 4; -8; 4] 0).
  { intros i Hi. unfold corner_at, pt, dart. destruct i as [|[|[|[|]]]]; [| | | |lia]; cbn; unfold tri_area2; cbn [x2 y2]; lra. }
  destruct K as (T' & rest & conc & E' & _).
  - exact dart_general.
  - cbn; lia.
  - exists 0%nat. cbn [dart3 length]. split; [lia|]. rewrite Cor by lia. cbn. lra.
  - exists 2%nat. cbn [dart3 length]. split; [lia|]. rewrite Cor by lia. cbn. lra.
  - rewrite E in E'. apply Ok_inj in E'. subst m. cbn [m_vertices m_triangles] in *. exists T. split; [rewrite E; now rewrite ET|].
    destruct C as [[_ C]|(c & -> & _)]; [exact C|]. apply (f_equal (@length _)) in EV. rewrite app_length in EV. cbn in EV. lia.
Qed.
