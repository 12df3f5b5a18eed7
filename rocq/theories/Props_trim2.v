(** Property C46: trimming of cylinders and B-spline surfaces. *)
From Coq Require Import Reals Lra Psatz Lia Arith NArith ZArith Permutation List Floats.SpecFloat.
From Verif Require Import Prelude Num M_vec M_utils M_curve M_polygon M_meshgen M_surface L_base L_vec L_geom L_cycle L_polygon L_round
  Props_utils Props_polygon Props_ears Props_merge Props_mesh Props_gridmesh Props_round Props_loops Props_bspline Props_trim.
Open Scope nat_scope.

Definition flip (t : nat * nat * nat) : nat * nat * nat := let '(a, b, c) := t in (c, b, a).
Lemma chain_rev {A} (w : A -> A -> R) : antisym w -> forall l, chain w (rev l) = (- chain w l)%R.
Proof.
  intros Hw. induction l as [|a l IH]; [cbn; lra|]. destruct l as [|b l]; [cbn; lra|]. cbn [rev] in *. rewrite chain_snoc, IH, chain_cons2, (Hw a b). lra.
Qed.
Lemma cyc_rev {A} (w : A -> A -> R) : antisym w -> forall l, cyc w (rev l) = (- cyc w l)%R.
Proof.
  intros Hw l. destruct l as [|a l]; [cbn; lra|]. cbn [rev]. rewrite cyc_rot. unfold cyc. cbn [app]. rewrite <- (chain_rev w Hw). f_equal.
  change (a :: l ++ [a]) with ([a] ++ l ++ [a]). rewrite !rev_app_distr. cbn [rev app]. reflexivity.
Qed.
Lemma emit_flat3 T : emit T = Props_gridmesh.flat3 (map (fun '(a, b, c) => (as_u32 a, as_u32 b, as_u32 c)) T).
Proof. unfold emit, Props_gridmesh.flat3. induction T as [|[[a b] c] T IH]; [reflexivity|]. cbn [flat_map map app rev3 flip]. now rewrite IH. Qed.
Lemma emit_flip T : Props_gridmesh.flat3 (map rev3 (map (fun '(a, b, c) => (as_u32 a, as_u32 b, as_u32 c)) T)) = emit (map flip T).
Proof. unfold emit, Props_gridmesh.flat3. induction T as [|[[a b] c] T IH]; [reflexivity|]. cbn [flat_map map app rev3 flip]. now rewrite IH. Qed.
Lemma sumw_flip w T : antisym w -> sumw w (map (fun '(a, b, c) => [a; b; c]) (map flip T)) = (- sumw w (map (fun '(a, b, c) => [a; b; c]) T))%R.
Proof.
  intros Hw. unfold sumw. induction T as [|[[a b] c] T IH]; [cbn; lra|]. cbn [map fold_right flip]. rewrite IH. change [c; b; a] with (rev [a; b; c]). rewrite (cyc_rev w Hw). lra.
Qed.
Lemma valid_flip n T : valid_triangles n T -> valid_triangles n (map flip T).
Proof. intros H. apply Forall_map. eapply Forall_impl; [|exact H]. intros [[a b] c]. cbn. tauto. Qed.

(** The boundary of the triangles [T] is the given set of directed edges: every other edge is
    traversed equally often in both directions. *)
Definition bounded_by (T : list (nat * nat * nat)) (E : list (nat * nat)) : Prop := forall i j,
  (ecount (tri_edges T) i j - ecount (tri_edges T) j i = ecount E i j - ecount E j i)%Z.
(** the directed edges of a closed list of vertex numbers *)
Definition closed_edges (l : list nat) : list (nat * nat) := pairs (l ++ firstn 1 l).
Lemma esum_pairs w l : esum w (pairs l) = chain w l.
Proof. induction l as [|a l IH]; [reflexivity|]. destruct l as [|b l]; [reflexivity|]. rewrite pairs_cons, esum_cons, IH, chain_cons2. reflexivity. Qed.
Lemma closed_edges_sum w l : esum w (closed_edges l) = cyc w l.
Proof. unfold closed_edges. rewrite esum_pairs. destruct l; reflexivity. Qed.
Lemma bounded_by_sum T E : (forall w, antisym w -> sumw w (map (fun '(a, b, c) => [a; b; c]) T) = esum w E) -> bounded_by T E.
Proof. intros H i j. apply eq_IZR. rewrite <- !esum_wij, esum_tri_edges. apply H, wij_antisym. Qed.

Section Mesher.
Context {F : Type} {NF : Num F}.
(** where the vertex [i] of a loop of [n] vertices ends up *)
Definition placed (n : nat) (turned : bool) (i : nat) : nat := if turned then n - 1 - i else i.
(** C46, the part shared by cylinders and B-spline surfaces, any arithmetic: for a single loop the
    mesh consists of the vertices of the loop (in reverse order if the parameter polygon is not
    counter-clockwise) and the images of the parameter points that the mesher adds; all indices are
    valid; and the boundary of the mesh is the loop run backwards. *)
Lemma mesher_single fuel gen1 genn (vertices : list (vec3 F)) (points : list (vec2 F)) m : length points = length vertices -> vertices <> [] ->
  trim_with_mesher fuel gen1 genn [0; length vertices] vertices points = Ok m ->
  exists turned new extra T T0, is_polygon_counter_clockwise points = Ok (negb turned) /\
    generate_triangular_mesh fuel (if turned then rev points else points) [0; length vertices] = Ok ((if turned then rev points else points) ++ new, emit T0) /\
    T = (if turned then T0 else map flip T0) /\
    Forall2 (fun p v => gen1 p = Ok v) new extra /\
    m_vertices m = (if turned then rev vertices else vertices) ++ extra /\ m_normals m = [] /\ m_triangles m = emit T /\
    valid_triangles (length (m_vertices m)) T /\
    (forall i d, i < length vertices -> nth (placed (length vertices) turned i) (m_vertices m) d = nth i vertices d) /\
    bounded_by T (closed_edges (map (placed (length vertices) turned) (rev (seq 0 (length vertices))))).
Proof.
  intros HL Hne. assert (Hn : 0 < length vertices) by (destruct vertices; [congruence|cbn; lia]). unfold trim_with_mesher. cbn [length Nat.eqb]. intros E. bindas E ccw Ec.
  assert (HP : Forall (fun '(s, e) => s < e) (pairs [0; length vertices])) by (constructor; [exact Hn|constructor]).
  destruct ccw.
  - bindas E r Er. destruct r as [V out]. destruct (C42_structure _ _ _ _ _ HP Er) as (T & new & -> & -> & HV & HS).
    rewrite skipn_app, skipn_all, Nat.sub_diag in E. cbn [app skipn] in E. bindas E ex Ee. rewrite emit_flat3, C49_reverses, emit_flip in E. apply Ok_inj in E. subst m. cbn [m_vertices m_normals m_triangles].
    apply mapM_inv in Ee. exists false, new, ex, (map flip T), T. cbn [negb]. split; [exact Ec|]. split; [exact Er|]. split; [reflexivity|]. split; [exact Ee|]. split; [reflexivity|]. split; [reflexivity|]. split; [reflexivity|].
    split; [apply valid_flip; rewrite app_length, <- (F2_length _ _ _ Ee), <- HL, <- app_length; exact HV|].
    split; [intros i d Hi; cbn [placed]; now apply app_nth1|].
    apply bounded_by_sum. intros w Hw. rewrite closed_edges_sum, (sumw_flip w T Hw), HS by exact Hw. cbn [placed]. rewrite map_id, (cyc_rev w Hw). cbn [pairs combine]. unfold sumR. cbn [map fold_right fst snd]. rewrite Nat.sub_0_r. lra.
  - bindas E r Er. destruct r as [V out]. destruct (C42_structure _ _ _ _ _ HP Er) as (T & new & -> & -> & HV & HS).
    rewrite skipn_app, <- rev_length, skipn_all, Nat.sub_diag in E. cbn [app skipn] in E. bindas E ex Ee. apply Ok_inj in E. subst m. cbn [m_vertices m_normals m_triangles].
    apply mapM_inv in Ee. exists true, new, ex, T, T. cbn [negb]. split; [exact Ec|]. split; [exact Er|]. split; [reflexivity|]. split; [exact Ee|]. split; [reflexivity|]. split; [reflexivity|]. split; [reflexivity|].
    split; [rewrite app_length, <- (F2_length _ _ _ Ee), rev_length, <- HL, <- rev_length, <- app_length; exact HV|].
    split; [intros i d Hi; cbn [placed]; rewrite app_nth1 by (rewrite rev_length; lia); rewrite rev_nth by lia; f_equal; lia|].
    apply bounded_by_sum. intros w Hw. rewrite closed_edges_sum, HS by exact Hw. cbn [placed].
    assert (EQ : map (placed (length vertices) true) (rev (seq 0 (length vertices))) = seq 0 (length vertices)).
    { apply (nth_ext _ _ 0 0); rewrite map_length, rev_length, !seq_length; [reflexivity|]. intros i Hi. rewrite (nth_indep _ _ (placed (length vertices) true 0)) by (rewrite map_length, rev_length, seq_length; lia).
      rewrite map_nth, rev_nth, seq_length by now rewrite seq_length. rewrite !seq_nth by lia. unfold placed. lia. }
    rewrite EQ. unfold pairs. cbn [combine tl]. unfold sumR. cbn [map fold_right fst snd]. rewrite Nat.sub_0_r. lra.
Qed.
(** several loops: nothing is turned around *)
Lemma mesher_several fuel gen1 genn offsets (vertices : list (vec3 F)) (points : list (vec2 F)) m : length points = length vertices -> 3 <= length offsets ->
  Forall (fun '(s, e) => s < e) (pairs offsets) -> trim_with_mesher fuel gen1 genn offsets vertices points = Ok m ->
  exists new extra T, generate_triangular_mesh fuel points offsets = Ok (points ++ new, emit T) /\
    Forall2 (fun p v => genn p = Ok v) new extra /\
    m_vertices m = vertices ++ extra /\ m_normals m = [] /\ m_triangles m = emit T /\ valid_triangles (length (m_vertices m)) T /\
    bounded_by T (flat_map (fun '(s, e) => closed_edges (seq s (e - s))) (pairs offsets)).
Proof.
  intros HL H3 HP E. unfold trim_with_mesher in E. replace (length offsets =? 2) with false in E by (symmetry; apply Nat.eqb_neq; lia). replace (2 <? length offsets) with true in E by (symmetry; apply Nat.ltb_lt; lia).
  bindas E r Er. destruct r as [V out]. destruct (C42_structure _ _ _ _ _ HP Er) as (T & new & -> & -> & HV & HS).
  rewrite skipn_app, skipn_all, Nat.sub_diag in E. cbn [app skipn] in E. bindas E ex Ee. apply Ok_inj in E. subst m. cbn [m_vertices m_normals m_triangles].
  apply mapM_inv in Ee. exists new, ex, T. split; [exact Er|]. split; [exact Ee|]. split; [reflexivity|]. split; [reflexivity|]. split; [reflexivity|].
  split; [rewrite app_length, <- (F2_length _ _ _ Ee), <- HL, <- app_length; exact HV|].
  apply bounded_by_sum. intros w Hw. rewrite HS by exact Hw. clear. induction (pairs offsets) as [|[s e] L IH]; [reflexivity|]. cbn [flat_map]. rewrite esum_app, closed_edges_sum, <- IH. reflexivity.
Qed.
End Mesher.

Section Faces.
Context {F : Type} {NF : Num F}.
(** What a mesh of a face with a single loop is: [value] says which added vertex belongs to an added
    parameter point. *)
Definition single_loop_mesh (value : vec2 F -> vec3 F -> Prop) (vs : list (vec3 F)) (ps : list (vec2 F)) (m : TriangleMesh F) : Prop :=
  exists turned new extra T, is_polygon_counter_clockwise ps = Ok (negb turned) /\
    Forall2 value new extra /\ m_vertices m = (if turned then rev vs else vs) ++ extra /\ m_normals m = [] /\
    m_triangles m = emit T /\ valid_triangles (length (m_vertices m)) T /\
    (forall i d, i < length vs -> nth (placed (length vs) turned i) (m_vertices m) d = nth i vs d) /\
    bounded_by T (closed_edges (map (placed (length vs) turned) (rev (seq 0 (length vs))))).
Definition several_loops_mesh (value : vec2 F -> vec3 F -> Prop) (loops : list (list (vec3 F))) (m : TriangleMesh F) : Prop :=
  exists new extra T offsets, delimits offsets loops /\
    Forall2 value new extra /\ m_vertices m = concat loops ++ extra /\ m_normals m = [] /\
    m_triangles m = emit T /\ valid_triangles (length (m_vertices m)) T /\
    bounded_by T (flat_map (fun '(s, e) => closed_edges (seq s (e - s))) (pairs offsets)).
Lemma bss_project_length (s : BSplineSurface F (vec3 F)) vs ps : bss_project_points s vs = Ok ps -> length ps = length vs.
Proof.
  unfold bss_project_points. intros E. repeat (let r := fresh "r" in let E0 := fresh "E0" in bindas E r E0). now apply mapM_length in E.
Qed.
Lemma several_of fuel rnd bounds loops : proper_loops fuel rnd bounds loops ->
  delimits (0 :: ends_from 0 loops) loops /\ length (0 :: ends_from 0 loops) = S (length loops) /\ Forall (fun '(s, e) => s < e) (pairs (0 :: ends_from 0 loops)).
Proof.
  intros HL. pose proof (ends_delimit [] loops) as HO. cbn [length app] in HO.
  assert (EF : filter nonempty loops = loops) by (apply filter_all; intros p; exact (proper_nonempty _ _ _ _ p HL)).
  split; [exact HO|]. split; [cbn [length]; now rewrite ends_length, EF|]. apply occupies_ranges in HO. eapply Forall_impl; [|exact HO]. intros [a b] K. cbn [fst snd] in K. lia.
Qed.
(** C46, B-spline surfaces, any arithmetic. *)
Theorem C46_bspline (s : BSplineSurface F (vec3 F)) fuel rnd bounds loops m : proper_loops fuel rnd bounds loops -> bss_trim s fuel rnd bounds = Ok m ->
  exists ps, bss_project_points s (concat loops) = Ok ps /\
  match loops with
  | [] => m = mesh_new
  | [vs] => single_loop_mesh (fun p v => bss3_get_point s (x2 p) (y2 p) = Ok v) vs ps m
  | _ => several_loops_mesh (fun p v => bss3_get_point s (x2 p) (y2 p) = Ok v) loops m
  end.
Proof.
  intros HL. destruct (several_of _ _ _ _ HL) as (HD & HN & HP). unfold bss_trim. rewrite (collect_proper _ _ _ _ HL). cbn [obind]. intros E. bindas E ps Ep. exists ps. split; [exact Ep|].
  apply bss_project_length in Ep. destruct loops as [|vs [|vs2 loops]].
  - cbn in E. apply Ok_inj in E. now subst m.
  - cbn [concat ends_from] in E, Ep. rewrite app_nil_r in E, Ep. pose proof (proper_nonempty _ _ _ _ vs HL (or_introl eq_refl)) as Hne. rewrite Hne in E. cbn [Nat.add] in E.
    apply mesher_single in E; [|exact Ep|now destruct vs]. destruct E as (turned & new & extra & T & T0 & H1 & H2 & H3 & H4 & H5 & H6 & H7 & H8 & H9 & H10).
    exists turned, new, extra, T. auto 10.
  - apply mesher_several in E; [|exact Ep|rewrite HN; cbn; lia|exact HP]. destruct E as (new & extra & T & H1 & H2 & H3 & H4 & H5 & H6 & H7).
    exists new, extra, T, (0 :: ends_from 0 (vs :: vs2 :: loops)). auto 10.
Qed.
End Faces.

(** C46, cylinders, exact arithmetic: [d] is the apex height of the ring map. *)
Theorem C46_cylinder (c : Cylinder R) fuel rnd bounds loops m : proper_loops fuel rnd bounds loops -> cylinder_trim c fuel rnd bounds = Ok m ->
  let d := trim_apex c (concat loops) in
  match loops with
  | [] => m = mesh_new
  | [vs] => single_loop_mesh (fun p v => v = generate_point_from_ring c p d) vs (map (fun v => project_to_ring c v d) vs) m
  | _ => several_loops_mesh (fun p v => v = cylinder_get_point c (x2 p) (y2 p)) loops m
  end.
Proof.
  intros HL E d. destruct (several_of _ _ _ _ HL) as (HD & HN & HP). unfold cylinder_trim in E. rewrite (collect_proper _ _ _ _ HL) in E. cbn [obind] in E. rewrite trim_uses_apex in E. fold d in E.
  destruct loops as [|vs [|vs2 loops]].
  - cbn in E. apply Ok_inj in E. now subst m.
  - cbn [concat ends_from] in E, d. unfold d in *. clear d. rewrite app_nil_r in *. set (d := trim_apex c vs) in *.
    pose proof (proper_nonempty _ _ _ _ vs HL (or_introl eq_refl)) as Hne. rewrite Hne in E. cbn [Nat.add] in E.
    apply mesher_single in E; [|apply map_length|now destruct vs]. destruct E as (turned & new & extra & T & T0 & H1 & H2 & H3 & H4 & H5 & H6 & H7 & H8 & H9 & H10).
    exists turned, new, extra, T. split; [exact H1|]. split; [eapply Forall2_weaken; [|exact H4]; intros p v K; cbv beta in K; now apply Ok_inj in K|]. auto 10.
  - apply mesher_several in E; [|apply map_length|rewrite HN; cbn; lia|exact HP]. destruct E as (new & extra & T & H1 & H2 & H3 & H4 & H5 & H6 & H7).
    exists new, extra, T, (0%nat :: ends_from 0 (vs :: vs2 :: loops)). split; [exact HD|]. split; [eapply Forall2_weaken; [|exact H2]; intros p v K; cbv beta in K; now apply Ok_inj in K|]. auto 10.
Qed.

Open Scope R_scope.
(** The added vertices of a single cylinder loop lie on the cylinder, at the place that the ring
    map sends to the mesher's point. *)
Theorem C46_ring_section (c : Cylinder R) p d : orthonormal (cy_axis c) (cy_ref_dir c) -> 0 < cy_radius c -> d <> 0 -> p <> V2 0 0 ->
  on_cylinder c (generate_point_from_ring c p d) /\ project_to_ring c (generate_point_from_ring c p d) d = p.
Proof.
  intros HO Hr Hd Hp. set (k := cy_axis c). set (v := cy_ref_dir c). set (u := cross3 k v).
  destruct (cross_orthonormal k v HO) as (A1 & A2 & A3 & _). fold u in A1, A2, A3. destruct HO as (Hk & Hv & Hkv). unfold unit3 in *. fold k v in Hk, Hv, Hkv.
  assert (HL : 0 < length2 p). { destruct p as [x y]. unfold length2, dot2. vsimp. rnum. apply sqrt_lt_R0. assert (x <> 0 \/ y <> 0) by (destruct (Req_dec x 0), (Req_dec y 0); auto; subst; exfalso; now apply Hp). pose proof (Rle_0_sqr x). pose proof (Rle_0_sqr y). unfold Rsqr in *. destruct H; nra. }
  set (r := cy_radius c / length2 p). assert (Hrp : 0 < r) by now apply Rdiv_lt_0_compat.
  assert (EG : vsub (generate_point_from_ring c p d) (cy_origin c) = vadd (vadd (vmulr v (x2 p * r)) (vmulr u (y2 p * r))) (vmulr k (d * (1 - r)))).
  { unfold generate_point_from_ring. cbv zeta. rnum. fold v k r. fold u. clearbody u v k. vsimp. f_equal; ring. }
  set (q := generate_point_from_ring c p d) in *.
  assert (D : forall al be ga, let w := vadd (vadd (vmulr v al) (vmulr u be)) (vmulr k ga) in dot3 w v = al /\ dot3 w u = be /\ dot3 w k = ga).
  { intros al be ga w. unfold w. clearbody u v k. repeat split.
    - transitivity (al * dot3 v v + be * dot3 u v + ga * dot3 k v); [unfold dot3; vsimp; ring|rewrite Hv, A3, Hkv; ring].
    - transitivity (al * dot3 u v + be * dot3 u u + ga * dot3 u k); [unfold dot3; vsimp; ring|rewrite A1, A2, A3; ring].
    - transitivity (al * dot3 k v + be * dot3 u k + ga * dot3 k k); [unfold dot3; vsimp; ring|rewrite Hk, A2, Hkv; ring]. }
  destruct (D (x2 p * r) (y2 p * r) (d * (1 - r))) as (D1 & D2 & D3). rewrite <- EG in D1, D2, D3.
  split.
  - unfold on_cylinder. rewrite (axis_sqdist_frame c (conj Hk (conj Hv Hkv))). cbv zeta. fold v k. fold u. rewrite D1, D2.
    assert (EL : length2 p * length2 p = x2 p * x2 p + y2 p * y2 p) by (destruct p as [x y]; unfold length2, dot2; vsimp; rnum; apply sqrt_sqrt; pose proof (Rle_0_sqr x); pose proof (Rle_0_sqr y); unfold Rsqr in *; lra).
    assert (Er : r * length2 p = cy_radius c) by (unfold r; field; lra). rewrite <- Er. replace (r * length2 p * (r * length2 p)) with (r * r * (length2 p * length2 p)) by ring. rewrite EL. ring.
  - rewrite (ring_coords c). cbv zeta. fold v k. fold u. rewrite D1, D2, D3. destruct p as [x y]. cbn [x2 y2] in *.
    replace (d - d * (1 - r)) with (d * r) by ring. assert (r <> 0) by lra. f_equal; field; auto.
Qed.
(** The added vertices of a cylinder face with several loops lie on the cylinder ... *)
Theorem C46_several_on_cylinder (c : Cylinder R) l a : orthonormal (cy_axis c) (cy_ref_dir c) -> on_cylinder c (cylinder_get_point c l a).
Proof. intros H. now apply C34_on_cylinder. Qed.
(** ... but not where the mesher wanted them: ring coordinates are used as height and angle. *)
Theorem C46_several_misplaced_refuted : exists p, forall d, d <> 0 -> d <> 1 ->
  project_to_ring cyl_ex (cylinder_get_point cyl_ex (x2 p) (y2 p)) d <> p /\ project_to_ring cyl_ex (generate_point_from_ring cyl_ex p d) d = p.
Proof.
  exists (V2 1 0). intros d H0 H1. split.
  - destruct (cylinder_point_coords cyl_ex cyl_ex_orthonormal 1 0) as (A & B & C). cbv zeta in A, B, C. cbn [x2 y2]. rewrite (ring_coords cyl_ex). cbv zeta. rewrite A, B, C, cos_0, sin_0.
    intros E. injection E as E _. unfold cyl_ex in E. cbn [cy_radius] in E. assert (X : d = d - 1); [|lra].
    apply (Rmult_eq_reg_r (/ (d - 1))); [|apply Rinv_neq_0_compat; lra]. rewrite (Rinv_r (d - 1)) by lra. unfold Rdiv in E. lra.
  - apply C46_ring_section; [exact cyl_ex_orthonormal|cbn; lra|exact H0|intros E; injection E; lra].
Qed.

Open Scope nat_scope.
(** A bilinear surface that coincides with the xy plane on [0, 8] x [0, 8], in binary64. *)
Definition flat64 : BSplineSurface f64 (vec3 f64) :=
  mkBSS (mkGrid 2 [v64 0 0 0; v64 0 8 0; v64 8 0 0; v64 8 8 0]) ([f0; f0; f64_of_Z 8; f64_of_Z 8], [f0; f0; f64_of_Z 8; f64_of_Z 8]) (1, 1).
Definition btrim64 (ls : list (list (Z * Z))) := m <- bss_trim (NF := F64Num) flat64 60 (fun _ _ _ => f0) (map edges64 ls) ;; Ok (length (m_vertices m), m_triangles m).
(** a counter-clockwise square, a clockwise one, one with eight vertices to which the mesher adds
    four, and a square with a hole, to which it adds one *)
Example C46_nonvacuous :
  btrim64 [[(1, 1); (5, 1); (5, 5); (1, 5)]]%Z = Ok (4, [2; 0; 3; 2; 1; 0]%N) /\
  btrim64 [[(1, 1); (1, 5); (5, 5); (5, 1)]]%Z = Ok (4, [3; 0; 2; 0; 1; 2]%N) /\
  (exists tris, btrim64 [[(1, 1); (4, 1); (7, 1); (7, 4); (7, 7); (4, 7); (1, 7); (1, 4)]]%Z = Ok (12, tris) /\ length tris = 42) /\
  (exists tris, btrim64 [[(0, 0); (8, 0); (8, 8); (0, 8)]; [(3, 3); (3, 6); (6, 3)]]%Z = Ok (8, tris) /\ length tris = 27).
Proof. split; [vm_compute; reflexivity|]. split; [vm_compute; reflexivity|]. split; eexists; (split; [vm_compute; reflexivity|reflexivity]). Qed.
(** The triangles of a B-spline or cylinder face with one loop turn against the loop; those of a
    plane, and of a face with several loops, turn with it. *)
Theorem C46_orientation_refuted : let square := [(1, 1); (5, 1); (5, 5); (1, 5)]%Z in
  trim64 [square] = Ok (5, [4; 0; 1; 4; 1; 2; 4; 2; 3; 4; 3; 0]%N) /\ btrim64 [square] = Ok (4, [2; 0; 3; 2; 1; 0]%N).
Proof. split; vm_compute; reflexivity. Qed.
