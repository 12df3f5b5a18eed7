(** Property C71: solids that have plane faces and curved faces. *)
From Coq Require Import ZArith NArith Reals Lra Lia List Bool Arith Floats.SpecFloat Psatz Permutation.
From Verif Require Import Prelude Num M_vec M_utils M_curve M_polygon M_meshgen M_surface L_base L_vec L_geom L_cycle L_polygon L_float L_grid L_err L_bserr
  Props_bspline Props_polygon Props_ears L_simple L_sides L_twoears L_earexist L_clip Props_simple Props_segments Props_grid Props_accuracy Props_robust
  Props_merge Props_mesh Props_loops L_convex Props_trim Props_trim2 Props_straight Props_lattice Props_trim3 Props_trim4 Props_solid Props_plane64 L_weak L_wiggle L_bridges Props_holes Props_holes64.
Open Scope R_scope.

(** ** Edge counts determine antisymmetric sums *)
Lemma esum_remove w e E : In e E -> exists E', (length E = S (length E'))%nat /\ esum w E = w (fst e) (snd e) + esum w E' /\ forall i j, ecount E i j = (ecount [e] i j + ecount E' i j)%Z.
Proof.
  intros I. apply in_split in I as (l1 & l2 & ->). exists (l1 ++ l2). split; [rewrite !app_length; cbn; lia|]. split.
  - unfold esum. rewrite !map_app, !fold_right_app. cbn [map fold_right]. generalize (fold_right Rplus 0 (map (fun e => w (fst e) (snd e)) l2)) as s. intros s. induction (map (fun e => w (fst e) (snd e)) l1) as [|x r IH]; cbn [fold_right]; [lra|]. rewrite IH. lra.
  - intros i j. unfold ecount. rewrite !count_occ_app. cbn [count_occ]. destruct (edge_dec e (i, j)); lia.
Qed.
Lemma balanced_sum w : antisym w -> forall n E, (length E <= n)%nat -> (forall i j, ecount E i j = ecount E j i) -> esum w E = 0.
Proof.
  intros Hw. induction n as [|n IH]; intros E L B; [destruct E; [reflexivity|cbn in L; lia]|]. destruct E as [|[i j] E]; [reflexivity|]. cbn [length] in L.
  destruct (Nat.eq_dec i j) as [<-|N].
  - change (esum w ((i, i) :: E)) with (w i i + esum w E). rewrite (IH E); [pose proof (Hw i i); lra|lia|]. intros a b. specialize (B a b). unfold ecount in *. cbn [count_occ] in B. destruct (edge_dec (i, i) (a, b)) as [X|X], (edge_dec (i, i) (b, a)) as [Y|Y]; try (exfalso; congruence); lia.
  - assert (J : In (j, i) E).
    { specialize (B i j). unfold ecount in B. cbn [count_occ] in B. destruct (edge_dec (i, j) (i, j)) as [_|X]; [|congruence]. destruct (edge_dec (i, j) (j, i)) as [X|_]; [congruence|]. apply (count_occ_In edge_dec). lia. }
    destruct (esum_remove w (j, i) E J) as (E' & LE & SE & CE). change (esum w ((i, j) :: E)) with (w i j + esum w E). rewrite SE. cbn [fst snd]. rewrite (IH E'); [pose proof (Hw i j); lra|lia|].
    intros a b. pose proof (B a b) as K. unfold ecount in K. cbn [count_occ] in K. pose proof (CE a b) as K1. pose proof (CE b a) as K2. unfold ecount in *. cbn [count_occ] in *.
    destruct (edge_dec (i, j) (a, b)) as [X|X], (edge_dec (i, j) (b, a)) as [Y|Y], (edge_dec (j, i) (a, b)) as [Z1|Z1], (edge_dec (j, i) (b, a)) as [Z2|Z2]; try (exfalso; congruence); lia.
Qed.
Lemma ecount_swap E i j : ecount (map (fun e => (snd e, fst e)) E) i j = ecount E j i.
Proof. unfold ecount. induction E as [|[a b] E IH]; [reflexivity|]. cbn [map count_occ fst snd]. destruct (edge_dec (b, a) (i, j)) as [X|X], (edge_dec (a, b) (j, i)) as [Y|Y]; try (exfalso; congruence); lia. Qed.
Lemma esum_swap w E : antisym w -> esum w (map (fun e => (snd e, fst e)) E) = - esum w E.
Proof. intros Hw. unfold esum. induction E as [|[a b] E IH]; [cbn; lra|]. cbn [map fold_right fst snd]. rewrite IH, (Hw a b). lra. Qed.
Lemma bounded_sum w T E : antisym w -> bounded_by T E -> sumw w (map (fun '(a, b, c) => [a; b; c]) T) = esum w E.
Proof.
  intros Hw B. rewrite <- esum_tri_edges. enough (K : esum w (tri_edges T ++ map (fun e => (snd e, fst e)) E) = 0) by (rewrite esum_app, esum_swap in K by exact Hw; lra).
  apply (balanced_sum w Hw _ _ (Nat.le_refl _)). intros i j. pose proof (B i j) as K. pose proof (ecount_swap E i j) as S1. pose proof (ecount_swap E j i) as S2. unfold ecount in *. rewrite !count_occ_app. lia.
Qed.

(** ** The border of the mesh of a curved face *)
Section Curved.
Context {F : Type} {NF : Num F} (v : vec3 F -> vec3 R).
(** the mesh and its loops with every vertex read by [v] as an exact point *)
Definition vmesh (m : TriangleMesh F) : TriangleMesh R := mkTM (map v (m_vertices m)) [] (m_triangles m).
Definition loops_border (loops : list (list (vec3 F))) : list edge3 := flat_map (fun l => border (map v l)) loops.
(** with one loop the mesh runs along it backwards, with several along all of them *)
Definition curved_border (loops : list (list (vec3 F))) : list edge3 := match loops with [l] => border (rev (map v l)) | _ => loops_border loops end.
Definition small_mesh (m : TriangleMesh F) : Prop := (N.of_nat (length (m_vertices m)) < 2 ^ 32)%N.

Lemma vnet m T E : m_triangles m = emit T -> valid_triangles (length (m_vertices m)) T -> small_mesh m -> bounded_by T E ->
  forall p q, IZR (net (mesh_edges (vmesh m)) p q) = esum (fun i j => flow p q (nth i (map v (m_vertices m)) (V3 0 0 0)) (nth j (map v (m_vertices m)) (V3 0 0 0))) E.
Proof.
  intros ET VT HS B p q. rewrite net_flow. unfold mesh_edges, mesh_tris, vmesh. cbn [m_vertices m_triangles]. rewrite ET, emit_tris, tris_sum.
  - apply bounded_sum; [intros a b; apply flow_antisym|exact B].
  - intros [[a b] c] I. unfold valid_triangles in VT. rewrite Forall_forall in VT. specialize (VT _ I). unfold small_mesh in HS. cbn in VT. lia.
Qed.
Lemma occupies_mapv (A B : Type) (f : A -> B) l r p : occupies l r p -> occupies (map f l) r (map f p).
Proof. intros [H1 H2]. split; [now rewrite map_length|]. rewrite <- H2, skipn_map, firstn_map. reflexivity. Qed.
Lemma occupies_more (A : Type) (l l' : list A) r p : occupies l r p -> occupies (l ++ l') r p.
Proof.
  intros [H1 H2]. split; [rewrite app_length; lia|]. rewrite skipn_app, firstn_app. replace (snd r - fst r - length (skipn (fst r) l))%nat with 0%nat by (rewrite skipn_length; lia). cbn [firstn]. now rewrite app_nil_r.
Qed.
Lemma several_net value loops m : several_loops_mesh value loops m -> filter nonempty loops = loops -> small_mesh m -> forall p q, net (mesh_edges (vmesh m)) p q = net (loops_border loops) p q.
Proof.
  intros (new & extra & T & offs & HD & _ & EV & _ & ET & VT & B) EF HS p q. apply eq_IZR. rewrite (vnet m T _ ET VT HS B), net_flow. unfold delimits in HD. rewrite EF in HD. set (d := V3 0 0 0).
  assert (HD' : Forall2 (occupies (m_vertices m)) (pairs offs) loops) by (rewrite EV; eapply Forall2_weaken; [|exact HD]; intros r l; apply occupies_more). clear HD.
  unfold loops_border. revert HD'. generalize (pairs offs) as rs. intros rs HD. clear - HD. induction HD as [|[s e] l rs loops H _ IH]; [reflexivity|]. cbn [flat_map]. unfold esum3 in *. rewrite esum_app, sumR_app, IH. f_equal.
  rewrite closed_edges_sum. change (sumR (fun e0 => flow p q (fst e0) (snd e0)) (border (map v l))) with (esum3 (flow p q) (border (map v l))). rewrite border_sum. exact (loop_cyc (flow p q) d _ (s, e) _ (occupies_mapv _ _ v _ _ _ H)).
Qed.
Lemma single_net value vs ps m : single_loop_mesh value vs ps m -> small_mesh m -> forall p q, net (mesh_edges (vmesh m)) p q = net (border (rev (map v vs))) p q.
Proof.
  intros (turned & new & extra & T & _ & _ & EV & _ & ET & VT & HN & B) HS p q. apply eq_IZR. rewrite (vnet m T _ ET VT HS B), net_flow, border_sum, closed_edges_sum.
  rewrite <- (cyc_map (fun i => nth i (map v (m_vertices m)) (V3 0 0 0))). f_equal. rewrite map_map, !map_rev. f_equal.
  apply (nth_ext _ _ (V3 0 0 0) (V3 0 0 0)); rewrite !map_length, seq_length; [reflexivity|]. intros i Hi.
  set (g := fun x => nth (placed (length vs) turned x) (map v (m_vertices m)) (V3 0 0 0)). rewrite (nth_indep _ _ (g 0%nat)) by now rewrite map_length, seq_length. rewrite (map_nth g), seq_nth by exact Hi. cbn [Nat.add]. unfold g.
  assert (LP : (placed (length vs) turned i < length (m_vertices m))%nat) by (rewrite EV, app_length; destruct turned; cbn [placed]; [rewrite rev_length|]; lia).
  assert (D : exists d : vec3 F, True) by (destruct vs as [|d ?]; [cbn in Hi; lia|now exists d]). destruct D as [d _].
  rewrite (nth_indep _ _ (v d)) by now rewrite map_length. rewrite map_nth. rewrite (nth_indep (map v vs) _ (v d)) by now rewrite map_length. rewrite map_nth. f_equal. now apply HN.
Qed.
Lemma mesh_new_net p q : net (mesh_edges (vmesh mesh_new)) p q = 0%Z.
Proof. reflexivity. Qed.
(** C71: B-spline faces, any arithmetic. *)
Theorem C71_bspline (s : BSplineSurface F (vec3 F)) fuel rnd bounds loops m : proper_loops fuel rnd bounds loops -> bss_trim s fuel rnd bounds = Ok m -> small_mesh m ->
  forall p q, net (mesh_edges (vmesh m)) p q = net (curved_border loops) p q.
Proof.
  intros HL E HS p q. destruct (C46_bspline s fuel rnd bounds loops m HL E) as (ps & _ & K). assert (EF : filter nonempty loops = loops) by (apply filter_all; intros l; exact (proper_nonempty _ _ _ _ l HL)).
  destruct loops as [|vs [|vs2 loops]]; [subst m; reflexivity|exact (single_net _ _ _ _ K HS p q)|exact (several_net _ _ _ K EF HS p q)].
Qed.
(** C71: cylinder faces, any arithmetic. *)
Theorem C71_cylinder {TF : Trig F} (c : Cylinder F) fuel rnd bounds loops m : proper_loops fuel rnd bounds loops -> cylinder_trim c fuel rnd bounds = Ok m -> small_mesh m ->
  forall p q, net (mesh_edges (vmesh m)) p q = net (curved_border loops) p q.
Proof.
  intros HL E HS p q. assert (EF : filter nonempty loops = loops) by (apply filter_all; intros l; exact (proper_nonempty _ _ _ _ l HL)).
  destruct (several_of _ _ _ _ HL) as (HD & HN & HP). unfold cylinder_trim in E. rewrite (collect_proper _ _ _ _ HL) in E. cbn [obind] in E. unfold cylinder_trim_polygons in E. cbv zeta in E.
  destruct (get_min_max_by_key _ _) as [lo hi] in E.
  destruct loops as [|vs [|vs2 loops]].
  - cbn in E. apply Ok_inj in E. now subst m.
  - cbn [concat ends_from] in E. rewrite app_nil_r in E. pose proof (proper_nonempty _ _ _ _ vs HL (or_introl eq_refl)) as Hne. rewrite Hne in E. cbn [Nat.add] in E.
    apply mesher_single in E; [|apply map_length|now destruct vs]. destruct E as (turned & new & extra & T & T0 & H1 & H2 & H3 & H4 & H5 & H6 & H7 & H8 & H9 & H10).
    apply (single_net (fun _ _ => True) vs (map (fun w => project_to_ring c w ((hi - lo) * f2)%num) vs) m); [|exact HS]. exists turned, new, extra, T. split; [exact H1|]. split; [eapply Forall2_weaken; [|exact H4]; auto|]. auto 10.
  - apply mesher_several in E; [|apply map_length|rewrite HN; cbn; lia|exact HP]. destruct E as (new & extra & T & H1 & H2 & H3 & H4 & H5 & H6 & H7).
    apply (several_net (fun _ _ => True) (vs :: vs2 :: loops) m); [|exact EF|exact HS]. exists new, extra, T, (0%nat :: ends_from 0 (vs :: vs2 :: loops)). split; [exact HD|]. split; [eapply Forall2_weaken; [|exact H2]; auto|]. auto 10.
Qed.
End Curved.

(** ** Solids *)
Section Solid64.
Context {TF : Trig f64}.
Inductive surf64 := SPlane (s : Plane f64) | SCylinder (c : Cylinder f64) | SBspline (s : BSplineSurface f64 (vec3 f64)).
Definition the_surface (s : surf64) : Surface f64 := match s with SPlane s => plane_surface s | SCylinder c => cylinder_surface c | SBspline s => bss3_surface s end.
Record MFace := { mf_surface : surf64; mf_fuel : nat; mf_rnd : nat -> nat -> list bool -> f64; mf_bounds : list (list (CurveSegment f64)); mf_loops : list (list (vec3 f64)) }.
Definition mf_mesh (f : MFace) : outcome (TriangleMesh f64) := trimmed_get_triangle_mesh (mf_fuel f) (mf_rnd f) {| ts_surface := the_surface (mf_surface f); ts_bounds := mf_bounds f |}.
Definition mf_border (f : MFace) : list edge3 := loops_border val3 (mf_loops f).
(** a curved face with a single loop *)
Definition turned_face (f : MFace) : bool := match mf_surface f, mf_loops f with SPlane _, _ => false | _, [_] => true | _, _ => false end.
Definition mface_ok (f : MFace) : Prop := match mf_surface f with
  | SPlane s => lface64_ok {| lf_plane := s; lf_fuel := mf_fuel f; lf_rnd := mf_rnd f; lf_bounds := mf_bounds f; lf_loops := mf_loops f |}
  | _ => proper_loops (mf_fuel f) (mf_rnd f) (mf_bounds f) (mf_loops f) end.
Lemma border_back l p q : net (border (rev l)) p q = (- net (border l) p q)%Z.
Proof. apply eq_IZR. rewrite opp_IZR, !net_flow, !border_sum. apply cyc_rev. intros a b. apply flow_antisym. Qed.
Lemma mface_net f m : mface_ok f -> mf_mesh f = Ok m -> small_mesh m -> forall p q,
  net (mesh_edges (vmesh val3 m)) p q = (if turned_face f then - net (mf_border f) p q else net (mf_border f) p q)%Z.
Proof.
  destruct f as [s fuel rnd bounds loops]. unfold mface_ok, mf_mesh, mf_border, turned_face, trimmed_get_triangle_mesh. cbn [mf_surface mf_fuel mf_rnd mf_bounds mf_loops ts_surface ts_bounds].
  assert (K : forall p q, net (curved_border val3 loops) p q = (if match loops with [_] => true | _ => false end then - net (loops_border val3 loops) p q else net (loops_border val3 loops) p q)%Z).
  { intros p q. destruct loops as [|l [|l2 loops]]; try reflexivity. cbn [curved_border]. rewrite border_back. unfold loops_border. cbn [flat_map]. now rewrite app_nil_r. }
  destruct s as [s|c|s]; cbn [the_surface plane_surface cylinder_surface bss3_surface sf_trim]; intros HO E HS p q.
  - destruct (lface64_mesh _ HO) as (m' & E' & N). unfold lf_mesh in E'. cbn [lf_plane lf_fuel lf_rnd lf_bounds lf_loops] in E'. rewrite E in E'. apply Ok_inj in E'. subst m'. specialize (N p q). unfold lf_border, val_loops in N. cbn [lf_loops] in N.
    transitivity (net (mesh_edges (val_mesh m)) p q); [reflexivity|]. rewrite N. unfold loops_border. rewrite !flat_map_concat_map, map_map. reflexivity.
  - rewrite (C71_cylinder val3 c fuel rnd bounds loops m HO E HS), K. now destruct loops as [|? [|? ?]].
  - rewrite (C71_bspline val3 s fuel rnd bounds loops m HO E HS), K. now destruct loops as [|? [|? ?]].
Qed.
(** C71: whatever the triangle meshes of the faces are (the mesher of curved faces need not return), the triangles run along the
    loops, but along those of curved faces with a single loop in the opposite direction.  So if the loops of all faces
    cancel, the triangles of the whole solid cancel just in case the loops of the latter faces cancel by themselves. *)
Theorem C71_solid64 (fs : list MFace) ms : Forall mface_ok fs -> mapM mf_mesh fs = Ok ms -> Forall small_mesh ms ->
  (forall p q, net (flat_map mesh_edges (map (vmesh val3) ms)) p q = (net (flat_map mf_border fs) p q - 2 * net (flat_map mf_border (filter turned_face fs)) p q)%Z) /\
  (closed_edges (flat_map mf_border fs) -> (closed_edges (flat_map mesh_edges (map (vmesh val3) ms)) <-> closed_edges (flat_map mf_border (filter turned_face fs)))).
Proof.
  intros HO E HS.
  assert (K : forall p q, net (flat_map mesh_edges (map (vmesh val3) ms)) p q = (net (flat_map mf_border fs) p q - 2 * net (flat_map mf_border (filter turned_face fs)) p q)%Z).
  { apply mapM_inv in E. induction E as [|f m fs ms Em _ IH]; [reflexivity|]. inversion_clear HO as [|? ? O1 O2]. inversion_clear HS as [|? ? S1 S2]. intros p q. specialize (IH O2 S2 p q). cbn [flat_map map filter]. rewrite !net_app, IH, (mface_net f m O1 Em S1).
    destruct (turned_face f); cbn [flat_map]; rewrite ?net_app; lia. }
  split; [exact K|]. intros HC. split; intros H p q; specialize (H p q); specialize (K p q); specialize (HC p q); lia.
Qed.
(** An edge between a plane face and a curved face with one loop is run through twice in the same direction. *)
Corollary C71_edge_twice (fs : list MFace) ms : Forall mface_ok fs -> mapM mf_mesh fs = Ok ms -> Forall small_mesh ms -> closed_edges (flat_map mf_border fs) ->
  forall p q, net (flat_map mf_border (filter turned_face fs)) p q = 1%Z -> net (flat_map mesh_edges (map (vmesh val3) ms)) q p = 2%Z.
Proof.
  intros HO E HS HC p q H. destruct (C71_solid64 fs ms HO E HS) as [K _]. rewrite K. rewrite (HC q p). unfold net in *. lia.
Qed.

(** ** A box with one face a (flat) B-spline surface, and a box with six such faces *)
(** the bilinear surface with the four given corners; [u] runs from [a] to [b], [v] from [a] to [c] *)
Definition patch64 (a b c d : Z3) : BSplineSurface f64 (vec3 f64) :=
  mkBSS (mkGrid 2 [z64 a; z64 c; z64 b; z64 d]) ([f0; f0; f64_of_Z 8; f64_of_Z 8], [f0; f0; f64_of_Z 8; f64_of_Z 8]) (1, 1)%nat.
Definition mface (s : surf64) (l : list Z3) : MFace := {| mf_surface := s; mf_fuel := 60; mf_rnd := fun _ _ _ => f0; mf_bounds := [sides64 (map z64 l)]; mf_loops := [map z64 l] |}.
Definition pface (o u v : Z3) (l : list Z3) : MFace := {| mf_surface := SPlane (box64 o u v); mf_fuel := 1; mf_rnd := fun _ _ _ => f0; mf_bounds := [sides64 (map z64 l)]; mf_loops := [map z64 l] |}.
Lemma mface_proper fuel l : l <> [] -> to_polygon (NF := F64Num) fuel (fun _ _ => f0) (sides64 (map z64 l)) = Ok (map z64 l) -> proper_loops fuel (fun _ _ _ => f0) [sides64 (map z64 l)] [map z64 l].
Proof.
  intros NE E. exists [map z64 l]. split; [split; [reflexivity|]|destruct l; [congruence|reflexivity]]. intros [|i] b p E1 E2; cbn in E1, E2; [|destruct i; discriminate]. injection E1 as <-. injection E2 as <-. exact E.
Qed.
Lemma box_border f l : mf_loops f = [map z64 l] -> mf_border f = map (fun '(a, b) => (val3 (z64 a), val3 (z64 b))) (pairs (l ++ firstn 1 l)).
Proof. intros E. unfold mf_border, loops_border. rewrite E. cbn [flat_map]. rewrite app_nil_r. rewrite <- border_map. unfold val_loops. now rewrite ?map_map. Qed.
Lemma r3_inj p q : r3 p = r3 q -> p = q.
Proof. destruct p as [[a b] c], q as [[d e] f]. unfold r3. cbn [fst snd]. intros H. injection H as H1 H2 H3. apply eq_IZR in H1, H2, H3. now subst. Qed.
(** the borders of faces with one loop each, from the corners of these loops *)
Lemma boxes_border fs ls : map mf_loops fs = map (fun l => [map z64 l]) ls -> flat_map mf_border fs = flat_map (fun l => map (fun '(a, b) => (val3 (z64 a), val3 (z64 b))) (pairs (l ++ firstn 1 l))) ls.
Proof. revert ls. induction fs as [|f fs IH]; intros [|l ls] E; try discriminate; [reflexivity|]. injection E as E1 E2. cbn [flat_map]. now rewrite (box_border f l E1), (IH ls E2). Qed.
Lemma edge_neq a b c d : (a, b) <> (c, d) -> (r3 a, r3 b) <> (r3 c, r3 d).
Proof. intros N E. injection E as E1 E2. apply r3_inj in E1, E2. now subst. Qed.
Section Box.
Open Scope Z_scope.
Let a0 := (1, 1, 1). Let a1 := (7, 1, 1). Let a2 := (7, 7, 1). Let a3 := (1, 7, 1). Let b0 := (1, 1, 7). Let b1 := (7, 1, 7). Let b2 := (7, 7, 7). Let b3 := (1, 7, 7).
Definition sides_planes : list MFace :=
  [pface b0 (1, 0, 0) (0, 1, 0) [b0; b1; b2; b3]; pface a0 (1, 0, 0) (0, 0, 1) [a0; a1; b1; b0]; pface a1 (0, 1, 0) (0, 0, 1) [a1; a2; b2; b1]; pface a2 (-1, 0, 0) (0, 0, 1) [a2; a3; b3; b2]; pface a3 (0, -1, 0) (0, 0, 1) [a3; a0; b0; b3]].
Definition bottom_patch : MFace := mface (SBspline (patch64 (0, 0, 1) (8, 0, 1) (0, 8, 1) (8, 8, 1))) [a0; a3; a2; a1].
Definition mixed_box : list MFace := bottom_patch :: sides_planes.
Definition patch_box : list MFace :=
  [bottom_patch; mface (SBspline (patch64 (0, 0, 7) (8, 0, 7) (0, 8, 7) (8, 8, 7))) [b0; b1; b2; b3]; mface (SBspline (patch64 (0, 1, 0) (8, 1, 0) (0, 1, 8) (8, 1, 8))) [a0; a1; b1; b0];
   mface (SBspline (patch64 (7, 0, 0) (7, 8, 0) (7, 0, 8) (7, 8, 8))) [a1; a2; b2; b1]; mface (SBspline (patch64 (0, 7, 0) (8, 7, 0) (0, 7, 8) (8, 7, 8))) [a2; a3; b3; b2]; mface (SBspline (patch64 (1, 0, 0) (1, 8, 0) (1, 0, 8) (1, 8, 8))) [a3; a0; b0; b3]].
Lemma bottom_ok : mface_ok bottom_patch.
Proof. apply mface_proper; [discriminate|vm_compute; reflexivity]. Qed.
Lemma mixed_box_ok : Forall mface_ok mixed_box.
Proof.
  constructor; [exact bottom_ok|].
  repeat (constructor; [refine (lface_checked _ _ _ [_] 0%nat [] _ _ _ _); [reflexivity|reflexivity|constructor; [vm_compute; reflexivity|constructor]|left; vm_compute; reflexivity]|]). constructor.
Qed.
Lemma patch_box_ok : Forall mface_ok patch_box.
Proof. repeat (constructor; [apply mface_proper; [discriminate|vm_compute; reflexivity]|]). constructor. Qed.
Lemma loops_closed fs : map mf_loops fs = map mf_loops mixed_box \/ map mf_loops fs = map mf_loops patch_box -> closed_edges (flat_map mf_border fs).
Proof.
  intros H p q. apply eq_IZR. rewrite net_flow.
  assert (E : exists ls, map mf_loops fs = map (fun l => [map z64 l]) ls /\ (ls = [[a0; a3; a2; a1]; [b0; b1; b2; b3]; [a0; a1; b1; b0]; [a1; a2; b2; b1]; [a2; a3; b3; b2]; [a3; a0; b0; b3]])) by (eexists; split; [|reflexivity]; destruct H as [->| ->]; reflexivity).
  destruct E as (ls & E & EL).
  rewrite (boxes_border fs ls E), EL. unfold esum3, sumR. cbn [flat_map app firstn pairs combine map tl fold_right fst snd].
  assert (A : forall a b, flow p q (val3 (z64 b)) (val3 (z64 a)) = (- flow p q (val3 (z64 a)) (val3 (z64 b)))%R) by (intros; apply flow_antisym).
  pose proof (A a0 a1). pose proof (A a1 a2). pose proof (A a2 a3). pose proof (A a3 a0). pose proof (A b0 b1). pose proof (A b1 b2). pose proof (A b2 b3). pose proof (A b3 b0). pose proof (A a0 b0). pose proof (A a1 b1). pose proof (A a2 b2). pose proof (A a3 b3). lra.
Qed.
Lemma bottom_net : net (mf_border bottom_patch) (r3 a0) (r3 a3) = 1.
Proof.
  rewrite (box_border bottom_patch [a0; a3; a2; a1] eq_refl). assert (V : forall p, In p [a0; a3; a2; a1] -> val3 (z64 p) = r3 p). { intros p I. apply (z64_bounded 16); [lia|]. destruct I as [<-|[<-|[<-|[<-|[]]]]]; reflexivity. }
  cbn [app firstn pairs combine map tl]. rewrite !V by (cbn; auto). unfold net.
  rewrite (count_occ_cons_eq edge3_dec _ eq_refl). rewrite !count_occ_cons_neq by (apply edge_neq; discriminate). reflexivity.
Qed.
(** One face is a B-spline surface: every edge of it is run through twice in the same direction. *)
Theorem C71_mixed_box_refuted : Forall mface_ok mixed_box /\ closed_edges (flat_map mf_border mixed_box) /\ exists ms, mapM mf_mesh mixed_box = Ok ms /\ Forall small_mesh ms /\
  net (flat_map mesh_edges (map (vmesh val3) ms)) (r3 a3) (r3 a0) = 2.
Proof.
  split; [exact mixed_box_ok|]. assert (HC : closed_edges (flat_map mf_border mixed_box)) by (apply loops_closed; now left). split; [exact HC|].
  assert (E : exists ms, mapM mf_mesh mixed_box = Ok ms /\ Forall small_mesh ms) by (eexists; split; [vm_compute; reflexivity|repeat constructor]).
  destruct E as (ms & E & S). exists ms. split; [exact E|]. split; [exact S|]. apply (C71_edge_twice mixed_box ms mixed_box_ok E S HC). cbn [filter turned_face mixed_box bottom_patch sides_planes mface pface mf_surface mf_loops flat_map]. rewrite app_nil_r. exact bottom_net.
Qed.
(** All faces are B-spline surfaces: the triangles cancel (and all face inwards). *)
Example C71_solid64_nonvacuous : Forall mface_ok patch_box /\ closed_edges (flat_map mf_border patch_box) /\ exists ms, mapM mf_mesh patch_box = Ok ms /\ Forall small_mesh ms /\
  closed_edges (flat_map mesh_edges (map (vmesh val3) ms)).
Proof.
  split; [exact patch_box_ok|]. assert (HC : closed_edges (flat_map mf_border patch_box)) by (apply loops_closed; now right). split; [exact HC|].
  assert (E : exists ms, mapM mf_mesh patch_box = Ok ms /\ Forall small_mesh ms) by (eexists; split; [vm_compute; reflexivity|repeat constructor]).
  destruct E as (ms & E & S). exists ms. split; [exact E|]. split; [exact S|]. apply (C71_solid64 patch_box ms patch_box_ok E S); [exact HC|]. exact HC.
Qed.
End Box.
(** ** A wedge with a cylinder face *)
Section Wedge.
Open Scope Z_scope.
Let o0 := (0, 0, 0). Let a0 := (5, 0, 0). Let a1 := (4, 3, 0). Let a2 := (3, 4, 0). Let a3 := (0, 5, 0). Let o1 := (0, 0, 6). Let b0 := (5, 0, 6). Let b1 := (4, 3, 6). Let b2 := (3, 4, 6). Let b3 := (0, 5, 6).
Definition cyl64 : Cylinder f64 := {| cy_origin := z64 o0; cy_axis := z64 (0, 0, 1); cy_ref_dir := z64 (1, 0, 0); cy_radius := f64_of_Z 5 |}.
Definition wedge : list MFace :=
  [mface (SCylinder cyl64) [a0; a1; a2; a3; b3; b2; b1; b0]; pface o0 (0, 1, 0) (1, 0, 0) [o0; a3; a2; a1; a0]; pface o1 (1, 0, 0) (0, 1, 0) [o1; b0; b1; b2; b3];
   pface o0 (1, 0, 0) (0, 0, 1) [o0; a0; b0; o1]; pface o0 (0, 0, 1) (0, 1, 0) [o0; o1; b3; a3]].
Lemma wedge_ok : Forall mface_ok wedge.
Proof.
  constructor; [apply mface_proper; [discriminate|vm_compute; reflexivity]|].
  repeat (constructor; [refine (lface_checked _ _ _ [_] 0%nat [] _ _ _ _); [reflexivity|reflexivity|constructor; [vm_compute; reflexivity|constructor]|left; vm_compute; reflexivity]|]). constructor.
Qed.
Lemma wedge_closed : closed_edges (flat_map mf_border wedge).
Proof.
  intros p q. apply eq_IZR. rewrite net_flow, (boxes_border wedge [[a0; a1; a2; a3; b3; b2; b1; b0]; [o0; a3; a2; a1; a0]; [o1; b0; b1; b2; b3]; [o0; a0; b0; o1]; [o0; o1; b3; a3]] eq_refl).
  unfold esum3, sumR. cbn [flat_map app firstn pairs combine map tl fold_right fst snd].
  assert (A : forall a b, flow p q (val3 (z64 b)) (val3 (z64 a)) = (- flow p q (val3 (z64 a)) (val3 (z64 b)))%R) by (intros; apply flow_antisym).
  pose proof (A a0 a1). pose proof (A a1 a2). pose proof (A a2 a3). pose proof (A b0 b1). pose proof (A b1 b2). pose proof (A b2 b3). pose proof (A a0 b0). pose proof (A a3 b3). pose proof (A o0 a0). pose proof (A o0 a3). pose proof (A o1 b0). pose proof (A o1 b3). pose proof (A o0 o1). lra.
Qed.
(** The same with a cylinder face, whatever sin, cos and atan2 are: each of its edges is run through twice in the same direction. *)
Theorem C71_wedge_refuted : Forall mface_ok wedge /\ closed_edges (flat_map mf_border wedge) /\ exists ms, mapM mf_mesh wedge = Ok ms /\ Forall small_mesh ms /\
  net (flat_map mesh_edges (map (vmesh val3) ms)) (r3 a1) (r3 a0) = 2.
Proof.
  split; [exact wedge_ok|]. split; [exact wedge_closed|].
  assert (E : exists ms, mapM mf_mesh wedge = Ok ms /\ Forall small_mesh ms) by (eexists; split; [vm_compute; reflexivity|repeat constructor]).
  destruct E as (ms & E & S). exists ms. split; [exact E|]. split; [exact S|]. apply (C71_edge_twice wedge ms wedge_ok E S wedge_closed). change (filter turned_face wedge) with [hd bottom_patch wedge].
  rewrite (boxes_border [hd bottom_patch wedge] [[a0; a1; a2; a3; b3; b2; b1; b0]] eq_refl).
  assert (V : forall p, In p [a0; a1; a2; a3; b3; b2; b1; b0] -> val3 (z64 p) = r3 p). { intros p I. apply (z64_bounded 16); [lia|]. repeat (destruct I as [<-|I]; [reflexivity|]). destruct I. }
  cbn [flat_map app firstn pairs combine map tl]. rewrite !V by (cbn; auto 10). unfold net. rewrite (count_occ_cons_eq edge3_dec _ eq_refl). rewrite !count_occ_cons_neq by (apply edge_neq; discriminate). reflexivity.
Qed.
End Wedge.
End Solid64.
