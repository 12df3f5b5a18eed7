(** Property C68: a polyhedron from a STEP file to an OBJ file. *)
From Coq Require Import ZArith NArith Reals Lra Lia List Bool Arith Floats.SpecFloat Psatz.
From Verif Require Import Prelude Num M_vec M_utils M_curve M_polygon M_meshgen M_surface M_files M_step M_convert L_base L_vec L_geom L_cycle L_polygon L_round
  L_float L_grid L_err L_bserr Props_utils Props_bspline Props_polygon Props_ears L_simple L_sides L_twoears L_earexist L_clip Props_simple Props_segments Props_grid Props_accuracy Props_robust
  Props_merge Props_mesh Props_round Props_loops L_convex Props_trim L_drop Props_straight Props_lattice Props_trim3 Props_trim4 Props_solid Props_plane64 Props_edges64 Props_obj Props_step.

(** ** Specification: a polyhedron in a STEP file, read as ISO 10303-42 says *)
Section File.
Context {F : Type} {NF : Num F} {TF : Trig F}.
Definition point_in (t : table F) (r : nat) (p : vec3 F) : Prop := exists l, get t r = ECartesianPoint (x3 p :: y3 p :: z3 p :: l).
Definition direction_in (t : table F) (r : nat) (p : vec3 F) : Prop := exists l, get t r = EDirection (x3 p :: y3 p :: z3 p :: l).
Definition vertex_in (t : table F) (r : nat) (p : vec3 F) : Prop := exists g, get t r = EVertexPoint g /\ point_in t g p.
(** a plane face: location, axis and reference direction of its plane, whether the normal of the
    face is that of the plane, and its corners in the order of the loop *)
Record plane_face := { pf_origin : vec3 F; pf_axis : vec3 F; pf_ref : vec3 F; pf_sense : bool; pf_corners : list (vec3 F) }.
Definition sides_of (l : list (vec3 F)) : list (vec3 F * vec3 F) := pairs (l ++ firstn 1 l).
(** [fit o w a b]: the points [a] and [b] are on the line through [o] in direction [w] *)
Variable fit : vec3 F -> vec3 F -> vec3 F -> vec3 F -> Prop.
(** an oriented edge along a line, run through from [a] to [b]: against its edge curve if the flag is false *)
Definition side_in (t : table F) (r : nat) (ab : vec3 F * vec3 F) : Prop := exists el o es ee g ss p v d m org w a b,
  get t r = EOrientedEdge el o /\ get t el = EEdgeCurve es ee g ss /\ get t g = ELine p v /\ point_in t p org /\ get t v = EVector d m /\ direction_in t d w /\
  vertex_in t es a /\ vertex_in t ee b /\ fit org w a b /\ ab = (if o : bool then (a, b) else (b, a)).
(** a plane face with one loop, its orientation flag set *)
Definition face_in (t : table F) (p : nat * entity F) (f : plane_face) : Prop := exists bound g pos loc ax rf lp es,
  snd p = EAdvancedFace [bound] g (pf_sense f) /\ get t g = EPlane pos /\ get t pos = EAxis2Placement3d loc (Some ax) (Some rf) /\
  point_in t loc (pf_origin f) /\ direction_in t ax (pf_axis f) /\ direction_in t rf (pf_ref f) /\
  get t bound = EFaceBound lp true /\ get t lp = EEdgeLoop es /\ Forall2 (side_in t) es (sides_of (pf_corners f)).
Definition is_face (p : nat * entity F) : bool := match snd p with EAdvancedFace _ _ _ => true | _ => false end.
(** the faces of the file are [fs]; there are no free curves *)
Definition solid_in (t : table F) (fs : list plane_face) : Prop :=
  Forall2 (face_in t) (filter is_face t) fs /\ Forall (fun p => match snd p with ECompositeCurve _ => False | _ => True end) t.
(** no edge is run through against its edge curve *)
Definition none_reversed (t : table F) : Prop := forall r el, ~ In (r, EOrientedEdge el false) t.

(** the plane of a face as the reader makes it *)
Definition pf_plane (f : plane_face) : Plane F := let n := if pf_sense f then pf_axis f else neg3 (pf_axis f) in
  {| p_origin := pf_origin f; p_normal := n; p_u_axis := pf_ref f; p_v_axis := cross3 n (pf_ref f) |}.
(** a segment as the reader makes it, from [a] to [b] *)
Definition line_read (seg : DynSegment F) (ab : vec3 F * vec3 F) : Prop := exists org w, fit org w (fst ab) (snd ab) /\
  let l := {| l_origin := org; l_direction := w |} in
  seg = {| d_curve := DLine l; d_range := (line_project l (fst ab), line_project l (snd ab)); d_tolerance := flit 1 100; d_division := 16 |}.

(** ** Reading *)
Lemma get_In (t : table F) r e : get t r = e -> e <> EOther -> In (r, e) t.
Proof.
  unfold get. destruct (find _ t) as [[k e']|] eqn:E; [|congruence]. intros <- _. apply find_some in E as [I K]. cbn [fst] in K. apply Nat.eqb_eq in K. now subst k.
Qed.
Lemma point_in_read t r p : point_in t r p -> cartesian t r = Ok p.
Proof. intros [l E]. unfold cartesian. rewrite E. destruct p. reflexivity. Qed.
Lemma direction_in_read t r p : direction_in t r p -> direction t r = Ok (Some p).
Proof. intros [l E]. unfold direction. rewrite E. destruct p. reflexivity. Qed.
Lemma vertex_in_read t r p : vertex_in t r p -> vertex_point t r = Ok p.
Proof. intros (g & E & H). unfold vertex_point. rewrite E. now apply point_in_read. Qed.
(** the direction in which the reader runs through a side *)
Definition as_stored (t : table F) (r : nat) (ab : vec3 F * vec3 F) : vec3 F * vec3 F :=
  match get t r with EOrientedEdge _ false => (snd ab, fst ab) | _ => ab end.
Lemma side_read t r ab : side_in t r ab -> exists seg, extract_oriented_edge t r = Ok (Some seg) /\ line_read seg (as_stored t r ab).
Proof.
  intros (el & o & es & ee & g & ss & p & v & d & m & org & w & a & b & E1 & E2 & E3 & E4 & E5 & E6 & E7 & E8 & HF & EAB).
  unfold extract_oriented_edge. rewrite E1. unfold extract_edge_curve. rewrite E2. unfold extract_curve. rewrite E3, (point_in_read _ _ _ E4). cbn [obind]. rewrite E5, (direction_in_read _ _ _ E6). cbn [obind unwrap].
  rewrite (vertex_in_read _ _ _ E7). cbn [obind]. rewrite (vertex_in_read _ _ _ E8). cbn [obind dyn_curve line_curve c_project c_refine]. eexists. split; [reflexivity|].
  assert (as_stored t r ab = (a, b)) as ->. { unfold as_stored. rewrite E1. destruct o; subst ab; reflexivity. }
  exists org, w. split; [exact HF|]. reflexivity.
Qed.
Lemma filter_mapM_all {A B C} (f : A -> outcome (option B)) (P : B -> C -> Prop) l cs : Forall2 (fun x c => exists y, f x = Ok (Some y) /\ P y c) l cs -> exists ys, filter_mapM f l = Ok ys /\ Forall2 P ys cs.
Proof.
  unfold filter_mapM. induction 1 as [|x c l cs (y & E & H) _ (ys & IH & K)]; [exists []; split; [reflexivity|constructor]|]. exists (y :: ys). split; [|now constructor]. cbn [mapM]. rewrite E. cbn [obind].
  destruct (mapM f l) as [r| |]; cbn [obind] in *; try discriminate. apply Ok_inj in IH. cbn [flat_map app]. now rewrite IH.
Qed.
Lemma filter_mapM_some {A B C} (f : A -> outcome (option B)) (keep : A -> bool) (P : B -> C -> Prop) l : forall cs, (forall x, In x l -> keep x = false -> f x = Ok None) ->
  Forall2 (fun x c => exists y, f x = Ok (Some y) /\ P y c) (filter keep l) cs -> exists ys, filter_mapM f l = Ok ys /\ Forall2 P ys cs.
Proof.
  unfold filter_mapM. induction l as [|x l IH]; intros cs HN H.
  - inversion H; subst. exists []. split; [reflexivity|constructor].
  - cbn [filter] in H. destruct (keep x) eqn:Kx.
    + inversion H as [|? c ? cs' (y & E & Hy) H']; subst. destruct (IH cs') as (ys & E' & K); [intros; apply HN; [now right|assumption]|exact H'|]. exists (y :: ys). split; [|now constructor].
      cbn [mapM]. rewrite E. cbn [obind]. destruct (mapM f l) as [r| |]; cbn [obind] in *; try discriminate. apply Ok_inj in E'. cbn [flat_map app]. now rewrite E'.
    + destruct (IH cs) as (ys & E' & K); [intros; apply HN; [now right|assumption]|exact H|]. exists ys. split; [|exact K].
      cbn [mapM]. rewrite (HN x (or_introl eq_refl) Kx). cbn [obind]. destruct (mapM f l) as [r| |]; cbn [obind] in *; try discriminate. apply Ok_inj in E'. cbn [flat_map app]. now rewrite E'.
Qed.
(** what the reader makes of a face: the plane, and the sides in the order of the loop, each in the direction of its edge curve *)
Definition face_made (t : table F) (sf : StepFace) (f : plane_face) : Prop := stf_surface sf = plane_surface (pf_plane f) /\
  exists segs es, stf_bounds sf = [segs] /\ length es = length (sides_of (pf_corners f)) /\ Forall2 line_read segs (map (fun '(r, ab) => as_stored t r ab) (combine es (sides_of (pf_corners f)))).
Lemma Forall2_combine {A B} (P : A -> B -> Prop) l l' : Forall2 P l l' -> length l = length l' /\ Forall (fun '(x, y) => P x y) (combine l l').
Proof. induction 1 as [|x y l l' H _ [IH1 IH2]]; [split; [reflexivity|constructor]|]. cbn. split; [now rewrite IH1|now constructor]. Qed.
Theorem C68_read (t : table F) fs : solid_in t fs -> exists faces, read_model t = Ok (faces, []) /\ Forall2 (face_made t) faces fs.
Proof.
  intros [HF HC]. unfold read_model.
  assert (EC : filter_mapM (fun p => extract_polycurve t (snd p)) t = Ok []).
  { destruct (filter_mapM_some (fun p => extract_polycurve t (snd p)) (fun _ => false) (fun (_ : list (DynSegment F)) (_ : unit) => False) t []) as (ys & E & K).
    - intros x I _. rewrite Forall_forall in HC. specialize (HC x I). unfold extract_polycurve. destruct (snd x); try reflexivity. destruct HC.
    - assert (filter (fun _ : nat * entity F => false) t = []) as -> by (clear; induction t; auto). constructor.
    - inversion K; subst. exact E. }
  rewrite EC. cbn [obind]. destruct (filter_mapM_some (fun p => extract_face t (snd p)) is_face (face_made t) t fs) as (faces & E & K); [| |rewrite E; cbn [obind]; eauto].
  - intros x _ N. unfold is_face in N. unfold extract_face. destruct (snd x); try reflexivity. discriminate.
  - eapply Forall2_weaken; [|exact HF]. intros p f (bound & g & pos & loc & ax & rf & lp & es & E1 & E2 & E3 & E4 & E5 & E6 & E7 & E8 & HS).
    unfold extract_face. rewrite E1. unfold extract_surface. rewrite E2. unfold axis2_placement_3d. rewrite E3, (point_in_read _ _ _ E4). cbn [obind unwrap]. rewrite (direction_in_read _ _ _ E5). cbn [obind]. rewrite (direction_in_read _ _ _ E6). cbn [obind unwrap].
    destruct (Forall2_combine _ _ _ HS) as [HL HS'].
    destruct (filter_mapM_all (extract_oriented_edge t) line_read es (map (fun '(r, ab) => as_stored t r ab) (combine es (sides_of (pf_corners f))))) as (segs & ES & KS).
    { clear -HS. induction HS as [|r ab es l H _ IH]; [constructor|]. cbn [combine map]. constructor; [now apply side_read|exact IH]. }
    unfold filter_mapM at 1. cbn [mapM]. unfold extract_bound. rewrite E7, E8, ES. cbn [obind flat_map app]. eexists. split; [reflexivity|]. split; [reflexivity|]. exists segs, es. cbn [stf_bounds]. auto.
Qed.
(** without reversed edges the sides are read as they are *)
Lemma none_stored t r ab : none_reversed t -> as_stored t r ab = ab.
Proof.
  intros H. unfold as_stored. destruct (get t r) eqn:E; try reflexivity. destruct orientation; [reflexivity|]. exfalso. apply (H r element). apply get_In; [exact E|discriminate].
Qed.
Lemma none_stored_map t es l : none_reversed t -> length es = length l -> map (fun '(r, ab) => as_stored t r ab) (combine es l) = l.
Proof. intros H. revert l. induction es as [|r es IH]; intros [|ab l] HL; try discriminate; [reflexivity|]. cbn. rewrite none_stored by exact H. f_equal. apply IH. cbn in HL. lia. Qed.
(** two sides along the same edge curve are read in the same direction, whatever the flags *)
Theorem C68_shared_edge (t : table F) r r' el o o' : get t r = EOrientedEdge el o -> get t r' = EOrientedEdge el o' -> extract_oriented_edge t r = extract_oriented_edge t r'.
Proof. intros E E'. unfold extract_oriented_edge. now rewrite E, E'. Qed.
End File.
Arguments plane_face : clear implicits.

(** ** Writing *)
(** the corners of the triangles read from an OBJ file *)
Definition obj_tris {F} (faces : list (list (vec3 F * option (vec3 F)))) : list (list (vec3 F)) := map (map fst) faces.
Definition tris_edges (T : list (list (vec3 R))) : list edge3 := flat_map (fun t => match t with [a; b; c] => [(a, b); (b, c); (c, a)] | _ => [] end) T.
Definition tris_vol6 (o : vec3 R) (T : list (list (vec3 R))) : R := sumR (fun t => match t with [a; b; c] => pyramid6 o (a, b, c) | _ => 0%R end) T.
Lemma faces_tris (m : TriangleMesh R) T fs : mesh_faces m T fs -> obj_tris fs = map (fun '(a, b, c) => [a; b; c]) (mesh_tris m).
Proof.
  intros [E H]. unfold mesh_tris. rewrite E. clear E. induction H as [|[[a b] c] f T fs (pa & pb & pc & -> & [Ca _] & [Cb _] & [Cc _]) _ IH]; [reflexivity|].
  change (Props_gridmesh.flat3 ((a, b, c) :: T)) with (a :: b :: c :: Props_gridmesh.flat3 T). cbn [mesh_triangles_of map obj_tris]. unfold obj_tris in IH. rewrite <- IH. cbn [map]. apply (nth_error_nth _ _ (V3 0 0 0)%R) in Ca, Cb, Cc. now rewrite Ca, Cb, Cc.
Qed.
Lemma tris_edges_app T U : tris_edges (T ++ U) = tris_edges T ++ tris_edges U.
Proof. apply flat_map_app. Qed.
Lemma tris_edges_mesh m : tris_edges (map (fun '(a, b, c) => [a; b; c]) (mesh_tris m)) = mesh_edges m.
Proof. unfold tris_edges, mesh_edges. induction (mesh_tris m) as [|[[a b] c] l IH]; [reflexivity|]. cbn [map flat_map]. now rewrite IH. Qed.
Lemma tris_vol_mesh o m : tris_vol6 o (map (fun '(a, b, c) => [a; b; c]) (mesh_tris m)) = mesh_vol6 o m.
Proof. unfold tris_vol6, mesh_vol6, sumR. induction (mesh_tris m) as [|[[a b] c] l IH]; [reflexivity|]. cbn [map fold_right]. now rewrite IH. Qed.
Lemma tris_all (ms : list (TriangleMesh R)) fss : Forall2 (fun m fs => exists T, mesh_faces m T fs) ms fss ->
  tris_edges (obj_tris (concat fss)) = flat_map mesh_edges ms /\ forall o, tris_vol6 o (obj_tris (concat fss)) = sumR (mesh_vol6 o) ms.
Proof.
  induction 1 as [|m fs ms fss (T & H) _ [IH1 IH2]]; [split; reflexivity|]. apply faces_tris in H. unfold obj_tris in *. cbn [concat flat_map]. rewrite map_app, tris_edges_app, H, IH1, tris_edges_mesh. split; [reflexivity|].
  intros o. unfold tris_vol6, sumR in *. rewrite map_app. assert (A : forall l l', fold_right Rplus 0%R (l ++ l') = (fold_right Rplus 0 l + fold_right Rplus 0 l')%R) by (induction l as [|x l IHl]; intros l'; cbn [app fold_right]; [|rewrite IHl]; ring).
  rewrite A. cbn [map fold_right]. rewrite IH2. f_equal. exact (tris_vol_mesh o m).
Qed.
Theorem C68_text {F} {NF : Num F} {TF : Trig F} (fmt fmt2 : F -> list N) parse fuel rnd srnd (t : table F) faces ms : read_model t = Ok (faces, []) -> faces <> [] -> step_meshes fuel rnd faces = map Ok ms ->
  Forall valid_mesh ms -> Forall (fun m => Forall (faithful3 fmt parse) (m_vertices m) /\ Forall (faithful3 fmt parse) (m_normals m)) ms ->
  (1 + total m_vertices ms < 2 ^ 32)%N -> (1 + total m_normals ms < 2 ^ 32)%N ->
  exists text fss, convert_stp fmt fmt2 fuel rnd srnd t = Ok (Some text, None) /\ read_obj parse text = Some (concat fss) /\ Forall2 (fun m fs => exists T, mesh_faces m T fs) ms fss.
Proof.
  intros ER NE EM HV HF Tv Tn. destruct (C50_roundtrip fmt parse ms HV HF Tv Tn) as (text & fss & E & R & K). exists text, fss. split; [|auto]. unfold convert_stp. rewrite ER. cbn [obind].
  destruct faces as [|f faces]; [congruence|]. cbn [length]. change (0 <? S (length faces))%nat with true. cbv iota. rewrite EM, E. reflexivity.
Qed.
Lemma emit_flat3 T : emit T = Props_gridmesh.flat3 (map (fun '(a, b, c) => (as_u32 a, as_u32 b, as_u32 c)) T).
Proof. unfold emit. induction T as [|[[a b] c] T IH]; [reflexivity|]. cbn [flat_map map]. rewrite IH. reflexivity. Qed.
Lemma emit_valid {F} (m : TriangleMesh F) T : m_triangles m = emit T -> m_normals m = [] -> (N.of_nat (length (m_vertices m)) <= 2 ^ 32)%N ->
  Forall (fun '(i, j, k) => i < length (m_vertices m) /\ j < length (m_vertices m) /\ k < length (m_vertices m))%nat T -> valid_mesh m.
Proof.
  intros ET EN HL HT. exists (map (fun '(a, b, c) => (as_u32 a, as_u32 b, as_u32 c)) T). split; [now rewrite ET, emit_flat3|]. apply Forall_map. eapply Forall_impl; [|exact HT]. intros [[a b] c] (Ha & Hb & Hc) k Hk.
  assert (U : forall i, (i < length (m_vertices m))%nat -> N.to_nat (as_u32 i) = i) by (intros i Hi; unfold as_u32; rewrite N.mod_small by lia; lia).
  split; [|now left]. destruct Hk as [->|[->| ->]]; rewrite U; assumption.
Qed.

(** ** In exact arithmetic *)
Section Exact.
Context {TF : Trig R}.
Open Scope R_scope.
Definition fitR (o w a b : vec3 R) : Prop := unit3 w /\ (exists s, a = vadd o (vmulr w s)) /\ (exists s, b = vadd o (vmulr w s)).
(** a face: corners apart; seen along the normal of the face a simple counter-clockwise polygon in which a corner pointing inwards is never between other corners *)
Definition good_face (f : plane_face R) : Prop := let vs := pf_corners f in let ps := map (plane_project (pf_plane f)) vs in
  corners_apart vs /\ (3 <= length vs)%nat /\ (N.of_nat (length vs) < 2 ^ 32 - 1)%N /\ proper_polygon ps /\ resolved ps /\ 0 < area2 ps /\ forall v, ~ reflex_between ps v.
(** straight corners only on faces without inward corners *)
Definition sharp_face (f : plane_face R) : Prop := let ps := map (plane_project (pf_plane f)) (pf_corners f) in
  (forall i, (i < length (pf_corners f))%nat -> turn ps i <> 0) \/ (forall i, (i < length (pf_corners f))%nat -> 0 <= turn ps i).
(** the corners are on the plane of the face, whose reference direction and axis are of unit length and perpendicular *)
Definition flat_face (f : plane_face R) : Prop := unit3 (pf_ref f) /\ unit3 (pf_axis f) /\ dot3 (pf_ref f) (pf_axis f) = 0 /\ Forall (fun p => dot3 (vsub p (pf_origin f)) (pf_axis f) = 0) (pf_corners f).
Lemma frame_decompose (x z d : vec3 R) : unit3 x -> unit3 z -> dot3 x z = 0 -> dot3 d z = 0 -> d = vadd (vmulr x (dot3 d x)) (vmulr (cross3 z x) (dot3 d (cross3 z x))).
Proof.
  intros Ux Uz O Hd. assert (L : dot3 (cross3 z x) (cross3 z x) = 1). { rewrite lagrange3. unfold unit3 in *. rewrite Ux, Uz. replace (dot3 z x) with (dot3 x z) by (unfold dot3; vsimp; rnum; ring). rewrite O. ring. }
  assert (YZ : cross3 (cross3 z x) z = x). { transitivity (vsub (vmulr x (dot3 z z)) (vmulr z (dot3 x z))); [destruct x, z; unfold cross3, dot3; vsimp; f_equal; ring|]. unfold unit3 in Uz. rewrite Uz, O. destruct x, z. vsimp. f_equal; ring. }
  transitivity (vmulr d (dot3 (cross3 z x) (cross3 z x))); [rewrite L; clear; destruct d; vsimp; rnum; f_equal; ring|].
  transitivity (vadd (vadd (vmulr (cross3 (cross3 z x) z) (dot3 d x)) (vmulr (cross3 z x) (dot3 d (cross3 z x)))) (vmulr (cross3 x (cross3 z x)) (dot3 d z))).
  - destruct d, x, z. unfold cross3, dot3. vsimp. f_equal; ring.
  - rewrite YZ, Hd. destruct (cross3 x (cross3 z x)), (cross3 z x), x. vsimp. f_equal; ring.
Qed.
Lemma flat_face_flat (f : plane_face R) : flat_face f -> orthonormal (p_u_axis (pf_plane f)) (p_v_axis (pf_plane f)) /\ Forall (on_plane (pf_plane f)) (pf_corners f).
Proof.
  intros (Ux & Uz & O & HF). unfold pf_plane. cbn [p_u_axis p_v_axis]. set (z := if pf_sense f then pf_axis f else neg3 (pf_axis f)).
  assert (Uz' : unit3 z) by (unfold z; destruct (pf_sense f); [exact Uz|unfold unit3, dot3, neg3 in *; vsimp; rewrite <- Uz; ring]).
  assert (O' : dot3 (pf_ref f) z = 0) by (unfold z; destruct (pf_sense f); [exact O|unfold dot3, neg3 in *; vsimp; lra]).
  split.
  - split; [exact Ux|]. split.
    + unfold unit3 in *. rewrite lagrange3, Ux, Uz'. replace (dot3 z (pf_ref f)) with (dot3 (pf_ref f) z) by (unfold dot3; vsimp; rnum; ring). rewrite O'. ring.
    + unfold dot3, cross3. vsimp. ring.
  - eapply Forall_impl; [|exact HF]. intros p Hp. assert (Hp' : dot3 (vsub p (pf_origin f)) z = 0) by (unfold z; destruct (pf_sense f); [exact Hp|unfold dot3, neg3 in *; vsimp; lra]).
    exists (dot3 (vsub p (pf_origin f)) (pf_ref f)), (dot3 (vsub p (pf_origin f)) (cross3 z (pf_ref f))). unfold plane_get_point. cbn [p_origin p_u_axis p_v_axis].
    pose proof (frame_decompose _ _ _ Ux Uz' O' Hp') as K. set (q := vadd (vmulr (pf_ref f) _) _) in K. transitivity (vadd (pf_origin f) q); [rewrite <- K; clear; destruct p, (pf_origin f); vsimp; f_equal; ring|]. unfold q. set (a := dot3 _ _). set (b := dot3 _ _). clear.
    destruct (pf_origin f), (pf_ref f), (cross3 z _). vsimp. f_equal; ring.
Qed.
(** a side is read as a straight segment *)
Lemma line_straight seg a b : line_read fitR seg (a, b) -> Props_loops.straight (dyn_segment seg) a b.
Proof.
  intros (o & w & (Uw & (s & Ea) & (s' & Eb)) & E). cbn [fst snd] in *. cbv zeta in E. subst seg. split; [cbn [dyn_segment s_tolerance d_tolerance]; rnum; lra|]. intros u.
  assert (I : forall s, line_project {| l_origin := o; l_direction := w |} (vadd o (vmulr w s)) = s) by (apply C27_line_inverse; exact Uw).
  cbn [dyn_segment s_curve d_curve dyn_curve line_curve c_get_point s_range d_range]. unfold range_at. cbn [fst snd]. rewrite Ea, Eb, !I. unfold line_get_point. cbn [l_origin l_direction]. f_equal. destruct o, w. vsimp. rnum. f_equal; ring.
Qed.
Lemma face_made_loop fuel rnd t sf f : none_reversed t -> face_made fitR t sf f -> corners_apart (pf_corners f) -> (2 <= length (pf_corners f))%nat ->
  exists segs, stf_surface sf = plane_surface (pf_plane f) /\ stf_bounds sf = [segs] /\ proper_loops (S fuel) rnd [map dyn_segment segs] [pf_corners f].
Proof.
  intros HN (ES & segs & es & EB & HL & HR) HA H2. rewrite none_stored_map in HR by assumption. exists segs. split; [exact ES|]. split; [exact EB|]. set (vs := pf_corners f) in *. clearbody vs.
  destruct vs as [|a [|b l]]; cbn [length] in H2; try lia. exists [a :: b :: l]. split; [|reflexivity]. split; [reflexivity|].
  intros k e p. destruct k as [|[|k]]; cbn [nth_error]; try discriminate. intros E1 E2. injection E1 as <-. injection E2 as <-. apply C53_straight_loop; [discriminate| |exact HA].
  unfold sides_of in HR. cbn [firstn app] in HR. change (a :: (b :: l) ++ [a]) with (a :: b :: l ++ [a]). clear -HR. induction HR as [|seg [x y] segs r H _ IH]; [constructor|]. cbn [map]. constructor; [now apply line_straight|exact IH].
Qed.
(** C68: a polyhedron without reversed edges is written with all its faces filled; the triangles in the file have no border and enclose its volume *)
Lemma good_mesh fuel rnd t sf f : none_reversed t -> face_made fitR t sf f -> good_face f -> exists m, step_face_mesh (S fuel) rnd sf = Ok m /\ valid_mesh m /\ m_normals m = [] /\
  (length (m_vertices m) <= length (pf_corners f) + 1)%nat /\
  (exists extra, m_vertices m = pf_corners f ++ extra /\ (extra = [] \/ exists c, extra = [c] /\ mean_of (pf_corners f) c)) /\
  (sharp_face f -> forall p q, net (mesh_edges m) p q = net (border (pf_corners f)) p q) /\ (flat_face f -> forall o, mesh_vol6 o m = loop_vol6 o (pf_corners f)).
Proof.
  intros HN HM (HA & H3 & HU & HP & HR & H0 & HB). destruct (face_made_loop fuel rnd t sf f HN HM HA ltac:(lia)) as (segs & ES & EB & HL).
  unfold step_face_mesh, trimmed_get_triangle_mesh. cbn [ts_surface ts_bounds]. rewrite ES, EB. cbn [map plane_surface sf_trim].
  set (fc := {| fc_plane := pf_plane f; fc_fuel := S fuel; fc_rnd := rnd; fc_edges := map dyn_segment segs; fc_corners := pf_corners f |}).
  assert (OK : face_ok fc). { unfold face_ok, fc_flat. cbn [fc fc_plane fc_fuel fc_rnd fc_edges fc_corners]. split; [exact HL|]. split; [exact H3|]. split; [lia|]. auto. }
  destruct (face_mesh fc OK) as (m & kept & Em & _ & HK & _ & HE & HV). unfold fc_mesh in Em. cbn [fc fc_plane fc_fuel fc_rnd fc_edges fc_corners] in Em, HK, HE, HV. exists m. split; [exact Em|].
  destruct (C45_proper (pf_plane f) (S fuel) rnd [map dyn_segment segs] (pf_corners f) HL H3 ltac:(lia) HP HR H0 HB) as (m' & extra & T & kept' & Em' & EV & EN & ET & C & _ & FT & _). rewrite Em in Em'. apply Ok_inj in Em'. subst m'.
  assert (LV : (length (m_vertices m) <= length (pf_corners f) + 1)%nat) by (rewrite EV, app_length; destruct C as [(_ & (c & -> & _) & _)|(_ & -> & _)]; cbn [length]; lia).
  split; [|split; [exact EN|split; [exact LV|split; [|split]]]].
  - apply (emit_valid m T ET EN); [lia|]. cbv zeta in FT. rewrite map_length in FT. eapply Forall_impl; [|exact FT]. intros [[i j] k] (Hi & Hj & Hk & _). auto.
  - exists extra. split; [exact EV|]. destruct C as [(_ & K & _)|(_ & K & _)]; auto.
  - intros HS p q. rewrite HE, HK; [reflexivity|exact HS].
  - intros HF o. apply HV. unfold face_flat. cbn [fc fc_plane fc_corners]. now apply flat_face_flat.
Qed.
(** the meshes of the faces, in order *)
Definition made_of (f : plane_face R) (m : TriangleMesh R) : Prop := valid_mesh m /\ m_normals m = [] /\
  (exists extra, m_vertices m = pf_corners f ++ extra /\ (extra = [] \/ exists c, extra = [c] /\ mean_of (pf_corners f) c)) /\
  (sharp_face f -> forall p q, net (mesh_edges m) p q = net (border (pf_corners f)) p q) /\ (flat_face f -> forall o, mesh_vol6 o m = loop_vol6 o (pf_corners f)).
Lemma meshes_made {F} {NF : Num F} {A B} (mesh : nat -> A -> outcome (TriangleMesh F)) (P : A -> B -> Prop) (Q : B -> TriangleMesh F -> Prop) faces fs :
  Forall2 P faces fs -> (forall k sf f, In f fs -> P sf f -> exists m, mesh k sf = Ok m /\ Q f m) -> exists ms, map (fun '(k, f) => mesh k f) (enumerate faces) = map Ok ms /\ Forall2 Q fs ms.
Proof.
  intros H. unfold enumerate. generalize 0%nat as k. induction H as [|sf f faces fs H _ IH]; intros k HQ; [exists []; split; [reflexivity|constructor]|].
  destruct (HQ k sf f (or_introl eq_refl) H) as (m & E & Hm). destruct (IH (S k)) as (ms & E' & Hms); [intros; apply HQ; [now right|assumption]|]. exists (m :: ms). cbn [length seq combine map]. rewrite E, E'. split; [reflexivity|now constructor].
Qed.
Theorem C68_polyhedron (t : table R) fs : solid_in fitR t fs -> none_reversed t -> fs <> [] -> Forall good_face fs ->
  (N.of_nat (length (flat_map pf_corners fs) + length fs) < 2 ^ 32 - 1)%N ->
  forall fmt fmt2 parse fuel rnd srnd,
    (* the coordinates of the corners, and of the means of the corners of a face, are written faithfully *)
    (forall f p, In f fs -> In p (pf_corners f) \/ mean_of (pf_corners f) p -> faithful3 fmt parse p) ->
  exists text tris, convert_stp fmt fmt2 (S fuel) rnd srnd t = Ok (Some text, None) /\ read_obj parse text = Some tris /\
    (Forall sharp_face fs -> (forall p q, net (tris_edges (obj_tris tris)) p q = net (flat_map (fun f => border (pf_corners f)) fs) p q) /\
       (closed_edges (flat_map (fun f => border (pf_corners f)) fs) -> closed_edges (tris_edges (obj_tris tris)))) /\
    (Forall flat_face fs -> forall o, tris_vol6 o (obj_tris tris) = sumR (fun f => loop_vol6 o (pf_corners f)) fs).
Proof.
  intros HS HN NE HG HL fmt fmt2 parse fuel rnd srnd HF. destruct (C68_read fitR t fs HS) as (faces & ER & HM). rewrite Forall_forall in HG.
  destruct (meshes_made (fun k sf => step_face_mesh (S fuel) (rnd k) sf) (face_made fitR t) made_of faces fs HM) as (ms & EM & MM).
  { intros k sf f If Hf. destruct (good_mesh fuel (rnd k) t sf f HN Hf (HG f If)) as (m & E & V & N & _ & X & K1 & K2). exists m. split; [exact E|]. repeat split; assumption. }
  assert (T1 : (length (flat_map m_vertices ms) <= length (flat_map pf_corners fs) + length fs)%nat).
  { clear -MM. induction MM as [|f m fs ms (_ & _ & (extra & EV & C) & _) _ IH]; [reflexivity|]. cbn [flat_map length]. rewrite !app_length, EV, app_length. destruct C as [->|(c & -> & _)]; cbn [length]; lia. }
  assert (T2 : flat_map m_normals ms = []) by (clear -MM; induction MM as [|f m fs ms (_ & EN & _) _ IH]; [reflexivity|]; cbn [flat_map]; now rewrite EN, IH).
  assert (NF0 : faces <> []) by (intros ->; inversion HM; subst; congruence).
  destruct (C68_text fmt fmt2 parse (S fuel) rnd srnd t faces ms ER NF0 EM) as (text & fss & ET & RT & FF).
  - clear -MM. induction MM as [|f m fs ms (V & _) _ IH]; constructor; assumption.
  - clear -MM HF. induction MM as [|f m fs ms (_ & EN & (extra & EV & C) & _) _ IH]; constructor; [|apply IH; intros g p Ig; apply HF; now right]. rewrite EN. split; [|constructor]. rewrite EV. apply Forall_forall. intros p Ip.
    apply (HF f p (or_introl eq_refl)). apply in_app_or in Ip as [Ip|Ip]; [now left|]. destruct C as [->|(c & -> & HC)]; [destruct Ip|]. destruct Ip as [<-|[]]. now right.
  - unfold total. lia.
  - unfold total. rewrite T2. cbn. lia.
  - exists text, (concat fss). split; [exact ET|]. split; [exact RT|]. destruct (tris_all ms fss FF) as [TE TV]. rewrite TE.
    assert (K : Forall sharp_face fs -> forall p q, net (flat_map mesh_edges ms) p q = net (flat_map (fun f => border (pf_corners f)) fs) p q).
    { clear -MM. induction MM as [|f m fs ms (_ & _ & _ & K & _) _ IH]; [reflexivity|]. intros HS p q. inversion HS; subst. cbn [flat_map]. rewrite !net_app, K, IH by assumption. reflexivity. }
    split; [intros HSh; split; [now apply K|intros HC p q; rewrite K by exact HSh; apply HC]|].
    intros HFl o. rewrite TV. clear -MM HFl. induction MM as [|f m fs ms (_ & _ & _ & _ & K) _ IH]; [reflexivity|]. inversion HFl; subst. unfold sumR in *. cbn [map fold_right]. rewrite K, IH by assumption. reflexivity.
Qed.
End Exact.

(** ** In doubles *)
Section Doubles.
Context {TF : Trig f64}.
Open Scope R_scope.
(** a line and two points near it: coordinates up to [M], a direction of unit length up to 8 eps, and points off the line by at most 4 eps [M] *)
Definition fit64 (M : R) (o w a b : vec3 f64) : Prop := bounded3 M o /\ bounded3 1 w /\ bounded3 M a /\ bounded3 M b /\
  Rabs (dot3 (val3 w) (val3 w) - 1) <= 8 * eps /\
  let at_ s := vadd (val3 o) (vmulr (val3 w) s) in
  (exists s, within (4 * (eps * M)) (vsub (at_ s) (val3 a))) /\ (exists s, within (4 * (eps * M)) (vsub (at_ s) (val3 b))).
Lemma abs_mul_le x y a b : Rabs x <= a -> Rabs y <= b -> Rabs (x * y) <= a * b.
Proof. intros. rewrite Rabs_mult. apply Rmult_le_compat; auto using Rabs_pos. Qed.
(** the parameter the reader finds for such a point *)
Lemma project64 M (o w a : vec3 f64) s : 1 <= M <= pow2 480 -> bounded3 M o -> bounded3 1 w -> bounded3 M a -> Rabs (dot3 (val3 w) (val3 w) - 1) <= 8 * eps ->
  within (4 * (eps * M)) (vsub (vadd (val3 o) (vmulr (val3 w) s)) (val3 a)) ->
  let u := line_project {| l_origin := o; l_direction := w |} a in num64 u /\ Rabs (val u) <= 7 * M /\ within (128 * (eps * M)) (vsub (vadd (val3 o) (vmulr (val3 w) (val u))) (val3 a)).
Proof.
  intros HM0 (O1 & O2 & O3 & O4 & O5 & O6) (W1 & W2 & W3 & W4 & W5 & W6) (A1 & A2 & A3 & A4 & A5 & A6) HU (D1 & D2 & D3) u.
  assert (HM : 1 <= M <= pow2 490) by (split; [apply HM0|]; eapply Rle_trans; [apply HM0|apply pow2_le; lia]). pose proof (epsM M HM) as EM. pose proof eps_tiny as [F1 F2].
  assert (V : forall x y : f64, num64 x -> num64 y -> Rabs (val x) <= M -> Rabs (val y) <= M -> appr M (21 / 10) 2 (fsub x y) (val x - val y)).
  { intros x y Nx Ny Bx By. pose proof (appr_sub M HM _ _ _ _ _ _ _ _ (appr_exact M x 1 Nx ltac:(lra)) (appr_exact M y 1 Ny ltac:(lra)) ltac:(lra) ltac:(lra) ltac:(lra)) as K.
    eapply appr_weaken; [exact K| |destruct K as (_ & _ & K); eapply Rle_trans; [exact K|apply Req_le; ring]]. rewrite Rminus_diag_eq, Rabs_R0 by reflexivity. apply Rmult_le_pos; lra. }
  pose proof (appr_scale M HM _ _ _ (x3 w) _ (V _ _ A1 O1 A4 O4) W1 W4 ltac:(lra) ltac:(lra)) as P1. pose proof (appr_scale M HM _ _ _ (y3 w) _ (V _ _ A2 O2 A5 O5) W2 W5 ltac:(lra) ltac:(lra)) as P2. pose proof (appr_scale M HM _ _ _ (z3 w) _ (V _ _ A3 O3 A6 O6) W3 W6 ltac:(lra) ltac:(lra)) as P3.
  pose proof (appr_add M HM _ _ _ _ _ _ _ _ (appr_add M HM _ _ _ _ _ _ _ _ P1 P2 ltac:(lra) ltac:(lra) ltac:(lra)) P3 ltac:(lra) ltac:(lra) ltac:(lra)) as S. 
  change (fadd (fadd (fmul (fsub (x3 a) (x3 o)) (x3 w)) (fmul (fsub (y3 a) (y3 o)) (y3 w))) (fmul (fsub (z3 a) (z3 o)) (z3 w))) with u in S. clearbody u. destruct S as (Nu & Eu & Bu).
  change (Rabs (val (x3 o) + val (x3 w) * s - val (x3 a)) <= 4 * (eps * M)) in D1. change (Rabs (val (y3 o) + val (y3 w) * s - val (y3 a)) <= 4 * (eps * M)) in D2. change (Rabs (val (z3 o) + val (z3 w) * s - val (z3 a)) <= 4 * (eps * M)) in D3.
  change (Rabs (val (x3 w) * val (x3 w) + val (y3 w) * val (y3 w) + val (z3 w) * val (z3 w) - 1) <= 8 * eps) in HU.
  set (w1 := val (x3 w)) in *. set (w2 := val (y3 w)) in *. set (w3 := val (z3 w)) in *. set (a1 := val (x3 a)) in *. set (a2 := val (y3 a)) in *. set (a3 := val (z3 a)) in *. set (o1 := val (x3 o)) in *. set (o2 := val (y3 o)) in *. set (o3 := val (z3 o)) in *.
  set (E := eps * M) in *.
  (* the size of s *)
  assert (Q : forall x y z d, Rabs (x + y * s - z) <= d -> Rabs x <= M -> Rabs z <= M -> d <= / 100 * M -> Rabs (y * s) <= 201 / 100 * M).
  { intros x y z d H1 H2 H3 H4. replace (y * s) with ((x + y * s - z) + (z - x)) by ring. eapply Rle_trans; [apply Rabs_triang|]. pose proof (Rabs_minus_triang z x). lra. }
  assert (Sm : 4 * E <= / 100 * M) by lra. pose proof (Q _ _ _ _ D1 O4 A4 Sm) as Q1. pose proof (Q _ _ _ _ D2 O5 A5 Sm) as Q2. pose proof (Q _ _ _ _ D3 O6 A6 Sm) as Q3.
  assert (SQ : s * s <= 16 * (M * M)).
  { assert (R1 : (w1 * s) * (w1 * s) <= 5 * (M * M)) by (pose proof (abs_mul_le _ _ _ _ Q1 Q1) as K; rewrite Rabs_right in K by (apply Rle_ge, Rle_0_sqr); nra).
    assert (R2 : (w2 * s) * (w2 * s) <= 5 * (M * M)) by (pose proof (abs_mul_le _ _ _ _ Q2 Q2) as K; rewrite Rabs_right in K by (apply Rle_ge, Rle_0_sqr); nra).
    assert (R3 : (w3 * s) * (w3 * s) <= 5 * (M * M)) by (pose proof (abs_mul_le _ _ _ _ Q3 Q3) as K; rewrite Rabs_right in K by (apply Rle_ge, Rle_0_sqr); nra).
    assert (L : s * s * (99 / 100) <= s * s * (w1 * w1 + w2 * w2 + w3 * w3)). { apply Rmult_le_compat_l; [apply Rle_0_sqr|]. apply abs_between in HU. lra. }
    assert (s * s * (w1 * w1 + w2 * w2 + w3 * w3) = w1 * s * (w1 * s) + w2 * s * (w2 * s) + w3 * s * (w3 * s)) by ring. assert (0 <= M * M) by (apply Rle_0_sqr). lra. }
  assert (Bs : Rabs s <= 4 * M). { destruct (Rle_or_lt (Rabs s) (4 * M)) as [K|K]; [exact K|]. exfalso. assert (4 * M * (4 * M) < Rabs s * Rabs s) by (apply Rmult_le_0_lt_compat; lra). rewrite <- Rabs_mult, Rabs_right in H by (apply Rle_ge, Rle_0_sqr). lra. }
  (* the error of the parameter *)
  assert (Es : Rabs (val u - s) <= 70 * E).
  { set (X := (a1 - o1) * w1 + (a2 - o2) * w2 + (a3 - o3) * w3) in *.
    assert (EX : X - s = s * (w1 * w1 + w2 * w2 + w3 * w3 - 1) - ((o1 + w1 * s - a1) * w1 + (o2 + w2 * s - a2) * w2 + (o3 + w3 * s - a3) * w3)) by (unfold X; ring).
    pose proof (abs_mul_le _ _ _ _ Bs HU) as K1. pose proof (abs_mul_le _ _ _ _ D1 W4) as K2. pose proof (abs_mul_le _ _ _ _ D2 W5) as K3. pose proof (abs_mul_le _ _ _ _ D3 W6) as K4.
    assert (K5 : Rabs (X - s) <= 44 * E). { rewrite EX. apply Rabs_le_inv in K1, K2, K3, K4. assert (4 * M * (8 * eps) = 32 * E) by (unfold E; ring). apply Rabs_le. lra. }
    replace (val u - s) with ((val u - X) + (X - s)) by ring. eapply Rle_trans; [apply Rabs_triang|]. lra. }
  split; [exact Nu|]. split. { replace (val u) with ((val u - s) + s) by ring. eapply Rle_trans; [apply Rabs_triang|]. lra. }
  assert (G : forall x y z, Rabs (x + y * s - z) <= 4 * E -> Rabs y <= 1 -> Rabs (x + y * val u - z) <= 128 * E).
  { intros x y z H1 H2. replace (x + y * val u - z) with ((x + y * s - z) + y * (val u - s)) by ring. eapply Rle_trans; [apply Rabs_triang|]. pose proof (abs_mul_le _ _ _ _ H2 Es). lra. }
  split; [|split]; [apply (G o1 w1 a1)|apply (G o2 w2 a2)|apply (G o3 w3 a3)]; assumption.
Qed.
(** C68: a straight edge read from a file, in doubles, is straight up to rounding *)
Theorem C68_edge64 M seg (ab : vec3 f64 * vec3 f64) : 1 <= M <= pow2 30 -> line_read (fit64 M) seg ab -> straight64 (64 * M) (dyn_segment seg) (val3 (fst ab)) (val3 (snd ab)).
Proof.
  intros HM0 (o & w & (Bo & Bw & Ba & Bb & HU & (s & Hs) & (s' & Hs')) & ES). destruct ab as [a b]. cbn [fst snd] in *. cbv zeta in ES, Hs, Hs'.
  assert (HM : 1 <= M <= pow2 480) by (split; [apply HM0|]; eapply Rle_trans; [apply HM0|apply pow2_le; lia]).
  assert (E64 : pow2 6 = 64) by (rewrite <- pow2_Z by lia; reflexivity). assert (P489 : 64 * M <= pow2 489).
  { apply Rle_trans with (pow2 (6 + 480)); [rewrite pow2_add, E64; apply Rmult_le_compat_l; lra|apply pow2_le; lia]. }
  destruct (project64 M o w a s HM Bo Bw Ba HU Hs) as (N0 & B0 & W0). destruct (project64 M o w b s' HM Bo Bw Bb HU Hs') as (N1 & B1 & W1).
  apply C67_line; [lra|]. exists {| l_origin := o; l_direction := w |}, 1, (7 * M). subst seg. cbn [dyn_segment s_curve d_curve dyn_curve s_range d_range s_tolerance d_tolerance fst snd l_origin l_direction].
  destruct hundredth as [Nt Lt]. assert (Wk : forall p, bounded3 M p -> within (64 * M) (val3 p)) by (intros p (_ & _ & _ & H1 & H2 & H3); unfold within, val3; cbn [x3 y3 z3]; lra).
  split; [reflexivity|]. split; [now apply Wk|]. split; [now apply Wk|]. split; [exact Nt|]. split.
  { assert (pow2 (-46) * (64 * M) <= pow2 (-46) * (pow2 6 * pow2 30)) by (rewrite E64; apply Rmult_le_compat_l; [apply Rlt_le, pow2_pos|lra]). rewrite <- !pow2_add in H. change (-46 + (6 + 30))%Z with (-10)%Z in H.
    assert (pow2 (-10) = / 1024) by (apply (Rmult_eq_reg_l (pow2 10)); [|pose proof (pow2_pos 10); lra]; rewrite <- pow2_add; change (10 + -10)%Z with 0%Z; replace (pow2 10) with 1024 by (rewrite <- pow2_Z by lia; reflexivity); replace (pow2 0) with 1 by (rewrite <- pow2_Z by lia; reflexivity); lra). lra. }
  split. { destruct Bo as (K1 & K2 & K3 & K4 & K5 & K6). unfold bounded3. split; [exact K1|]. split; [exact K2|]. split; [exact K3|]. lra. }
  split; [exact Bw|]. split; [lra|]. split; [lra|]. split; [lra|]. split; [exact N0|]. split; [exact N1|]. split; [exact B0|]. split; [exact B1|].
  replace (2 * (eps * (64 * M))) with (128 * (eps * M)) by ring. split; assumption.
Qed.
(** C68: the random numbers drawn while sampling do not matter *)
Lemma straight_ends M e A B fuel rnd : 1 <= M <= pow2 490 -> straight64 M e A B -> oracle64 rnd -> exists a b, c_get_point (s_curve e) (fst (s_range e)) = Ok a /\ c_get_point (s_curve e) (snd (s_range e)) = Ok b /\
  segment_get_points (S fuel) rnd e = Ok [a; b].
Proof.
  intros HM H HO. pose proof H as (_ & _ & _ & _ & (a & Ea & _) & (b & Eb & _) & _). exists a, b. split; [exact Ea|]. split; [exact Eb|]. destruct (C67_straight_edge M e A B fuel rnd HM H HO) as (a' & b' & E & _). rewrite E.
  unfold segment_get_points in E. cbn [parameter_division] in E. rewrite Ea, Eb in E. cbn [obind] in E. destruct (c_get_point (s_curve e) (range_at (s_range e) (probe (rnd [])))) as [q| |] eqn:Eq; cbn [obind] in E; try discriminate.
  destruct H as (WA & WB & Nt & Ht & (a2 & Ea2 & Ca) & (b2 & Eb2 & Cb) & Hq). rewrite Ea in Ea2. rewrite Eb in Eb2. apply Ok_inj in Ea2, Eb2. subst a2 b2. destruct (HO []) as [Nr Hr]. destruct (probe_ratio _ Nr Hr) as [Np Hp]. destruct (Hq _ Np Hp) as (q' & Eq' & Cq). rewrite Eq in Eq'. apply Ok_inj in Eq'. subst q'.
  rewrite (flat_test M HM q a b (probe (rnd [])) (s_tolerance e) A B) in E; auto. cbn [obind mapM] in E. rewrite Ea, Eb in E. cbn [obind] in E. now symmetry.
Qed.
Lemma zero_oracle : oracle64 (fun _ => f0).
Proof. intros path. split; [exact f0_num|]. change (val (@f0 f64 F64Num)) with 0. lra. Qed.
Lemma mapM_enum_ext {A B} (f g : nat -> A -> outcome B) (l : list A) : (forall k x, In x l -> f k x = g k x) -> mapM (fun '(k, x) => f k x) (enumerate l) = mapM (fun '(k, x) => g k x) (enumerate l).
Proof. intros H. unfold enumerate. generalize 0%nat as k. induction l as [|x l IH]; intros k; [reflexivity|]. cbn [length seq combine mapM]. rewrite H by now left. rewrite IH; [reflexivity|]. intros k' y I. apply H. now right. Qed.
Definition straight_edge (M : R) (e : CurveSegment f64) : Prop := exists A B, straight64 M e A B.
Lemma plane_trim_oracle M (s : Plane f64) fuel rnd edges : 1 <= M <= pow2 490 -> Forall (straight_edge M) edges -> (forall k i, oracle64 (rnd k i)) ->
  plane_trim s (S fuel) rnd [edges] = plane_trim s 1 (fun _ _ _ => f0) [edges].
Proof.
  intros HM HE HO. assert (C : collect_bounds (S fuel) rnd [edges] = collect_bounds 1 (fun _ _ _ => f0) [edges]).
  { unfold collect_bounds. rewrite (mapM_enum_ext (fun k b => to_polygon (S fuel) (rnd k) b) (fun k b => to_polygon 1 (fun _ _ => f0) b)); [reflexivity|]. intros k b [<-|[]]. unfold to_polygon.
    rewrite (mapM_enum_ext (fun i e => segment_get_points (S fuel) (rnd k i) e) (fun i e => segment_get_points 1 (fun _ => f0) e)); [reflexivity|]. intros i e I. rewrite Forall_forall in HE. destruct (HE e I) as (A & B & H).
    destruct (straight_ends M e A B fuel (rnd k i) HM H (HO k i)) as (a & b & Ea & Eb & ->). destruct (straight_ends M e A B 0 (fun _ => f0) HM H zero_oracle) as (a' & b' & Ea' & Eb' & ->). congruence. }
  unfold plane_trim. rewrite C. reflexivity.
Qed.
Lemma made_straight M t sf f : 1 <= M <= pow2 30 -> face_made (fit64 M) t sf f -> exists segs, stf_surface sf = plane_surface (pf_plane f) /\ stf_bounds sf = [segs] /\ Forall (straight_edge (64 * M)) (map dyn_segment segs).
Proof.
  intros HM (ES & segs & es & EB & _ & HR). exists segs. split; [exact ES|]. split; [exact EB|]. clear EB. induction HR as [|seg ab segs l H _ IH]; [constructor|]. cbn [map]. constructor; [|exact IH]. exists (val3 (fst ab)), (val3 (snd ab)). now apply C68_edge64.
Qed.
Lemma bound64 M : 1 <= M <= pow2 30 -> 1 <= 64 * M <= pow2 490.
Proof. intros [H1 H2]. split; [lra|]. apply Rle_trans with (pow2 (6 + 30)); [rewrite pow2_add; replace (pow2 6) with 64 by (rewrite <- pow2_Z by lia; reflexivity); lra|apply pow2_le; lia]. Qed.
Theorem C68_random_free M t fs faces : solid_in (fit64 M) t fs -> 1 <= M <= pow2 30 -> read_model t = Ok (faces, []) -> forall fuel rnd, (forall k i j, oracle64 (rnd k i j)) ->
  step_meshes (S fuel) rnd faces = step_meshes 1 (fun _ _ _ _ => f0) faces.
Proof.
  intros HS HM ER fuel rnd HO. destruct (C68_read _ t fs HS) as (faces' & ER' & MM). rewrite ER in ER'. apply Ok_inj in ER'. injection ER' as <-. clear HS ER. unfold step_meshes, enumerate.
  enough (G : forall k, map (fun '(i, f) => step_face_mesh (S fuel) (rnd i) f) (combine (seq k (length faces)) faces) = map (fun '(_, f) => step_face_mesh 1 (fun _ _ _ => f0) f) (combine (seq k (length faces)) faces)) by apply G.
  induction MM as [|sf f faces fs H _ IH]; intros k; [reflexivity|]. cbn [length seq combine map]. rewrite IH. f_equal. destruct (made_straight M t sf f HM H) as (segs & ES & EB & HE).
  unfold step_face_mesh, trimmed_get_triangle_mesh. cbn [ts_surface ts_bounds]. rewrite ES, EB. cbn [map plane_surface sf_trim]. apply (plane_trim_oracle (64 * M)); auto. now apply bound64.
Qed.

(** the filling of a face, in doubles: the corners are within 8 eps [M] of those of the face; the triangles are counter-clockwise seen along the normal, cover the face once, and their border is the loop *)
Definition filled64 (M : R) (f : plane_face f64) (m : TriangleMesh f64) : Prop := let s := pf_plane f in let C := map val3 (pf_corners f) in let n := length C in
  exists vs extra T, m_vertices m = vs ++ extra /\ m_normals m = [] /\ m_triangles m = emit T /\ Forall2 (close3 (8 * (eps * M))) vs C /\
    ((forall i, (i < n)%nat -> 0 < turn (ideal_flat s C) i) /\ length T = n /\ (exists c, extra = [c] /\ near_mean ((INR n + 4) * (eps * (2 * M))) vs c) \/
     (exists i, (i < n)%nat /\ turn (ideal_flat s C) i < 0) /\ length T = (n - 2)%nat /\ extra = []) /\
    let V := exact_flat s (m_vertices m) in
    Forall (fun '(i, j, k) => (i < length V)%nat /\ (j < length V)%nat /\ (k < length V)%nat /\ 0 < tri_area2 (pt V i) (pt V j) (pt V k)) T /\
    Rabs (total_area2 V T - area2 (ideal_flat s C)) <= INR n * (pow2 (-43) * (M * M)) /\ (forall w, antisym w -> sumw w (map (fun '(a, b, c) => [a; b; c]) T) = cyc w (seq 0 n)) /\
    forall q, off_all_lines V T q -> INR (covering V T q) = winding (exact_flat s vs) q /\ (covering V T q <= 1)%nat.
Definition clear64 (M : R) (f : plane_face f64) : Prop := let C := map val3 (pf_corners f) in
  clear_corners M (pf_plane f) C /\ (3 <= length C)%nat /\ simple_polygon (ideal_flat (pf_plane f) C) /\ 0 < area2 (ideal_flat (pf_plane f) C).
Lemma made_loop64 M t sf f : 1 <= M <= pow2 30 -> none_reversed t -> face_made (fit64 M) t sf f -> exists segs, stf_surface sf = plane_surface (pf_plane f) /\ stf_bounds sf = [segs] /\ straight_loop (64 * M) (map dyn_segment segs) (map val3 (pf_corners f)).
Proof.
  intros HM HN (ES & segs & es & EB & HL & HR). rewrite none_stored_map in HR by assumption. exists segs. split; [exact ES|]. split; [exact EB|]. unfold straight_loop, sides_of in *. rewrite firstn_map, <- map_app.
  assert (PM : forall l : list (vec3 f64), pairs (map val3 l) = map (fun ab => (val3 (fst ab), val3 (snd ab))) (pairs l)) by (induction l as [|x [|y l] IH]; [reflexivity|reflexivity|]; cbn [map pairs fst snd] in *; now rewrite IH).
  rewrite PM. clear EB HL. induction HR as [|seg ab segs l H _ IH]; [constructor|]. cbn [map]. constructor; [cbn [fst snd]; now apply C68_edge64|exact IH].
Qed.
Lemma filled_valid M f m : filled64 M f m -> (Z.of_nat (length (pf_corners f)) <= 2 ^ 20)%Z -> valid_mesh m /\ m_normals m = [] /\ Forall finite3 (m_vertices m) /\ (length (m_vertices m) <= length (pf_corners f) + 1)%nat.
Proof.
  intros (vs & extra & T & EV & EN & ET & CL & C & FT & _) HN. assert (Lv : length vs = length (pf_corners f)) by (rewrite (Forall2_len _ _ _ CL), map_length; reflexivity).
  assert (LV : (length (m_vertices m) <= length (pf_corners f) + 1)%nat) by (rewrite EV, app_length, Lv; destruct C as [(_ & _ & c & -> & _)|(_ & _ & ->)]; cbn [length]; lia).
  split; [|split; [exact EN|split; [|exact LV]]].
  - apply (emit_valid m T ET EN); [lia|]. cbv zeta in FT. unfold exact_flat in FT. rewrite !map_length in FT. eapply Forall_impl; [|exact FT]. intros [[i j] k] (Hi & Hj & Hk & _). auto.
  - rewrite EV. apply Forall_app. split.
    + clear -CL. induction CL as [|v A vs C [H _] _ IH]; constructor; assumption.
    + destruct C as [(_ & _ & c & -> & (N1 & N2 & N3 & _))|(_ & _ & ->)]; [|constructor]. constructor; [|constructor]. exact (conj N1 (conj N2 N3)).
Qed.
(** C68, in doubles: a polyhedron without reversed edges is written with all its faces filled *)
Theorem C68_doubles M (t : table f64) fs : solid_in (fit64 M) t fs -> none_reversed t -> fs <> [] -> 1 <= M <= pow2 26 -> Forall (clear64 (64 * M)) fs ->
  (N.of_nat (length (flat_map pf_corners fs) + length fs) < 2 ^ 32 - 1)%N ->
  forall (fmt fmt2 : f64 -> list N) (parse : list N -> option f64) fuel rnd srnd, (forall x, num64 x -> faithful fmt parse x) -> (forall k i j, oracle64 (rnd k i j)) ->
  exists text ms fss, convert_stp fmt fmt2 (S fuel) rnd srnd t = Ok (Some text, None) /\ read_obj parse text = Some (concat fss) /\
    Forall2 (filled64 (64 * M)) fs ms /\ Forall2 (fun m faces => exists T, mesh_faces m T faces) ms fss.
Proof.
  intros HS HN NE HM HG HL fmt fmt2 parse fuel rnd srnd HF HO. destruct (C68_read _ t fs HS) as (faces & ER & MM). rewrite Forall_forall in HG. assert (HM' : 1 <= M <= pow2 30) by (split; [apply HM|]; eapply Rle_trans; [apply HM|apply pow2_le; lia]).
  destruct (meshes_made (fun k sf => step_face_mesh (S fuel) (rnd k) sf) (face_made (fit64 M) t) (fun f m => filled64 (64 * M) f m /\ (Z.of_nat (length (pf_corners f)) <= 2 ^ 20)%Z) faces fs MM) as (ms & EM & FM).
  { intros k sf f If Hf. destruct (HG f If) as (HC & H3 & HP & HA). destruct (made_loop64 M t sf f HM' HN Hf) as (segs & ES & EB & SL). unfold step_face_mesh, trimmed_get_triangle_mesh. cbn [ts_surface ts_bounds]. rewrite ES, EB. cbn [map plane_surface sf_trim].
    destruct (C67_face (pf_plane f) fuel (rnd k) (map dyn_segment segs) (map val3 (pf_corners f)) (64 * M) HC H3 SL (HO k 0%nat) HP HA) as (vs & m & extra & T & Em & K). exists m. split; [exact Em|]. split; [exists vs, extra, T; exact K|]. destruct HC as (_ & _ & _ & _ & HZ & _). now rewrite map_length in HZ. }
  assert (FV : Forall2 (fun f m => valid_mesh m /\ m_normals m = [] /\ Forall finite3 (m_vertices m) /\ (length (m_vertices m) <= length (pf_corners f) + 1)%nat) fs ms).
  { clear -FM. induction FM as [|f m fs ms [H HZ] _ IH]; constructor; [|exact IH]. now apply (filled_valid (64 * M)). }
  assert (T1 : (length (flat_map m_vertices ms) <= length (flat_map pf_corners fs) + length fs)%nat) by (clear -FV; induction FV as [|f m fs ms (_ & _ & _ & K) _ IH]; [reflexivity|]; cbn [flat_map length]; rewrite !app_length; lia).
  assert (T2 : flat_map m_normals ms = []) by (clear -FV; induction FV as [|f m fs ms (_ & EN & _) _ IH]; [reflexivity|]; cbn [flat_map]; now rewrite EN, IH).
  assert (NF0 : faces <> []) by (intros ->; inversion MM; subst; congruence).
  destruct (C68_text fmt fmt2 parse (S fuel) rnd srnd t faces ms ER NF0 EM) as (text & fss & ET & RT & FF).
  - clear -FV. induction FV as [|f m fs ms (V & _) _ IH]; constructor; assumption.
  - clear -FV HF. induction FV as [|f m fs ms (_ & EN & V & _) _ IH]; constructor; [|exact IH]. split; [|rewrite EN; constructor]. eapply Forall_impl; [|exact V]. intros p (N1 & N2 & N3). split; [now apply HF|]. split; now apply HF.
  - unfold total. lia.
  - unfold total. rewrite T2. cbn. lia.
  - exists text, ms, fss. split; [exact ET|]. split; [exact RT|]. split; [|exact FF]. eapply Forall2_weaken; [|exact FM]. intros f m [K _]. exact K.
Qed.
End Doubles.
