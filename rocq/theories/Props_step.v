(** Property C57: what the STEP reader keeps of a file. *)
From Coq Require Import Reals Lra Psatz Lia Arith ZArith List Floats.SpecFloat.
From Verif Require Import Prelude Num M_vec M_utils M_curve M_surface M_files M_step L_base L_vec L_geom L_round Props_bspline Props_utils Props_polyline Props_round Props_loops.
Open Scope nat_scope.

(** ** Order of transfer *)
(** [out] are the results of those elements of [l] that have one, in order *)
Inductive collected {A B} (result : A -> B -> Prop) (skipped : A -> Prop) : list A -> list B -> Prop :=
| col_nil : collected result skipped [] []
| col_keep x y l out : result x y -> collected result skipped l out -> collected result skipped (x :: l) (y :: out)
| col_skip x l out : skipped x -> collected result skipped l out -> collected result skipped (x :: l) out.
Lemma filter_mapM_collected {A B} (f : A -> outcome (option B)) l out : filter_mapM f l = Ok out ->
  collected (fun x y => f x = Ok (Some y)) (fun x => f x = Ok None) l out.
Proof.
  unfold filter_mapM. intros E. obind_inv E. apply Ok_inj in E. subst out. apply mapM_inv in E0.
  induction E0 as [|x o l os H HF IH]; [constructor|]. cbn [flat_map]. destruct o as [y|]; [cbn [app]; now constructor|now apply col_skip].
Qed.
Lemma collected_weaken {A B} (R R' : A -> B -> Prop) (S S' : A -> Prop) l out : (forall x y, R x y -> R' x y) -> (forall x, S x -> S' x) ->
  collected R S l out -> collected R' S' l out.
Proof. intros H1 H2. induction 1; [constructor|constructor; auto|apply col_skip; auto]. Qed.

Section Transfer.
Context {F : Type} {NF : Num F} {TF : Trig F}.
(** geometry the reader knows, as a predicate on the file *)
Definition known_curve (t : table F) (r : nat) : Prop :=
  match get t r with ELine _ _ | ECircle _ _ | EPolyline _ | EBSplineCurveWithKnots _ _ _ _ => True | _ => False end.
Definition has {A} (P : A -> bool) (l : list A) : Prop := existsb P l = true.
Definition is_rational (e : entity F) := match e with ERationalBSplineSurface _ _ _ _ => true | _ => false end.
Definition is_knotted (e : entity F) := match e with EBSplineSurfaceWithKnots _ _ _ _ _ _ _ => true | _ => false end.
Definition known_surface (t : table F) (r : nat) : Prop :=
  match get t r with
  | EPlane _ | ECylindricalSurface _ _ | EBezierSurface _ | EBSplineSurface _ _ _
  | ERationalBSplineSurface _ _ _ _ | EBSplineSurfaceWithKnots _ _ _ _ _ _ _ => True
  | EComplex parts => has is_rational parts /\ has is_knotted parts
  | ESurfaceOfRevolution swept _ => known_curve t swept
  | _ => False
  end.

Lemma curve_none t r : extract_curve t r = Ok None -> ~ known_curve t r.
Proof.
  unfold extract_curve, known_curve. destruct (get t r); intros E; try tauto; exfalso; repeat (obind_inv E); try discriminate.
  - destruct (get t dir); try discriminate. repeat (obind_inv E). discriminate.
  - destruct a as [[ce ax] rd]. repeat (obind_inv E). discriminate.
Qed.
Lemma curve_some t r c : extract_curve t r = Ok (Some c) -> known_curve t r.
Proof. unfold extract_curve, known_curve. destruct (get t r); intros E; try exact I; discriminate. Qed.

Lemma complex_state_spec (t : table F) : forall parts st st', foldM (complex_step t) st parts = Ok st' ->
  (cx_weighted st' <> None <-> cx_weighted st <> None \/ has is_rational parts) /\ (cx_knots st' <> None <-> cx_knots st <> None \/ has is_knotted parts).
Proof.
  unfold has. induction parts as [|e parts IH]; intros st st' E; cbn [foldM] in E.
  - apply Ok_inj in E. subst. cbn. split; split; intros; try tauto; destruct H; congruence.
  - obind_inv E. destruct (IH _ _ E) as [I1 I2]. clear IH E. rewrite I1, I2. cbn [existsb]. clear I1 I2.
    unfold complex_step in E0.
    destruct e; cbn [is_rational is_knotted orb]; try (apply Ok_inj in E0; subst a; cbn [cx_weighted cx_knots]; split; reflexivity).
    + obind_inv E0. obind_inv E0. apply Ok_inj in E0. subst a. cbn [cx_weighted cx_knots]. split; [|reflexivity]. split; intros _; [now right|left; discriminate].
    + apply Ok_inj in E0. subst a. cbn [cx_weighted cx_knots]. split; [reflexivity|]. split; intros _; [now right|left; discriminate].
Qed.
Lemma surface_spec t r b o : extract_surface t r b = Ok o -> (o = None <-> ~ known_surface t r).
Proof.
  unfold extract_surface, known_surface. destruct (get t r); intros E;
    try (apply Ok_inj in E; subst o; tauto);
    try (repeat obind_inv E; try (match goal with H : Ok _ = Ok o |- _ => apply Ok_inj in H; subst o end); split; [discriminate|tauto]).
  - destruct (axis2_placement_3d t position) as [[[org z] x]| |]; cbn [obind] in E; try discriminate. repeat obind_inv E. apply Ok_inj in E. subst o. split; [discriminate|tauto].
  - destruct (axis2_placement_3d t position) as [[[org z] x]| |]; cbn [obind] in E; try discriminate. repeat obind_inv E. apply Ok_inj in E. subst o. split; [discriminate|tauto].
  - obind_inv E. destruct (complex_state_spec _ _ _ _ E0) as [H1 H2]. cbn [cx_weighted cx_knots] in H1, H2.
    destruct (cx_weighted a) as [w|] eqn:Ew; [destruct (cx_knots a) as [kn|] eqn:Ek|].
    + repeat obind_inv E. apply Ok_inj in E. subst o. split; [discriminate|]. intros H. exfalso. apply H. split; [destruct H1 as [H1 _]; destruct (H1 ltac:(discriminate)) as [?|?]; [congruence|assumption]|].
      destruct H2 as [H2 _]. destruct (H2 ltac:(discriminate)) as [?|?]; [congruence|assumption].
    + apply Ok_inj in E. subst o. split; [|reflexivity]. intros _ [_ H]. destruct H2 as [_ H2]. now apply H2; [right|].
    + apply Ok_inj in E. subst o. split; [|reflexivity]. intros _ [H _]. destruct H1 as [_ H1]. now apply H1; [right|].
  - obind_inv E. destruct a as [c|].
    + apply curve_some in E0. destruct (axis1_placement t axis_position) as [[org ax]| |]; cbn [obind] in E; try discriminate. repeat obind_inv E. apply Ok_inj in E. subst o. split; [discriminate|tauto].
    + apply Ok_inj in E. subst o. apply curve_none in E0. tauto.
Qed.

(** what is read of an edge, a bound, a face, a curve segment; and when they are left out *)
Definition edge_read (t : table F) (r : nat) (seg : DynSegment F) : Prop :=
  exists element o es ee g ss a b u0 u1, get t r = EOrientedEdge element o /\ get t element = EEdgeCurve es ee g ss /\
    extract_curve t g = Ok (Some (d_curve seg)) /\ vertex_point t es = Ok a /\ vertex_point t ee = Ok b /\
    c_project (dyn_curve (d_curve seg)) a = Ok u0 /\ c_project (dyn_curve (d_curve seg)) b = Ok u1 /\
    d_range seg = c_refine (dyn_curve (d_curve seg)) (u0, u1) ss /\ d_tolerance seg = flit 1 100 /\ d_division seg = 16%nat.
Definition edge_left_out (t : table F) (r : nat) : Prop :=
  match get t r with EOrientedEdge element _ => match get t element with EEdgeCurve _ _ g _ => ~ known_curve t g | _ => True end | _ => True end.
Definition bound_read (t : table F) (r : nat) (l : list (DynSegment F)) : Prop :=
  exists b o edges, get t r = EFaceBound b o /\ get t b = EEdgeLoop edges /\ collected (edge_read t) (edge_left_out t) edges l.
Definition bound_left_out (t : table F) (r : nat) : Prop :=
  match get t r with EFaceBound b _ => match get t b with EEdgeLoop _ => False | _ => True end | _ => True end.
Definition face_read (t : table F) (p : nat * entity F) (f : StepFace) : Prop :=
  exists bounds g ss, snd p = EAdvancedFace bounds g ss /\ known_surface t g /\ extract_surface t g ss = Ok (Some (stf_surface f)) /\
    collected (bound_read t) (bound_left_out t) bounds (stf_bounds f).
Definition face_left_out (t : table F) (p : nat * entity F) : Prop :=
  match snd p with EAdvancedFace _ g _ => ~ known_surface t g | _ => True end.
Definition piece_read (t : table F) (r : nat) (seg : DynSegment F) : Prop :=
  exists parent basis t1 t2 sense u0 u1 l1 l2, get t r = ECompositeCurveSegment parent /\ get t parent = ETrimmedCurve basis t1 t2 sense /\
    extract_curve t basis = Ok (Some (d_curve seg)) /\ t1 = Some u0 :: l1 /\ t2 = Some u1 :: l2 /\
    d_range seg = c_refine (dyn_curve (d_curve seg)) (u0, u1) sense /\ d_tolerance seg = flit 1 100 /\ d_division seg = 16%nat.
Definition piece_left_out (t : table F) (r : nat) : Prop :=
  match get t r with ECompositeCurveSegment parent => match get t parent with ETrimmedCurve basis _ _ _ => ~ known_curve t basis | _ => True end | _ => True end.
Definition polycurve_read (t : table F) (p : nat * entity F) (l : list (DynSegment F)) : Prop :=
  exists segments, snd p = ECompositeCurve segments /\ collected (piece_read t) (piece_left_out t) segments l.
Definition polycurve_left_out (p : nat * entity F) : Prop := match snd p with ECompositeCurve _ => False | _ => True end.

Lemma edge_spec t r o : extract_oriented_edge t r = Ok o -> match o with Some seg => edge_read t r seg | None => edge_left_out t r end.
Proof.
  unfold extract_oriented_edge, edge_left_out, extract_edge_curve. intros E. destruct (get t r) eqn:Er; try (apply Ok_inj in E; subst o; exact I).
  destruct (get t element) eqn:Ee; try (apply Ok_inj in E; subst o; exact I). obind_inv E. destruct a as [c|].
  - repeat obind_inv E. apply Ok_inj in E. subst o. unfold edge_read. cbn [d_curve d_range]. do 10 eexists. repeat split; eassumption || reflexivity.
  - apply Ok_inj in E. subst o. now apply curve_none.
Qed.
Lemma bound_spec t r o : extract_bound t r = Ok o -> match o with Some l => bound_read t r l | None => bound_left_out t r end.
Proof.
  unfold extract_bound, bound_left_out. intros E. destruct (get t r) eqn:Er; try (apply Ok_inj in E; subst o; exact I).
  destruct (get t bound) eqn:Eb; try (apply Ok_inj in E; subst o; exact I). obind_inv E. apply Ok_inj in E. subst o.
  exists bound, orientation, edges. split; [exact Er|]. split; [exact Eb|]. apply filter_mapM_collected in E0.
  revert E0. apply collected_weaken; [intros x y H; exact (edge_spec _ _ _ H)|intros x H; exact (edge_spec _ _ _ H)].
Qed.
Lemma piece_spec t r o : extract_curve_segment t r = Ok o -> match o with Some seg => piece_read t r seg | None => piece_left_out t r end.
Proof.
  unfold extract_curve_segment, piece_left_out. intros E. destruct (get t r) eqn:Er; try (apply Ok_inj in E; subst o; exact I).
  destruct (get t parent) eqn:Ep; try (apply Ok_inj in E; subst o; exact I). obind_inv E. destruct a as [c|].
  - repeat obind_inv E. apply Ok_inj in E. subst o. unfold piece_read. cbn [d_curve d_range].
    unfold trim_value in *. repeat match goal with H : obind _ _ = Ok _ |- _ => obind_inv H end.
    destruct trim1 as [|[x1|] l1]; try discriminate; cbn in *; try (match goal with H : Ok _ = Ok _ |- _ => apply Ok_inj in H; subst end); try discriminate.
    destruct trim2 as [|[x2|] l2]; try discriminate; cbn in *; repeat (match goal with H : Ok _ = Ok _ |- _ => apply Ok_inj in H; subst end); try discriminate.
    cbn in *. repeat (match goal with H : Ok _ = Ok _ |- _ => apply Ok_inj in H; subst end). do 9 eexists. repeat split; eassumption || reflexivity.
  - apply Ok_inj in E. subst o. now apply curve_none.
Qed.

(** Everything the reader knows is transferred, in the order of the file and of the lists in
    it; what it leaves out are exactly the entities of other kinds. *)
Theorem C57_transfer (t : table F) faces curves : read_model t = Ok (faces, curves) ->
  collected (face_read t) (face_left_out t) t faces /\ collected (polycurve_read t) polycurve_left_out t curves.
Proof.
  unfold read_model. intros E. obind_inv E. obind_inv E. apply Ok_inj in E. injection E as <- <-. apply filter_mapM_collected in E0, E1. split.
  - revert E1. apply collected_weaken; intros [k e]; cbn [snd]; unfold face_read, face_left_out, extract_face; cbn [snd].
    + intros f H. destruct e; try discriminate. obind_inv H. pose proof (surface_spec _ _ _ _ E) as K. destruct a1 as [s|]; [|discriminate].
      obind_inv H. apply Ok_inj in H. injection H as <-. exists bounds, geometry, same_sense. cbn [stf_surface stf_bounds]. split; [reflexivity|]. split.
      { destruct K as [_ K]. assert (D : known_surface t geometry \/ ~ known_surface t geometry).
        { unfold known_surface, known_curve, has. destruct (get t geometry); tauto. }
        destruct D as [D|D]; [exact D|]. specialize (K D). discriminate. }
      split; [exact E|]. apply filter_mapM_collected in E1. revert E1. apply collected_weaken; intros x; [intros y H; exact (bound_spec _ _ _ H)|intros H; exact (bound_spec _ _ _ H)].
    + intros H. destruct e; try exact I. obind_inv H. pose proof (surface_spec _ _ _ _ E) as K. destruct a1 as [s|]; [obind_inv H; discriminate|]. now apply K.
  - revert E0. apply collected_weaken; intros [k e]; cbn [snd]; unfold polycurve_read, polycurve_left_out, extract_polycurve; cbn [snd].
    + intros l H. destruct e; try discriminate. obind_inv H. apply Ok_inj in H. injection H as <-. exists segments. split; [reflexivity|].
      apply filter_mapM_collected in E. revert E. apply collected_weaken; intros x; [intros y H; exact (piece_spec _ _ _ H)|intros H; exact (piece_spec _ _ _ H)].
    + intros H. destruct e; try exact I. obind_inv H. discriminate.
Qed.

(** ** Attributes the reader does not look at *)
Inductive same_but_flags : entity F -> entity F -> Prop :=
| sbf_refl e : same_but_flags e e
| sbf_edge el o o' : same_but_flags (EOrientedEdge el o) (EOrientedEdge el o')
| sbf_bound b o o' : same_but_flags (EFaceBound b o) (EFaceBound b o')
| sbf_vector d m m' : same_but_flags (EVector d m) (EVector d m').
Definition reflagged (t t' : table F) : Prop := Forall2 (fun p q => fst p = fst q /\ same_but_flags (snd p) (snd q)) t t'.
Section Flags.
Context (t t' : table F) (H : reflagged t t').
Lemma get_flags r : same_but_flags (get t r) (get t' r).
Proof.
  unfold get. pose proof H as G. unfold reflagged in G. clear H. induction G as [|[k e] [k' e'] u u' [Hk He] _ IH]; [constructor|]. cbn [fst snd] in *. subst k'. cbn [find fst]. destruct (k =? r); [exact He|exact IH].
Qed.
Ltac flags r := generalize (get_flags r); generalize (get t r), (get t' r); let K := fresh in intros ? ? K; destruct K as [[]| | | ]; try reflexivity.
Lemma cartesian_flags r : cartesian t r = cartesian t' r.
Proof. unfold cartesian. flags r. Qed.
Lemma direction_flags r : direction t r = direction t' r.
Proof. unfold direction. flags r. Qed.
Lemma vertex_flags r : vertex_point t r = vertex_point t' r.
Proof. unfold vertex_point. flags r. apply cartesian_flags. Qed.
Lemma axis1_flags r : axis1_placement t r = axis1_placement t' r.
Proof. unfold axis1_placement. flags r. rewrite cartesian_flags. destruct (cartesian _ _); cbn; try reflexivity. destruct axis; cbn; try reflexivity. now rewrite direction_flags. Qed.
Lemma axis2_flags r : axis2_placement_3d t r = axis2_placement_3d t' r.
Proof.
  unfold axis2_placement_3d. flags r. rewrite cartesian_flags. destruct (cartesian _ _); cbn; try reflexivity. destruct axis; cbn; try reflexivity.
  rewrite direction_flags. destruct (direction _ _); cbn; try reflexivity. destruct ref_direction; cbn; try reflexivity. now rewrite direction_flags.
Qed.
Lemma mapM_ext {A B} (f g : A -> outcome B) l : (forall x, f x = g x) -> mapM f l = mapM g l.
Proof. intros E. induction l as [|x l IH]; [reflexivity|]. cbn. now rewrite E, IH. Qed.
Lemma points_flags l : extract_points t l = extract_points t' l.
Proof. apply mapM_ext, cartesian_flags. Qed.
Lemma cps_flags l : extract_control_points t l = extract_control_points t' l.
Proof. apply mapM_ext, cartesian_flags. Qed.
Lemma wcps_flags l w : extract_weighted_control_points t l w = extract_weighted_control_points t' l w.
Proof. apply mapM_ext. intros [p x]. flags p. Qed.
Lemma curve_flags r : extract_curve t r = extract_curve t' r.
Proof.
  unfold extract_curve. flags r.
  - rewrite cartesian_flags. destruct (cartesian _ _); cbn [obind]; try reflexivity. flags dir; now rewrite direction_flags.
  - now rewrite axis2_flags.
  - now rewrite points_flags.
  - now rewrite points_flags.
Qed.
Lemma edge_curve_flags r : extract_edge_curve t r = extract_edge_curve t' r.
Proof.
  unfold extract_edge_curve. flags r. rewrite curve_flags. destruct (extract_curve _ _) as [[c|]| |]; cbn [obind]; try reflexivity. now rewrite !vertex_flags.
Qed.
Lemma complex_flags : forall parts st, foldM (complex_step t) st parts = foldM (complex_step t') st parts.
Proof.
  induction parts as [|e parts IH]; intros st; [reflexivity|]. cbn [foldM].
  replace (complex_step t st e) with (complex_step t' st e). { destruct (complex_step t' st e); cbn [obind]; try reflexivity. apply IH. }
  destruct e; try reflexivity. cbn [complex_step]. destruct (cx_cps st); cbn [unwrap obind]; try reflexivity. now rewrite wcps_flags.
Qed.
Lemma surface_flags r b : extract_surface t r b = extract_surface t' r b.
Proof.
  unfold extract_surface. flags r; rewrite ?axis2_flags, ?cps_flags, ?wcps_flags, ?complex_flags, ?curve_flags; try reflexivity.
  destruct (extract_curve _ _) as [[c|]| |]; cbn [obind]; try reflexivity. now rewrite axis1_flags.
Qed.
Lemma filter_mapM_ext {A B} (f g : A -> outcome (option B)) l : (forall x, f x = g x) -> filter_mapM f l = filter_mapM g l.
Proof. intros E. unfold filter_mapM. now rewrite (mapM_ext f g l E). Qed.
Lemma oriented_flags r : extract_oriented_edge t r = extract_oriented_edge t' r.
Proof. unfold extract_oriented_edge. flags r; apply edge_curve_flags. Qed.
Lemma bound_flags r : extract_bound t r = extract_bound t' r.
Proof.
  assert (G : forall b, match get t b with EEdgeLoop edges => l <- filter_mapM (extract_oriented_edge t) edges ;; Ok (Some l) | _ => Ok None end =
                        match get t' b with EEdgeLoop edges => l <- filter_mapM (extract_oriented_edge t') edges ;; Ok (Some l) | _ => Ok None end).
  { intros b. flags b. now rewrite (filter_mapM_ext _ _ _ oriented_flags). }
  unfold extract_bound. flags r; apply G.
Qed.
Lemma face_flags e e' : same_but_flags e e' -> extract_face t e = extract_face t' e'.
Proof.
  intros K. unfold extract_face. destruct K as [[]| | | ]; try reflexivity. rewrite surface_flags. destruct (extract_surface _ _ _) as [[s|]| |]; cbn [obind]; try reflexivity.
  now rewrite (filter_mapM_ext _ _ _ bound_flags).
Qed.
Lemma segment_flags r : extract_curve_segment t r = extract_curve_segment t' r.
Proof. unfold extract_curve_segment. flags r. flags parent. now rewrite curve_flags. Qed.
Lemma polycurve_flags e e' : same_but_flags e e' -> extract_polycurve t e = extract_polycurve t' e'.
Proof. intros K. unfold extract_polycurve. destruct K as [[]| | | ]; try reflexivity. now rewrite (filter_mapM_ext _ _ _ segment_flags). Qed.
End Flags.
Lemma mapM_ext2 {A B} (R : A -> A -> Prop) (f g : A -> outcome B) l m : (forall x y, R x y -> f x = g y) -> Forall2 R l m -> mapM f l = mapM g m.
Proof. intros E. induction 1 as [|x y l m H _ IH]; [reflexivity|]. cbn. now rewrite (E x y H), IH. Qed.
(** The orientation of oriented edges, the orientation of face bounds and the magnitude of
    vectors have no influence on what is read. *)
Theorem C57_flags_ignored t t' : reflagged t t' -> read_model t = read_model t'.
Proof.
  intros H. unfold read_model, filter_mapM.
  rewrite (mapM_ext2 (fun p q => fst p = fst q /\ same_but_flags (snd p) (snd q)) (fun p => extract_polycurve t (snd p)) (fun p => extract_polycurve t' (snd p)) t t'); [|intros x y [_ K]; now apply polycurve_flags|exact H].
  rewrite (mapM_ext2 (fun p q => fst p = fst q /\ same_but_flags (snd p) (snd q)) (fun p => extract_face t (snd p)) (fun p => extract_face t' (snd p)) t t'); [|intros x y [_ K]; now apply face_flags|exact H].
  reflexivity.
Qed.
End Transfer.

(** ** Edges, in exact arithmetic *)
Open Scope R_scope.
(** positions of points, directions and vertices of the file *)
Definition point_at (t : table R) (r : nat) (p : vec3 R) : Prop := exists l, get t r = ECartesianPoint (x3 p :: y3 p :: z3 p :: l).
Definition direction_at (t : table R) (r : nat) (p : vec3 R) : Prop := exists l, get t r = EDirection (x3 p :: y3 p :: z3 p :: l).
Definition vertex_at (t : table R) (r : nat) (p : vec3 R) : Prop := exists g, get t r = EVertexPoint g /\ point_at t g p.
(** the segment runs from [a] to [b] *)
Definition runs_from_to (seg : DynSegment R) (a b : vec3 R) : Prop :=
  c_get_point (dyn_curve (d_curve seg)) (fst (d_range seg)) = Ok a /\ c_get_point (dyn_curve (d_curve seg)) (snd (d_range seg)) = Ok b.

Lemma point_at_read t r p : point_at t r p -> cartesian t r = Ok p.
Proof. intros [l E]. unfold cartesian. rewrite E. destruct p. reflexivity. Qed.
Lemma direction_at_read t r p : direction_at t r p -> direction t r = Ok (Some p).
Proof. intros [l E]. unfold direction. rewrite E. destruct p. reflexivity. Qed.
Lemma vertex_at_read t r p : vertex_at t r p -> vertex_point t r = Ok p.
Proof. intros (g & E & H). unfold vertex_point. rewrite E. now apply point_at_read. Qed.
Lemma edge_curve_read t e es ee g ss c a b : get t e = EEdgeCurve es ee g ss -> extract_curve t g = Ok (Some c) -> vertex_at t es a -> vertex_at t ee b ->
  extract_edge_curve t e = (u0 <- c_project (dyn_curve c) a ;; u1 <- c_project (dyn_curve c) b ;;
     Ok (Some {| d_curve := c; d_range := c_refine (dyn_curve c) (u0, u1) ss; d_tolerance := flit 1 100; d_division := 16 |})).
Proof. intros E Ec Ha Hb. unfold extract_edge_curve. rewrite E, Ec. cbn [obind]. rewrite (vertex_at_read _ _ _ Ha), (vertex_at_read _ _ _ Hb). reflexivity. Qed.

(** A straight edge with a unit direction runs from its start to its end vertex. *)
Theorem C57_line_edge t e es ee g ss p v d m o w a b :
  get t e = EEdgeCurve es ee g ss -> get t g = ELine p v -> point_at t p o -> get t v = EVector d m -> direction_at t d w -> unit3 w ->
  vertex_at t es a -> vertex_at t ee b -> (exists s, a = vadd o (vmulr w s)) -> (exists s, b = vadd o (vmulr w s)) ->
  exists seg, extract_edge_curve t e = Ok (Some seg) /\ runs_from_to seg a b.
Proof.
  intros Ee Eg Hp Ev Hd Hu Ha Hb [sa Ea] [sb Eb].
  assert (Ec : extract_curve t g = Ok (Some (DLine {| l_origin := o; l_direction := w |}))).
  { unfold extract_curve. rewrite Eg, (point_at_read _ _ _ Hp). cbn [obind]. rewrite Ev, (direction_at_read _ _ _ Hd). reflexivity. }
  eexists. rewrite (edge_curve_read _ _ _ _ _ _ _ _ _ Ee Ec Ha Hb). cbn [dyn_curve line_curve c_project obind]. split; [reflexivity|].
  assert (I : forall s, line_project {| l_origin := o; l_direction := w |} (vadd o (vmulr w s)) = s) by (apply C27_line_inverse; exact Hu).
  unfold runs_from_to. cbn [d_curve d_range dyn_curve line_curve c_refine c_get_point default_refine fst snd]. rewrite Ea, Eb, !I. split; reflexivity.
Qed.

Lemma normalize_unit (v : vec3 R) : dot3 v v <> 0 -> unit3 (normalize3 v).
Proof.
  intros H. unfold unit3, normalize3. assert (L : length3 v <> 0). { intros L. apply H. rewrite <- length3_sq, L. ring. }
  transitivity (dot3 v v / (length3 v * length3 v)); [unfold dot3; vsimp; rnum; field; exact L|]. rewrite length3_sq. field. exact H.
Qed.
Lemma normalize_orth (k v : vec3 R) : dot3 k v = 0 -> dot3 k (normalize3 v) = 0.
Proof. intros H. unfold normalize3. transitivity (dot3 k v * (f1 / length3 v)); [unfold dot3; vsimp; ring|]. rewrite H. ring. Qed.

Section CircleEdge.
Context (t : table R) (e es ee g pos loc ax rf : nat) (ss : bool) (rad : R) (c k v a b : vec3 R).
Hypothesis Ee : get t e = EEdgeCurve es ee g ss.
Hypothesis Eg : get t g = ECircle pos rad.
Hypothesis Ep : get t pos = EAxis2Placement3d loc (Some ax) (Some rf).
Hypothesis Hc : point_at t loc c.
Hypothesis Hk : direction_at t ax k.
Hypothesis Hv : direction_at t rf v.
Hypothesis Uk : unit3 k.
Hypothesis Ov : dot3 k v = 0.
Hypothesis Nv : dot3 v v <> 0.
Hypothesis Hr : 0 <= rad.
Hypothesis Ha : vertex_at t es a.
Hypothesis Hb : vertex_at t ee b.
Hypothesis Oa : dot3 (vsub a c) k = 0 /\ sqdist a c = rad * rad.
Hypothesis Ob : dot3 (vsub b c) k = 0 /\ sqdist b c = rad * rad.
Let ci := {| ci_center := c; ci_radius := rad; ci_axis := k; ci_ref_dir := normalize3 v |}.
Lemma ci_orthonormal : orthonormal (ci_axis ci) (ci_ref_dir ci).
Proof. split; [exact Uk|]. split; [now apply normalize_unit|now apply normalize_orth]. Qed.
Lemma circle_edge_eq : extract_edge_curve t e = Ok (Some {| d_curve := DOther (circle_curve ci);
  d_range := circle_refine (circle_project ci a, circle_project ci b) ss; d_tolerance := flit 1 100; d_division := 16 |}).
Proof.
  assert (Ec : extract_curve t g = Ok (Some (DOther (circle_curve ci)))).
  { unfold extract_curve. rewrite Eg. unfold axis2_placement_3d. rewrite Ep, (point_at_read _ _ _ Hc). cbn [obind unwrap]. rewrite (direction_at_read _ _ _ Hk). cbn [obind]. rewrite (direction_at_read _ _ _ Hv). reflexivity. }
  rewrite (edge_curve_read _ _ _ _ _ _ _ _ _ Ee Ec Ha Hb). reflexivity.
Qed.
(** A circular edge runs from its start to its end vertex, in the direction of the circle
    exactly if the sense agrees, over less than one turn. *)
Theorem C57_circle_edge : exists seg, extract_edge_curve t e = Ok (Some seg) /\ runs_from_to seg a b /\
  (ss = true -> fst (d_range seg) <= snd (d_range seg) < fst (d_range seg) + 2 * PI) /\
  (ss = false -> snd (d_range seg) <= fst (d_range seg) < snd (d_range seg) + 2 * PI).
Proof.
  eexists. split; [exact circle_edge_eq|]. cbn [d_range d_curve]. pose proof ci_orthonormal as O.
  pose proof (C28_project_range ci O a) as Ra. pose proof (C28_project_range ci O b) as Rb.
  destruct (circle_refine (circle_project ci a, circle_project ci b) ss) as [b0 b1] eqn:E.
  destruct (C29_refine _ _ _ _ _ Ra Rb E) as (_ & _ & K & S1 & S2 & _). destruct (K ci O) as [K0 K1].
  split; [|split; assumption]. unfold runs_from_to. cbn [d_curve d_range dyn_curve circle_curve c_get_point fst snd]. rewrite K0, K1.
  destruct (C28_all_points ci O a Oa) as [->|N]; [|cbn in N; lra]. destruct (C28_all_points ci O b Ob) as [->|N]; [|cbn in N; lra]. split; reflexivity.
Qed.
(** ... so an edge that is a full circle (start = end vertex) is read as the empty arc, and a
    loop consisting of it becomes the empty polygon. *)
Theorem C57_full_circle_vanishes : a = b -> exists seg, extract_edge_curve t e = Ok (Some seg) /\ fst (d_range seg) = snd (d_range seg) /\
  forall fuel rnd, to_polygon (S fuel) rnd [dyn_segment seg] = Ok [].
Proof.
  intros Eab. eexists. split; [exact circle_edge_eq|]. cbn [d_range d_curve]. rewrite <- Eab. pose proof (C28_project_range ci ci_orthonormal a) as Ra.
  rewrite (C29_full_circle_refuted _ ss Ra). split; [reflexivity|]. intros fuel rnd. set (u := circle_project ci a) in *. clearbody u.
  set (seg := dyn_segment _). set (q := circle_get_point ci u).
  assert (Sg : forall r, segment_get_points (S fuel) r seg = Ok [q; q]).
  { intros r. unfold segment_get_points, seg, dyn_segment. cbn [s_curve s_range s_tolerance d_curve d_range d_tolerance dyn_curve parameter_division fst snd circle_curve c_get_point obind].
    fold q. replace (range_at (u, u) (probe (r []))) with u by (unfold range_at; rnum; ring). fold q.
    replace (vadd q (vmulr (vsub q q) (probe (r [])))) with q by (destruct q; vsimp; f_equal; ring).
    replace (fltb (distance3 q q) (flit 1 100)) with true; [reflexivity|]. symmetry. rewrite dist3_distance, dist3_refl. rnum. apply Rltb_true. lra. }
  eapply (C53_degenerate (S fuel) rnd [seg] [q; q] q [q]); [|reflexivity| |].
  - exists [[q; q]]. split; [constructor; [apply Sg|constructor]|reflexivity].
  - apply near_points_R. unfold distance_squared3, length_squared3, dot3. destruct q. vsimp. lra.
  - intros p [<-|[]]. apply near_points_R. unfold distance_squared3, length_squared3, dot3. destruct q. vsimp. lra.
Qed.
End CircleEdge.

(** A polyline edge whose vertices are on the polyline runs from its start to its end vertex. *)
Theorem C57_polyline_edge t e es ee g ss ps vs a b :
  get t e = EEdgeCurve es ee g ss -> get t g = EPolyline ps -> Forall2 (point_at t) ps vs -> (2 <= length vs)%nat -> 0 < total vs ->
  vertex_at t es a -> vertex_at t ee b -> on_polyline vs a -> on_polyline vs b ->
  exists seg, extract_edge_curve t e = Ok (Some seg) /\ runs_from_to seg a b /\ 0 <= fst (d_range seg) <= 1 /\ 0 <= snd (d_range seg) <= 1.
Proof.
  intros Ee Eg HF HL HT Ha Hb Oa Ob. destruct (C30_new vs) as [C1 C2]. destruct (proj2 C1 HL) as [pl Epl]. destruct (C2 pl Epl) as [Ev Hip].
  assert (Ec : extract_curve t g = Ok (Some (DPolyline pl))).
  { unfold extract_curve. rewrite Eg. unfold extract_points. rewrite (proj2 (mapM_inv _ _ vs)); [cbn [obind]; rewrite Epl; reflexivity|].
    eapply Forall2_weaken; [|exact HF]. apply point_at_read. }
  rewrite <- Ev in HT, Oa, Ob. destruct (C31_roundtrip pl a Hip HT Oa) as (ua & Pa & Ra & Ga). destruct (C31_roundtrip pl b Hip HT Ob) as (ub & Pb & Rb & Gb).
  eexists. rewrite (edge_curve_read _ _ _ _ _ _ _ _ _ Ee Ec Ha Hb). cbn [dyn_curve polyline_curve c_project obind]. rewrite Pa. cbn [obind]. rewrite Pb. cbn [obind]. split; [reflexivity|].
  unfold runs_from_to. cbn [d_curve d_range dyn_curve polyline_curve c_refine c_get_point default_refine fst snd]. auto.
Qed.

(** ** Planes *)
(** A planar face lies on the plane through the location spanned by the reference direction and
    [normal x reference direction]; the normal is the axis, reversed if the sense disagrees. *)
Theorem C57_plane t g ss pos loc ax rf o z x :
  get t g = EPlane pos -> get t pos = EAxis2Placement3d loc (Some ax) (Some rf) -> point_at t loc o -> direction_at t ax z -> direction_at t rf x ->
  exists pl, extract_surface t g ss = Ok (Some (plane_surface pl)) /\
    (forall u v, sf_get_point (plane_surface pl) u v = Ok (vadd (vadd o (vmulr x u)) (vmulr (cross3 (if ss then z else neg3 z) x) v))) /\
    p_normal pl = (if ss then z else neg3 z).
Proof.
  intros Eg Ep Ho Hz Hx. eexists. split.
  - unfold extract_surface. rewrite Eg. unfold axis2_placement_3d. rewrite Ep, (point_at_read _ _ _ Ho). cbn [obind unwrap].
    rewrite (direction_at_read _ _ _ Hz). cbn [obind]. rewrite (direction_at_read _ _ _ Hx). reflexivity.
  - split; reflexivity.
Qed.

(** ** Files that make the reader panic *)
(** Axis and reference direction of a placement may be omitted in STEP files; the reader panics
    then. *)
Lemma cartesian_terminates t r : cartesian (F := R) t r <> OutOfFuel.
Proof. unfold cartesian. destruct (get t r); try discriminate. unfold vec3_of, idx. destruct (nth_error coordinates 0), (nth_error coordinates 1), (nth_error coordinates 2); discriminate. Qed.
Lemma direction_terminates t r : direction (F := R) t r <> OutOfFuel.
Proof. unfold direction. destruct (get t r); try discriminate. unfold vec3_of, idx. destruct (nth_error ratios 0), (nth_error ratios 1), (nth_error ratios 2); discriminate. Qed.
Theorem C57_placement_defaults_panic t pos loc axis ref : get t pos = EAxis2Placement3d loc axis ref -> axis = None \/ ref = None ->
  (forall g rad, get t g = ECircle pos rad -> extract_curve (F := R) t g = Panic) /\
  (forall g ss, get t g = EPlane pos \/ (exists rad, get t g = ECylindricalSurface pos rad) -> extract_surface (F := R) t g ss = Panic /\
     (forall r bs, In (r, EAdvancedFace bs g ss) t -> forall m, read_model t <> Ok m)).
Proof.
  intros Ep H.
  assert (P : axis2_placement_3d t pos = Panic).
  { unfold axis2_placement_3d. rewrite Ep. pose proof (cartesian_terminates t loc) as T. destruct (cartesian t loc); cbn [obind]; [|reflexivity|congruence].
    destruct axis as [ax|]; cbn [unwrap obind]; [|reflexivity]. pose proof (direction_terminates t ax) as T2. destruct (direction t ax); cbn [obind]; [|reflexivity|congruence].
    destruct H as [H|H]; [discriminate H|]. now rewrite H. }
  split.
  - intros g rad Eg. unfold extract_curve. rewrite Eg, P. reflexivity.
  - intros g ss Eg. assert (E : extract_surface t g ss = Panic) by (unfold extract_surface; destruct Eg as [Eg|[rad Eg]]; rewrite Eg, P; reflexivity).
    split; [exact E|]. intros r bs I m M. unfold read_model in M. obind_inv M. obind_inv M. match goal with H : filter_mapM (fun p => extract_face _ _) _ = _ |- _ => unfold filter_mapM in H; obind_inv H end. match goal with H : mapM (fun p => extract_face _ _) _ = _ |- _ => apply mapM_inv in H; rename H into M2 end.
    apply In_nth_error in I. destruct I as [n I]. clear - M2 I E. revert n I. induction M2 as [|p q l' k K _ IH]; intros [|n] I; try discriminate.
    + cbn in I. injection I as ->. cbn [snd] in K. unfold extract_face in K. rewrite E in K. discriminate.
    + exact (IH n I).
Qed.
(** The parts of a complex rational surface are read in the order of the file, and the weights
    need the control points: weights first panics. *)
Theorem C57_complex_order_panics t g ss ud vd cps w rest : get t g = EComplex (ERationalBSplineSurface ud vd cps w :: rest) -> extract_surface (F := R) t g ss = Panic.
Proof. intros E. unfold extract_surface. rewrite E. reflexivity. Qed.

(** ** A file: a planar face with one straight edge, read against its orientation *)
Definition sample (len : R) : table R :=
  [ (1, ECartesianPoint [0; 0; 0]%R); (2, ECartesianPoint [2; 0; 0]%R); (3, EDirection [len; 0; 0]%R); (4, EVector 3 1%R); (5, ELine 1 4);
    (6, EVertexPoint 1); (7, EVertexPoint 2); (8, EEdgeCurve 6 7 5 true); (9, EOrientedEdge 8 false); (10, EEdgeLoop [9]); (11, EFaceBound 10 true);
    (12, EDirection [0; 0; 1]%R); (13, EAxis2Placement3d 1 (Some 12) (Some 3)); (14, EPlane 13); (15, EAdvancedFace [11] 14 true);
    (16, EAdvancedFace [11] 1 true); (17, ECircle 13 2%R); (18, ETrimmedCurve 17 [Some 0%R] [Some 1%R] true); (19, ECompositeCurveSegment 18);
    (20, ECompositeCurve [19; 1]); (21, EPolyline [1; 2]%nat); (22, EEdgeCurve 6 7 21 true)]%nat.
Definition sample_line len : DynCurve R := DLine {| l_origin := V3 0 0 0; l_direction := V3 len 0 0 |}.
Definition sample_edge len : DynSegment R := {| d_curve := sample_line len; d_range := (len * 0 + 0 * 0 + 0 * 0, len * 2 + 0 * 0 + 0 * 0); d_tolerance := flit 1 100; d_division := 16 |}.
Lemma sample_edge_read len : extract_oriented_edge (sample len) 9 = Ok (Some (sample_edge len)).
Proof.
  unfold extract_oriented_edge, extract_edge_curve, sample_edge. cbn. unfold line_project, dot3. cbn. rnum. do 3 f_equal. unfold default_refine. f_equal; ring.
Qed.
(** An edge whose orientation is reversed in the loop is still run through from its start to its
    end vertex. *)
Theorem C57_reversed_edge_refuted : exists t r el seg a b, get t r = EOrientedEdge el false /\ vertex_at t 6 a /\ vertex_at t 7 b /\
  get t el = EEdgeCurve 6 7 5 true /\ extract_oriented_edge t r = Ok (Some seg) /\ runs_from_to seg a b /\ ~ runs_from_to seg b a.
Proof.
  exists (sample 1), 9%nat, 8%nat, (sample_edge 1), (V3 0 0 0), (V3 2 0 0). split; [reflexivity|]. split; [exists 1%nat; split; [reflexivity|exists []; reflexivity]|].
  split; [exists 2%nat; split; [reflexivity|exists []; reflexivity]|]. split; [reflexivity|]. split; [apply sample_edge_read|].
  unfold runs_from_to, sample_edge, sample_line. cbn. unfold line_get_point. vsimp. rnum. split.
  - split; do 2 f_equal; ring.
  - intros [E _]. apply Ok_inj in E. injection E. lra.
Qed.
(** A line whose direction is not of unit length (legal: only the direction counts) misses the
    vertices of the edge. *)
Theorem C57_line_scaled_refuted : exists t seg b, vertex_at t 7 b /\ get t 8 = EEdgeCurve 6 7 5 true /\ get t 5 = ELine 1 4 /\
  extract_edge_curve t 8 = Ok (Some seg) /\ c_get_point (dyn_curve (d_curve seg)) (snd (d_range seg)) = Ok (V3 8 0 0) /\ b = V3 2 0 0.
Proof.
  exists (sample 2), (sample_edge 2), (V3 2 0 0). split; [exists 2%nat; split; [reflexivity|exists []; reflexivity]|]. split; [reflexivity|]. split; [reflexivity|].
  split; [exact (sample_edge_read 2)|]. split; [|reflexivity]. cbn. unfold line_get_point. vsimp. rnum. do 2 f_equal; ring.
Qed.
(** The hypotheses of the theorems above are met by that file. *)
Example C57_transfer_nonvacuous : exists s c, read_model (sample 1) = Ok ([{| stf_surface := s; stf_bounds := [[sample_edge 1]] |}], [[c]]).
Proof.
  unfold read_model, filter_mapM. pose proof (sample_edge_read 1) as E. 
  do 2 eexists. cbn -[extract_oriented_edge sample_edge circle_refine]. unfold extract_bound, filter_mapM. cbn -[extract_oriented_edge sample_edge circle_refine].
  rewrite E. reflexivity.
Qed.
Example C57_line_edge_nonvacuous : exists seg, extract_edge_curve (sample 1) 8 = Ok (Some seg) /\ runs_from_to seg (V3 0 0 0) (V3 2 0 0).
Proof.
  apply (C57_line_edge (sample 1) 8 6 7 5 true 1 4 3 1 (V3 0 0 0) (V3 1 0 0)); try reflexivity.
  - exists []; reflexivity.
  - exists []; reflexivity.
  - unfold unit3, dot3. cbn. rnum. ring.
  - exists 1%nat. split; [reflexivity|exists []; reflexivity].
  - exists 2%nat. split; [reflexivity|exists []; reflexivity].
  - exists 0. vsimp. f_equal; ring.
  - exists 2. vsimp. f_equal; ring.
Qed.
Example C57_circle_edge_nonvacuous : exists t seg, get t 8 = EEdgeCurve 6 7 17 false /\ extract_edge_curve t 8 = Ok (Some seg) /\ runs_from_to seg (V3 2 0 0) (V3 0 2 0).
Proof.
  set (t := [(1, ECartesianPoint [0; 0; 0]%R); (2, ECartesianPoint [2; 0; 0]%R); (3, ECartesianPoint [0; 2; 0]%R); (4, EDirection [3; 0; 0]%R); (5, EDirection [0; 0; 1]%R);
    (6, EVertexPoint 2); (7, EVertexPoint 3); (13, EAxis2Placement3d 1 (Some 5) (Some 4)); (17, ECircle 13 2%R); (8, EEdgeCurve 6 7 17 false)]%nat).
  exists t. destruct (C57_circle_edge t 8 6 7 17 13 1 5 4 false 2 (V3 0 0 0) (V3 0 0 1) (V3 3 0 0) (V3 2 0 0) (V3 0 2 0)) as (seg & E & K & _); try reflexivity.
  - exists []; reflexivity.
  - exists []; reflexivity.
  - exists []; reflexivity.
  - unfold unit3, dot3. cbn. rnum. ring.
  - unfold dot3. cbn. rnum. ring.
  - unfold dot3. cbn. rnum. lra.
  - lra.
  - exists 2%nat. split; [reflexivity|exists []; reflexivity].
  - exists 3%nat. split; [reflexivity|exists []; reflexivity].
  - unfold sqdist, dot3. cbn. rnum. split; ring.
  - unfold sqdist, dot3. cbn. rnum. split; ring.
  - exists seg. split; [reflexivity|]. split; assumption.
Qed.
Example C57_polyline_edge_nonvacuous : exists seg, extract_edge_curve (sample 1) 22 = Ok (Some seg) /\ runs_from_to seg (V3 0 0 0) (V3 2 0 0).
Proof.
  assert (S0 : seg_len [V3 0 0 0; V3 2 0 0] 0 = 2).
  { unfold seg_len, vert, dist3. cbn. transitivity (sqrt (2 * 2)); [f_equal; ring|]. apply sqrt_square; lra. }
  destruct (C57_polyline_edge (sample 1) 22 6 7 21 true [1; 2]%nat [V3 0 0 0; V3 2 0 0] (V3 0 0 0) (V3 2 0 0)) as (seg & E & K & _); try reflexivity.
  - repeat constructor; exists []; reflexivity.
  - unfold total. change (length _ - 1)%nat with (0 + 1)%nat. rewrite arc_S, S0. unfold arc. cbn. lra.
  - exists 1%nat. split; [reflexivity|exists []; reflexivity].
  - exists 2%nat. split; [reflexivity|exists []; reflexivity].
  - eexists. exists 0%nat, 0. split; [cbn; lia|]. split; [lra|]. split; [|reflexivity]. unfold on_segment3, vert. cbn. f_equal; ring.
  - eexists. exists 0%nat, 1. split; [cbn; lia|]. split; [lra|]. split; [|reflexivity]. unfold on_segment3, vert. cbn. f_equal; ring.
  - exists seg. split; assumption.
Qed.
