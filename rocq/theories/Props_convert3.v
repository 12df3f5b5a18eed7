(** Property C76: a solid whose faces have holes, from a STEP file to an OBJ file. *)
From Coq Require Import Reals Lra Lia Arith NArith ZArith Permutation List.
From Verif Require Import Prelude Num M_vec M_utils M_curve M_polygon M_meshgen M_surface M_files M_step M_convert L_base L_vec L_geom L_cycle L_polygon L_round
  Props_utils Props_polygon Props_ears Props_merge Props_mesh Props_round Props_loops Props_bspline L_simple L_sides L_twoears L_earexist L_clip Props_simple L_drop Props_straight L_grid Props_grid Props_lattice
  L_convex Props_trim Props_trim3 Props_trim4 Props_solid Props_holes Props_obj Props_step Props_convert Props_convert2.
Import ListNotations.

(** ** Specification: plane faces with any number of loops in a STEP file *)
Section File.
Context {F : Type} {NF : Num F} {TF : Trig F}.
(** the plane of a face (the corners of [hf_plane] play no part) and the corners of its loops *)
Record holed_face := { hf_plane : plane_face F; hf_loops : list (list (vec3 F)) }.
Variable fit : vec3 F -> vec3 F -> vec3 F -> vec3 F -> Prop.
Definition loop_in (t : table F) (b : nat) (loop : list (vec3 F)) : Prop := exists lp es, get t b = EFaceBound lp true /\ get t lp = EEdgeLoop es /\ Forall2 (side_in fit t) es (sides_of loop).
Definition holed_in (t : table F) (p : nat * entity F) (f : holed_face) : Prop := exists bounds g pos loc ax rf,
  snd p = EAdvancedFace bounds g (pf_sense (hf_plane f)) /\ get t g = EPlane pos /\ get t pos = EAxis2Placement3d loc (Some ax) (Some rf) /\
  point_in t loc (pf_origin (hf_plane f)) /\ direction_in t ax (pf_axis (hf_plane f)) /\ direction_in t rf (pf_ref (hf_plane f)) /\ Forall2 (loop_in t) bounds (hf_loops f).
Definition holed_solid_in (t : table F) (fs : list holed_face) : Prop :=
  Forall2 (holed_in t) (filter is_face t) fs /\ Forall (fun p => match snd p with ECompositeCurve _ => False | _ => True end) t.
(** what the reader makes of a face in a file without reversed edges: the plane, and all loops in order *)
Definition holed_made (sf : StepFace) (f : holed_face) : Prop := stf_surface sf = plane_surface (pf_plane (hf_plane f)) /\
  Forall2 (fun segs loop => Forall2 (line_read fit) segs (sides_of loop)) (stf_bounds sf) (hf_loops f).
Theorem C76_read (t : table F) fs : holed_solid_in t fs -> none_reversed t -> exists faces, read_model t = Ok (faces, []) /\ Forall2 holed_made faces fs.
Proof.
  intros [HF HC] HN. unfold read_model.
  assert (EC : filter_mapM (fun p => extract_polycurve t (snd p)) t = Ok []).
  { destruct (filter_mapM_some (fun p => extract_polycurve t (snd p)) (fun _ => false) (fun (_ : list (DynSegment F)) (_ : unit) => False) t []) as (ys & E & K).
    - intros x I _. rewrite Forall_forall in HC. specialize (HC x I). unfold extract_polycurve. destruct (snd x); try reflexivity. destruct HC.
    - assert (filter (fun _ : nat * entity F => false) t = []) as -> by (clear; induction t; auto). constructor.
    - inversion K; subst. exact E. }
  rewrite EC. cbn [obind]. destruct (filter_mapM_some (fun p => extract_face t (snd p)) is_face holed_made t fs) as (faces & E & K); [| |rewrite E; cbn [obind]; eauto].
  - intros x _ N. unfold is_face in N. unfold extract_face. destruct (snd x); try reflexivity. discriminate.
  - eapply Forall2_weaken; [|exact HF]. intros p f (bounds & g & pos & loc & ax & rf & E1 & E2 & E3 & E4 & E5 & E6 & HB).
    unfold extract_face. rewrite E1. unfold extract_surface. rewrite E2. unfold axis2_placement_3d. rewrite E3, (point_in_read _ _ _ E4). cbn [obind unwrap]. rewrite (direction_in_read _ _ _ E5). cbn [obind]. rewrite (direction_in_read _ _ _ E6). cbn [obind unwrap].
    destruct (filter_mapM_all (extract_bound t) (fun segs loop => Forall2 (line_read fit) segs (sides_of loop)) bounds (hf_loops f)) as (segs & ES & KS).
    { eapply Forall2_weaken; [|exact HB]. intros b loop (lp & es & B1 & B2 & HS). unfold extract_bound. rewrite B1, B2.
      destruct (Forall2_combine _ _ _ HS) as [HL _].
      destruct (filter_mapM_all (extract_oriented_edge t) (line_read fit) es (sides_of loop)) as (ss & E & H).
      { clear -HS HN. induction HS as [|r ab es l H _ IH]; [constructor|]. constructor; [|exact IH]. destruct (side_read fit t r ab H) as (seg & E & R). exists seg. rewrite (none_stored t r ab HN) in R. auto. }
      rewrite E. cbn [obind]. eauto. }
    rewrite ES. cbn [obind]. eexists. split; [reflexivity|]. split; [reflexivity|exact KS].
Qed.
End File.
Arguments holed_face : clear implicits.

(** ** In exact arithmetic *)
Section Exact.
Context {TF : Trig R}.
Open Scope R_scope.
Definition hf_border (f : holed_face R) : list edge3 := flat_map border (hf_loops f).
(** a face with holes as in C70: [k] is the outer loop, the others are holes further left and run the other way round;
    the merged polygon neither crosses itself nor turns right where it touches itself *)
Definition good_holed (f : holed_face R) : Prop := let s := pf_plane (hf_plane f) in let vs := concat (hf_loops f) in let ps := map (plane_project s) vs in
  (2 <= length (hf_loops f))%nat /\ Forall (fun l => corners_apart l /\ (2 <= length l)%nat) (hf_loops f) /\ (forall p, In p ps -> fminval < x2 p) /\ general_position ps /\
  (exists k, outer_loop s (hf_loops f) k) /\ 0 < sumR (fun p => area2 (map (plane_project s) p)) (hf_loops f) /\
  exists l, merge_polygons ps (0 :: ends_from 0 (hf_loops f))%nat = Ok l /\ at_most_twice l /\ simple_polygon (poly ps l) /\ repeats_turn_left ps l.
(** a face with one loop, as in C68 *)
Definition good_single (f : holed_face R) : Prop := hf_loops f = [pf_corners (hf_plane f)] /\ good_face (hf_plane f) /\ sharp_face (hf_plane f).
Definition flat_holed (f : holed_face R) : Prop := let p := hf_plane f in unit3 (pf_ref p) /\ unit3 (pf_axis p) /\ dot3 (pf_ref p) (pf_axis p) = 0 /\
  Forall (fun q => dot3 (vsub q (pf_origin p)) (pf_axis p) = 0) (concat (hf_loops f)).
Lemma holed_proper fuel rnd sf f : holed_made fitR sf f -> Forall (fun l => corners_apart l /\ (2 <= length l)%nat) (hf_loops f) ->
  proper_loops (S fuel) rnd (map (map dyn_segment) (stf_bounds sf)) (hf_loops f).
Proof.
  intros [_ HB] HL. exists (hf_loops f). split.
  - split; [rewrite map_length; symmetry; exact (F2_length _ _ _ HB)|]. intros k b p E1 E2. rewrite nth_error_map in E1. destruct (nth_error (stf_bounds sf) k) as [segs|] eqn:E; [|discriminate]. injection E1 as <-.
    destruct (F2_nth_r _ _ _ k p HB E2) as (segs' & E' & HR). rewrite E in E'. injection E' as <-. rewrite Forall_forall in HL. destruct (HL p (nth_error_In _ _ E2)) as [HA H2].
    destruct p as [|a [|c l]]; cbn [length] in H2; try lia. apply C53_straight_loop; [discriminate| |exact HA].
    unfold sides_of in HR. cbn [firstn app] in HR. change (a :: (c :: l) ++ [a]) with (a :: c :: l ++ [a]). clear -HR. induction HR as [|seg [x y] segs r H _ IH]; [constructor|]. cbn [map]. constructor; [now apply line_straight|exact IH].
  - clear -HL. induction HL as [|p ls [_ H2] _ IH]; [reflexivity|]. cbn [filter]. destruct p; [cbn in H2; lia|]. cbn [nonempty]. now rewrite IH.
Qed.
(** what is known of the mesh of a face *)
Definition holed_mesh (f : holed_face R) (m : TriangleMesh R) : Prop := valid_mesh m /\ m_normals m = [] /\
  (exists extra, m_vertices m = concat (hf_loops f) ++ extra /\ (extra = [] \/ exists c, extra = [c] /\ length (hf_loops f) = 1%nat /\ mean_of (concat (hf_loops f)) c)) /\
  (forall p q, net (mesh_edges m) p q = net (hf_border f) p q) /\ (flat_holed f -> forall o, mesh_vol6 o m = sumR (loop_vol6 o) (hf_loops f)).
(** the merged polygon consists of vertices of the loops *)
Lemma merged_In Q outer holes result n : merged Q outer holes result -> (forall x, In x outer -> x < n)%nat -> Forall (fun r : nat * nat => (fst r < snd r <= n)%nat) holes -> forall x, In x result -> (x < n)%nat.
Proof.
  induction 1 as [outer|pre o post s e m holes result Hm HQ H IH]; intros HO HH; [exact HO|]. inversion HH as [|? ? H1 H2]; subst. cbn [fst snd] in H1. apply IH; [|exact H2].
  intros x Hx. apply in_app_or in Hx as [Hx|Hx]; [apply HO, in_or_app; now left|]. destruct Hx as [->|Hx]; [apply HO, in_or_app; right; now left|].
  apply in_app_or in Hx as [Hx|Hx]; [apply in_app_or in Hx as [Hx|Hx]; apply in_seq in Hx; lia|]. destruct Hx as [<-|[<-|Hx]]; [lia|apply HO, in_or_app; right; now left|apply HO, in_or_app; right; now right].
Qed.
Lemma merge_range (s : Plane R) loops l : let vs := concat loops in let ps := map (plane_project s) vs in (forall p, In p loops -> nonempty p = true) -> loops <> [] -> (forall p, In p ps -> fminval < x2 p) ->
  merge_polygons ps (0 :: ends_from 0 loops)%nat = Ok l -> forall x, In x l -> (x < length vs)%nat.
Proof.
  intros vs ps HE H2 Hx EM. assert (Ln : length ps = length vs) by apply map_length. pose proof (ends_delimit [] loops) as HD. cbn [length app] in HD. fold vs in HD. rewrite (filter_all _ _ HE) in HD.
  set (offs := (0 :: ends_from 0 loops)%nat) in *. pose proof (F2_length _ _ _ HD) as LP. assert (RG : Forall (fun r : nat * nat => (fst r < snd r <= length vs)%nat) (pairs offs)) by (eapply occupies_ranges; exact HD).
  assert (LO : loops_ok ps offs).
  { split; [intros E; rewrite E in LP; destruct loops; [congruence|discriminate]|]. eapply Forall_impl; [|exact RG]. intros [a b] Hab. cbn [fst snd] in Hab. rewrite Ln. split; [exact Hab|].
    destruct (nth_error ps a) as [p|] eqn:Ea; [|apply nth_error_None in Ea; lia]. exists p. split; [reflexivity|]. apply Rltb_true. apply Hx. eapply nth_error_In. exact Ea. }
  destruct (C41_merge ps offs LO) as (so & eo & hs & l' & EM' & PH & _ & HM & _). rewrite EM in EM'. apply Ok_inj in EM'. subst l'.
  assert (RG' : Forall (fun r : nat * nat => (fst r < snd r <= length vs)%nat) ((so, eo) :: hs)) by (eapply Permutation_Forall; [symmetry; exact PH|exact RG]). inversion RG' as [|? ? R1 R2]; subst. cbn [fst snd] in R1.
  apply (merged_In _ _ _ _ _ HM); [|exact R2]. intros x Ix. apply in_seq in Ix. lia.
Qed.
Lemma single_made (t : table R) sf f : none_reversed t -> holed_made fitR sf f -> hf_loops f = [pf_corners (hf_plane f)] -> face_made fitR t sf (hf_plane f).
Proof.
  intros HN [HS HB] E. split; [exact HS|]. rewrite E in HB. inversion HB as [|segs ? ? ? H H' E1 E2]; subst. inversion H'; subst. exists segs, (repeat 0%nat (length (sides_of (pf_corners (hf_plane f))))). split; [reflexivity|]. split; [apply repeat_length|].
  rewrite none_stored_map; [exact H|exact HN|apply repeat_length].
Qed.
Lemma holed_face_mesh fuel rnd (t : table R) sf f : none_reversed t -> holed_made fitR sf f -> (N.of_nat (length (concat (hf_loops f))) < 2 ^ 32)%N -> good_single f \/ good_holed f -> exists m, step_face_mesh (S fuel) rnd sf = Ok m /\ holed_mesh f m.
Proof.
  intros HN HM HL [(E1 & HG & HSh)|HG].
  - destruct (good_mesh fuel rnd t sf (hf_plane f) HN (single_made t sf f HN HM E1) HG) as (m & Em & V & N & _ & X & K1 & K2). exists m. split; [exact Em|]. unfold holed_mesh, hf_border, flat_holed. rewrite E1. cbn [concat flat_map]. rewrite !app_nil_r.
    split; [exact V|]. split; [exact N|]. split; [destruct X as (extra & EV & [E|(c & E & HC)]); exists extra; (split; [exact EV|]); [now left|right; exists c; auto]|]. split; [now apply K1|]. intros HF o. rewrite K2; [unfold sumR; cbn [map fold_right]; ring|exact HF].
  - destruct HG as (H2 & HA & HX & HGP & (k & HO) & H0 & l & HMg & HTw & HSi & HTu). pose proof (holed_proper fuel rnd sf f HM HA) as HP. destruct HM as [ES _].
    destruct (C70_holes (pf_plane (hf_plane f)) (S fuel) rnd _ (hf_loops f) k l HP H2 HL HX HGP HO H0 HMg HTw HSi HTu) as (T & Em & _ & FT & AT & _ & KE).
    unfold step_face_mesh, trimmed_get_triangle_mesh. cbn [ts_surface ts_bounds]. rewrite ES. cbn [plane_surface sf_trim]. exists (mkTM (concat (hf_loops f)) [] (emit T)). split; [exact Em|].
    assert (RT : Forall (fun '(a, b, c) => a < length (concat (hf_loops f)) /\ b < length (concat (hf_loops f)) /\ c < length (concat (hf_loops f)))%nat T).
    { eapply Forall_impl; [|exact FT]. intros [[a b] c] [C _].
      assert (Bd : forall x, In x [a; b; c] -> (x < length (concat (hf_loops f)))%nat).
      { intros x Ix. apply (merge_range (pf_plane (hf_plane f)) (hf_loops f) l); [intros p Ip; exact (proper_nonempty _ _ _ _ p HP Ip)|intros E; rewrite E in H2; cbn in H2; lia|exact HX|exact HMg|].
        destruct C as [C|[C|C]]; (eapply sublist_In; [exact C|]); cbn [In] in *; tauto. }
      repeat split; apply Bd; cbn [In]; auto. }
    split; [apply (emit_valid (mkTM (concat (hf_loops f)) [] (emit T)) T eq_refl eq_refl); cbn [m_vertices]; [lia|exact RT]|]. split; [reflexivity|]. split; [exists []; rewrite app_nil_r; split; [reflexivity|now left]|]. split; [exact KE|].
    intros HF o. destruct (flat_face_flat {| pf_origin := pf_origin (hf_plane f); pf_axis := pf_axis (hf_plane f); pf_ref := pf_ref (hf_plane f); pf_sense := pf_sense (hf_plane f); pf_corners := concat (hf_loops f) |} HF) as [HO1 HO2].
    apply (C70_volume (pf_plane (hf_plane f)) (hf_loops f) T o HO1 HO2); [|exact HL|exact RT|exact AT]. intros p Ip ->. rewrite Forall_forall in HA. destruct (HA _ Ip) as [_ HH]. cbn in HH. lia.
Qed.
(** C76: the faces of the file are filled around their holes: the triangles in the OBJ file have the borders of all loops, so none at all when the loops of the file fit together, and enclose the volume between them *)
Theorem C76_solid (t : table R) fs : holed_solid_in fitR t fs -> none_reversed t -> fs <> [] -> Forall (fun f => good_single f \/ good_holed f) fs ->
  (N.of_nat (length (flat_map (fun f => concat (hf_loops f)) fs) + length fs) < 2 ^ 32 - 1)%N ->
  forall fmt fmt2 parse fuel rnd srnd,
    (forall f p, In f fs -> In p (concat (hf_loops f)) \/ length (hf_loops f) = 1%nat /\ mean_of (concat (hf_loops f)) p -> faithful3 fmt parse p) ->
  exists text tris, convert_stp fmt fmt2 (S fuel) rnd srnd t = Ok (Some text, None) /\ read_obj parse text = Some tris /\
    (forall p q, net (tris_edges (obj_tris tris)) p q = net (flat_map hf_border fs) p q) /\
    (closed_edges (flat_map hf_border fs) -> closed_edges (tris_edges (obj_tris tris))) /\
    (Forall flat_holed fs -> forall o, tris_vol6 o (obj_tris tris) = sumR (fun f => sumR (loop_vol6 o) (hf_loops f)) fs).
Proof.
  intros HS HN NE HG HL fmt fmt2 parse fuel rnd srnd HF. destruct (C76_read fitR t fs HS HN) as (faces & ER & HM). rewrite Forall_forall in HG.
  assert (HLf : forall f, In f fs -> (N.of_nat (length (concat (hf_loops f))) < 2 ^ 32)%N).
  { intros f If. assert (length (concat (hf_loops f)) <= length (flat_map (fun f => concat (hf_loops f)) fs))%nat; [|lia]. clear -If. induction fs as [|g fs IH]; [destruct If|]. cbn [flat_map]. rewrite app_length. destruct If as [->|If]; [lia|specialize (IH If); lia]. }
  destruct (meshes_made (fun k sf => step_face_mesh (S fuel) (rnd k) sf) (holed_made fitR) holed_mesh faces fs HM) as (ms & EM & MM).
  { intros k sf f If Hf. exact (holed_face_mesh fuel (rnd k) t sf f HN Hf (HLf f If) (HG f If)). }
  assert (T1 : (length (flat_map m_vertices ms) <= length (flat_map (fun f => concat (hf_loops f)) fs) + length fs)%nat).
  { clear -MM. induction MM as [|f m fs ms (_ & _ & (extra & EV & C) & _) _ IH]; [reflexivity|]. cbn [flat_map length]. rewrite !app_length, EV, app_length. destruct C as [->|(c & -> & _)]; cbn [length]; lia. }
  assert (T2 : flat_map m_normals ms = []) by (clear -MM; induction MM as [|f m fs ms (_ & EN & _) _ IH]; [reflexivity|]; cbn [flat_map]; now rewrite EN, IH).
  assert (NF0 : faces <> []) by (intros ->; inversion HM; subst; congruence).
  destruct (C68_text fmt fmt2 parse (S fuel) rnd srnd t faces ms ER NF0 EM) as (text & fss & ET & RT & FF).
  - clear -MM. induction MM as [|f m fs ms (V & _) _ IH]; constructor; assumption.
  - clear -MM HF. induction MM as [|f m fs ms (_ & EN & (extra & EV & C) & _) _ IH]; constructor; [|apply IH; intros g p Ig; apply HF; now right]. rewrite EN. split; [|constructor]. rewrite EV. apply Forall_forall. intros p Ip.
    apply (HF f p (or_introl eq_refl)). apply in_app_or in Ip as [Ip|Ip]; [now left|]. destruct C as [->|(c & -> & HC)]; [destruct Ip|]. destruct Ip as [<-|[]]. now right.
  - unfold total. lia.
  - unfold total. rewrite T2. cbn. lia.
  - exists text, (concat fss). split; [exact ET|]. split; [exact RT|]. destruct (tris_all ms fss FF) as [TE TV]. rewrite TE.
    assert (K : forall p q, net (flat_map mesh_edges ms) p q = net (flat_map hf_border fs) p q).
    { clear -MM. induction MM as [|f m fs ms (_ & _ & _ & K & _) _ IH]; [reflexivity|]. intros p q. cbn [flat_map]. rewrite !net_app, K, IH. reflexivity. }
    split; [exact K|]. split; [intros HC p q; rewrite K; apply HC|].
    intros HFl o. rewrite TV. clear -MM HFl. induction MM as [|f m fs ms (_ & _ & _ & _ & K) _ IH]; [reflexivity|]. inversion HFl; subst. unfold sumR in *. cbn [map fold_right]. rewrite K, IH by assumption. reflexivity.
Qed.

(** ** A file with one face: a square plate with a triangular hole *)
Definition towards (a b : vec3 R) : vec3 R := vmulr (vsub b a) (/ sqrt (dot3 (vsub b a) (vsub b a))).
Lemma towards_fit a b : 0 < dot3 (vsub b a) (vsub b a) -> fitR a (towards a b) a b.
Proof.
  intros H. pose proof (sqrt_lt_R0 _ H) as S0. pose proof (sqrt_sqrt _ (Rlt_le _ _ H)) as SS. set (d := sqrt _) in *. unfold fitR, towards. fold d. split; [|split].
  - unfold unit3. transitivity (dot3 (vsub b a) (vsub b a) * / d * / d); [unfold dot3; vsimp; ring|]. rewrite <- SS. field. lra.
  - exists 0. destruct a. vsimp. f_equal; ring.
  - exists d. destruct a, b. vsimp. f_equal; field; lra.
Qed.
Definition edge_lines (k : nat) (ab : vec3 R * vec3 R) : table R := let (a, b) := ab in let co v := [x3 v; y3 v; z3 v] in
  [(k, EOrientedEdge (k + 1) true); (k + 1, EEdgeCurve (k + 2) (k + 3) (k + 4) true); (k + 2, EVertexPoint (k + 5)); (k + 3, EVertexPoint (k + 6)); (k + 4, ELine (k + 5) (k + 7));
   (k + 5, ECartesianPoint (co a)); (k + 6, ECartesianPoint (co b)); (k + 7, EVector (k + 8) 1%R); (k + 8, EDirection (co (towards a b)))]%nat.
Definition plate_file : table R :=
  flat_map (fun '(i, ab) => edge_lines (10 * i) ab) (combine (seq 1 7) (flat_map sides_of plate)) ++
  [(90, ECartesianPoint [0; 0; 0]%R); (91, EDirection [0; 0; 1]%R); (92, EDirection [1; 0; 0]%R); (93, EAxis2Placement3d 90 (Some 91) (Some 92)); (94, EPlane 93);
   (95, EEdgeLoop [10; 20; 30; 40]); (96, EFaceBound 95 true); (97, EEdgeLoop [50; 60; 70]); (98, EFaceBound 97 true); (99, EAdvancedFace [96; 98] 94 true)]%nat.
Definition plate_face : holed_face R := {| hf_plane := {| pf_origin := V3 0 0 0; pf_axis := V3 0 0 1; pf_ref := V3 1 0 0; pf_sense := true; pf_corners := [] |}; hf_loops := plate |}.
Lemma plate_plane : pf_plane (hf_plane plate_face) = xy_plane.
Proof. unfold pf_plane, plate_face, xy_plane. cbn [hf_plane pf_sense pf_origin pf_axis pf_ref]. f_equal. unfold cross3. cbn. f_equal; ring. Qed.
Lemma plate_in : holed_solid_in fitR plate_file [plate_face].
Proof.
  split.
  - cbn [plate_file]. cbn. constructor; [|constructor]. exists [96; 98]%nat, 94%nat, 93%nat, 90%nat, 91%nat, 92%nat.
    split; [reflexivity|]. split; [reflexivity|]. split; [reflexivity|]. split; [exists []; reflexivity|]. split; [exists []; reflexivity|]. split; [exists []; reflexivity|].
    assert (SI : forall k a b, get plate_file k = EOrientedEdge (k + 1) true -> get plate_file (k + 1)%nat = EEdgeCurve (k + 2) (k + 3) (k + 4) true -> get plate_file (k + 2)%nat = EVertexPoint (k + 5) -> get plate_file (k + 3)%nat = EVertexPoint (k + 6) ->
      get plate_file (k + 4)%nat = ELine (k + 5) (k + 7) -> get plate_file (k + 5)%nat = ECartesianPoint [x3 a; y3 a; z3 a] -> get plate_file (k + 6)%nat = ECartesianPoint [x3 b; y3 b; z3 b] -> get plate_file (k + 7)%nat = EVector (k + 8) 1 ->
      get plate_file (k + 8)%nat = EDirection [x3 (towards a b); y3 (towards a b); z3 (towards a b)] -> 0 < dot3 (vsub b a) (vsub b a) -> side_in fitR plate_file k (a, b)).
    { intros k a b G0 G1 G2 G3 G4 G5 G6 G7 G8 HP. exists (k + 1)%nat, true, (k + 2)%nat, (k + 3)%nat, (k + 4)%nat, true, (k + 5)%nat, (k + 7)%nat, (k + 8)%nat, 1, a, (towards a b), a, b. repeat (split; [first [assumption|exists []; assumption]|]).
      split; [exists (k + 5)%nat; split; [assumption|exists []; assumption]|]. split; [exists (k + 6)%nat; split; [assumption|exists []; assumption]|]. split; [now apply towards_fit|reflexivity]. }
    constructor; [|constructor; [|constructor]].
    + exists 95%nat, [10; 20; 30; 40]%nat. split; [reflexivity|]. split; [reflexivity|]. unfold sides_of, pairs. cbn [firstn app combine tl].
      repeat (constructor; [apply SI; try reflexivity; unfold dot3; cbn; lra|]). constructor.
    + exists 97%nat, [50; 60; 70]%nat. split; [reflexivity|]. split; [reflexivity|]. unfold sides_of, pairs. cbn [firstn app combine tl].
      repeat (constructor; [apply SI; try reflexivity; unfold dot3; cbn; lra|]). constructor.
  - cbn. repeat constructor.
Qed.
Lemma plate_good : good_holed plate_face.
Proof.
  unfold good_holed. rewrite plate_plane. change (hf_loops plate_face) with plate. rewrite plate_flat.
  assert (AR : sumR (fun p => area2 (map (plane_project xy_plane) p)) plate = 182).
  { unfold plate, sumR, area2, plane_project, dot3. cbn [map fold_right]. cbn [p_origin p_u_axis p_v_axis xy_plane]. unfold cyc, chain, cross2. cbn. lra. }
  split; [cbn; lia|]. split.
  { unfold plate. constructor; [|constructor; [|constructor]]; (split; [|cbn; lia]). 
    all: cbn [app firstn pairs combine]; repeat (constructor; [unfold apart, distance_squared3, length_squared3, dot3; cbn; lra|]); constructor. }
  split; [exact plate_far|]. split; [exact plate_general|]. split; [|split; [lra|]].
  - exists 0%nat. intros j p Nj Ej. destruct j as [|[|[|j]]]; cbn [plate nth_error] in Ej; try discriminate; [lia|]. injection Ej as <-. split.
    + unfold area2, plane_project, dot3. cbn [map]. cbn [p_origin p_u_axis p_v_axis xy_plane]. unfold cyc, chain, cross2. cbn. lra.
    + exists (V3 10 0 0). split; [cbn; auto|]. intros b I. unfold plane_project, dot3. cbn [p_origin p_u_axis p_v_axis xy_plane]. repeat (destruct I as [<-|I]; [cbn; lra|]). destruct I.
  - exists [0; 1; 4; 5; 6; 4; 1; 2; 3]%nat. split; [exact plate_merge|]. split; [|split; [exact plate_simple|exact plate_turns]]. intros x. cbn [count_occ]. repeat (destruct (Nat.eq_dec _ x)); lia.
Qed.
Example C76_nonvacuous fmt2 fuel rnd srnd : exists text tris, convert_stp fmt12 fmt2 (S fuel) rnd srnd plate_file = Ok (Some text, None) /\ read_obj parse12 text = Some tris /\
  (forall p q, net (tris_edges (obj_tris tris)) p q = net (flat_map border plate) p q) /\ tris_vol6 (V3 0 0 (-3)) (obj_tris tris) = 546.
Proof.
  assert (HR : none_reversed plate_file). { intros r el I. unfold plate_file in I. cbn in I. repeat (destruct I as [I|I]; [discriminate I|]). destruct I. }
  destruct (C76_solid plate_file [plate_face] plate_in HR ltac:(discriminate) ltac:(constructor; [right; exact plate_good|constructor]) ltac:(cbn; lia) fmt12 fmt2 parse12 fuel rnd srnd) as (text & tris & E1 & E2 & K1 & _ & K2).
  - intros f p [<-|[]] H. destruct H as [H|[H _]]; [|discriminate H].
    assert (T : forall n : nat, faithful fmt12 parse12 (INR n)). { intros n. replace (INR n) with (INR (12 * n) / 12) by (rewrite mult_INR; change (INR 12) with (IZR 12) || replace (INR 12) with 12 by (cbn; lra); field). apply twelfths. }
    assert (Q : exists a b c, p = V3 (INR a) (INR b) (INR c)).
    { assert (I : forall z : Z, (0 <= z)%Z -> IZR z = INR (Z.to_nat z)) by (intros z Hz; rewrite INR_IZR_INZ, Z2Nat.id by exact Hz; reflexivity).
      cbn in H. repeat (destruct H as [<-|H]; [match goal with |- exists a b c, V3 (IZR ?x) (IZR ?y) (IZR ?z) = _ => exists (Z.to_nat x), (Z.to_nat y), (Z.to_nat z); rewrite <- !I by lia; reflexivity end|]). destruct H. }
    destruct Q as (a & b & c & ->). repeat split; apply T.
  - exists text, tris. split; [exact E1|]. split; [exact E2|]. split; [intros p q; rewrite K1; cbn [flat_map]; rewrite app_nil_r; reflexivity|].
    rewrite K2.
    + unfold sumR at 1. cbn [map fold_right]. change (hf_loops plate_face) with plate. rewrite Rplus_0_r. unfold plate, sumR. cbn [map fold_right]. unfold loop_vol6, border, pairs, pyramid6, sumR. cbn [firstn app combine tl map fold_right hd]. unfold det3. cbn. lra.
    + constructor; [|constructor]. unfold flat_holed. cbn [plate_face hf_plane hf_loops pf_ref pf_axis pf_origin]. unfold unit3, dot3. cbn [x3 y3 z3]. split; [cbn; lra|]. split; [cbn; lra|]. split; [cbn; lra|].
      unfold plate. cbn [concat app]. repeat (constructor; [cbn; lra|]). constructor.
Qed.
End Exact.
