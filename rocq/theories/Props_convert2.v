(** Property C68: STEP files with integer coordinates; a prism converted without gaps, and a cube with shared edges that loses three faces. *)
From Coq Require Import ZArith NArith Reals Lra Lia List Bool Arith Floats.SpecFloat Psatz.
From Verif Require Import Prelude Num M_vec M_utils M_curve M_polygon M_meshgen M_surface M_files M_step M_convert L_base L_vec L_geom L_cycle L_polygon L_round
  L_float L_grid L_err L_bserr Props_utils Props_bspline Props_polygon Props_ears L_simple L_sides L_twoears L_earexist L_clip Props_simple Props_segments Props_grid Props_accuracy Props_robust
  Props_merge Props_mesh Props_round Props_loops L_convex Props_trim L_drop Props_straight Props_lattice Props_trim3 Props_trim4 Props_solid Props_plane64 Props_edges64 Props_obj Props_step Props_convert.

Open Scope R_scope.

(** ** Files with integer coordinates *)
(** a table of numbers from one of integers; the entities not needed for plane faces are left out *)
Definition emap {F} (n : Z -> F) (e : entity Z) : entity F :=
  match e with
  | ECartesianPoint l => ECartesianPoint (map n l) | EDirection l => EDirection (map n l) | EVector d m => EVector d (n m) | EVertexPoint g => EVertexPoint g
  | EAxis2Placement3d a b c => EAxis2Placement3d a b c | ELine p d => ELine p d | EEdgeCurve a b g s => EEdgeCurve a b g s | EOrientedEdge e o => EOrientedEdge e o
  | EEdgeLoop l => EEdgeLoop l | EFaceBound b o => EFaceBound b o | EAdvancedFace bs g s => EAdvancedFace bs g s | EPlane p => EPlane p | _ => EOther
  end.
Definition tmap {F} (n : Z -> F) (t : table Z) : table F := map (fun p => (fst p, emap n (snd p))) t.
Definition vmap {F} (n : Z -> F) (v : vec3 Z) : vec3 F := V3 (n (x3 v)) (n (y3 v)) (n (z3 v)).
Definition pfmap {F} (n : Z -> F) (f : plane_face Z) : plane_face F :=
  {| pf_origin := vmap n (pf_origin f); pf_axis := vmap n (pf_axis f); pf_ref := vmap n (pf_ref f); pf_sense := pf_sense f; pf_corners := map (vmap n) (pf_corners f) |}.
Lemma get_tmap {F} (n : Z -> F) t r : get (tmap n t) r = emap n (get t r).
Proof. unfold get, tmap. induction t as [|[k e] t IH]; [reflexivity|]. cbn [map find fst snd]. destruct (k =? r)%nat; [reflexivity|exact IH]. Qed.
(** the faces, found in the table *)
Definition veq (a b : vec3 Z) : bool := ((x3 a =? x3 b) && (y3 a =? y3 b) && (z3 a =? z3 b))%Z.
Definition zdot (a b : vec3 Z) : Z := (x3 a * x3 b + y3 a * y3 b + z3 a * z3 b)%Z.
Definition zdiff (a b : vec3 Z) : vec3 Z := V3 (x3 a - x3 b)%Z (y3 a - y3 b)%Z (z3 a - z3 b)%Z.
Definition ztimes (a : vec3 Z) (s : Z) : vec3 Z := V3 (x3 a * s)%Z (y3 a * s)%Z (z3 a * s)%Z.
Definition zon (o w a : vec3 Z) : bool := veq (zdiff a o) (ztimes w (zdot w (zdiff a o))).
Definition zfit (o w a b : vec3 Z) : bool := ((zdot w w =? 1)%Z && zon o w a && zon o w b)%bool.
Definition ztriple (l : list Z) : option (vec3 Z) := match l with x :: y :: z :: _ => Some (V3 x y z) | _ => None end.
Definition zpoint (t : table Z) r := match get t r with ECartesianPoint l => ztriple l | _ => None end.
Definition zdir (t : table Z) r := match get t r with EDirection l => ztriple l | _ => None end.
Definition zvertex (t : table Z) r := match get t r with EVertexPoint g => zpoint t g | _ => None end.
Definition zside (t : table Z) r : option (vec3 Z * vec3 Z) :=
  match get t r with
  | EOrientedEdge el o =>
      match get t el with
      | EEdgeCurve es ee g _ =>
          match get t g with
          | ELine p v =>
              match zpoint t p, get t v, zvertex t es, zvertex t ee with
              | Some org, EVector d _, Some a, Some b => match zdir t d with Some w => if zfit org w a b then Some (if o then (a, b) else (b, a)) else None | _ => None end
              | _, _, _, _ => None
              end
          | _ => None
          end
      | _ => None
      end
  | _ => None
  end.
Definition zface (t : table Z) (p : nat * entity Z) : option (plane_face Z) :=
  match snd p with
  | EAdvancedFace [bound] g ss =>
      match get t g, get t bound with
      | EPlane pos, EFaceBound lp true =>
          match get t pos, get t lp with
          | EAxis2Placement3d loc (Some ax) (Some rf), EEdgeLoop es =>
              match zpoint t loc, zdir t ax, zdir t rf, all_some (map (zside t) es) with
              | Some o, Some z, Some x, Some sides =>
                  let cs := map fst sides in
                  if (Nat.eqb (length sides) (length (sides_of cs)) && forallb (fun '((a, b), (c, d)) => veq a c && veq b d) (combine sides (sides_of cs)))%bool
                  then Some {| pf_origin := o; pf_axis := z; pf_ref := x; pf_sense := ss; pf_corners := cs |} else None
              | _, _, _, _ => None
              end
          | _, _ => None
          end
      | _, _ => None
      end
  | _ => None
  end.
Definition zsolid (t : table Z) : option (list (plane_face Z)) :=
  if forallb (fun p => match snd p with ECompositeCurve _ => false | _ => true end) t then all_some (map (zface t) (filter is_face t)) else None.
Definition zforward (t : table Z) : bool := forallb (fun p => match snd p with EOrientedEdge _ false => false | _ => true end) t.
Lemma veq_eq a b : veq a b = true -> a = b.
Proof. unfold veq. rewrite !andb_true_iff, !Z.eqb_eq. destruct a, b. cbn. intros [[-> ->] ->]. reflexivity. Qed.
Section Ints.
Context {F : Type} {NF : Num F} {TF : Trig F} (n : Z -> F) (fit : vec3 F -> vec3 F -> vec3 F -> vec3 F -> Prop) (small : vec3 Z -> Prop).
Hypothesis Hfit : forall o w a b, zfit o w a b = true -> small o -> small a -> small b -> fit (vmap n o) (vmap n w) (vmap n a) (vmap n b).
Variable t : table Z.
Hypothesis Hsmall : forall r p, zpoint t r = Some p -> small p.
Lemma zpoint_in r p : zpoint t r = Some p -> point_in (tmap n t) r (vmap n p).
Proof. unfold zpoint, point_in. rewrite get_tmap. destruct (get t r); try discriminate. destruct coordinates as [|x [|y [|z l]]]; try discriminate. intros E. injection E as <-. exists (map n l). reflexivity. Qed.
Lemma zdir_in r p : zdir t r = Some p -> direction_in (tmap n t) r (vmap n p).
Proof. unfold zdir, direction_in. rewrite get_tmap. destruct (get t r); try discriminate. destruct ratios as [|x [|y [|z l]]]; try discriminate. intros E. injection E as <-. exists (map n l). reflexivity. Qed.
Lemma zvertex_in r p : zvertex t r = Some p -> vertex_in (tmap n t) r (vmap n p).
Proof. unfold zvertex, vertex_in. destruct (get t r) eqn:E; try discriminate. intros H. exists geometry. rewrite get_tmap, E. split; [reflexivity|now apply zpoint_in]. Qed.
Lemma zvertex_small r p : zvertex t r = Some p -> small p.
Proof. unfold zvertex. destruct (get t r); try discriminate. apply Hsmall. Qed.
Lemma zside_in r a b : zside t r = Some (a, b) -> side_in fit (tmap n t) r (vmap n a, vmap n b).
Proof.
  unfold zside. destruct (get t r) eqn:E1; try discriminate. destruct (get t element) eqn:E2; try discriminate. destruct (get t geometry) eqn:E3; try discriminate. destruct (zpoint t pnt) as [org|] eqn:E4; try discriminate.
  destruct (get t dir) eqn:E5; try discriminate. destruct (zvertex t edge_start) as [x|] eqn:E6; try discriminate. destruct (zvertex t edge_end) as [y|] eqn:E7; try discriminate. destruct (zdir t orientation0) as [w|] eqn:E8; try discriminate.
  destruct (zfit org w x y) eqn:E9; try discriminate. intros E. exists element, orientation, edge_start, edge_end, geometry, same_sense, pnt, dir, orientation0, (n magnitude), (vmap n org), (vmap n w), (vmap n x), (vmap n y).
  rewrite !get_tmap, E1, E2, E3, E5. split; [reflexivity|]. split; [reflexivity|]. split; [reflexivity|]. split; [now apply zpoint_in|]. split; [reflexivity|]. split; [now apply zdir_in|]. split; [now apply zvertex_in|]. split; [now apply zvertex_in|].
  split; [apply Hfit; eauto using zvertex_small|]. injection E as E. destruct orientation; injection E as <- <-; reflexivity.
Qed.
Lemma zsides_in : forall rs ss, all_some (map (zside t) rs) = Some ss -> Forall2 (side_in fit (tmap n t)) rs (map (fun s => (vmap n (fst s), vmap n (snd s))) ss).
Proof.
  induction rs as [|r rs IH]; intros ss; cbn [map all_some]; [intros E; injection E as <-; constructor|]. destruct (zside t r) as [[a b]|] eqn:E; [|discriminate].
  destruct (all_some (map (zside t) rs)) as [l|] eqn:El; [|discriminate]. intros H. injection H as <-. cbn [map fst snd]. constructor; [now apply zside_in|now apply IH].
Qed.
Lemma all_veq : forall (l l' : list (vec3 Z * vec3 Z)), length l = length l' -> forallb (fun '((a, b), (c, d)) => (veq a c && veq b d)%bool) (combine l l') = true -> l = l'.
Proof.
  induction l as [|[a b] l IH]; destruct l' as [|[c d] l']; cbn [length combine forallb]; try discriminate; [reflexivity|]. intros HL. rewrite !andb_true_iff. intros [[H1 H2] H3].
  apply veq_eq in H1. apply veq_eq in H2. subst. f_equal. apply IH; [now injection HL|exact H3].
Qed.
Lemma pairs_map {A B} (g : A -> B) : forall l, pairs (map g l) = map (fun s => (g (fst s), g (snd s))) (pairs l).
Proof. induction l as [|a [|b l] IH]; [reflexivity|reflexivity|]. cbn [map]. change (pairs (a :: b :: l)) with ((a, b) :: pairs (b :: l)). cbn [map fst snd]. rewrite <- IH. reflexivity. Qed.
Lemma sides_of_map {A B} (g : vec3 A -> vec3 B) cs : sides_of (map g cs) = map (fun s => (g (fst s), g (snd s))) (sides_of cs).
Proof. unfold sides_of. now rewrite firstn_map, <- map_app, pairs_map. Qed.
Lemma zface_in p f : zface t p = Some f -> face_in fit (tmap n t) (fst p, emap n (snd p)) (pfmap n f).
Proof.
  unfold zface. destruct (snd p) eqn:E0; try discriminate. destruct bounds as [|bound [|]]; try discriminate. destruct (get t geometry) eqn:E1; try discriminate. destruct (get t bound) eqn:E2; try discriminate.
  destruct orientation; try discriminate. destruct (get t position) eqn:E3; try discriminate. destruct axis as [ax|]; try discriminate. destruct ref_direction as [rf|]; try discriminate.
  destruct (get t bound0) eqn:E4; try discriminate. destruct (zpoint t location) eqn:E5; try discriminate. destruct (zdir t ax) eqn:E6; try discriminate. destruct (zdir t rf) eqn:E7; try discriminate.
  destruct (all_some (map (zside t) edges)) as [sides|] eqn:E8; try discriminate. cbv zeta. destruct (_ && _)%bool eqn:E9; try discriminate. intros E. injection E as <-. apply andb_true_iff in E9. destruct E9 as [L9 E9]. apply Nat.eqb_eq in L9. pose proof (all_veq _ _ L9 E9) as S9.
  exists bound, geometry, position, location, ax, rf, bound0, edges. cbn [fst snd]. rewrite ?get_tmap, ?E1, ?E2, ?E3, ?E4. split; [reflexivity|]. split; [reflexivity|]. split; [reflexivity|].
  cbn [pf_origin pf_axis pf_ref pf_corners pfmap]. split; [now apply zpoint_in|]. split; [now apply zdir_in|]. split; [now apply zdir_in|]. split; [reflexivity|]. split; [reflexivity|].
  rewrite sides_of_map, <- S9. now apply zsides_in.
Qed.
Lemma is_face_tmap p : is_face (fst p, emap n (snd p)) = is_face p.
Proof. unfold is_face. cbn [snd]. destruct (snd p); reflexivity. Qed.
Theorem zsolid_in zfs : zsolid t = Some zfs -> solid_in fit (tmap n t) (map (pfmap n) zfs).
Proof.
  unfold zsolid. destruct (forallb _ t) eqn:HC; [|discriminate]. intros E. split.
  - assert (G : forall l zs, all_some (map (zface t) (filter is_face l)) = Some zs -> Forall2 (face_in fit (tmap n t)) (filter is_face (map (fun p => (fst p, emap n (snd p))) l)) (map (pfmap n) zs)); [|exact (G t zfs E)].
    induction l as [|p l IH]; intros zs; cbn [map filter]; [intros H; injection H as <-; constructor|]. rewrite is_face_tmap. destruct (is_face p); [|apply IH]. cbn [map all_some].
    destruct (zface t p) as [f|] eqn:Ef; [|discriminate]. destruct (all_some (map (zface t) (filter is_face l))) as [fs|] eqn:El; [|discriminate]. intros H. injection H as <-. cbn [map]. constructor; [now apply zface_in|now apply IH].
  - apply Forall_forall. intros p Hp. unfold tmap in Hp. apply in_map_iff in Hp. destruct Hp as (p' & <- & Hp). rewrite forallb_forall in HC. specialize (HC p' Hp). cbn [snd]. destruct (snd p'); try discriminate HC; exact I.
Qed.
Lemma zforward_none : zforward t = true -> none_reversed (tmap n t).
Proof.
  intros H r el Hi. unfold zforward in H. rewrite forallb_forall in H. unfold tmap in Hi. apply in_map_iff in Hi. destruct Hi as (p & E & Hp). specialize (H p Hp). injection E as _ E. destruct (snd p); try discriminate E. cbn [emap] in E. injection E as _ ->. discriminate H.
Qed.
End Ints.

(** ** Faces with integer corners, checked on the integers *)
Definition zneg3 (a : vec3 Z) : vec3 Z := V3 (- x3 a)%Z (- y3 a)%Z (- z3 a)%Z.
Definition zcross3 (a b : vec3 Z) : vec3 Z := V3 (y3 a * z3 b - y3 b * z3 a)%Z (z3 a * x3 b - z3 b * x3 a)%Z (x3 a * y3 b - x3 b * y3 a)%Z.
Definition zv_axis (f : plane_face Z) : vec3 Z := zcross3 (if pf_sense f then pf_axis f else zneg3 (pf_axis f)) (pf_ref f).
Definition zflatten (f : plane_face Z) : list (Z * Z) := map (fun p => let d := zdiff p (pf_origin f) in (zdot d (pf_ref f), zdot d (zv_axis f))) (pf_corners f).
Definition zapart (cs : list (vec3 Z)) : bool := forallb (fun s => negb (veq (fst s) (snd s))) (sides_of cs).
Definition zgood (f : plane_face Z) : bool := let zs := zflatten f in
  (zproper zs && negb (zreflex_between zs) && Props_solid.small zs && (3 <=? length zs)%nat && (length zs <? 100)%nat && zapart (pf_corners f) &&
   forallb (fun i => negb (zturn zs i =? 0)%Z) (seq 0 (length zs)) && (zdot (pf_ref f) (pf_ref f) =? 1)%Z && (zdot (pf_axis f) (pf_axis f) =? 1)%Z && (zdot (pf_ref f) (pf_axis f) =? 0)%Z &&
   forallb (fun p => zdot (zdiff p (pf_origin f)) (pf_axis f) =? 0)%Z (pf_corners f))%bool.
Lemma vmap_dot a b : dot3 (vmap IZR a) (vmap IZR b) = IZR (zdot a b).
Proof. unfold dot3, zdot, vmap. cbn [x3 y3 z3]. rnum. rewrite !plus_IZR, !mult_IZR. reflexivity. Qed.
Lemma vmap_diff a b : vsub (vmap IZR a) (vmap IZR b) = vmap IZR (zdiff a b).
Proof. unfold zdiff, vmap. vsimp. cbn [x3 y3 z3]. rnum. rewrite !minus_IZR. reflexivity. Qed.
Lemma veq_refl a : veq a a = true. Proof. unfold veq. now rewrite !Z.eqb_refl. Qed.
Lemma zapart_far a b : veq a b = false -> (1 <= zdot (zdiff a b) (zdiff a b))%Z.
Proof.
  intros H. assert (~ (x3 a = x3 b /\ y3 a = y3 b /\ z3 a = z3 b)) as N. { intros (E1 & E2 & E3). destruct a, b. cbn in *. subst. rewrite veq_refl in H. discriminate. }
  unfold zdot, zdiff. cbn [x3 y3 z3]. assert (Q : forall u v : Z, (0 <= (u - v) * (u - v))%Z) by (intros; apply Z.square_nonneg). assert (P : forall u v : Z, u <> v -> (1 <= (u - v) * (u - v))%Z) by (intros u v D; nia).
  pose proof (Q (x3 a) (x3 b)). pose proof (Q (y3 a) (y3 b)). pose proof (Q (z3 a) (z3 b)). destruct (Z.eq_dec (x3 a) (x3 b)) as [E1|E1]; [destruct (Z.eq_dec (y3 a) (y3 b)) as [E2|E2]; [destruct (Z.eq_dec (z3 a) (z3 b)) as [E3|E3]; [tauto|]|]|].
  - specialize (P _ _ E3). lia. - specialize (P _ _ E2). lia. - specialize (P _ _ E1). lia.
Qed.
Lemma zfit_fit o w a b : zfit o w a b = true -> zdot w w = 1%Z /\ (exists s, zdiff a o = ztimes w s) /\ (exists s, zdiff b o = ztimes w s).
Proof. unfold zfit, zon. rewrite !andb_true_iff, Z.eqb_eq. intros [[H1 H2] H3]. apply veq_eq in H2, H3. eauto. Qed.
Lemma ztimes_at o w a s : zdiff a o = ztimes w s -> vmap IZR a = vadd (vmap IZR o) (vmulr (vmap IZR w) (IZR s)).
Proof.
  intros E. destruct a as [a1 a2 a3], o as [o1 o2 o3], w as [w1 w2 w3]. unfold zdiff, ztimes, vmap in *. cbn [x3 y3 z3] in *. injection E as E1 E2 E3. vsimp. cbn [x3 y3 z3]. rnum. rewrite <- !mult_IZR, <- !plus_IZR. f_equal; f_equal; lia.
Qed.
Lemma zfit_R o w a b : zfit o w a b = true -> fitR (vmap IZR o) (vmap IZR w) (vmap IZR a) (vmap IZR b).
Proof. intros H. destruct (zfit_fit _ _ _ _ H) as (W & (s & A) & (u & B)). split; [unfold unit3; rewrite vmap_dot, W; reflexivity|]. split; [exists (IZR s)|exists (IZR u)]; now apply ztimes_at. Qed.
Lemma vmap_v_axis f : cross3 (if pf_sense f then vmap IZR (pf_axis f) else neg3 (vmap IZR (pf_axis f))) (vmap IZR (pf_ref f)) = vmap IZR (zv_axis f).
Proof.
  unfold zv_axis. destruct (pf_sense f); destruct (pf_axis f) as [a1 a2 a3], (pf_ref f) as [b1 b2 b3]; unfold zcross3, zneg3, vmap, cross3, neg3; cbn [x3 y3 z3]; rnum; rewrite !minus_IZR, !mult_IZR, ?opp_IZR; f_equal; ring.
Qed.
Lemma zflatten_R f : map (plane_project (pf_plane (pfmap IZR f))) (pf_corners (pfmap IZR f)) = map rz (zflatten f).
Proof.
  unfold zflatten. cbn [pfmap pf_corners]. rewrite !map_map. apply map_ext. intros p. unfold plane_project, pf_plane. cbn [p_origin p_u_axis p_v_axis pfmap pf_origin pf_axis pf_ref pf_sense].
  rewrite vmap_v_axis, vmap_diff, !vmap_dot. reflexivity.
Qed.
Lemma zgood_R f : zgood f = true -> 0 < area2 (map rz (zflatten f)) -> good_face (pfmap IZR f) /\ sharp_face (pfmap IZR f) /\ flat_face (pfmap IZR f).
Proof.
  unfold zgood. rewrite !andb_true_iff, negb_true_iff, Nat.leb_le, Nat.ltb_lt, !Z.eqb_eq. intros [[[[[[[[[[H1 H2] H3] H4] H5] H6] H7] H8] H9] H10] H11] HA. pose proof (zflatten_R f) as E.
  assert (EL : length (zflatten f) = length (pf_corners (pfmap IZR f))) by (unfold zflatten; cbn [pfmap pf_corners]; now rewrite !map_length). split; [|split].
  - unfold good_face. cbv zeta. rewrite E. split; [|split; [lia|split; [lia|split; [now apply zproper_sound|split; [|split; [exact HA|intros w; now apply zreflex_sound]]]]]].
    + unfold corners_apart. change (pairs (?l ++ firstn 1 ?l)) with (sides_of l). cbn [pfmap pf_corners]. rewrite sides_of_map. apply Forall_map, Forall_forall. intros [a b] I. unfold zapart in H6. rewrite forallb_forall in H6. specialize (H6 _ I). cbn [fst snd] in *. apply negb_true_iff in H6.
      assert (H6' : veq b a = false) by (apply not_true_iff_false; intros K; apply veq_eq in K; subst; rewrite veq_refl in H6; discriminate). apply zapart_far in H6'. unfold Props_loops.apart, distance_squared3, length_squared3. rewrite vmap_diff, vmap_dot. apply IZR_le in H6'. lra.
    + apply integers_resolved. apply Forall_forall. intros [x y] I. unfold Props_solid.small in H3. rewrite forallb_forall in H3. specialize (H3 _ I). cbv beta iota in H3. now rewrite andb_true_iff, !Z.ltb_lt in H3.
  - left. rewrite E. cbv zeta. rewrite <- EL. intros i Hi. rewrite turn_rz. apply not_0_IZR. rewrite forallb_forall in H7. specialize (H7 i ltac:(apply in_seq; lia)). now apply negb_true_iff, Z.eqb_neq in H7.
  - unfold flat_face, unit3. cbn [pfmap pf_ref pf_axis pf_origin pf_corners]. rewrite !vmap_dot, H8, H9, H10. split; [reflexivity|]. split; [reflexivity|]. split; [reflexivity|]. apply Forall_map, Forall_forall. intros p I. rewrite forallb_forall in H11. specialize (H11 p I). apply Z.eqb_eq in H11. rewrite vmap_diff, vmap_dot, H11. reflexivity.
Qed.
(** edges counted on the integers *)
Definition emap3 (s : vec3 Z * vec3 Z) : edge3 := (vmap IZR (fst s), vmap IZR (snd s)).
Definition zcount (E : list (vec3 Z * vec3 Z)) (s : vec3 Z * vec3 Z) : nat := length (filter (fun r => veq (fst s) (fst r) && veq (snd s) (snd r))%bool E).
Definition zclosed (E : list (vec3 Z * vec3 Z)) : bool := forallb (fun s => Nat.eqb (zcount E s) (zcount E (snd s, fst s))) E.
Lemma vmap_inj a b : vmap IZR a = vmap IZR b -> a = b.
Proof. destruct a, b. unfold vmap. cbn. intros E. injection E as E1 E2 E3. apply eq_IZR in E1, E2, E3. now subst. Qed.
Lemma count_ints E s : count_occ edge3_dec (map emap3 E) (emap3 s) = zcount E s.
Proof.
  unfold zcount. induction E as [|r E IH]; [reflexivity|]. cbn [map count_occ filter]. destruct (edge3_dec (emap3 r) (emap3 s)) as [e|e].
  - destruct r as [a b], s as [c d]. unfold emap3 in e. cbn [fst snd] in e. injection e as E1 E2. assert (a = c) by (apply vmap_inj; unfold vmap; congruence). assert (b = d) by (apply vmap_inj; unfold vmap; congruence). subst. cbn [fst snd]. rewrite !veq_refl. cbn [andb length]. f_equal. exact IH.
  - destruct (_ && _)%bool eqn:K; [|exact IH]. exfalso. apply e. apply andb_true_iff in K. destruct K as [K1 K2]. apply veq_eq in K1, K2. unfold emap3. now rewrite K1, K2.
Qed.
Lemma net_ints E a b : net (map emap3 E) (vmap IZR a) (vmap IZR b) = (Z.of_nat (zcount E (a, b)) - Z.of_nat (zcount E (b, a)))%Z.
Proof. unfold net. rewrite <- (count_ints E (a, b)), <- (count_ints E (b, a)). reflexivity. Qed.
Lemma zclosed_ok E : zclosed E = true -> closed_edges (map emap3 E).
Proof.
  intros H p q. unfold zclosed in H. rewrite forallb_forall in H. unfold net.
  assert (G : forall p q, In (p, q) (map emap3 E) -> count_occ edge3_dec (map emap3 E) (p, q) = count_occ edge3_dec (map emap3 E) (q, p)).
  { intros p' q' I. apply in_map_iff in I. destruct I as ([a b] & K & I). specialize (H _ I). apply Nat.eqb_eq in H. injection K as <- <-. cbn [fst snd] in *. change (vmap IZR a, vmap IZR b) with (emap3 (a, b)). change (vmap IZR b, vmap IZR a) with (emap3 (b, a)). now rewrite !count_ints. }
  destruct (in_dec edge3_dec (p, q) (map emap3 E)) as [I|I]; [rewrite (G _ _ I); lia|]. destruct (in_dec edge3_dec (q, p) (map emap3 E)) as [J|J]; [rewrite (G _ _ J); lia|].
  apply (count_occ_not_In edge3_dec) in I, J. rewrite I, J. reflexivity.
Qed.
Definition zborders (fs : list (plane_face Z)) : list (vec3 Z * vec3 Z) := flat_map (fun f => sides_of (pf_corners f)) fs.
Lemma zborders_R fs : flat_map (fun f => border (pf_corners f)) (map (pfmap IZR) fs) = map emap3 (zborders fs).
Proof. unfold zborders. induction fs as [|f fs IH]; [reflexivity|]. cbn [map flat_map]. rewrite map_app, IH. f_equal. unfold border. change (pairs (?l ++ firstn 1 ?l)) with (sides_of l). cbn [pfmap pf_corners]. now rewrite sides_of_map. Qed.

(** a file for a solid with faces of integer corners and sides along the axes, every side of a face with an edge curve of its own *)
Definition own_face (k : nat) (axis ref : vec3 Z) (cs : list (vec3 Z)) : table Z := let b := (100 * k)%nat in let n := length cs in let at_ i j := (b + 10 * i + j)%nat in
  let co v := [x3 v; y3 v; z3 v] in let sgn v := V3 (Z.sgn (x3 v)) (Z.sgn (y3 v)) (Z.sgn (z3 v)) in let c i := nth (i mod n) cs (V3 0 0 0)%Z in
  flat_map (fun i => [(at_ i 0%nat, ECartesianPoint (co (c i))); (at_ i 1%nat, EVertexPoint (at_ i 0%nat)); (at_ i 2%nat, EDirection (co (sgn (zdiff (c (i + 1)%nat) (c i))))); (at_ i 3%nat, EVector (at_ i 2%nat) 1%Z);
     (at_ i 4%nat, ELine (at_ i 0%nat) (at_ i 3%nat)); (at_ i 5%nat, EEdgeCurve (at_ i 1%nat) (at_ ((i + 1) mod n)%nat 1%nat) (at_ i 4%nat) true); (at_ i 6%nat, EOrientedEdge (at_ i 5%nat) true)]) (seq 0 n) ++
  [((b + 91)%nat, EDirection (co axis)); ((b + 92)%nat, EDirection (co ref)); ((b + 93)%nat, EAxis2Placement3d b (Some (b + 91)%nat) (Some (b + 92)%nat)); ((b + 94)%nat, EPlane (b + 93));
   ((b + 95)%nat, EEdgeLoop (map (fun i => at_ i 6%nat) (seq 0 n))); ((b + 96)%nat, EFaceBound (b + 95) true); ((b + 97)%nat, EAdvancedFace [(b + 96)%nat] (b + 94) true)].
(** the prism over an L *)
Definition ell_faces : list (vec3 Z * vec3 Z * list (vec3 Z)) :=
  (let d0 := V3 0 0 0 in let d1 := V3 4 0 0 in let d2 := V3 4 1 0 in let d3 := V3 1 1 0 in let d4 := V3 1 4 0 in let d5 := V3 0 4 0 in let e0 := V3 0 0 1 in let e1 := V3 4 0 1 in let e2 := V3 4 1 1 in let e3 := V3 1 1 1 in let e4 := V3 1 4 1 in let e5 := V3 0 4 1 in
  [(V3 0 0 1, V3 1 0 0, [e0; e1; e2; e3; e4; e5]); (V3 0 0 (-1), V3 0 1 0, [d0; d5; d4; d3; d2; d1]); (V3 0 (-1) 0, V3 1 0 0, [d0; d1; e1; e0]); (V3 1 0 0, V3 0 1 0, [d1; d2; e2; e1]);
   (V3 0 1 0, V3 (-1) 0 0, [d2; d3; e3; e2]); (V3 1 0 0, V3 0 1 0, [d3; d4; e4; e3]); (V3 0 1 0, V3 (-1) 0 0, [d4; d5; e5; e4]); (V3 (-1) 0 0, V3 0 (-1) 0, [d5; d0; e0; e5])])%Z.
Definition ell_file : table Z := flat_map (fun '(k, (axis, ref, cs)) => own_face k axis ref cs) (combine (seq 1 8) ell_faces).
Definition ell_solid : list (plane_face Z) := map (fun '(axis, ref, cs) => {| pf_origin := nth 0 cs (V3 0 0 0)%Z; pf_axis := axis; pf_ref := ref; pf_sense := true; pf_corners := cs |}) ell_faces.
Lemma ell_in_file : zsolid ell_file = Some ell_solid /\ zforward ell_file = true. Proof. split; vm_compute; reflexivity. Qed.
Lemma ell_file_R : solid_in fitR (tmap IZR ell_file) (map (pfmap IZR) ell_solid).
Proof. apply (zsolid_in IZR fitR (fun _ => True)); [intros; now apply zfit_R|trivial|exact (proj1 ell_in_file)]. Qed.
Lemma ell_solid_good : Forall (fun f => good_face f /\ sharp_face f /\ flat_face f) (map (pfmap IZR) ell_solid).
Proof. apply Forall_map. unfold ell_solid, ell_faces. cbn [map]. repeat (constructor; [apply zgood_R; [vm_compute; reflexivity|unfold area2, cyc, chain, cross2, rz; cbn; lra]|]). constructor. Qed.
(** numbers in twelfths, written in unary *)
Definition fmt12 (x : R) : list N := repeat 65%N (Z.to_nat (Int_part (12 * x))).
Definition parse12 (l : list N) : option R := Some (INR (length l) / 12).
Lemma twelfths n : faithful fmt12 parse12 (INR n / 12).
Proof.
  assert (E : fmt12 (INR n / 12) = repeat 65%N n). { unfold fmt12. replace (12 * (INR n / 12)) with (INR n) by field. f_equal. rewrite Int_part_INR. apply Nat2Z.id. }
  unfold faithful. rewrite E. split; [unfold parse12; now rewrite repeat_length|]. split; apply Forall_forall; intros c I; apply repeat_spec in I; subst c; discriminate.
Qed.
Lemma twelfths3 a b c : faithful3 fmt12 parse12 (V3 (INR a / 12) (INR b / 12) (INR c / 12)).
Proof. split; [apply twelfths|split; apply twelfths]. Qed.
(** the corners are at multiples of 12 twelfths, the means of four corners at multiples of 3, those of six corners at multiples of 2 *)
Definition zsums (cs : list (vec3 Z)) : vec3 Z := fold_right (fun p q => V3 (x3 p + x3 q)%Z (y3 p + y3 q)%Z (z3 p + z3 q)%Z) (V3 0 0 0)%Z cs.
Lemma zsums_R cs : sumR (@x3 R) (map (vmap IZR) cs) = IZR (x3 (zsums cs)) /\ sumR (@y3 R) (map (vmap IZR) cs) = IZR (y3 (zsums cs)) /\ sumR (@z3 R) (map (vmap IZR) cs) = IZR (z3 (zsums cs)).
Proof. unfold sumR, zsums. induction cs as [|p cs (I1 & I2 & I3)]; [repeat split; reflexivity|]. cbn [map fold_right x3 y3 z3 vmap]. rewrite I1, I2, I3, !plus_IZR. repeat split; reflexivity. Qed.
Definition zpositive (p : vec3 Z) : bool := ((0 <=? x3 p) && (0 <=? y3 p) && (0 <=? z3 p))%Z.
Lemma twelfths_face f : forallb zpositive (pf_corners f) = true -> zpositive (zsums (pf_corners f)) = true -> (exists k, 12 = k * length (pf_corners f))%nat -> forall p, In p (pf_corners (pfmap IZR f)) \/ mean_of (pf_corners (pfmap IZR f)) p -> faithful3 fmt12 parse12 p.
Proof.
  cbn [pfmap pf_corners]. intros HC HS (k & HK) p.
  assert (T : forall x z m, (0 <= z)%Z -> 12 * x = INR m * IZR z -> faithful fmt12 parse12 x).
  { intros x z m Hz E. replace x with (INR (m * Z.to_nat z) / 12); [apply twelfths|]. rewrite mult_INR, (INR_IZR_INZ (Z.to_nat z)), Z2Nat.id by exact Hz. lra. }
  unfold zpositive in HS. rewrite !andb_true_iff, !Z.leb_le in HS. destruct HS as [[S1 S2] S3]. intros [I|(M1 & M2 & M3)].
  - apply in_map_iff in I. destruct I as (q & <- & I). rewrite forallb_forall in HC. specialize (HC q I). unfold zpositive in HC. rewrite !andb_true_iff, !Z.leb_le in HC. destruct HC as [[C1 C2] C3].
    split; [|split]; cbn [vmap x3 y3 z3]; [apply (T _ (x3 q) 12%nat)|apply (T _ (y3 q) 12%nat)|apply (T _ (z3 q) 12%nat)]; auto; cbn [INR]; lra.
  - rewrite map_length in *. destruct (zsums_R (pf_corners f)) as (E1 & E2 & E3). rewrite E1 in M1. rewrite E2 in M2. rewrite E3 in M3. assert (K : 12 = INR k * INR (length (pf_corners f))) by (rewrite <- mult_INR, <- HK; cbn; lra).
    split; [|split]; [apply (T _ _ k S1)|apply (T _ _ k S2)|apply (T _ _ k S3)]; rewrite <- ?M1, <- ?M2, <- ?M3, K; ring.
Qed.
(** the prism over an L, from a STEP file to an OBJ file: no gaps, and volume 7 *)
Example C68_nonvacuous {TF : Trig R} fmt2 fuel rnd srnd : exists text tris, convert_stp fmt12 fmt2 (S fuel) rnd srnd (tmap IZR ell_file) = Ok (Some text, None) /\ read_obj parse12 text = Some tris /\
  closed_edges (tris_edges (obj_tris tris)) /\ forall o, tris_vol6 o (obj_tris tris) = 6 * 7.
Proof.
  pose proof ell_solid_good as G. assert (G1 : Forall good_face (map (pfmap IZR) ell_solid)) by (eapply Forall_impl; [|exact G]; intros f (H & _); exact H). assert (G2 : Forall sharp_face (map (pfmap IZR) ell_solid)) by (eapply Forall_impl; [|exact G]; intros f (_ & H & _); exact H).
  assert (G3 : Forall flat_face (map (pfmap IZR) ell_solid)) by (eapply Forall_impl; [|exact G]; intros f (_ & _ & H); exact H).
  destruct (C68_polyhedron (tmap IZR ell_file) (map (pfmap IZR) ell_solid) ell_file_R (zforward_none IZR ell_file (proj2 ell_in_file)) ltac:(discriminate) G1 ltac:(vm_compute; reflexivity) fmt12 fmt2 parse12 fuel rnd srnd) as (text & tris & E & ER & K1 & K2).
  - intros f p I. apply in_map_iff in I. destruct I as (g & <- & I). revert p. unfold ell_solid, ell_faces in I. cbn [map In] in I.
    destruct I as [<-|[<-|[<-|[<-|[<-|[<-|[<-|[<-|[]]]]]]]]]; (apply twelfths_face; [reflexivity|reflexivity|]); (exists 2%nat; reflexivity) || (exists 3%nat; reflexivity).
  - exists text, tris. split; [exact E|]. split; [exact ER|]. split.
    + apply (K1 G2). rewrite zborders_R. apply zclosed_ok. vm_compute. reflexivity.
    + intros o. rewrite (K2 G3). unfold loop_vol6, sumR, ell_solid, ell_faces. cbn [map pfmap pf_corners fold_right vmap x3 y3 z3]. unfold border. cbn [app firstn pairs combine tl map fold_right hd]. unfold pyramid6, det3. destruct o as [ox oy oz]. vsimp. unfold vmap. cbn [x3 y3 z3 fst snd]. rnum. ring.
Qed.

(** the same in doubles *)
Notation n64 := (vmap f64_of_Z).
Definition znum64 (x : f64) (z : Z) : bool := (is_fin x && valid_binary p64 e64 x && feqb x (f64_of_Z z))%bool.
Lemma znum64_ok x z : (Z.abs z <= 1000)%Z -> znum64 x z = true -> num64 x /\ val x = IZR z.
Proof.
  intros Hz H. unfold znum64 in H. rewrite !andb_true_iff in H. destruct H as [[H0 H1] H2]. destruct (int_val z Hz) as [N V]. assert (num64 x) by (split; assumption).
  split; [assumption|]. rewrite eqb_val in H2 by assumption. apply Reqb_true in H2. now rewrite H2.
Qed.
Definition zbox (K : Z) (p : vec3 Z) : bool := ((Z.abs (x3 p) <=? K) && (Z.abs (y3 p) <=? K) && (Z.abs (z3 p) <=? K))%Z.
Lemma n64_ok K p : (K <= 1000)%Z -> zbox K p = true -> bounded3 (IZR K) (n64 p) /\ val3 (n64 p) = vmap IZR p.
Proof. unfold zbox. rewrite !andb_true_iff, !Z.leb_le. intros HK [[Hx Hy] Hz]. split; [now apply v64_bounded|apply v64_val; lia]. Qed.
Lemma unit_box w : zdot w w = 1%Z -> zbox 1 w = true.
Proof. unfold zdot, zbox. intros H. rewrite !andb_true_iff, !Z.leb_le. destruct w as [a b c]. cbn [x3 y3 z3] in *. pose proof (Z.square_nonneg a). pose proof (Z.square_nonneg b). pose proof (Z.square_nonneg c). repeat split; nia. Qed.
Lemma zero_within e p : 0 <= e -> within e (vsub p p).
Proof. intros H. destruct p as [a b c]. unfold within. vsimp. cbn [x3 y3 z3]. rnum. rewrite !Rminus_diag_eq, Rabs_R0 by reflexivity. auto. Qed.
Lemma zfit_64 K o w a b : (1 <= K <= 1000)%Z -> zfit o w a b = true -> zbox K o = true -> zbox K a = true -> zbox K b = true -> fit64 (IZR K) (n64 o) (n64 w) (n64 a) (n64 b).
Proof.
  intros HK H Ho Ha Hb. destruct (zfit_fit _ _ _ _ H) as (W & (s & A) & (u & B)). destruct (n64_ok K o ltac:(lia) Ho) as [Bo Eo]. destruct (n64_ok K a ltac:(lia) Ha) as [Ba Ea]. destruct (n64_ok K b ltac:(lia) Hb) as [Bb Eb].
  destruct (n64_ok 1 w ltac:(lia) (unit_box w W)) as [Bw Ew]. assert (1 <= IZR K) by (apply IZR_le; lia). pose proof eps_tiny as [P _]. assert (0 <= 4 * (eps * IZR K)) by nra.
  split; [exact Bo|]. split; [exact Bw|]. split; [exact Ba|]. split; [exact Bb|]. rewrite Ew, Eo, Ea, Eb. split; [rewrite vmap_dot, W, Rminus_diag_eq, Rabs_R0 by reflexivity; lra|].
  cbv zeta. split; [exists (IZR s); rewrite <- (ztimes_at o w a s A)|exists (IZR u); rewrite <- (ztimes_at o w b u B)]; now apply zero_within.
Qed.
Definition zclear (K : Z) (f : plane_face Z) : bool := let zs := zflatten f in let v := p_v_axis (pf_plane (pfmap f64_of_Z f)) in
  (zbox K (pf_origin f) && zbox 1 (pf_ref f) && zbox 1 (zv_axis f) && znum64 (x3 v) (x3 (zv_axis f)) && znum64 (y3 v) (y3 (zv_axis f)) && znum64 (z3 v) (z3 (zv_axis f)) && forallb (zbox K) (pf_corners f) &&
   (3 <=? length (pf_corners f))%nat && (length (pf_corners f) <=? 100)%nat && zapart (pf_corners f) && zgeneral zs && zsimple zs)%bool.
Lemma bounded3_le K M p : K <= M -> bounded3 K p -> bounded3 M p.
Proof. intros H (A & B & C & D & E & F). unfold bounded3. split; [exact A|]. split; [exact B|]. split; [exact C|]. repeat split; lra. Qed.
Lemma zclear_64 K f : (1 <= K <= 4)%Z -> zclear K f = true -> 0 < area2 (map rz (zflatten f)) -> clear64 (64 * IZR K) (pfmap f64_of_Z f).
Proof.
  intros HK H HA. unfold zclear in H. cbv zeta in H. rewrite !andb_true_iff, !Nat.leb_le in H. destruct H as [[[[[[[[[[[Ho Hu] Hv] V1] V2] V3] Hl] H3] H100] Hap] HG] HS].
  assert (K1 : 1 <= IZR K <= 4) by (split; apply IZR_le; lia). destruct (n64_ok K _ ltac:(lia) Ho) as [Bo Eo]. destruct (n64_ok 1 _ ltac:(lia) Hu) as [Bu Eu]. set (zs := zflatten f) in *.
  assert (BV : bounded3 1 (p_v_axis (pf_plane (pfmap f64_of_Z f))) /\ val3 (p_v_axis (pf_plane (pfmap f64_of_Z f))) = vmap IZR (zv_axis f)).
  { clear -Hv V1 V2 V3. unfold zbox in Hv. rewrite !andb_true_iff, !Z.leb_le in Hv. destruct Hv as [[A1 A2] A3]. set (v := p_v_axis _) in *. apply znum64_ok in V1 as [N1 E1]; [|lia]. apply znum64_ok in V2 as [N2 E2]; [|lia]. apply znum64_ok in V3 as [N3 E3]; [|lia].
    unfold bounded3, val3, vmap. rewrite E1, E2, E3, <- !abs_IZR. split; [|reflexivity]. repeat split; try apply N1; try apply N2; try apply N3; apply IZR_le; assumption. }
  destruct BV as [Bv Ev].
  assert (Bl : forall p, In p (pf_corners f) -> bounded3 (IZR K) (n64 p) /\ val3 (n64 p) = vmap IZR p) by (intros p I; apply n64_ok; [lia|]; rewrite forallb_forall in Hl; now apply Hl).
  assert (EC : map val3 (pf_corners (pfmap f64_of_Z f)) = map (vmap IZR) (pf_corners f)) by (cbn [pfmap pf_corners]; rewrite map_map; apply map_ext_in; intros p I; apply (Bl p I)).
  assert (EF : ideal_flat (pf_plane (pfmap f64_of_Z f)) (map val3 (pf_corners (pfmap f64_of_Z f))) = map rz zs).
  { rewrite EC. unfold ideal_flat, zs, zflatten. rewrite !map_map. apply map_ext. intros p. unfold plane_project, val_plane. cbn [p_origin p_u_axis p_v_axis]. rewrite Ev. cbn [pf_plane p_origin p_u_axis pfmap pf_origin pf_ref]. rewrite Eo, Eu, vmap_diff, !vmap_dot. reflexivity. }
  assert (Ln : length zs = length (pf_corners f)) by apply map_length. unfold clear64. cbv zeta. unfold clear_corners. cbv zeta. rewrite EF, EC, map_length. assert (LN : INR (length (pf_corners f)) <= 100) by (rewrite INR_IZR_INZ; apply IZR_le; lia). pose proof (pos_INR (length (pf_corners f))).
  assert (MM : 64 * IZR K * (64 * IZR K) <= 65536) by nra. assert (M0 : 0 <= 64 * IZR K * (64 * IZR K)) by nra.
  split; [|split; [exact H3|split; [|exact HA]]].
  - split; [split; [lra|]|]. { apply Rle_trans with (pow2 8); [rewrite <- pow2_Z by lia; cbn; lra|apply pow2_le; lia]. }
    split; [apply (bounded3_le (IZR K)); [lra|exact Bo]|]. split; [exact Bu|]. split; [exact Bv|]. split; [lia|]. split.
    + unfold apart_corners. change (pairs (?l ++ firstn 1 ?l)) with (sides_of l). rewrite sides_of_map. intros A B I. apply in_map_iff in I. destruct I as ([a b] & E & I). unfold zapart in Hap. rewrite forallb_forall in Hap. specialize (Hap _ I). cbn [fst snd] in *. injection E as <- <-. apply negb_true_iff, zapart_far in Hap. apply IZR_le in Hap.
      rewrite <- vmap_dot, <- vmap_diff in Hap. assert (E44 : pow2 (-44) = 512 * eps) by (replace 512 with (pow2 9) by (rewrite <- pow2_Z by lia; reflexivity); rewrite <- eps_pow2, <- pow2_add; reflexivity). rewrite E44.
      assert (512 * eps * (64 * IZR K * (64 * IZR K)) <= 512 * eps * 65536) by (apply Rmult_le_compat_l; [unfold eps; lra|exact MM]). unfold dot3 in Hap. vsimp. cbn [x3 y3 z3] in Hap. change (dot3 ?u ?v) with (x3 u * x3 v + y3 u * y3 v + z3 u * z3 v) in *. cbn [x3 y3 z3 vmap] in *. unfold dist2, TOL, eps in *. cbn [x3 y3 z3 vmap]. nra.
    + intros i j k Hi Hj Hk N1 N2 N3. unfold zgeneral in HG. rewrite forallb_forall in HG. rewrite Ln in HG. specialize (HG i ltac:(apply in_seq; lia)). rewrite forallb_forall in HG. specialize (HG j ltac:(apply in_seq; lia)). rewrite forallb_forall in HG. specialize (HG k ltac:(apply in_seq; lia)).
      apply Nat.eqb_neq in N1, N2, N3. rewrite N1, N2, N3 in HG. cbn [orb] in HG. apply negb_true_iff, Z.eqb_neq in HG. rewrite !pt_rz, rz_area, <- abs_IZR.
      assert (B : 1 <= IZR (Z.abs (zarea (zpt zs i) (zpt zs j) (zpt zs k)))) by (apply IZR_le; lia).
      rewrite eps_16. assert (65536 * eps * (64 * IZR K * (64 * IZR K)) <= 65536 * eps * 65536) by (apply Rmult_le_compat_l; [unfold eps; lra|exact MM]). assert (0 <= 65536 * eps * (64 * IZR K * (64 * IZR K))) by (apply Rmult_le_pos; [unfold eps; lra|exact M0]).
      assert (INR (length (pf_corners f)) * (65536 * eps * (64 * IZR K * (64 * IZR K))) <= 100 * (65536 * eps * 65536)) by (apply Rmult_le_compat; assumption). unfold eps, TOL in *. lra.
  - unfold simple_polygon, segments_cross. rewrite map_length, Ln. intros i j Hi Hj [K3 K2]. unfold zsimple in HS. rewrite forallb_forall in HS. rewrite Ln in HS. specialize (HS i ltac:(apply in_seq; lia)). rewrite forallb_forall in HS. specialize (HS j ltac:(apply in_seq; lia)). cbv zeta in HS.
    rewrite !pt_rz, !rz_area, <- !mult_IZR in K3, K2. apply lt_IZR in K3, K2. apply negb_true_iff, andb_false_iff in HS. rewrite !Z.ltb_ge in HS. lia.
Qed.
(** a way to write doubles: sign, mantissa, sign and size of the exponent *)
Definition fmt64 (x : f64) : list N :=
  match x with
  | S754_zero s => [if s then 1 else 0]%N
  | S754_finite s m e => [if s then 1 else 0; 100 + Npos m; if (e <? 0)%Z then 1 else 0; 100 + Z.to_N (Z.abs e)]%N
  | _ => [2]%N
  end.
Definition parse64 (l : list N) : option f64 :=
  match l with
  | [s] => Some (S754_zero (s =? 1)%N)
  | [s; m; t; e] => Some (S754_finite (s =? 1)%N (Z.to_pos (Z.of_N (m - 100))) ((if (t =? 1)%N then -1 else 1) * Z.of_N (e - 100))%Z)
  | _ => None
  end.
Lemma fmt64_text s m e : faithful fmt64 parse64 (S754_finite s m e).
Proof.
    unfold faithful. cbn [fmt64]. split.
    + unfold parse64. replace (100 + N.pos m - 100)%N with (N.pos m) by lia. replace (100 + Z.to_N (Z.abs e) - 100)%N with (Z.to_N (Z.abs e)) by lia. rewrite Z2N.id by lia. cbn [Z.of_N Z.to_pos].
      assert (E1 : ((if s then 1 else 0) =? 1)%N = s) by (destruct s; reflexivity). rewrite E1. assert (E2 : ((if ((if (e <? 0)%Z then 1 else 0) =? 1)%N then -1 else 1) * Z.abs e = e)%Z).
      { destruct (e <? 0)%Z eqn:E; [apply Z.ltb_lt in E|apply Z.ltb_ge in E]; cbn [N.eqb Pos.eqb]; lia. } now rewrite E2.
    + assert (A : (if s then 1 else 0)%N <> ch_sp /\ (if s then 1 else 0)%N <> ch_nl) by (destruct s; split; discriminate). assert (B : (if (e <? 0)%Z then 1 else 0)%N <> ch_sp /\ (if (e <? 0)%Z then 1 else 0)%N <> ch_nl) by (destruct (e <? 0)%Z; split; discriminate). unfold ch_sp, ch_nl in *.
      split; repeat constructor; try apply A; try apply B; lia.
Qed.
Lemma fmt64_faithful x : num64 x -> faithful fmt64 parse64 x.
Proof.
  intros [H _]. destruct x as [s|s| |s m e]; try discriminate H; [|apply fmt64_text]. unfold faithful. cbn [fmt64].
  split; [destruct s; reflexivity|]. split; constructor; try constructor; destruct s; discriminate.
Qed.
Example C68_doubles_nonvacuous {TF : Trig f64} fmt2 fuel rnd srnd : (forall k i j, oracle64 (rnd k i j)) -> exists text ms fss, convert_stp fmt64 fmt2 (S fuel) rnd srnd (tmap f64_of_Z ell_file) = Ok (Some text, None) /\ read_obj parse64 text = Some (concat fss) /\
  Forall2 (filled64 256) (map (pfmap f64_of_Z) ell_solid) ms /\ Forall2 (fun m faces => exists T, mesh_faces m T faces) ms fss.
Proof.
  intros HO. replace 256 with (64 * 4) by lra. apply C68_doubles; [| |discriminate| | |vm_compute; reflexivity|exact fmt64_faithful|exact HO].
  - apply (zsolid_in f64_of_Z (fit64 4) (fun p => zbox 4 p = true)); [intros; now apply (zfit_64 4)| |exact (proj1 ell_in_file)].
    assert (G : forallb (fun p => match snd p with ECartesianPoint l => match ztriple l with Some q => zbox 4 q | None => true end | _ => true end) ell_file = true) by (vm_compute; reflexivity). rewrite forallb_forall in G.
    intros r p. unfold zpoint, get. destruct (find _ ell_file) as [[k e]|] eqn:E; [|discriminate]. apply find_some in E. destruct E as [I _]. specialize (G _ I). cbn [snd] in *. destruct e; try discriminate. intros H. now rewrite H in G.
  - apply zforward_none. exact (proj2 ell_in_file).
  - split; [lra|]. apply Rle_trans with (pow2 2); [rewrite <- pow2_Z by lia; cbn; lra|apply pow2_le; lia].
  - apply Forall_map. unfold ell_solid, ell_faces. cbn [map]. repeat (constructor; [apply zclear_64; [lia|vm_compute; reflexivity|unfold area2, cyc, chain, cross2, rz; cbn; lra]|]). constructor.
Qed.

(** ** A cube as the standard prefers it: every edge curve shared by the two faces next to it, one of which runs it backwards *)
Definition cube_shared : table Z := (* corners, vertices, directions; edges; faces *)
  [(1, ECartesianPoint [0; 0; 0]%Z); (2, ECartesianPoint [2; 0; 0]%Z); (3, ECartesianPoint [0; 2; 0]%Z); (4, ECartesianPoint [2; 2; 0]%Z);
   (5, ECartesianPoint [0; 0; 2]%Z); (6, ECartesianPoint [2; 0; 2]%Z); (7, ECartesianPoint [0; 2; 2]%Z); (8, ECartesianPoint [2; 2; 2]%Z);
   (11, EVertexPoint 1); (12, EVertexPoint 2); (13, EVertexPoint 3); (14, EVertexPoint 4); (15, EVertexPoint 5); (16, EVertexPoint 6);
   (17, EVertexPoint 7); (18, EVertexPoint 8); (21, EDirection [1; 0; 0]%Z); (22, EDirection [(-1); 0; 0]%Z); (23, EDirection [0; 1; 0]%Z);
   (24, EDirection [0; (-1); 0]%Z); (25, EDirection [0; 0; 1]%Z); (26, EDirection [0; 0; (-1)]%Z); (31, EVector 21 1%Z); (32, EVector 22 1%Z);
   (33, EVector 23 1%Z); (34, EVector 24 1%Z); (35, EVector 25 1%Z); (36, EVector 26 1%Z); (41, ELine 1 33); (61, EEdgeCurve 11 13 41 true);
   (100, EOrientedEdge 61 true); (42, ELine 3 31); (62, EEdgeCurve 13 14 42 true); (101, EOrientedEdge 62 true); (43, ELine 4 34);
   (63, EEdgeCurve 14 12 43 true); (102, EOrientedEdge 63 true); (44, ELine 2 32); (64, EEdgeCurve 12 11 44 true); (103, EOrientedEdge 64 true);
   (104, EEdgeLoop [100; 101; 102; 103]); (105, EFaceBound 104 true); (106, EAxis2Placement3d 1 (Some 26) (Some 23)); (107, EPlane 106);
   (108, EAdvancedFace [105] 107 true); (45, ELine 5 31); (65, EEdgeCurve 15 16 45 true); (200, EOrientedEdge 65 true); (46, ELine 6 33);
   (66, EEdgeCurve 16 18 46 true); (201, EOrientedEdge 66 true); (47, ELine 8 32); (67, EEdgeCurve 18 17 47 true); (202, EOrientedEdge 67 true);
   (48, ELine 7 34); (68, EEdgeCurve 17 15 48 true); (203, EOrientedEdge 68 true); (204, EEdgeLoop [200; 201; 202; 203]); (205, EFaceBound 204 true);
   (206, EAxis2Placement3d 5 (Some 25) (Some 21)); (207, EPlane 206); (208, EAdvancedFace [205] 207 true); (300, EOrientedEdge 64 false);
   (49, ELine 2 35); (69, EEdgeCurve 12 16 49 true); (301, EOrientedEdge 69 true); (302, EOrientedEdge 65 false); (50, ELine 5 36);
   (70, EEdgeCurve 15 11 50 true); (303, EOrientedEdge 70 true); (304, EEdgeLoop [300; 301; 302; 303]); (305, EFaceBound 304 true);
   (306, EAxis2Placement3d 1 (Some 24) (Some 21)); (307, EPlane 306); (308, EAdvancedFace [305] 307 true); (400, EOrientedEdge 63 false);
   (51, ELine 4 35); (71, EEdgeCurve 14 18 51 true); (401, EOrientedEdge 71 true); (402, EOrientedEdge 66 false); (403, EOrientedEdge 69 false);
   (404, EEdgeLoop [400; 401; 402; 403]); (405, EFaceBound 404 true); (406, EAxis2Placement3d 2 (Some 21) (Some 23)); (407, EPlane 406);
   (408, EAdvancedFace [405] 407 true); (500, EOrientedEdge 62 false); (52, ELine 3 35); (72, EEdgeCurve 13 17 52 true); (501, EOrientedEdge 72 true);
   (502, EOrientedEdge 67 false); (503, EOrientedEdge 71 false); (504, EEdgeLoop [500; 501; 502; 503]); (505, EFaceBound 504 true);
   (506, EAxis2Placement3d 4 (Some 23) (Some 22)); (507, EPlane 506); (508, EAdvancedFace [505] 507 true); (600, EOrientedEdge 61 false);
   (601, EOrientedEdge 70 false); (602, EOrientedEdge 68 false); (603, EOrientedEdge 72 false); (604, EEdgeLoop [600; 601; 602; 603]);
   (605, EFaceBound 604 true); (606, EAxis2Placement3d 3 (Some 22) (Some 24)); (607, EPlane 606); (608, EAdvancedFace [605] 607 true)]%nat.
Definition cube_solid : list (plane_face Z) := Eval vm_compute in match zsolid cube_shared with Some fs => fs | None => [] end.
(** what the faces become: corners and triangles; three faces have no triangles *)
Definition zmesh := (list (vec3 Z) * list N)%type.
Definition mesh64 (m : zmesh) : TriangleMesh f64 := {| m_vertices := map n64 (fst m); m_triangles := snd m; m_normals := [] |}.
Fixpoint ztriangles (V : list (vec3 Z)) (t : list N) : list (vec3 Z * vec3 Z) := let v i := nth (N.to_nat i) V (V3 0 0 0)%Z in
  match t with a :: b :: c :: r => (v a, v b) :: (v b, v c) :: (v c, v a) :: ztriangles V r | _ => [] end.
Lemma ztriangles_R V : forall t, flat_map (fun '(a, b, c) => [(a, b); (b, c); (c, a)]) (mesh_triangles_of (map (vmap IZR) V) t) = map emap3 (ztriangles V t).
Proof.
  assert (N : forall i, nth i (map (vmap IZR) V) (V3 0 0 0) = vmap IZR (nth i V (V3 0 0 0)%Z)) by (intros i; apply (map_nth (vmap IZR) V (V3 0 0 0)%Z i)).
  fix IH 1. intros [|a [|b [|c t]]]; try reflexivity. cbn [mesh_triangles_of ztriangles flat_map map app]. rewrite IH, !N. reflexivity.
Qed.
Lemma mesh64_edges K ms : (K <= 1000)%Z -> forallb (fun m => forallb (zbox K) (fst m)) ms = true -> flat_map mesh_edges (map val_mesh (map mesh64 ms)) = map emap3 (flat_map (fun m => ztriangles (fst m) (snd m)) ms).
Proof.
  intros HK. induction ms as [|m ms IH]; [reflexivity|]. cbn [forallb map flat_map]. rewrite andb_true_iff, map_app. intros [H1 H2]. rewrite <- (IH H2). f_equal. rewrite <- ztriangles_R. unfold mesh_edges, mesh_tris, val_mesh, mesh64. cbn [m_vertices m_triangles]. f_equal. f_equal.
  rewrite map_map. apply map_ext_in. intros p I. rewrite forallb_forall in H1. apply (n64_ok K p HK (H1 p I)).
Qed.
Section Cube.
Context {TF : Trig f64}.
(** corners and triangles of the meshes of the six faces *)
Definition cube_meshes : list zmesh := Eval vm_compute in
  let back (x : f64) : Z := match x with S754_finite s m e => let v := Z.shiftl (Z.pos m) e in if s then (- v)%Z else v | _ => 0%Z end in
  let of (o : outcome (TriangleMesh f64)) := match o with Ok m => (map (fun v => V3 (back (x3 v)) (back (y3 v)) (back (z3 v))) (m_vertices m), m_triangles m) | _ => ([], []) end in
  map of (match read_model (tmap f64_of_Z cube_shared) with Ok (faces, []) => step_meshes 1 (fun _ _ _ _ => f0) faces | _ => [] end).
Lemma cube_in_file : zsolid cube_shared = Some cube_solid. Proof. vm_compute. reflexivity. Qed.
Lemma cube_file_64 : solid_in (fit64 2) (tmap f64_of_Z cube_shared) (map (pfmap f64_of_Z) cube_solid).
Proof.
  apply (zsolid_in f64_of_Z (fit64 2) (fun p => zbox 2 p = true)); [intros; now apply (zfit_64 2)| |exact cube_in_file].
  assert (G : forallb (fun p => match snd p with ECartesianPoint l => match ztriple l with Some q => zbox 2 q | None => true end | _ => true end) cube_shared = true) by (vm_compute; reflexivity). rewrite forallb_forall in G.
  intros r p. unfold zpoint, get. destruct (find _ cube_shared) as [[k e]|] eqn:E; [|discriminate]. apply find_some in E. destruct E as [I _]. specialize (G _ I). cbn [snd] in *. destruct e; try discriminate. intros H. now rewrite H in G.
Qed.
Lemma cube_meshes_64 : match read_model (tmap f64_of_Z cube_shared) with Ok (faces, []) => step_meshes 1 (fun _ _ _ _ => f0) faces = map Ok (map mesh64 cube_meshes) | _ => False end.
Proof. vm_compute. reflexivity. Qed.
Lemma cube_solid_clear : Forall (fun f => zclear 2 f = true /\ 0 < area2 (map rz (zflatten f))) cube_solid.
Proof. unfold cube_solid. repeat (constructor; [split; [vm_compute; reflexivity|unfold area2, cyc, chain, cross2, rz; cbn; lra]|]). constructor. Qed.
Lemma cube_solid_small : forallb (fun f => forallb (zbox 2) (pf_corners f)) cube_solid = true /\ zclosed (zborders cube_solid) = true. Proof. split; vm_compute; reflexivity. Qed.
Lemma cube_meshes_small : forallb (fun m => forallb (zbox 2) (fst m)) cube_meshes = true /\ let E := flat_map (fun m => ztriangles (fst m) (snd m)) cube_meshes in let a := V3 2%Z 0%Z 2%Z in let b := V3 2%Z 2%Z 2%Z in (Z.of_nat (zcount E (a, b)) - Z.of_nat (zcount E (b, a)))%Z = 1%Z.
Proof. split; vm_compute; reflexivity. Qed.
(** C68, refuted without [none_reversed]: in a file in which every edge curve serves the two faces next to it, with the faces those of a closed cube, three of the six faces come out without any triangles *)
Theorem C68_shared_edges_refuted : exists (t : table f64) fs, solid_in (fit64 2) t fs /\ Forall (clear64 (64 * 2)) fs /\ length fs = 6%nat /\ closed_edges (flat_map (fun f => border (map val3 (pf_corners f))) fs) /\
  exists faces ms, read_model t = Ok (faces, []) /\ (forall fuel rnd, (forall k i j, oracle64 (rnd k i j)) -> step_meshes (S fuel) rnd faces = map Ok ms) /\
    map (fun m => length (m_triangles m)) ms = [12; 12; 24; 0; 0; 0]%nat /\ ~ closed_edges (flat_map mesh_edges (map val_mesh ms)).
Proof.
  exists (tmap f64_of_Z cube_shared), (map (pfmap f64_of_Z) cube_solid). pose proof cube_file_64 as HS. split; [exact HS|].
  split. { apply Forall_map. eapply Forall_impl; [|exact cube_solid_clear]. intros f [H1 H2]. exact (zclear_64 2 f ltac:(lia) H1 H2). }
  split; [reflexivity|]. split.
  { assert (E : flat_map (fun f => border (map val3 (pf_corners f))) (map (pfmap f64_of_Z) cube_solid) = map emap3 (zborders cube_solid)).
    { rewrite <- zborders_R. rewrite !flat_map_concat_map, !map_map. f_equal. apply map_ext_in. intros f I. f_equal. cbn [pfmap pf_corners]. rewrite map_map. apply map_ext_in. intros p Ip.
      pose proof (proj1 cube_solid_small) as B. rewrite forallb_forall in B. specialize (B f I). rewrite forallb_forall in B. apply (n64_ok 2 p ltac:(lia) (B p Ip)). }
    rewrite E. apply zclosed_ok. exact (proj2 cube_solid_small). }
  pose proof cube_meshes_64 as K. destruct (read_model (tmap f64_of_Z cube_shared)) as [[faces [|]]| |] eqn:ER; try contradiction. exists faces, (map mesh64 cube_meshes). split; [reflexivity|].
  split. { intros fuel rnd HO. rewrite (C68_random_free 2 _ _ faces HS ltac:(split; [lra|]; apply Rle_trans with (pow2 1); [rewrite <- pow2_Z by lia; cbn; lra|apply pow2_le; lia]) ER fuel rnd HO). exact K. }
  split; [reflexivity|]. rewrite (mesh64_edges 2 _ ltac:(lia) (proj1 cube_meshes_small)). intros C. specialize (C (vmap IZR (V3 2 0 2)%Z) (vmap IZR (V3 2 2 2)%Z)). rewrite net_ints, (proj2 cube_meshes_small) in C. discriminate.
Qed.
End Cube.
