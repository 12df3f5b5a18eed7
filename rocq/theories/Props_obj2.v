(** Properties C50, C52: the boundary written as an OBJ file; scaling of point clouds. *)
From Coq Require Import Reals Lra Lia Arith ZArith List.
From Verif Require Import Prelude Num M_vec M_utils M_curve M_surface M_files L_base L_vec L_geom L_polygon Props_gridmesh Props_obj.
Open Scope nat_scope.
(** ** Reading line elements *)
(** the two references of an "l" record; other records carry none *)
Definition segment_of (line : list N) : option (option (N * N)) :=
  match cut ch_sp line with
  | [[k]; a; b] => if (k =? ch_l)%N then match decimal a, decimal b with Some a, Some b => Some (Some (a, b)) | _, _ => None end else Some None
  | _ => Some None
  end.
(** the segments of the text of a file: the positions of their two ends *)
Definition read_segments {F} (parse : list N -> option F) (text : list N) : option (list (vec3 F * vec3 F)) :=
  let lines := removelast (cut ch_nl text) in
  match all_some (map (record_of parse) lines), all_some (map segment_of lines) with
  | Some rs, Some ss =>
      all_some (flat_map (fun s => match s with Some (a, b) => [match refer (file_vertices rs) a, refer (file_vertices rs) b with Some p, Some q => Some (p, q) | _, _ => None end] | None => [] end) ss)
  | _, _ => None
  end.
Section Write.
Context {F : Type} (fmt : F -> list N) (parse : list N -> option F).
Definition seg_of (l : obj_line F) : option (N * N) := match l with ObjL a b => Some (a, b) | _ => None end.
Lemma segment_roundtrip l : line_ok fmt parse l -> segment_of (line_text fmt l) = Some (seg_of l).
Proof.
  destruct l as [x y z|x y z|cs|a b]; cbn [line_ok line_text seg_of].
  - intros ((_ & A & _) & (_ & B & _) & (_ & C & _)). cbn [x3 y3 z3] in *. unfold segment_of.
    change ([ch_v; ch_sp] ++ fmt x ++ [ch_sp] ++ fmt y ++ [ch_sp] ++ fmt z) with ([ch_v] ++ ch_sp :: (fmt x ++ ch_sp :: (fmt y ++ ch_sp :: fmt z))).
    rewrite cut_app by (repeat constructor; discriminate). rewrite !cut_app, cut_nosep by assumption. reflexivity.
  - intros ((_ & A & _) & (_ & B & _) & (_ & C & _)). cbn [x3 y3 z3] in *. unfold segment_of.
    change ([ch_v; ch_n; ch_sp] ++ fmt x ++ [ch_sp] ++ fmt y ++ [ch_sp] ++ fmt z) with ([ch_v; ch_n] ++ ch_sp :: (fmt x ++ ch_sp :: (fmt y ++ ch_sp :: fmt z))).
    rewrite cut_app by (repeat constructor; discriminate). reflexivity.
  - intros H. destruct cs as [|c1 [|c2 [|c3 [|]]]]; try discriminate. unfold segment_of. cbn [flat_map app]. rewrite app_nil_r.
    change (ch_f :: ch_sp :: corner_chars c1 ++ ch_sp :: corner_chars c2 ++ ch_sp :: corner_chars c3) with ([ch_f] ++ ch_sp :: (corner_chars c1 ++ ch_sp :: (corner_chars c2 ++ ch_sp :: corner_chars c3))).
    assert (K : forall c, Forall (fun x => x <> ch_sp) (corner_chars c)) by (intros c; apply corner_no; [unfold is_digit, ch_sp; lia|discriminate]).
    rewrite cut_app by (repeat constructor; discriminate). rewrite !cut_app, cut_nosep by apply K. reflexivity.
  - intros _. unfold segment_of. change ([ch_l; ch_sp] ++ u32_chars a ++ [ch_sp] ++ u32_chars b) with ([ch_l] ++ ch_sp :: (u32_chars a ++ ch_sp :: u32_chars b)).
    assert (K : forall n, Forall (fun x => x <> ch_sp) (u32_chars n)) by (intros n; apply u32_chars_no; unfold is_digit, ch_sp; lia).
    rewrite cut_app by (repeat constructor; discriminate). rewrite cut_app, cut_nosep by apply K. cbn [N.eqb]. rewrite N.eqb_refl, !u32_decimal. reflexivity.
Qed.
Lemma file_segments ls : Forall (line_ok fmt parse) ls -> all_some (map segment_of (removelast (cut ch_nl (obj_chars fmt ls)))) = Some (map seg_of ls).
Proof.
  intros H. unfold obj_chars. replace (flat_map (obj_line_chars fmt) ls) with (flat_map (fun l => l ++ [ch_nl]) (map (line_text fmt) ls)).
  - rewrite cut_lines by (apply Forall_map; eapply Forall_impl; [|exact H]; apply line_text_no_nl). rewrite map_map. apply all_some_map. intros l Hl. apply segment_roundtrip. rewrite Forall_forall in H. now apply H.
  - rewrite flat_map_map. apply flat_map_ext. intros l. now rewrite line_text_nl.
Qed.
(** the sides of the closed polygon through [vs] *)
Definition sides (vs : list (vec3 F)) : list (vec3 F * vec3 F) := match vs with [] => [] | v :: r => combine vs (r ++ [v]) end.
Lemma all_some_some {A} (l : list A) : all_some (map Some l) = Some l.
Proof. induction l as [|x l IH]; [reflexivity|]. cbn. now rewrite IH. Qed.
Lemma refer_S {A} (l : list A) i d : i < length l -> refer l (N.of_nat (S i)) = Some (nth i l d).
Proof.
  intros H. unfold refer. destruct (N.eqb_spec (N.of_nat (S i)) 0) as [E|_]; [lia|]. replace (N.to_nat (N.of_nat (S i)) - 1) with i by lia. now apply nth_error_nth'.
Qed.
Lemma bound_ok vs : Forall (faithful3 fmt parse) vs -> Forall (line_ok fmt parse) (save_bound_as_obj vs).
Proof.
  intros H. unfold save_bound_as_obj. apply Forall_app. split; [|apply Forall_app; split].
  - apply Forall_map. eapply Forall_impl; [|exact H]. intros [x y z] K. exact K.
  - apply Forall_map, Forall_forall. intros i _. exact I.
  - repeat constructor.
Qed.
Lemma bound_vertices (vs : list (vec3 F)) : file_vertices (map rec_of (save_bound_as_obj vs)) = vs.
Proof.
  unfold save_bound_as_obj, file_vertices. rewrite !map_app, !flat_map_app, !map_map. cbn [map rec_of flat_map]. rewrite app_nil_r.
  replace (flat_map _ (map _ (range 1 (length vs)))) with (@nil (vec3 F)) by (induction (range 1 (length vs)); auto). rewrite app_nil_r.
  induction vs as [|[x y z] l IH]; [reflexivity|]. cbn. now rewrite IH.
Qed.
Lemma sides_nth v r d : sides (v :: r) = map (fun i => (nth i (v :: r) d, nth (S i) (v :: r) d)) (range 0 (length r)) ++ [(nth (length r) (v :: r) d, v)].
Proof.
  unfold sides. revert v. assert (G : forall l v e, combine (v :: l) (l ++ [e]) = map (fun i => (nth i (v :: l) d, nth (S i) (v :: l) d)) (range 0 (length l)) ++ [(nth (length l) (v :: l) d, e)]).
  { induction l as [|w l IH]; intros v e; [reflexivity|]. change (combine (v :: w :: l) ((w :: l) ++ [e])) with ((v, w) :: combine (w :: l) (l ++ [e])). rewrite IH. unfold range. cbn [length]. rewrite !Nat.sub_0_r. cbn [seq map app nth]. rewrite <- seq_shift, map_map. reflexivity. }
  intros v. apply G.
Qed.
(** C50: the boundary file of a point list draws the closed polygon through the points, each side once, in order. *)
Theorem C50_boundary vs : Forall (faithful3 fmt parse) vs -> vs <> [] -> read_segments parse (obj_chars fmt (save_bound_as_obj vs)) = Some (sides vs).
Proof.
  intros H Hne. pose proof (bound_ok vs H) as OK. unfold read_segments. rewrite (file_records fmt parse) by exact OK. rewrite file_segments by exact OK. rewrite bound_vertices.
  destruct vs as [|v r]; [congruence|]. rewrite (sides_nth v r v), <- all_some_some. f_equal.
  assert (N0 : forall (g : option (N * N) -> list (option (vec3 F * vec3 F))) l, g None = [] -> flat_map g (map (fun p : vec3 F => seg_of (ObjV (x3 p) (y3 p) (z3 p))) l) = []).
  { intros g l Hg. induction l as [|p l IH]; [reflexivity|]. cbn [map flat_map seg_of]. now rewrite Hg. }
  unfold save_bound_as_obj. rewrite !map_app, !flat_map_app, !map_map, N0 by reflexivity. cbn [app]. f_equal.
  - unfold range. change (length (v :: r)) with (S (length r)). rewrite Nat.sub_0_r. replace (S (length r) - 1) with (length r) by lia. rewrite <- seq_shift, map_map.
    assert (K : forall i, In i (seq 0 (length r)) -> i < length r) by (intros i Hi; apply in_seq in Hi; lia).
    induction (seq 0 (length r)) as [|i l IH]; [reflexivity|]. cbn [map flat_map app]. rewrite IH by (intros; apply K; now right). f_equal. specialize (K i (or_introl eq_refl)).
    cbn [seg_of]. replace (S i + 1) with (S (S i)) by lia. rewrite (refer_S (v :: r) i v), (refer_S (v :: r) (S i) v) by (cbn [length]; lia). reflexivity.
  - change (length (v :: r)) with (S (length r)). cbn [map seg_of flat_map app]. rewrite (refer_S (v :: r) (length r) v) by (cbn [length]; lia). reflexivity.
Qed.
(** without points the file refers to vertices that it does not contain *)
Theorem C50_boundary_empty : read_segments parse (obj_chars fmt (save_bound_as_obj [])) = None.
Proof. reflexivity. Qed.
End Write.
(** a triangle, with coordinates written in unary *)
Example C50_boundary_nonvacuous : exists (fmt : nat -> list N) parse vs, Forall (faithful3 fmt parse) vs /\ read_segments parse (obj_chars fmt (save_bound_as_obj vs)) =
  Some [(V3 0 0 0, V3 1 0 0); (V3 1 0 0, V3 0 1 2); (V3 0 1 2, V3 0 0 0)].
Proof.
  exists (fun n => repeat 49%N n), (fun s => Some (length s)), [V3 0 0 0; V3 1 0 0; V3 0 1 2]. split.
  - repeat constructor; cbn; try discriminate.
  - apply (C50_boundary (fun n => repeat 49%N n) (fun s => Some (length s)) [V3 0 0 0; V3 1 0 0; V3 0 1 2]); [repeat constructor; cbn; try discriminate|discriminate].
Qed.
(** ** Scaling *)
Section Scale.
Context {F : Type} {NF : Num F}.
(** C52: scaling multiplies every coordinate of every point. *)
Theorem C52_scale (ps : list (vec3 F)) s : length (scale_points ps s) = length ps /\
  forall i p, nth_error ps i = Some p -> nth_error (scale_points ps s) i = Some (V3 (fmul (x3 p) s) (fmul (y3 p) s) (fmul (z3 p) s)).
Proof. unfold scale_points. split; [apply map_length|]. intros i p H. rewrite (map_nth_error _ _ _ H). reflexivity. Qed.
End Scale.
Open Scope R_scope.
(** C52: exactly, distances between the points are scaled by [|s|], and scalings compose. *)
Theorem C52_scale_distances (ps : list (vec3 R)) s i j p q p' q' : nth_error ps i = Some p -> nth_error ps j = Some q -> nth_error (scale_points ps s) i = Some p' -> nth_error (scale_points ps s) j = Some q' ->
  distance3 p' q' = Rabs s * distance3 p q.
Proof.
  intros Hp Hq. rewrite (proj2 (C52_scale ps s) i p Hp), (proj2 (C52_scale ps s) j q Hq). intros [= <-] [= <-]. unfold distance3, length3, dot3. vsimp. rnum.
  replace (Rabs s) with (sqrt (s * s)) by (rewrite <- (sqrt_Rsqr_abs s); reflexivity). rewrite <- sqrt_mult; [f_equal; ring|apply Rle_0_sqr|].
  repeat apply Rplus_le_le_0_compat; apply Rle_0_sqr.
Qed.
Theorem C52_scale_compose (ps : list (vec3 R)) s u : scale_points (scale_points ps s) u = scale_points ps (s * u) /\ scale_points ps 1 = ps.
Proof. unfold scale_points. rewrite map_map. split; [apply map_ext|rewrite <- (map_id ps) at 2; apply map_ext]; intros [x y z]; cbn; rnum; f_equal; ring. Qed.
Example C52_scale_nonvacuous : exists p q, scale_points [V3 0 0 0; V3 0 3 4] 2 = [p; q] /\ distance3 p q = 10.
Proof.
  exists (V3 (0 * 2) (0 * 2) (0 * 2)), (V3 (0 * 2) (3 * 2) (4 * 2)). split; [reflexivity|].
  rewrite (C52_scale_distances [V3 0 0 0; V3 0 3 4] 2 0 1 (V3 0 0 0) (V3 0 3 4)) by reflexivity. unfold distance3, length3, dot3. vsimp. rnum.
  replace (_ + _ : R) with (5 * 5) by ring. rewrite sqrt_square by lra. rewrite Rabs_right by lra. ring.
Qed.
