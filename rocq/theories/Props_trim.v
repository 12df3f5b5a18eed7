(** Properties C45 and C46: trimming of planes, cylinders and B-spline surfaces. *)
From Coq Require Import Reals Lra Psatz Lia Arith NArith ZArith Permutation List Floats.SpecFloat.
From Verif Require Import Prelude Num M_vec M_utils M_curve M_polygon M_meshgen M_surface L_base L_vec L_geom L_cycle L_polygon L_round
  Props_utils Props_polygon Props_ears Props_merge Props_mesh Props_gridmesh Props_round Props_loops Props_knot Props_bspline.
Open Scope nat_scope.

(** ** The loops of a face *)
Definition nonempty {A} (p : list A) : bool := match p with [] => false | _ => true end.
(** the points [s], ..., [e-1] of the list are the polygon *)
Definition occupies {A} (l : list A) (r : nat * nat) (p : list A) : Prop := fst r < snd r <= length l /\ firstn (snd r - fst r) (skipn (fst r) l) = p.
(** [offsets] delimit the non-empty ones of the given polygons in their concatenation *)
Definition delimits {A} (offsets : list nat) (polys : list (list A)) : Prop := Forall2 (occupies (concat polys)) (pairs offsets) (filter nonempty polys).

Section Loops.
Context {F : Type} {NF : Num F}.
Definition loop_polygons (fuel : nat) (rnd : nat -> nat -> list bool -> F) (bounds : list (list (CurveSegment F))) (polys : list (list (vec3 F))) : Prop :=
  length polys = length bounds /\ forall k b p, nth_error bounds k = Some b -> nth_error polys k = Some p -> to_polygon fuel (rnd k) b = Ok p.

Fixpoint ends_from {A} (s : nat) (ps : list (list A)) : list nat :=
  match ps with [] => [] | p :: t => if nonempty p then s + length p :: ends_from (s + length p) t else ends_from s t end.
Lemma collect_fold (polys : list (list (vec3 F))) : forall acc en,
  fold_left (fun '(polygons, en) (poly : list (vec3 F)) => if (0 <? length poly)%nat then (polygons ++ [(en + length poly)%nat], (en + length poly)%nat) else (polygons, en)) polys (acc, en)
  = (acc ++ ends_from en polys, fold_left (fun e p => e + length p) polys en).
Proof.
  induction polys as [|p polys IH]; intros acc en; [cbn; now rewrite app_nil_r|]. cbn [fold_left ends_from]. destruct p as [|x p]; cbn [nonempty length Nat.ltb Nat.leb].
  - rewrite Nat.add_0_r. apply IH.
  - rewrite IH, <- app_assoc. reflexivity.
Qed.
Lemma pairs_cons (a b : nat) l : pairs (a :: b :: l) = (a, b) :: pairs (b :: l).
Proof. reflexivity. Qed.
Lemma ends_delimit {A} (pre : list A) (polys : list (list A)) : Forall2 (occupies (pre ++ concat polys)) (pairs (length pre :: ends_from (length pre) polys)) (filter nonempty polys).
Proof.
  revert pre. induction polys as [|p polys IH]; intros pre; [constructor|]. cbn [ends_from filter]. destruct p as [|x p]; cbn [nonempty]; [apply IH|].
  rewrite pairs_cons. constructor.
  - unfold occupies. cbn [fst snd concat]. split; [rewrite !app_length; cbn; lia|]. rewrite skipn_app, skipn_all, Nat.sub_diag. cbn [app skipn].
    replace (length pre + length (x :: p) - length pre) with (length (x :: p)) by lia. rewrite <- (Nat.add_0_r (length (x :: p))). change (x :: p ++ concat polys) with ((x :: p) ++ concat polys). rewrite firstn_app_2. cbn [firstn]. apply app_nil_r.
  - specialize (IH (pre ++ x :: p)). rewrite app_length in IH. cbn [concat]. rewrite <- app_assoc in IH. exact IH.
Qed.
Lemma collect_spec fuel rnd bounds offsets vertices : collect_bounds fuel rnd bounds = Ok (offsets, vertices) ->
  exists polys, loop_polygons fuel rnd bounds polys /\ vertices = concat polys /\ offsets = 0 :: ends_from 0 polys.
Proof.
  unfold collect_bounds. intros E. bindas E polys Ep. apply Ok_inj in E. rewrite collect_fold in E. cbn [fst app] in E. injection E as <- <-.
  exists polys. split; [|split; reflexivity]. split.
  - apply mapM_length in Ep. unfold enumerate in Ep. rewrite combine_length, seq_length, Nat.min_id in Ep. exact Ep.
  - intros k b p Hb Hp. pose proof (proj1 (nth_error_Some bounds k) ltac:(congruence)) as L.
    pose proof (mapM_nth _ _ _ k (0, b) p Ep) as K. unfold enumerate in K. rewrite combine_length, seq_length, Nat.min_id in K. specialize (K L).
    rewrite combine_nth in K by now rewrite seq_length. rewrite seq_nth in K by exact L. rewrite (nth_error_nth _ _ _ Hb), (nth_error_nth _ _ _ Hp) in K. exact K.
Qed.
Lemma ends_length {A} (polys : list (list A)) : forall s, length (ends_from s polys) = length (filter nonempty polys).
Proof. induction polys as [|p polys IH]; intros s; [reflexivity|]. cbn [ends_from filter]. destruct (nonempty p); cbn [length]; now rewrite IH. Qed.
Lemma concat_filter {A} (polys : list (list A)) : concat (filter nonempty polys) = concat polys.
Proof. induction polys as [|p polys IH]; [reflexivity|]. cbn [filter concat]. destruct p; cbn [nonempty app concat]; [exact IH|now rewrite IH]. Qed.
Lemma ends_filter {A} (polys : list (list A)) : forall s, ends_from s polys = ends_from s (filter nonempty polys).
Proof. induction polys as [|p polys IH]; intros s; [reflexivity|]. cbn [ends_from filter]. destruct (nonempty p) eqn:E; cbn [ends_from]; rewrite ?E; now rewrite IH. Qed.
(** C45, C46: the boundary polygons are those of the loops, in order; the offsets delimit the
    non-empty ones. *)
Theorem C45_loops fuel rnd bounds offsets vertices : collect_bounds fuel rnd bounds = Ok (offsets, vertices) ->
  exists polys, loop_polygons fuel rnd bounds polys /\ vertices = concat polys /\ delimits offsets polys /\
    length offsets = 1 + length (filter nonempty polys) /\ hd_error offsets = Some 0.
Proof.
  intros E. destruct (collect_spec _ _ _ _ _ E) as (polys & H1 & H2 & ->). exists polys. split; [exact H1|]. split; [exact H2|].
  split; [exact (ends_delimit [] polys)|]. split; [|reflexivity]. cbn [length Nat.add]. f_equal. apply ends_length.
Qed.
Lemma delimits_pairs {A} offsets (polys : list (list A)) : delimits offsets polys -> Forall (fun '(s, e) => s < e <= length (concat polys)) (pairs offsets).
Proof. unfold delimits. generalize (concat polys) as l. intros l H. induction H as [|[s e] p L ps [H1 H2] HF IH]; constructor; assumption. Qed.
(** the cases of zero, one and several non-empty loops *)
Lemma loop_cases fuel rnd bounds offsets vertices : collect_bounds fuel rnd bounds = Ok (offsets, vertices) ->
  exists polys, loop_polygons fuel rnd bounds polys /\ vertices = concat polys /\ delimits offsets polys /\
  match filter nonempty polys with
  | [] => offsets = [0] /\ vertices = []
  | [p] => offsets = [0; length vertices] /\ vertices = p /\ p <> []
  | _ => 2 < length offsets
  end.
Proof.
  intros E. destruct (collect_spec _ _ _ _ _ E) as (polys & H1 & H2 & H3). exists polys. split; [exact H1|]. split; [exact H2|].
  split; [rewrite H3; exact (ends_delimit [] polys)|]. rewrite ends_filter in H3. rewrite <- concat_filter in H2.
  assert (N : forall q, In q (filter nonempty polys) -> nonempty q = true) by (intros q Hq; now apply filter_In in Hq).
  destruct (filter nonempty polys) as [|p [|q l]].
  - subst. split; reflexivity.
  - cbn [concat] in H2. rewrite app_nil_r in H2. cbn [ends_from] in H3. pose proof (N p (or_introl eq_refl)) as Np. rewrite Np in H3. subst. cbn [Nat.add]. split; [reflexivity|]. split; [reflexivity|].
    intros ->. discriminate Np.
  - rewrite H3. cbn [ends_from]. rewrite (N p), (N q) by (cbn; auto). cbn [length]. lia.
Qed.
End Loops.

Definition valid_triangles (n : nat) (T : list (nat * nat * nat)) : Prop := Forall (fun '(a, b, c) => a < n /\ b < n /\ c < n) T.

(** ** C45: planes *)
Section Plane.
Context {F : Type} {NF : Num F}.
(** the triangles around an added vertex [n] *)
Definition fan (n : nat) : list (nat * nat * nat) := map (fun i => (n, i, i + 1)) (seq 0 (n - 1)) ++ [(n, n - 1, 0)].
Lemma as_u32_small n : (N.of_nat n < 2 ^ 32)%N -> as_u32 n = N.of_nat n.
Proof. intros H. unfold as_u32. now apply N.mod_small. Qed.
Lemma plane_fan_emit n : 1 <= n -> (N.of_nat n < 2 ^ 32)%N -> plane_fan n = Ok (emit (fan n)).
Proof.
  intros H1 H2. unfold plane_fan. rewrite usub_Ok by exact H1. cbn [obind]. f_equal. unfold emit, fan. rewrite flat_map_app. f_equal.
  - unfold Prelude.range. rewrite Nat.sub_0_r, flat_map_concat_map, flat_map_concat_map, map_map. f_equal. apply map_ext_in. intros i Hi. apply in_seq in Hi.
    rewrite !as_u32_small by lia. repeat f_equal. lia.
  - cbn [flat_map app]. rewrite !as_u32_small by lia. repeat f_equal. lia.
Qed.
Lemma fan_valid n : 1 <= n -> valid_triangles (n + 1) (fan n).
Proof. intros H. unfold valid_triangles, fan. apply Forall_app. split; [|constructor; [lia|constructor]]. apply Forall_forall. intros t Ht. apply in_map_iff in Ht as (i & <- & Hi). apply in_seq in Hi. lia. Qed.
Lemma convexity_valid (points : list (vec2 F)) v c : compute_vertex_convexity points = Ok (v, c) -> valid_indices points v.
Proof.
  unfold compute_vertex_convexity. intros E.
  refine (foldM_inv (fun s => valid_indices points (fst s)) _ _ _ _ _ _ E); [intros ? []|]. clear E v c.
  intros i [v' c'] s' Hi K Es. unfold Prelude.range in Hi. apply in_seq in Hi. cbn [fst] in *.
  bindas Es pp Epp. bindas Es a Ea. bindas Es b Eb. bindas Es d Ed. apply Ok_inj in Es.
  assert (K' : valid_indices points (v' ++ [i])) by (intros x Hx; apply in_app_or in Hx as [Hx|[<-|[]]]; [auto|lia]).
  destruct (compute_convexity a b d); subst s'; cbn [fst]; assumption.
Qed.
Lemma find_concave_valid (points : list (vec2 F)) l v c : find_concave_vertices points l = Ok (v, c) -> valid_indices points l /\ sublist v l.
Proof.
  unfold find_concave_vertices. intros E. bindas E r Er. destruct r as [td cp]. apply Ok_inj in E. injection E as <- <-. split; [|apply sublist_remove_all].
  assert (G : forall j, j < length l -> nth j l 0 < length points).
  { refine (foldM_range_inv (fun i _ => forall j, j < i -> nth j l 0 < length points) _ _ _ _ _ _ _ _ Er); [lia|intros; lia|]. clear Er td cp.
    intros i [td' cp'] s' Hi K Es j Hj. bindas Es pp Epp. bindas Es vp Evp. bindas Es vc Evc. bindas Es vn Evn. bindas Es a Ea. bindas Es b Eb.
    destruct (Nat.eq_dec j i) as [->|N]; [|apply K; lia]. apply idx_some in Eb. apply (idx_Ok_nth _ _ _ 0) in Evc as [_ ->]. apply nth_error_Some. congruence. }
  intros x Hx. apply (In_nth _ _ 0) in Hx as (j & Hj & <-). auto.
Qed.
(** C45, any arithmetic: what comes back is a mesh on the boundary vertices in order, possibly
    with one more vertex, all of whose triangle indices are valid; or the empty mesh.  There are no
    normals. *)
Theorem C45_structure (s : Plane F) fuel rnd bounds m : plane_trim s fuel rnd bounds = Ok m ->
  exists polys, loop_polygons fuel rnd bounds polys /\ m_normals m = [] /\
  ((N.of_nat (length (concat polys)) < 2 ^ 32)%N ->
   (m_vertices m = [] /\ m_triangles m = []) \/
   exists extra T, length extra <= 1 /\ m_vertices m = concat polys ++ extra /\ m_triangles m = emit T /\ valid_triangles (length (m_vertices m)) T).
Proof.
  unfold plane_trim. intros E. bindas E r Ec. destruct r as [offsets vertices]. destruct (loop_cases _ _ _ _ _ Ec) as (polys & H1 & H2 & H3 & HC). exists polys. split; [exact H1|].
  rewrite <- H2. unfold plane_trim_polygons in E. set (points := map (plane_project s) vertices) in *.
  assert (EP : forall v c out, trianglate_polygon points v c = Ok out -> valid_indices points v -> exists T, out = emit T /\ valid_triangles (length vertices) T).
  { intros v c out Et Hv. destruct (C39_indices_and_count _ _ _ _ Et) as (T & -> & _ & HT). exists T. split; [reflexivity|].
    assert (L : length points = length vertices) by apply map_length. rewrite <- L. eapply Forall_impl; [|exact HT]. intros [[a b] c0] (A & B & C & _). auto. }
  destruct (length offsets =? 2) eqn:E2.
  - bindas E vc Ev. destruct vc as [v c].
    destruct (length v =? length c) eqn:Evc; [apply Ok_inj in E; subst m; split; [reflexivity|]; left; split; reflexivity|].
    destruct (length c =? 0) eqn:E0.
    + bindas E tris Et. apply Ok_inj in E. subst m. cbn [m_normals m_vertices m_triangles]. split; [reflexivity|]. intros HN. right.
      assert (Hn : 1 <= length vertices).
      { destruct vertices; [|cbn; lia]. exfalso. cbn in Ev. apply Ok_inj in Ev. injection Ev as <- <-. discriminate Evc. }
      rewrite (plane_fan_emit _ Hn HN) in Et. apply Ok_inj in Et. eexists [_], _. split; [reflexivity|]. split; [reflexivity|]. split; [symmetry; exact Et|].
      rewrite app_length. now apply fan_valid.
    + bindas E tris Et. apply Ok_inj in E. subst m. cbn [m_normals m_vertices m_triangles]. split; [reflexivity|]. intros _. right.
      destruct (EP _ _ _ Et (convexity_valid _ _ _ Ev)) as (T & -> & HT). exists [], T. rewrite app_nil_r. split; [cbn; lia|]. auto.
  - destruct (2 <? length offsets) eqn:E3; [|apply Ok_inj in E; subst m; split; [reflexivity|]; left; split; reflexivity].
    bindas E vi Ev. bindas E vc Evc. destruct vc as [v c]. bindas E tris Et. apply Ok_inj in E. subst m. cbn [m_normals m_vertices m_triangles]. split; [reflexivity|]. intros _. right.
    destruct (find_concave_valid _ _ _ _ Evc) as [K1 K2]. destruct (EP _ _ _ Et) as (T & -> & HT); [intros x Hx; apply K1; eapply sublist_In; eassumption|].
    exists [], T. rewrite app_nil_r. split; [cbn; lia|]. auto.
Qed.
End Plane.
Section Single.
Context {F : Type} {NF : Num F}.
Lemma collect_total fuel (rnd : nat -> nat -> list bool -> F) bounds polys : loop_polygons fuel rnd bounds polys -> collect_bounds fuel rnd bounds = Ok (0 :: ends_from 0 polys, concat polys).
Proof.
  intros [L H].
  assert (E : exists offsets vertices, collect_bounds fuel rnd bounds = Ok (offsets, vertices)).
  { unfold collect_bounds. destruct (mapM_total (fun '(k, b) => to_polygon fuel (rnd k) b) (enumerate bounds)) as [ys ->]; [|cbn [obind]; eauto].
    intros [k b] Hin. apply In_nth_error in Hin as [n Hn]. unfold enumerate in Hn.
    pose proof (proj1 (nth_error_Some _ n) ltac:(rewrite Hn; discriminate)) as Ln. rewrite combine_length, seq_length, Nat.min_id in Ln.
    rewrite (nth_error_nth' _ (0, b)) in Hn by (rewrite combine_length, seq_length, Nat.min_id; exact Ln). rewrite combine_nth, seq_nth in Hn by (rewrite ?seq_length; auto). injection Hn as <- Hb.
    cbn [Nat.add]. destruct (nth_error polys n) as [p|] eqn:Ep; [|apply nth_error_None in Ep; lia]. exists p. apply H; [|exact Ep]. rewrite <- Hb. rewrite (nth_error_nth' bounds b) by exact Ln. reflexivity. }
  destruct E as (offsets & vertices & E). rewrite E. destruct (collect_spec _ _ _ _ _ E) as (polys' & [L' H'] & -> & ->).
  assert (EE : polys' = polys); [|now rewrite EE].
  apply (nth_ext _ _ [] []); [congruence|]. intros n Hn. destruct (nth_error bounds n) as [b|] eqn:Eb; [|apply nth_error_None in Eb; lia].
  assert (X1 := H' n b (nth n polys' []) Eb (nth_error_nth' _ _ Hn)). assert (Hn2 : n < length polys) by lia. assert (X2 := H n b (nth n polys []) Eb (nth_error_nth' _ _ Hn2)). congruence.
Qed.
(** the polygons of the loops that are not empty, in order *)
Definition proper_loops fuel (rnd : nat -> nat -> list bool -> F) bounds (loops : list (list (vec3 F))) : Prop :=
  exists polys, loop_polygons fuel rnd bounds polys /\ filter nonempty polys = loops.
Lemma collect_proper fuel rnd bounds loops : proper_loops fuel rnd bounds loops -> collect_bounds fuel rnd bounds = Ok (0 :: ends_from 0 loops, concat loops).
Proof. intros (polys & H & <-). rewrite (collect_total _ _ _ _ H). now rewrite <- ends_filter, concat_filter. Qed.
Lemma proper_nonempty fuel (rnd : nat -> nat -> list bool -> F) bounds loops p : proper_loops fuel rnd bounds loops -> In p loops -> nonempty p = true.
Proof. intros (polys & _ & <-) H. now apply filter_In in H. Qed.
(** Loops that collapse to nothing leave the empty mesh. *)
Theorem C45_no_loops (s : Plane F) fuel rnd bounds : proper_loops fuel rnd bounds [] -> plane_trim s fuel rnd bounds = Ok mesh_new.
Proof. intros H. unfold plane_trim. rewrite (collect_proper _ _ _ _ H). reflexivity. Qed.
Lemma plane_trim_single (s : Plane F) fuel rnd bounds vs : proper_loops fuel rnd bounds [vs] -> plane_trim s fuel rnd bounds = plane_trim_polygons s [0; length vs] vs.
Proof. intros H. unfold plane_trim. rewrite (collect_proper _ _ _ _ H). cbn [obind concat ends_from]. rewrite (proper_nonempty _ _ _ _ vs H) by now left. now rewrite app_nil_r. Qed.
End Single.

Lemma fan_sum w n : antisym w -> 1 <= n -> sumw w (map (fun '(a, b, c) => [a; b; c]) (fan n)) = cyc w (seq 0 n).
Proof.
  intros Hw Hn. unfold fan. rewrite map_app, map_map. unfold sumw. rewrite map_app, fold_right_app, !map_map. cbn [map fold_right]. rewrite cyc3.
  assert (G : forall k s x, fold_right Rplus x (map (fun i => cyc w [n; i; i + 1]) (seq s k)) = (x + w n s + chain w (seq s (S k)) + w (s + k)%nat n)%R).
  { induction k as [|k IH]; intros s x; cbn [seq map fold_right].
    - cbn [chain]. rewrite Nat.add_0_r. pose proof (Hw n s). lra.
    - rewrite IH, cyc3. cbn [seq]. rewrite chain_cons2. replace (s + S k) with (S s + k) by lia. replace (s + 1) with (S s) by lia. pose proof (Hw n (S s)). lra. }
  etransitivity; [apply (G (n - 1) 0)|]. replace (S (n - 1)) with n by lia. cbn [Nat.add]. destruct n as [|k]; [lia|]. cbn [seq]. unfold cyc. change (0 :: seq 1 k) with (seq 0 (S k)).
  rewrite seq_S, (chain_snoc w). cbn [Nat.add Nat.sub]. rewrite Nat.sub_0_r. pose proof (Hw (S k) 0). pose proof (Hw k (S k)). lra.
Qed.

Open Scope R_scope.
(** a counter-clockwise convex polygon, possibly with straight corners, not degenerate with
    respect to the tolerance: no vertex is on the right of a side *)
Definition convex_loop (ps : list (vec2 R)) : Prop :=
  let n := length ps in
  (forall i k, (i < n)%nat -> (k < n)%nat -> 0 <= tri_area2 (pt ps k) (pt ps i) (pt ps (next_pos n i))) /\
  (forall i, (i < n)%nat -> pt ps i <> pt ps (next_pos n i)) /\
  (exists i, (i < n)%nat /\ TOL < corner_at ps (seq 0 n) i).
(** [c] is the mean of the points *)
Definition mean_of (vs : list (vec3 R)) (c : vec3 R) : Prop :=
  INR (length vs) * x3 c = sumR (@x3 R) vs /\ INR (length vs) * y3 c = sumR (@y3 R) vs /\ INR (length vs) * z3 c = sumR (@z3 R) vs.
Lemma sum3_spec (vs : list (vec3 R)) : sum3 vs = V3 (sumR (@x3 R) vs) (sumR (@y3 R) vs) (sumR (@z3 R) vs).
Proof.
  unfold sum3, sumR. assert (G : forall vs a, fold_left vadd vs a = vadd a (V3 (fold_right Rplus 0 (map (@x3 R) vs)) (fold_right Rplus 0 (map (@y3 R) vs)) (fold_right Rplus 0 (map (@z3 R) vs)))).
  { clear vs. induction vs as [|v vs IH]; intros a; cbn [fold_left map fold_right]; [destruct a; vsimp; f_equal; ring|]. rewrite IH. destruct a, v. vsimp. f_equal; ring. }
  rewrite G. vsimp. f_equal; rnum; ring.
Qed.
Lemma mean_spec (vs : list (vec3 R)) : vs <> [] -> mean_of vs (divs3 (sum3 vs) (fofnat (length vs))).
Proof.
  intros H. assert (N : INR (length vs) <> 0) by (destruct vs; [congruence|apply not_0_INR; discriminate]).
  rewrite sum3_spec. unfold mean_of, divs3. cbn [x3 y3 z3]. rnum. repeat split; field; exact N.
Qed.
Lemma sumR_lin {A} (f g : A -> R) a b l : sumR (fun x => a * f x + b * g x) l = a * sumR f l + b * sumR g l.
Proof. unfold sumR. induction l as [|x l IH]; cbn [map fold_right]; [ring|]. rewrite IH. ring. Qed.
Lemma sumR_ext {A} (f g : A -> R) l : (forall x, In x l -> f x = g x) -> sumR f l = sumR g l.
Proof. intros H. unfold sumR. f_equal. now apply map_ext_in. Qed.
Lemma sumR_const {A} (c : R) (l : list A) : sumR (fun _ => c) l = INR (length l) * c.
Proof. unfold sumR. induction l as [|x l IH]; cbn [map fold_right length]; [cbn; ring|]. rewrite IH, S_INR. ring. Qed.
Lemma mean_area (s : Plane R) vs c P Q : mean_of vs c ->
  INR (length vs) * tri_area2 (plane_project s c) P Q = sumR (fun v => tri_area2 (plane_project s v) P Q) vs.
Proof.
  intros (Ex & Ey & Ez). destruct s as [[ox oy oz] no [ux uy uz] [wx wy wz]]. destruct P as [Px Py], Q as [Qx Qy].
  rewrite (sumR_ext _ (fun v => (ux * (Py - Qy) + wx * (Qx - Px)) * x3 v + 1 * ((uy * (Py - Qy) + wy * (Qx - Px)) * y3 v + 1 * ((uz * (Py - Qy) + wz * (Qx - Px)) * z3 v + 1 *
     (Px * Qy - Qx * Py - (ox * (ux * (Py - Qy) + wx * (Qx - Px)) + oy * (uy * (Py - Qy) + wy * (Qx - Px)) + oz * (uz * (Py - Qy) + wz * (Qx - Px)))))))).
  - rewrite !sumR_lin, sumR_const, <- Ex, <- Ey, <- Ez. unfold tri_area2, plane_project, dot3. vsimp. cbn [p_origin p_u_axis p_v_axis x2 y2 x3 y3 z3]. rnum. ring.
  - intros v _. unfold tri_area2, plane_project, dot3. vsimp. cbn [p_origin p_u_axis p_v_axis x2 y2 x3 y3 z3]. rnum. ring.
Qed.
Lemma sumR_nonneg {A} (f : A -> R) l : (forall x, In x l -> 0 <= f x) -> 0 <= sumR f l.
Proof. intros H. unfold sumR. induction l as [|x l IH]; cbn [map fold_right]; [lra|]. pose proof (H x (or_introl eq_refl)). specialize (IH (fun y Hy => H y (or_intror Hy))). lra. Qed.
Lemma sumR_pos {A} (f : A -> R) l y : (forall x, In x l -> 0 <= f x) -> In y l -> 0 < f y -> 0 < sumR f l.
Proof.
  intros H Hy Hp. unfold sumR. induction l as [|x l IH]; [destruct Hy|]. cbn [map fold_right]. pose proof (H x (or_introl eq_refl)) as Hx.
  assert (Hl : forall z, In z l -> 0 <= f z) by (intros; apply H; now right). pose proof (sumR_nonneg f l Hl) as S0. unfold sumR in S0.
  destruct Hy as [<-|Hy]; [lra|]. specialize (IH Hl Hy). lra.
Qed.
Lemma on_one_line P Q A B C : P <> Q -> tri_area2 A P Q = 0 -> tri_area2 B P Q = 0 -> tri_area2 C P Q = 0 -> tri_area2 A B C = 0.
Proof.
  intros N HA HB HC. set (d := (x2 Q - x2 P) * (x2 Q - x2 P) + (y2 Q - y2 P) * (y2 Q - y2 P)).
  assert (D : d <> 0). { unfold d. intros E. apply N. destruct P as [a b], Q as [e f]. cbn [x2 y2] in E. destruct (Rplus_sqr_eq_0 (e - a) (f - b) E). f_equal; lra. }
  assert (E : tri_area2 A B C * d =
     (tri_area2 C P Q - tri_area2 A P Q) * ((x2 B - x2 A) * (x2 Q - x2 P) + (y2 B - y2 A) * (y2 Q - y2 P))
     - (tri_area2 B P Q - tri_area2 A P Q) * ((x2 C - x2 A) * (x2 Q - x2 P) + (y2 C - y2 A) * (y2 Q - y2 P))).
  { unfold tri_area2, d. ring. }
  rewrite HA, HB, HC in E. apply (Rmult_eq_reg_r d); [|exact D]. rewrite E. ring.
Qed.
Lemma convex_sees ps i k : convex_loop ps -> (i < length ps)%nat -> (k < length ps)%nat -> 0 <= tri_area2 (pt ps k) (pt ps i) (pt ps (next_pos (length ps) i)).
Proof. intros (HC & _ & _) Hi Hk. now apply HC. Qed.
(** it suffices that no three vertices in order turn right *)
Lemma ordered_sees ps i k : (forall i j k, (i < j < k)%nat -> (k < length ps)%nat -> 0 <= tri_area2 (pt ps i) (pt ps j) (pt ps k)) ->
  (i < length ps)%nat -> (k < length ps)%nat -> 0 <= tri_area2 (pt ps k) (pt ps i) (pt ps (next_pos (length ps) i)).
Proof.
  intros HC Hi Hk. set (n := length ps) in *.
  assert (Rt : forall A B C, tri_area2 B C A = tri_area2 A B C) by (intros; unfold tri_area2; ring).
  assert (Z1 : forall A B, tri_area2 A A B = 0) by (intros; unfold tri_area2; ring). assert (Z2 : forall A B, tri_area2 A B A = 0) by (intros; unfold tri_area2; ring).
  unfold next_pos. destruct (Nat.eqb_spec i (n - 1)) as [E|N].
  - destruct (Nat.eq_dec k 0) as [->|K0]; [rewrite Z2; lra|]. destruct (Nat.eq_dec k i) as [->|K1]; [rewrite Z1; lra|].
    rewrite Rt. apply HC; lia.
  - destruct (Nat.eq_dec k (i + 1)) as [->|K0]; [rewrite Z2; lra|]. destruct (Nat.eq_dec k i) as [->|K1]; [rewrite Z1; lra|].
    destruct (Nat.lt_ge_cases k i); [apply HC; lia|]. rewrite <- Rt. apply HC; lia.
Qed.
Lemma convex_sees_strictly ps i : convex_loop ps -> (i < length ps)%nat -> exists k, (k < length ps)%nat /\ 0 < tri_area2 (pt ps k) (pt ps i) (pt ps (next_pos (length ps) i)).
Proof.
  intros H Hi. pose proof H as (_ & HD & j & Hj & HT). set (n := length ps) in *. set (P := pt ps i) in *. set (Q := pt ps (next_pos n i)).
  assert (M : forall k, (k mod n < n)%nat) by (intros; apply Nat.mod_upper_bound; lia).
  unfold corner_at in HT. rewrite seq_length in HT. rewrite !seq_nth in HT by auto. cbn [Nat.add] in HT.
  set (a := ((j + n - 1) mod n)%nat) in *. set (c := ((j + 1) mod n)%nat) in *. assert (Ha : (a < n)%nat) by apply M. assert (Hc : (c < n)%nat) by apply M.
  pose proof (convex_sees ps i a H Hi Ha) as Sa. pose proof (convex_sees ps i j H Hi Hj) as Sj. pose proof (convex_sees ps i c H Hi Hc) as Sc. fold n in Sa, Sj, Sc. fold P Q in Sa, Sj, Sc.
  destruct Sa as [Sa|Sa]; [now exists a|]. destruct Sj as [Sj|Sj]; [now exists j|]. destruct Sc as [Sc|Sc]; [now exists c|]. exfalso.
  pose proof TOL_pos. assert (PQ : P <> Q) by (apply HD; exact Hi). pose proof (on_one_line P Q _ _ _ PQ (eq_sym Sa) (eq_sym Sj) (eq_sym Sc)). lra.
Qed.
(** triangles whose edges cancel up to the loop, all counter-clockwise: they tile it *)
Lemma tiles_loop ps new T : (forall w, antisym w -> sumw w (map (fun '(a, b, c) => [a; b; c]) T) = cyc w (seq 0 (length ps))) -> Forall (positive 0 (ps ++ new)) T ->
  total_area2 (ps ++ new) T = area2 ps /\ forall q, off_all_lines (ps ++ new) T q -> INR (covering (ps ++ new) T q) = winding ps q.
Proof.
  intros HS HP.
  assert (Sum : forall w : vec2 R -> vec2 R -> R, (forall x y, w y x = - w x y) ->
    sumw (fun i j => w (pt (ps ++ new) i) (pt (ps ++ new) j)) (map (fun '(a, b, c) => [a; b; c]) T) = cyc w ps).
  { intros w Hw. rewrite HS by (intros i j; apply Hw). rewrite <- (cyc_map (pt (ps ++ new))). f_equal. rewrite <- (poly_seq ps) at 3.
    unfold poly. apply map_ext_in. intros i Hi. apply in_seq in Hi. unfold pt. apply app_nth1. lia. }
  split.
  - rewrite <- sumw_tri. apply Sum. intros x y. unfold cross2. ring.
  - intros q Hq. rewrite <- (cover_positive 0 _ T q); [|lra|exact HP]. rewrite <- sumw_wind by exact Hq. apply Sum. intros x y. apply wind_antisym.
Qed.
(** C45: a single convex loop is filled by the n triangles from its mean point, all
    counter-clockwise, tiling the polygon. *)
Theorem C45_convex (s : Plane R) fuel rnd bounds vs : proper_loops fuel rnd bounds [vs] -> let ps := map (plane_project s) vs in
  convex_loop ps -> (N.of_nat (length vs) < 2 ^ 32)%N ->
  exists m c T, plane_trim s fuel rnd bounds = Ok m /\ m_vertices m = vs ++ [c] /\ mean_of vs c /\ m_triangles m = emit T /\ length T = length vs /\
    let V := map (plane_project s) (m_vertices m) in
    Forall (fun '(i, j, k) => (i < length V)%nat /\ (j < length V)%nat /\ (k < length V)%nat /\ 0 < tri_area2 (pt V i) (pt V j) (pt V k)) T /\
    total_area2 V T = area2 ps /\ (forall w, antisym w -> sumw w (map (fun '(a, b, c) => [a; b; c]) T) = cyc w (seq 0 (length vs))) /\
    forall q, off_all_lines V T q -> INR (covering V T q) = winding ps q.
Proof.
  intros HL ps HC HN. set (n := length vs). assert (Ln : length ps = n) by apply map_length. pose proof TOL_pos as TP.
  assert (Hne : vs <> []) by (intros ->; pose proof (proper_nonempty _ _ _ _ [] HL (or_introl eq_refl)); discriminate).
  assert (Hn : (1 <= n)%nat) by (unfold n; destruct vs; [congruence|cbn; lia]).
  set (c := divs3 (sum3 vs) (fofnat n)). pose proof (mean_spec vs Hne) as HM. fold n c in HM.
  exists (mkTM (vs ++ [c]) [] (emit (fan n))), c, (fan n). cbn [m_vertices m_triangles].
  assert (NonNeg : forall i, (i < n)%nat -> 0 <= corner_at ps (seq 0 n) i).
  { intros i Hi. unfold corner_at. rewrite seq_length. assert (M : forall k, (k mod n < n)%nat) by (intros; apply Nat.mod_upper_bound; lia). rewrite !seq_nth by auto. cbn [Nat.add].
    pose proof (convex_sees ps i ((i + n - 1) mod n) HC ltac:(lia) ltac:(rewrite Ln; apply M)) as K. rewrite Ln in K. rewrite next_pos_mod by exact Hi. exact K. }
  split; [|split; [reflexivity|split; [exact HM|split; [reflexivity|]]]].
  - rewrite (plane_trim_single _ _ _ _ _ HL). unfold plane_trim_polygons. cbn [length Nat.eqb]. fold ps. rewrite C38_vertex_convexity. rewrite Ln. cbn [obind].
    rewrite (filter_none (right_turn ps (seq 0 n))).
    2:{ intros i Hi. apply in_seq in Hi. unfold right_turn. specialize (NonNeg i ltac:(lia)). destruct (Rltb_spec (corner_at ps (seq 0 n) i) (- TOL)); [lra|reflexivity]. }
    destruct HC as (_ & _ & j & Hj & HT). rewrite Ln in Hj, HT.
    destruct (filter (bent ps (seq 0 n)) (seq 0 n)) as [|x l] eqn:Ef.
    { exfalso. assert (I : In j (filter (bent ps (seq 0 n)) (seq 0 n))) by (apply filter_In; split; [apply in_seq; lia|]; unfold bent; apply Rltb_true; rewrite Rabs_right; lra). rewrite Ef in I. destruct I. }
    cbn [length Nat.eqb]. fold n. rewrite plane_fan_emit by assumption. cbn [obind]. reflexivity.
  - rewrite map_app. cbn [map]. fold ps. set (C := plane_project s c).
    split; [unfold fan; rewrite app_length, map_length, seq_length; cbn [length]; lia|]. cbv zeta.
    assert (PV : forall i, (i < n)%nat -> pt (ps ++ [C]) i = pt ps i) by (intros i Hi; unfold pt; apply app_nth1; lia).
    assert (PC : pt (ps ++ [C]) n = C) by (unfold pt; rewrite app_nth2, Ln, Nat.sub_diag by lia; reflexivity).
    assert (Pos : forall i, (i < n)%nat -> 0 < tri_area2 C (pt ps i) (pt ps (next_pos n i))).
    { intros i Hi. pose proof (mean_area s vs c (pt ps i) (pt ps (next_pos n i)) HM) as MA. fold n C in MA.
      assert (N0 : 0 < INR n) by (apply lt_0_INR; lia).
      assert (0 < sumR (fun v => tri_area2 (plane_project s v) (pt ps i) (pt ps (next_pos n i))) vs); [|apply (Rmult_lt_reg_l (INR n)); lra].
      destruct (convex_sees_strictly ps i HC ltac:(lia)) as (k & Hk & Hp). rewrite Ln in Hk, Hp.
      assert (PK : forall k, (k < n)%nat -> pt ps k = plane_project s (nth k vs vzero)) by (intros k' Hk'; unfold pt, ps; rewrite (nth_indep _ _ (plane_project s vzero)) by (rewrite map_length; exact Hk'); apply map_nth).
      apply (sumR_pos _ _ (nth k vs vzero)); [|apply nth_In; exact Hk|rewrite <- PK by exact Hk; exact Hp].
      intros v Hv. apply (In_nth _ _ vzero) in Hv as (k' & Hk' & <-). rewrite <- PK by exact Hk'. pose proof (convex_sees ps i k' HC ltac:(lia) ltac:(rewrite Ln; exact Hk')) as K. now rewrite Ln in K. }
    assert (FP : Forall (fun '(i, j, k) => i = n /\ (j < n)%nat /\ k = next_pos n j) (fan n)).
    { unfold fan. apply Forall_app. split.
      - apply Forall_forall. intros t Ht. apply in_map_iff in Ht as (i & <- & Hi). apply in_seq in Hi. split; [reflexivity|]. split; [lia|]. unfold next_pos. destruct (Nat.eqb_spec i (n - 1)); lia.
      - constructor; [|constructor]. split; [reflexivity|]. split; [lia|]. unfold next_pos. now rewrite Nat.eqb_refl. }
    assert (NP : forall j, (j < n)%nat -> (next_pos n j < n)%nat) by (intros j Hj; unfold next_pos; destruct (Nat.eqb_spec j (n - 1)); lia).
    assert (FS : forall w, antisym w -> sumw w (map (fun '(a, b, c) => [a; b; c]) (fan n)) = cyc w (seq 0 n)) by (intros w Hw; apply fan_sum; [exact Hw|exact Hn]).
    split; [|destruct (tiles_loop ps [C] (fan n)) as [TA TW]; [rewrite Ln; exact FS| |split; [exact TA|split; [exact FS|exact TW]]]].
    + eapply Forall_impl; [|exact FP]. intros [[i j] k] (-> & Hj & ->). rewrite app_length, Ln. cbn [length]. split; [lia|]. split; [lia|]. split; [specialize (NP j Hj); lia|].
      rewrite PC, !PV by auto. now apply Pos.
    + eapply Forall_impl; [|exact FP]. intros [[i j] k] (-> & Hj & ->). pose proof HC as (_ & HD & _). rewrite Ln in HD. unfold positive. split; [lia|]. split; [intros E; apply (HD j Hj); now rewrite <- E|]. split; [specialize (NP j Hj); lia|]. rewrite PC, !PV by auto. now apply Pos.
Qed.
Definition squareR (o : vec3 R) (a b : R) : list (vec3 R) := [o; V3 (x3 o + a) (y3 o) (z3 o); V3 (x3 o + a) (y3 o + b) (z3 o); V3 (x3 o) (y3 o + b) (z3 o)].
Definition xy_plane : Plane R := {| p_origin := V3 0 0 0; p_normal := V3 0 0 1; p_u_axis := V3 1 0 0; p_v_axis := V3 0 1 0 |}.
Definition edgesR (l : list (vec3 R)) : list (CurveSegment R) := map (fun '(a, b) => segR a b) (pairs (l ++ firstn 1 l)).
Example C45_convex_nonvacuous rnd : exists m c T, plane_trim xy_plane 1 rnd [edgesR (squareR (V3 0 0 0) 4 4)] = Ok m /\ m_vertices m = squareR (V3 0 0 0) 4 4 ++ [c] /\ m_triangles m = emit T /\ length T = 4%nat.
Proof.
  destruct (C45_convex xy_plane 1 rnd [edgesR (squareR (V3 0 0 0) 4 4)] (squareR (V3 0 0 0) 4 4)) as (m & c & T & H1 & H2 & _ & H3 & H4 & _).
  - exists [squareR (V3 0 0 0) 4 4]. split; [|reflexivity]. split; [reflexivity|]. intros k b p. destruct k as [|[|k]]; cbn [nth_error]; try discriminate. intros E1 E2. injection E1 as <-. injection E2 as <-.
    apply C53_straight_loop; [discriminate| |].
    + cbn [edgesR squareR app firstn pairs combine map x3 y3 z3]. repeat (constructor; [apply segR_straight|]). constructor.
    + cbn [edgesR squareR app firstn pairs combine map x3 y3 z3]. repeat (constructor; [unfold apart, distance_squared3, length_squared3, dot3; cbn; lra|]). constructor.
  - unfold squareR, xy_plane. cbn [map plane_project p_origin p_u_axis p_v_axis x3 y3 z3]. unfold plane_project, dot3. cbn [p_origin p_u_axis p_v_axis]. vsimp. rnum. unfold convex_loop. cbn [length]. split; [|split].
    + intros i k Hi Hk. destruct i as [|[|[|[|]]]]; try lia; (destruct k as [|[|[|[|]]]]; try lia); unfold pt, next_pos, tri_area2; cbn; lra.
    + intros i Hi. destruct i as [|[|[|[|]]]]; try lia; unfold pt, next_pos; cbn; intros E; injection E; intros; lra.
    + exists 0%nat. split; [lia|]. unfold corner_at. cbn [length seq Nat.add Nat.sub]. replace (3 mod 4)%nat with 3%nat by reflexivity. replace (1 mod 4)%nat with 1%nat by reflexivity.
      unfold pt, tri_area2. cbn [nth x2 y2]. vsimp. unfold TOL. lra.
  - reflexivity.
  - exists m, c, T. cbn [squareR length] in H4. auto.
Qed.

(** C45: a triangle that turns counter-clockwise in the coordinates of the plane has its normal on
    the side of [u_axis] x [v_axis]. *)
Theorem C45_facing (s : Plane R) a b c :
  tri_area2 (plane_project s a) (plane_project s b) (plane_project s c) = dot3 (cross3 (vsub b a) (vsub c a)) (cross3 (p_u_axis s) (p_v_axis s)).
Proof. destruct s as [[? ? ?] n [? ? ?] [? ? ?]], a, b, c. unfold plane_project, tri_area2, dot3, cross3. cbn [p_origin p_u_axis p_v_axis]. vsimp. rnum. ring. Qed.

(** C45: if no corner turns left by more than the tolerance nothing is returned.  This holds for a
    clockwise convex loop, and also for a small counter-clockwise one. *)
Theorem C45_vanishes (s : Plane R) fuel rnd bounds vs : proper_loops fuel rnd bounds [vs] -> let ps := map (plane_project s) vs in
  (forall i, (i < length ps)%nat -> corner_at ps (seq 0 (length ps)) i <= TOL) -> plane_trim s fuel rnd bounds = Ok mesh_new.
Proof.
  intros HL ps H. rewrite (plane_trim_single _ _ _ _ _ HL). unfold plane_trim_polygons. cbn [length Nat.eqb]. fold ps. rewrite C38_vertex_convexity. cbn [obind].
  rewrite (filter_ext_in (bent ps (seq 0 (length ps))) (right_turn ps (seq 0 (length ps)))); [now rewrite Nat.eqb_refl|].
  intros i Hi. apply in_seq in Hi. specialize (H i ltac:(lia)). pose proof TOL_pos. unfold bent, right_turn. set (t := corner_at _ _ _) in *.
  destruct (Rltb_spec t (- TOL)).
  - apply Rltb_true. rewrite Rabs_left by lra. lra.
  - apply Rltb_false. apply Rabs_le. lra.
Qed.
Definition plane_corners_bent (ps : list (vec2 R)) (l : list nat) : Prop := forall i, (i < length l)%nat -> TOL < Rabs (corner_at ps l i).
Lemma filter_bent ps l : plane_corners_bent ps l -> filter (bent ps l) (seq 0 (length l)) = seq 0 (length l).
Proof. intros H. apply filter_all. intros i Hi. apply in_seq in Hi. unfold bent. apply Rltb_true. apply H. lia. Qed.
Lemma poly_seq_all (ps : list (vec2 R)) : poly ps (seq 0 (length ps)) = ps.
Proof. apply (nth_ext _ _ (V2 0 0) (V2 0 0)); unfold poly; rewrite map_length, seq_length; [reflexivity|]. intros i Hi. rewrite (nth_indep _ _ (pt ps 0)) by now rewrite map_length, seq_length. rewrite map_nth, seq_nth by exact Hi. reflexivity. Qed.
(** C45: a single loop with turns to both sides, no three of whose vertices are nearly on a line. *)
Theorem C45_nonconvex (s : Plane R) fuel rnd bounds vs : proper_loops fuel rnd bounds [vs] -> let ps := map (plane_project s) vs in let n := length vs in
  (forall a b c, (a < n)%nat -> (b < n)%nat -> (c < n)%nat -> a <> b -> b <> c -> a <> c -> TOL < Rabs (tri_area2 (pt ps a) (pt ps b) (pt ps c))) -> (3 <= n)%nat ->
  (exists i, (i < n)%nat /\ 0 < corner_at ps (seq 0 n) i) -> (exists i, (i < n)%nat /\ corner_at ps (seq 0 n) i < 0) ->
  exists T rest conc, plane_trim s fuel rnd bounds = Ok (mkTM vs [] (emit T)) /\ Forall (fun '(a, b, c) => cyc_triple (seq 0 n) a b c) T /\
    sublist rest (seq 0 n) /\ n = (length T + length rest)%nat /\
    area2 ps = total_area2 ps T + area2 (poly ps rest) /\
    (forall q, off_all_lines ps T q -> winding ps q = signed_cover ps T q + winding (poly ps rest) q) /\
    (length rest = 2%nat /\ area2 (poly ps rest) = 0 /\ (forall q, off_all_lines ps T q -> winding (poly ps rest) q = 0) \/
     stuck ps (mkEar (emit T) rest conc)).
Proof.
  intros HL ps n HG Hn HP HN. assert (Ln : length ps = n) by apply map_length. pose proof TOL_pos as TP.
  assert (HB : plane_corners_bent ps (seq 0 n)).
  { intros i Hi. rewrite seq_length in Hi. unfold corner_at. rewrite seq_length. assert (M : forall k, (k mod n < n)%nat) by (intros; apply Nat.mod_upper_bound; lia). rewrite !seq_nth by auto. cbn [Nat.add].
    assert (E1 : i = 0%nat /\ ((i + n - 1) mod n = n - 1)%nat \/ (0 < i)%nat /\ ((i + n - 1) mod n = i - 1)%nat).
    { destruct i; [left; split; [reflexivity|apply Nat.mod_small; lia]|right; split; [lia|]]. replace (S i + n - 1)%nat with (i + 1 * n)%nat by lia. rewrite Nat.mod_add by lia. rewrite Nat.mod_small; lia. }
    assert (E2 : i = (n - 1)%nat /\ ((i + 1) mod n = 0)%nat \/ (i < n - 1)%nat /\ ((i + 1) mod n = i + 1)%nat).
    { destruct (Nat.eq_dec i (n - 1)) as [->|]; [left; split; [reflexivity|]; replace (n - 1 + 1)%nat with n by lia; apply Nat.mod_same; lia|right; split; [lia|apply Nat.mod_small; lia]]. }
    apply HG; auto; lia. }
  rewrite (plane_trim_single _ _ _ _ _ HL). unfold plane_trim_polygons. cbn [length Nat.eqb]. fold ps. rewrite C38_vertex_convexity, Ln. cbn [obind].
  pose proof (filter_bent _ _ HB) as FB. rewrite seq_length in FB. rewrite FB. set (conc0 := filter (right_turn ps (seq 0 n)) (seq 0 n)).
  assert (BN : forall i, (i < n)%nat -> TOL < Rabs (corner_at ps (seq 0 n) i)) by (intros i Hi; apply HB; now rewrite seq_length).
  assert (C1 : (length (seq 0 n) =? length conc0)%nat = false).
  { apply Nat.eqb_neq. intros E. destruct HP as (i & Hi & Hp). rewrite seq_length in E.
    assert (I : In i conc0).
    { assert (P : incl (seq 0 n) conc0); [|apply P, in_seq; lia]. apply NoDup_length_incl; [apply NoDup_filter, seq_NoDup|rewrite seq_length; lia|unfold conc0; intros x Hx; now apply filter_In in Hx]. }
    apply filter_In in I as [_ I]. unfold right_turn in I. destruct (Rltb_spec (corner_at ps (seq 0 n) i) (- TOL)); [lra|discriminate]. }
  assert (C2 : (length conc0 =? 0)%nat = false).
  { apply Nat.eqb_neq. intros E. destruct HN as (i & Hi & Hp). apply length_zero_iff_nil in E. assert (I : In i conc0); [|rewrite E in I; destruct I].
    apply filter_In. split; [apply in_seq; lia|]. unfold right_turn. apply Rltb_true. specialize (BN i Hi). rewrite Rabs_left in BN by lra. lra. }
  rewrite C1, C2.
  destruct (C40_general_position ps (seq 0 n) conc0) as (T & ET & FT & rest & conc' & L1 & L2 & L3 & _ & L5 & L6 & L7).
  - rewrite seq_length. lia.
  - right. split; [apply seq_NoDup|]. intros a b c Ha Hb Hc N1 N2 N3 _ Fl. apply flat3_area in Fl. apply in_seq in Ha, Hb, Hc. specialize (HG a b c ltac:(lia) ltac:(lia) ltac:(lia) N1 N2 N3). lra.
  - right. split; intros x Hx; [apply in_seq in Hx; lia|]. apply filter_In in Hx as [Hx _]. apply in_seq in Hx. lia.
  - rewrite ET. cbn [obind]. exists T, rest, conc'. rewrite <- Ln in L5, L7 |- *. rewrite (poly_seq_all ps) in L5, L7.
    split; [reflexivity|]. split; [rewrite Ln; exact FT|]. split; [rewrite Ln; exact L3|]. split; [rewrite seq_length in L1; lia|]. split; [exact L5|].
    split; [intros q Hq; apply L7; exact Hq|]. destruct L2 as [L2|L2]; [left|right; exact L2]. split; [exact L2|]. split; [auto|]. intros q Hq. now apply L7.
Qed.
Lemma F2_length {A B} (P : A -> B -> Prop) la lb : Forall2 P la lb -> length la = length lb.
Proof. induction 1; cbn; congruence. Qed.
Lemma sumR_Forall2 {A B} (P : A -> B -> Prop) (f : A -> R) (g : B -> R) la lb : Forall2 P la lb -> (forall a b, P a b -> f a = g b) -> sumR f la = sumR g lb.
Proof. intros H E. induction H as [|a b la lb H _ IH]; [reflexivity|]. unfold sumR in *. cbn [map fold_right]. now rewrite IH, (E a b H). Qed.
Lemma occupies_ranges {A} (l : list A) rs pl : Forall2 (occupies l) rs pl -> Forall (fun r : nat * nat => (fst r < snd r <= length l)%nat) rs.
Proof. induction 1 as [|r p rs pl H _ IH]; [constructor|]. constructor; [apply H|exact IH]. Qed.
Lemma occupies_nth {A} (l : list A) r p d i : occupies l r p -> (i < length p)%nat -> nth i p d = nth (fst r + i) l d.
Proof. destruct r as [s e]. unfold occupies. cbn [fst snd]. intros [H <-] Hi. rewrite firstn_length, skipn_length in Hi. rewrite nth_firstn by lia. now rewrite nth_skipn. Qed.
Lemma occupies_length {A} (l : list A) r p : occupies l r p -> length p = (snd r - fst r)%nat.
Proof. destruct r as [s e]. unfold occupies. cbn [fst snd]. intros [H <-]. rewrite firstn_length, skipn_length. lia. Qed.
Lemma occupies_loop (s : Plane R) vs r p : occupies vs r p -> loop_points (map (plane_project s) vs) r = map (plane_project s) p.
Proof.
  intros H. pose proof (occupies_length _ _ _ H) as L. pose proof (proj1 H) as H1.
  unfold loop_points, poly. apply (nth_ext _ _ (V2 0 0) (V2 0 0)); rewrite !map_length, seq_length; [congruence|]. intros i Hi.
  rewrite (nth_indep _ _ (pt (map (plane_project s) vs) 0)) by now rewrite map_length, seq_length. rewrite map_nth, seq_nth by exact Hi.
  unfold pt. rewrite (nth_indep _ _ (plane_project s vzero)) by (rewrite map_length; lia). rewrite map_nth, (nth_indep (map (plane_project s) p) _ (plane_project s vzero)) by (rewrite map_length; lia). rewrite map_nth.
  f_equal. symmetry. apply occupies_nth; [exact H|lia].
Qed.
(** C45: two or more loops.  All vertices are kept and no other is made; the loops become one closed
    sequence of vertices, which visits every vertex once and, per joined loop, two vertices again,
    has the total signed area of the loops and winds as the loops do.  The triangles are cut from
    it; when none of its corners is straight their areas add up to the total, but for what is
    lost at corners that become straight and for what is left over. *)
Theorem C45_holes (s : Plane R) fuel rnd bounds loops m : proper_loops fuel rnd bounds loops -> (2 <= length loops)%nat ->
  let vs := concat loops in let ps := map (plane_project s) vs in (forall p, In p ps -> fminval < x2 p) ->
  plane_trim s fuel rnd bounds = Ok m ->
  m_vertices m = vs /\ m_normals m = [] /\ exists merged again T lost rest, m_triangles m = emit T /\
    Permutation merged (seq 0 (length vs) ++ again) /\ length again = (2 * (length loops - 1))%nat /\
    area2 (poly ps merged) = sumR (fun l => area2 (map (plane_project s) l)) loops /\
    (forall q, winding (poly ps merged) q = sumR (fun l => winding (map (plane_project s) l) q) loops) /\
    Forall (small_loss ps) lost /\ sublist rest merged /\ Forall (fun '(a, b, c) => In a merged /\ In b merged /\ In c merged) T /\
    (plane_corners_bent ps merged ->
      length merged = (length T + extra lost + length rest)%nat /\
      sumR (fun l => area2 (map (plane_project s) l)) loops = total_area2 ps T + fold_right Rplus 0 (map (fun d => area2 (poly ps d)) lost) + area2 (poly ps rest)).
Proof.
  intros HL H2 vs ps Hx. assert (Ln : length ps = length vs) by apply map_length. unfold plane_trim. rewrite (collect_proper _ _ _ _ HL). cbn [obind]. fold vs.
  pose proof (ends_delimit [] loops) as HO. cbn [length app] in HO. fold vs in HO.
  assert (EF : filter nonempty loops = loops) by (apply filter_all; intros p; exact (proper_nonempty _ _ _ _ p HL)). rewrite EF in HO.
  set (offs := 0%nat :: ends_from 0 loops) in *. assert (Lo : length offs = S (length loops)) by (unfold offs; cbn [length]; now rewrite ends_length, EF).
  unfold plane_trim_polygons. rewrite Lo. replace (S (length loops) =? 2)%nat with false by (symmetry; apply Nat.eqb_neq; lia). replace (2 <? S (length loops))%nat with true by (symmetry; apply Nat.ltb_lt; lia). fold ps.
  assert (LO : loops_ok ps offs).
  { split; [intros E; rewrite E in HO; apply F2_length in HO; cbn in HO; lia|].
    assert (G : Forall (fun r : nat * nat => (fst r < snd r <= length vs)%nat) (pairs offs)) by (eapply occupies_ranges; exact HO).
    eapply Forall_impl; [|exact G]. intros [a b] Hab. cbn [fst snd] in Hab. rewrite Ln. split; [exact Hab|].
    destruct (nth_error ps a) as [p|] eqn:Ea; [|apply nth_error_None in Ea; lia]. exists p. split; [reflexivity|]. apply Rltb_true. apply Hx. eapply nth_error_In. exact Ea. }
  destruct (C41_merge ps offs LO) as (so & eo & hs & result & EM & PH & _ & _ & (br & Lb & PB) & A & W). rewrite EM. cbn [obind].
  assert (FS : flat_map (fun '(a, b) => seq a (b - a)) (pairs offs) = seq 0 (length vs)).
  { clear -EF. subst offs vs. enough (G : forall (ls : list (list (vec3 R))) st, filter nonempty ls = ls -> flat_map (fun '(a, b) => seq a (b - a)) (pairs (st :: ends_from st ls)) = seq st (length (concat ls))) by (apply G; exact EF).
    induction ls as [|p ls IH]; intros st E; [reflexivity|]. cbn [filter] in E. destruct (nonempty p) eqn:Ep.
    - injection E as E. cbn [ends_from]. rewrite Ep, pairs_cons. cbn [flat_map concat]. rewrite IH by exact E. rewrite app_length, seq_app. do 2 f_equal. lia.
    - exfalso. assert (X := f_equal (@length _) E). cbn [length] in X. pose proof (filter_length_le nonempty ls). lia. }
  rewrite FS in PB.
  intros E. bindas E vc Ev. destruct vc as [v c]. destruct (find_concave_valid _ _ _ _ Ev) as [VR SV].
  destruct (C38_find_concave ps result VR) as (conc & EC & _). rewrite Ev in EC. apply Ok_inj in EC. injection EC as EV _.
  bindas E out Eo. apply Ok_inj in E. subst m. cbn [m_vertices m_normals m_triangles]. split; [reflexivity|]. split; [reflexivity|].
  destruct (C40_area_balance _ _ _ _ Eo) as (T & lost & rest & -> & HS & HR & HL' & HA & HT).
  exists result, (flat_map (fun '(o, m) => [o; m]) br), T, lost, rest.
  assert (SA : sumR (fun l => area2 (loop_points ps l)) (pairs offs) = sumR (fun l => area2 (map (plane_project s) l)) loops) by (eapply sumR_Forall2; [exact HO|]; intros r p H; cbv beta; unfold ps; now rewrite (occupies_loop s vs r p H)).
  split; [reflexivity|]. split; [exact PB|]. split.
  { assert (Lh : length loops = S (length hs)) by (apply Permutation_length in PH; cbn [length] in PH; apply F2_length in HO; congruence). rewrite Lh, <- Lb. cbn [Nat.sub]. rewrite Nat.sub_0_r. clear. induction br as [|[a b] br IH]; [reflexivity|]. cbn [flat_map app length]. rewrite IH. lia. }
  split; [now rewrite A, SA|]. split; [intros q; rewrite W; eapply sumR_Forall2; [exact HO|]; intros r p H; cbv beta; unfold ps; now rewrite (occupies_loop s vs r p H)|].
  split; [exact HS|]. split; [eapply sublist_trans; eassumption|]. split.
  { eapply Forall_impl; [|exact HT]. intros [[a b] d] (I1 & I2 & I3). repeat split; eapply sublist_In; eassumption. }
  intros HB. assert (Ev' : v = result).
  { rewrite EV, (filter_bent _ _ HB). apply (nth_ext _ _ 0%nat 0%nat); [now rewrite map_length, seq_length|]. intros i Hi. rewrite map_length, seq_length in Hi. rewrite (nth_indep _ _ (nth 0 result 0%nat)) by now rewrite map_length, seq_length. rewrite (map_nth (fun i => nth i result 0%nat)), seq_nth by exact Hi. reflexivity. }
  subst v. rewrite Ev' in *. split; [exact HL'|]. now rewrite <- SA, <- A.
Qed.

(** Concrete faces of the xy plane in binary64. *)
Definition xy64 : Plane f64 := {| p_origin := v64 0 0 0; p_normal := v64 0 0 1; p_u_axis := v64 1 0 0; p_v_axis := v64 0 1 0 |}.
Definition edges64 (l : list (Z * Z)) : list (CurveSegment f64) :=
  let p (c : Z * Z) := v64 (fst c) (snd c) 0 in map (fun '(a, b) => seg64 (p a) (p b)) (pairs (l ++ firstn 1 l)).
Definition trim64 (ls : list (list (Z * Z))) := m <- plane_trim (NF := F64Num) xy64 5 (fun _ _ _ => f0) (map edges64 ls) ;; Ok (length (m_vertices m), m_triangles m).
(** a square; an L shape; a square with a triangular hole *)
Example C45_nonvacuous :
  trim64 [[(0, 0); (4, 0); (4, 4); (0, 4)]]%Z = Ok (5%nat, [4; 0; 1; 4; 1; 2; 4; 2; 3; 4; 3; 0]%N) /\
  trim64 [[(0, 0); (4, 0); (4, 1); (1, 1); (1, 4); (0, 4)]]%Z = Ok (6%nat, [0; 1; 2; 3; 4; 5; 0; 2; 3; 3; 5; 0]%N) /\
  trim64 [[(0, 0); (9, 0); (9, 9); (0, 9)]; [(3, 4); (4, 7); (7, 5)]]%Z = Ok (7%nat, [0; 1; 6; 5; 6; 1; 0; 6; 4; 5; 1; 2; 3; 0; 4; 5; 2; 3; 4; 5; 3]%N).
Proof. repeat split; vm_compute; reflexivity. Qed.
(** A clockwise loop is not turned around: a clockwise convex face vanishes and a clockwise L shape
    becomes the one triangle that spans its notch and is not part of it at all. *)
Theorem C45_clockwise_refuted :
  trim64 [[(0, 4); (4, 4); (4, 0); (0, 0)]]%Z = Ok (0%nat, []) /\
  trim64 [[(0, 4); (1, 4); (1, 1); (4, 1); (4, 0); (0, 0)]]%Z = Ok (6%nat, [1; 2; 3]%N).
Proof. split; vm_compute; reflexivity. Qed.
(** A face of several loops all of whose points have a finite projection meets the other
    hypothesis of [C45_holes]. *)
Example C45_holes_nonvacuous rnd : proper_loops 1 rnd [edgesR (squareR (V3 0 0 0) 4 4); edgesR (squareR (V3 1 1 0) 2 1)] [squareR (V3 0 0 0) 4 4; squareR (V3 1 1 0) 2 1] /\
  forall p, In p (map (plane_project xy_plane) (concat [squareR (V3 0 0 0) 4 4; squareR (V3 1 1 0) 2 1])) -> fminval < x2 p.
Proof.
  split.
  - exists [squareR (V3 0 0 0) 4 4; squareR (V3 1 1 0) 2 1]. split; [|reflexivity]. split; [reflexivity|]. intros k b p. destruct k as [|[|[|k]]]; cbn [nth_error]; try discriminate; intros E1 E2; injection E1 as <-; injection E2 as <-.
    all: apply C53_straight_loop; [discriminate| |]; cbn [edgesR squareR app firstn pairs combine map x3 y3 z3].
    1, 3: repeat (constructor; [apply segR_straight|]); constructor.
    all: repeat (constructor; [unfold apart, distance_squared3, length_squared3, dot3; cbn; lra|]); constructor.
  - assert (M : fminval < - 1000) by (change (- RMAX < - 1000); apply Ropp_lt_contravar; unfold RMAX; apply (IZR_lt 1000); reflexivity).
    cbn [concat app map squareR x3 y3 z3]. unfold plane_project, dot3. cbn [p_origin p_u_axis p_v_axis xy_plane x3 y3 z3]. revert M. generalize (@fminval R RNum). intros mv M p H. cbn in H. repeat (destruct H as [<-|H]; [cbn; lra|]). destruct H.
Qed.
(** A small counter-clockwise triangle (sides of about 0.00033) vanishes too. *)
Definition small_triangle : list (vec3 R) := [V3 0 0 0; V3 (8 / 24500) 0 0; V3 (4 / 24500) (7 / 24500) 0].
Theorem C45_small_refuted rnd : plane_trim xy_plane 1 rnd [edgesR small_triangle] = Ok mesh_new /\ 0 < area2 (map (plane_project xy_plane) small_triangle).
Proof.
  split.
  - apply (C45_vanishes _ _ _ _ small_triangle).
    + exists [small_triangle]. split; [|reflexivity]. split; [reflexivity|]. intros k b p. destruct k as [|[|k]]; cbn [nth_error]; try discriminate. intros E1 E2. injection E1 as <-. injection E2 as <-.
      apply C53_straight_loop; [discriminate| |].
      * cbn [edgesR small_triangle app firstn pairs combine map x3 y3 z3]. repeat (constructor; [apply segR_straight|]). constructor.
      * cbn [edgesR small_triangle app firstn pairs combine map x3 y3 z3]. repeat (constructor; [unfold apart, distance_squared3, length_squared3, dot3; cbn; lra|]). constructor.
    + unfold small_triangle, xy_plane. cbn [map]. unfold plane_project, dot3. cbn [p_origin p_u_axis p_v_axis]. vsimp. rnum. cbn [length]. intros i Hi.
      destruct i as [|[|[|]]]; try lia; unfold corner_at, pt, tri_area2, TOL; cbn; lra.
  - unfold small_triangle, xy_plane. cbn [map]. unfold plane_project, dot3. cbn [p_origin p_u_axis p_v_axis]. vsimp. rnum. unfold area2. cbn. unfold cross2. cbn. lra.
Qed.
