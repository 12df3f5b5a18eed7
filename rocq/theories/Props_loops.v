(** C53, C54: polygons of edge loops; boxed curves and surfaces. *)
From Coq Require Import Reals Lra Psatz Lia Arith ZArith Floats.SpecFloat.
From Verif Require Import Prelude Num M_vec M_utils M_curve M_polygon M_meshgen M_surface L_base L_vec L_geom L_polygon L_f64 Props_bspline Props_utils Props_polygon Props_gridmesh.
Open Scope nat_scope.

(** ** Specification: order preserving selections *)
Inductive subseq {A} : list A -> list A -> Prop :=
| sub_nil : subseq [] []
| sub_keep x l m : subseq l m -> subseq (x :: l) (x :: m)
| sub_skip x l m : subseq l m -> subseq l (x :: m).

Lemma subseq_refl {A} (l : list A) : subseq l l.
Proof. induction l; constructor; auto. Qed.
Lemma subseq_nil {A} (l : list A) : subseq [] l.
Proof. induction l; constructor; auto. Qed.
Lemma subseq_trans {A} (l m n : list A) : subseq l m -> subseq m n -> subseq l n.
Proof.
  intros H1 H2. revert l H1. induction H2 as [|x m n H2 IH|x m n H2 IH]; intros l H1; auto.
  - inversion H1; subst; constructor; auto.
  - constructor. auto.
Qed.
Lemma subseq_app_l {A} (l m : list A) : subseq l (l ++ m).
Proof. induction l; [apply subseq_nil|]. cbn. now constructor. Qed.

(** consecutive elements are never [same]; the argument order is (later, earlier) *)
Definition consecutive_distinct {A} (same : A -> A -> bool) (l : list A) :=
  forall i a b, nth_error l i = Some a -> nth_error l (S i) = Some b -> same b a = false.

Section Dedup.
Context {A : Type} (same : A -> A -> bool).
Lemma dedup_from_subseq : forall l k, subseq (dedup_by_from same k l) l.
Proof. induction l as [|a l IH]; intros k; cbn; [constructor|]. destruct (same a k); constructor; apply IH. Qed.
Lemma dedup_from_distinct : forall l k, consecutive_distinct same (k :: dedup_by_from same k l).
Proof.
  induction l as [|a l IH]; intros k i x y Hx Hy; cbn in Hy.
  - destruct i as [|[|i]]; discriminate.
  - cbn [dedup_by_from] in Hx. destruct (same a k) eqn:E; [eapply (IH k i); [exact Hx|exact Hy]|].
    destruct i as [|i]; [cbn in Hx, Hy; congruence|]. cbn [nth_error] in Hx. eapply (IH a i); [exact Hx|exact Hy].
Qed.
(** every dropped element is [same] as a kept element *)
Lemma dedup_from_covers : forall l k p, In p l -> In p (dedup_by_from same k l) \/ exists q, In q (k :: dedup_by_from same k l) /\ same p q = true.
Proof.
  induction l as [|a l IH]; intros k p [].
  - subst a. cbn [dedup_by_from]. destruct (same p k) eqn:E; [right; exists k; split; [now left|exact E]|left; now left].
  - cbn [dedup_by_from]. destruct (same a k) eqn:E.
    + apply IH. exact H.
    + destruct (IH a p H) as [H1|(q & Hq & Hs)]; [left; now right|]. right. exists q. split; [now right|exact Hs].
Qed.
Lemma dedup_from_all : forall l k, (forall p, In p l -> same p k = true) -> dedup_by_from same k l = [].
Proof. induction l as [|a l IH]; intros k H; cbn; [reflexivity|]. rewrite (H a) by now left. apply IH. intros p Hp. apply H. now right. Qed.
End Dedup.

Lemma removelast_app1 {A} (l : list A) x : removelast (l ++ [x]) = l.
Proof. rewrite removelast_app by discriminate. cbn. apply app_nil_r. Qed.
Lemma consecutive_prefix {A} same (l m : list A) : consecutive_distinct same (l ++ m) -> consecutive_distinct same l.
Proof.
  intros H i a b Ha Hb. apply (H i a b).
  - rewrite nth_error_app1; [exact Ha|]. apply nth_error_Some. now rewrite Ha.
  - rewrite nth_error_app1; [exact Hb|]. apply nth_error_Some. now rewrite Hb.
Qed.

(** ** C53 *)
(** The samples of a loop: those of its edges, one after the other. *)
Definition loop_samples {F} {NF : Num F} (fuel : nat) (rnd : nat -> list bool -> F) (edges : list (CurveSegment F)) (samples : list (vec3 F)) :=
  exists parts, Forall2 (fun '(k, e) pts => segment_get_points fuel (rnd k) e = Ok pts) (combine (seq 0 (length edges)) edges) parts /\ samples = concat parts.

Lemma Forall2_weaken {A B} (P Q : A -> B -> Prop) l m : (forall a b, P a b -> Q a b) -> Forall2 P l m -> Forall2 Q l m.
Proof. intros H. induction 1; constructor; auto. Qed.
Section Polygon.
Context {F : Type} {NF : Num F}.

Lemma enumerate_combine {A} (l : list A) : enumerate l = combine (seq 0 (length l)) l.
Proof. reflexivity. Qed.

Lemma to_polygon_samples fuel rnd edges poly : to_polygon fuel rnd edges = Ok poly -> exists s, loop_samples fuel rnd edges s /\
  exists first rest, s = first :: rest /\
  let kept := first :: dedup_by_from near_points first rest in
  exists last front, kept = front ++ [last] /\ poly = if near_points first last then front else kept.
Proof.
  intros E. unfold to_polygon in E. obind_inv E. rewrite enumerate_combine in E0. apply mapM_inv in E0.
  exists (concat a). split.
  { exists a. split; [|reflexivity]. eapply Forall2_weaken; [|exact E0]. intros [k e] b H. exact H. }
  obind_inv E. obind_inv E. obind_inv E. destruct (concat a) as [|first rest] eqn:Ec; [discriminate|]. exists first, rest. split; [reflexivity|]. cbv zeta.
  cbn [dedup_by] in *. set (kept := first :: dedup_by_from _ first rest) in *.
  change (dedup_by_from (fun a b => near_points a b)) with (dedup_by_from (@near_points F NF)) in kept. fold kept.
  destruct (exists_last (l := kept) ltac:(discriminate)) as (front & last & Ek). exists last, front. split; [exact Ek|].
  apply Ok_inj in E. subst poly. apply idx_Ok in E1, E3. cbn in E1.
  assert (E2' : a1 = length front). { unfold usub in E2. rewrite Ek, app_length in E2. cbn [length] in E2. destruct (_ <=? _) in E2; [|discriminate]. apply Ok_inj in E2. lia. }
  subst a1. rewrite Ek, nth_error_app2, Nat.sub_diag in E3 by lia. cbn in E3. injection E3 as <-.
  assert (first = a0) as <- by congruence. destruct (near_points first last); [rewrite Ek; apply removelast_app1|reflexivity].
Qed.

(** The polygon is the samples with every sample dropped that is within tolerance of the
    last one kept, and the last one kept dropped if it is within tolerance of the first. *)
Theorem C53_selection fuel rnd edges poly : to_polygon fuel rnd edges = Ok poly ->
  exists samples, loop_samples fuel rnd edges samples /\ samples <> [] /\ subseq poly samples /\
    (poly <> [] -> hd_error poly = hd_error samples) /\
    consecutive_distinct near_points poly.
Proof.
  intros E. apply to_polygon_samples in E as (s & Hs & first & rest & -> & last & front & Ek & ->). exists (first :: rest).
  pose proof (dedup_from_distinct near_points rest first) as D. pose proof (dedup_from_subseq near_points rest first) as S.
  split; [exact Hs|]. split; [discriminate|]. destruct (near_points first last).
  - assert (S' : subseq (front ++ [last]) (first :: rest)) by (rewrite <- Ek; now constructor).
    split; [eapply subseq_trans; [apply subseq_app_l|exact S']|]. split.
    + destruct front as [|f front]; [congruence|]. injection Ek as <- _. reflexivity.
    + rewrite Ek in D. eapply consecutive_prefix, D.
  - split; [now constructor|]. split; [reflexivity|exact D].
Qed.

(** No sample is lost: it is a vertex, or within tolerance of a vertex, or of the vertex that
    was removed because it closes up with the first sample. *)
Theorem C53_covers fuel rnd edges poly : to_polygon fuel rnd edges = Ok poly ->
  exists samples first dropped, loop_samples fuel rnd edges samples /\ hd_error samples = Some first /\
    (dropped = [] \/ exists l, dropped = [l] /\ In l samples /\ near_points first l = true) /\
    forall p, In p samples -> In p (poly ++ dropped) \/ exists v, In v (poly ++ dropped) /\ near_points p v = true.
Proof.
  intros E. apply to_polygon_samples in E as (s & Hs & first & rest & -> & last & front & Ek & ->). exists (first :: rest), first.
  pose proof (dedup_from_covers near_points rest first) as C. pose proof (dedup_from_subseq near_points rest first) as S.
  assert (C' : forall p, In p (first :: rest) -> In p (front ++ [last]) \/ exists v, In v (front ++ [last]) /\ near_points p v = true).
  { rewrite <- Ek. intros p [->|Hp]; [left; now left|]. destruct (C p Hp) as [H|(q & Hq & Hn)]; [left; now right|right; eauto]. }
  assert (Hl : In last (first :: rest)).
  { assert (S' : subseq (front ++ [last]) (first :: rest)) by (rewrite <- Ek; now constructor).
    assert (Hin : In last (front ++ [last])) by (apply in_app_iff; right; now left).
    clear - S' Hin. induction S'; [exact Hin|destruct Hin; [now left|right; auto]|right; auto]. }
  destruct (near_points first last) eqn:En.
  - exists [last]. split; [exact Hs|]. split; [reflexivity|]. split; [right; eauto|exact C'].
  - exists []. split; [exact Hs|]. split; [reflexivity|]. split; [now left|]. rewrite app_nil_r, Ek. exact C'.
Qed.

(** A loop without edges panics (vertices[0] of an empty list); a loop whose edges can all be
    sampled does not. *)
Theorem C53_empty_panics fuel rnd : to_polygon fuel rnd [] = Panic.
Proof. reflexivity. Qed.
Theorem C53_total fuel rnd edges : edges <> [] ->
  (forall k e, nth_error edges k = Some e -> exists pts, segment_get_points fuel (rnd k) e = Ok pts) ->
  exists poly, to_polygon fuel rnd edges = Ok poly.
Proof.
  intros Hne H. unfold to_polygon.
  assert (M : exists parts, mapM (fun '(k, e) => segment_get_points fuel (rnd k) e) (enumerate edges) = Ok parts).
  { apply mapM_total. intros [k e] Hin. apply H. unfold enumerate in Hin. apply In_nth_error in Hin as (i & Hi).
    assert (Hi' : nth_error (seq 0 (length edges)) i = Some k /\ nth_error edges i = Some e).
    { clear - Hi. revert i Hi. generalize (seq 0 (length edges)). induction edges as [|x l IH]; intros q i Hi; destruct q as [|y q]; cbn in Hi; try (destruct i; discriminate).
      destruct i; [cbn in *; now injection Hi as -> ->|apply (IH q i Hi)]. }
    destruct Hi' as [H1 H2]. apply nth_error_nth with (d := 0) in H1 as H1'. rewrite seq_nth in H1' by (apply nth_error_Some; congruence). cbn in H1'. now subst k. }
  destruct M as [parts M]. rewrite M. cbn [obind]. apply mapM_inv in M.
  destruct edges as [|e edges]; [congruence|]. unfold enumerate in M. cbn [length seq combine] in M. inversion M as [|? ? pts ? Hp HF]; subst.
  apply C55_segment_points in Hp as (p & q & mid & -> & _). cbn [concat app dedup_by]. set (v := p :: dedup_by_from _ _ _).
  assert (Hv : 0 < length v) by (cbn; lia). cbn [idx nth_error obind]. unfold usub. rewrite (proj2 (Nat.leb_le 1 (length v))) by lia. cbn [obind].
  destruct (idx_nth_list v (length v - 1) p ltac:(lia)) as (x & Ex & _). unfold v in *. rewrite Ex. cbn [obind]. eexists. reflexivity.
Qed.

(** A loop that never leaves the neighbourhood of its first sample becomes the empty polygon. *)
Theorem C53_degenerate fuel rnd edges samples first rest : loop_samples fuel rnd edges samples -> samples = first :: rest ->
  near_points first first = true -> (forall p, In p rest -> near_points p first = true) -> to_polygon fuel rnd edges = Ok [].
Proof.
  intros (parts & HF & ->) Ec Hr H. unfold to_polygon, enumerate.
  rewrite (proj2 (mapM_inv _ _ parts)) by (eapply Forall2_weaken; [|exact HF]; intros [k e] b Hb; exact Hb). cbn [obind].
  rewrite Ec. cbn [dedup_by]. rewrite (dedup_from_all (fun a b => near_points a b) rest first H). cbn [idx nth_error obind length usub Nat.leb Nat.sub]. rewrite Hr. reflexivity.
Qed.
End Polygon.

(** In exact arithmetic: consecutive vertices are more than sqrt(1e-7) apart. *)
Lemma near_points_R (a b : vec3 R) : near_points a b = true <-> (distance_squared3 a b <= / 10000000)%R.
Proof.
  unfold near_points, near, abs_diff_eq, ftol. rnum. rewrite Rminus_0_r, Rabs_right; [|destruct a as [a1 a2 a3], b as [b1 b2 b3]; unfold distance_squared3, length_squared3, dot3; cbn; rnum; apply Rle_ge; pose proof (Rle_0_sqr (a1 - b1)%R); pose proof (Rle_0_sqr (a2 - b2)%R); pose proof (Rle_0_sqr (a3 - b3)%R); unfold Rsqr in *; lra].
  unfold Rdiv. rewrite Rmult_1_l. apply Rleb_true.
Qed.
Theorem C53_spacing fuel rnd edges (poly : list (vec3 R)) : to_polygon fuel rnd edges = Ok poly ->
  forall i a b, nth_error poly i = Some a -> nth_error poly (S i) = Some b -> (/ 10000000 < distance_squared3 b a)%R.
Proof.
  intros E i a b Ha Hb. destruct (C53_selection _ _ _ _ E) as (s & _ & _ & _ & _ & D). specialize (D i a b Ha Hb).
  destruct (Rle_or_lt (distance_squared3 b a) (/ 10000000)) as [H|H]; [|exact H]. apply near_points_R in H. congruence.
Qed.

(** The closing pair (last, first) may still be within tolerance: only one vertex is removed. *)
Definition seg64 (a b : vec3 f64) : CurveSegment f64 :=
  {| s_curve := bezier3_curve (NF := F64Num) [a; b]; s_range := (f0, f1); s_tolerance := f64_of_Z 1; s_division := 1 |}.
Definition loop64 : list (CurveSegment f64) :=
  let a := flit 2 10000 in
  let o := v64 0 0 0 in let p := v64 10 0 0 in let q := V3 a f0 f0 in let r := V3 (fneg a) f0 f0 in
  [seg64 o p; seg64 p q; seg64 q r; seg64 r o].
Theorem C53_closing_distinct_refuted : exists poly first last, to_polygon (NF := F64Num) 5 (fun _ _ => f0) loop64 = Ok poly /\
  length poly = 3 /\ hd_error poly = Some first /\ nth_error poly 2 = Some last /\ near_points first last = true.
Proof. eexists _, _, _. split; [vm_compute; reflexivity|]. repeat split; vm_compute; reflexivity. Qed.
Example C53_nonvacuous :
  to_polygon (NF := F64Num) 5 (fun _ _ => f0) [seg64 (v64 0 0 0) (v64 10 0 0); seg64 (v64 10 0 0) (v64 10 10 0); seg64 (v64 10 10 0) (v64 0 0 0)]
  = Ok [v64 0 0 0; v64 10 0 0; v64 10 10 0] /\
  to_polygon (NF := F64Num) 5 (fun _ _ => f0) [seg64 (v64 1 2 3) (v64 1 2 3)] = Ok [].
Proof. split; vm_compute; reflexivity. Qed.

(** Loops of straight edges: the polygon is the list of corners, whatever the random numbers. *)
Section Straight.
Open Scope R_scope.
Definition straight (seg : CurveSegment R) (a b : vec3 R) : Prop :=
  0 < s_tolerance seg /\ forall u, c_get_point (s_curve seg) (range_at (s_range seg) u) = Ok (vadd a (vmulr (vsub b a) u)).
Lemma straight_points fuel rnd seg a b : straight seg a b -> segment_get_points (S fuel) rnd seg = Ok [a; b].
Proof.
  intros [Ht H]. destruct seg as [c [t0 t1] tol dv]. cbn [s_tolerance s_curve s_range] in *. unfold segment_get_points. cbn [s_tolerance s_curve s_range parameter_division fst snd].
  assert (H0 : c_get_point c t0 = Ok a). { specialize (H 0). unfold range_at in H. cbn [fst snd] in H. revert H. rnum. replace (t0 + (t1 - t0) * 0) with t0 by ring. intros ->. destruct a, b. vsimp. do 2 f_equal; ring. }
  assert (H1 : c_get_point c t1 = Ok b). { specialize (H 1). unfold range_at in H. cbn [fst snd] in H. revert H. rnum. replace (t0 + (t1 - t0) * 1) with t1 by ring. intros ->. destruct a, b. vsimp. do 2 f_equal; ring. }
  rewrite H0, H1. cbn [obind]. rewrite H. cbn [obind]. set (q := vadd a _).
  replace (fltb (distance3 q q) tol) with true.
  - cbn [obind mapM]. now rewrite H0, H1.
  - symmetry. replace (distance3 q q) with 0; [now apply Rltb_true|]. unfold distance3, length3, dot3. clearbody q. destruct q. vsimp. rnum. rewrite <- sqrt_0 at 1. f_equal. ring.
Qed.
Lemma near_points_refl (a : vec3 R) : near_points a a = true.
Proof. apply near_points_R. unfold distance_squared3, length_squared3, dot3. destruct a. vsimp. lra. Qed.
Definition apart (a b : vec3 R) : Prop := / 10000000 < distance_squared3 b a.
Lemma near_points_apart a b : apart a b -> near_points b a = false.
Proof. intros H. apply Bool.not_true_iff_false. rewrite near_points_R. unfold apart in H. lra. Qed.
Lemma dedup_corners l : forall x, Forall (fun '(a, b) => apart a b) (pairs (x :: l)) ->
  dedup_by_from (fun a b => near_points a b) x (flat_map (fun '(a, b) => [a; b]) (pairs (x :: l))) = l.
Proof.
  induction l as [|y l IH]; intros x H; [reflexivity|]. change (pairs (x :: y :: l)) with ((x, y) :: pairs (y :: l)) in *.
  pose proof (Forall_inv H) as H1. apply Forall_inv_tail in H. cbn [flat_map app dedup_by_from]. rewrite near_points_refl, (near_points_apart _ _ H1). f_equal. now apply IH.
Qed.
Theorem C53_straight_loop fuel rnd edges corner corners : corners <> [] ->
  Forall2 (fun seg '(a, b) => straight seg a b) edges (pairs (corner :: corners ++ [corner])) ->
  Forall (fun '(a, b) => apart a b) (pairs (corner :: corners ++ [corner])) ->
  to_polygon (S fuel) rnd edges = Ok (corner :: corners).
Proof.
  intros Hne HE HA. unfold to_polygon.
  assert (E : mapM (fun '(k, e) => segment_get_points (S fuel) (rnd k) e) (enumerate edges) = Ok (map (fun '(a, b) => [a; b]) (pairs (corner :: corners ++ [corner])))).
  { apply mapM_inv. unfold enumerate. revert HE. generalize (pairs (corner :: corners ++ [corner])) as L. intros L HE. clear -HE.
    generalize 0%nat as k. induction HE as [|seg [a b] edges L H _ IH]; intros k; [constructor|]. cbn [length seq combine map]. constructor; [now apply straight_points|apply IH]. }
  rewrite E. cbn [obind]. rewrite <- flat_map_concat_map. 
  assert (D : dedup_by (fun a b => near_points a b) (flat_map (fun '(a, b) => [a; b]) (pairs (corner :: corners ++ [corner]))) = corner :: corners ++ [corner]).
  { destruct (corners ++ [corner]) as [|y l] eqn:El; [destruct corners; discriminate|].
    pose proof (dedup_corners (y :: l) corner HA) as DC. change (pairs (corner :: y :: l)) with ((corner, y) :: pairs (y :: l)) in *. cbn [flat_map app dedup_by_from dedup_by] in *.
    rewrite near_points_refl in DC. f_equal. exact DC. }
  rewrite D. cbn [idx nth_error obind length]. rewrite app_length. cbn [length]. rewrite usub_Ok by lia. cbn [obind].
  replace (S (length corners + 1) - 1)%nat with (length (corner :: corners)) by (cbn [length]; lia).
  change (corner :: corners ++ [corner]) with ((corner :: corners) ++ [corner]). unfold idx. rewrite nth_error_app2, Nat.sub_diag by lia. cbn [nth_error obind].
  rewrite near_points_refl, removelast_last. reflexivity.
Qed.
(** straight edges: a line between two of its parameters *)
Lemma line_straight (l : Line R) t0 t1 tol dv : 0 < tol ->
  straight {| s_curve := line_curve l; s_range := (t0, t1); s_tolerance := tol; s_division := dv |} (line_get_point l t0) (line_get_point l t1).
Proof.
  intros H. split; [exact H|]. intros u. cbn [s_curve s_range line_curve c_get_point]. f_equal. unfold line_get_point, range_at. cbn [fst snd]. destruct l as [[a b c] [d e f]]. cbn [l_origin l_direction]. vsimp. rnum. f_equal; ring.
Qed.
Definition segR (a b : vec3 R) : CurveSegment R := {| s_curve := line_curve {| l_origin := a; l_direction := vsub b a |}; s_range := (0, 1); s_tolerance := 1 / 100; s_division := 16 |}.
Lemma segR_straight a b : straight (segR a b) a b.
Proof.
  assert (E0 : a = line_get_point {| l_origin := a; l_direction := vsub b a |} 0) by (destruct a, b; unfold line_get_point; cbn [l_origin l_direction]; vsimp; rnum; f_equal; ring).
  assert (E1 : b = line_get_point {| l_origin := a; l_direction := vsub b a |} 1) by (destruct a, b; unfold line_get_point; cbn [l_origin l_direction]; vsimp; rnum; f_equal; ring).
  pose proof (line_straight {| l_origin := a; l_direction := vsub b a |} 0 1 (1 / 100) 16 ltac:(lra)) as H. rewrite <- E0, <- E1 in H. exact H.
Qed.
Example C53_straight_loop_nonvacuous fuel rnd : let a := V3 0 0 0 in let b := V3 4 0 0 in let c := V3 4 4 0 in let d := V3 0 4 0 in
  to_polygon (S fuel) rnd [segR a b; segR b c; segR c d; segR d a] = Ok [a; b; c; d].
Proof.
  cbv zeta. apply C53_straight_loop; [discriminate| |].
  - cbn [app pairs combine]. repeat (constructor; [apply segR_straight|]). constructor.
  - cbn [app pairs combine]. repeat (constructor; [unfold apart, distance_squared3, length_squared3, dot3; cbn; lra|]). constructor.
Qed.
End Straight.

(** ** C54: boxed curves and surfaces *)
Section Boxed.
Context {F : Type} {NF : Num F}.
(** every method of a boxed curve is that of the curve, so sampling it, and every polygon
    made of it, is unchanged *)
Theorem C54_curve (c : Curve F) :
  (forall u, c_get_point (box_curve c) u = c_get_point c u) /\ (forall p, c_project (box_curve c) p = c_project c p) /\
  (forall r b, c_refine (box_curve c) r b = c_refine c r b).
Proof. repeat split. Qed.
Definition box_segment (s : CurveSegment F) : CurveSegment F :=
  {| s_curve := box_curve (s_curve s); s_range := s_range s; s_tolerance := s_tolerance s; s_division := s_division s |}.
Theorem C54_segment fuel rnd (s : CurveSegment F) : segment_get_points fuel rnd (box_segment s) = segment_get_points fuel rnd s.
Proof. reflexivity. Qed.
Theorem C54_polygon fuel rnd (edges : list (CurveSegment F)) : to_polygon fuel rnd (map box_segment edges) = to_polygon fuel rnd edges.
Proof.
  unfold to_polygon. f_equal. unfold enumerate. rewrite map_length. generalize (seq 0 (length edges)) as q.
  induction edges as [|e edges IH]; intros q; destruct q as [|k q]; try reflexivity. cbn [map combine mapM]. now rewrite IH.
Qed.
(** the trimmed mesh of a boxed surface is that of the surface *)
Theorem C54_trim fuel rnd (s : Surface F) bounds :
  trimmed_get_triangle_mesh fuel rnd {| ts_surface := box_surface s; ts_bounds := bounds |} =
  trimmed_get_triangle_mesh fuel rnd {| ts_surface := s; ts_bounds := bounds |}.
Proof. reflexivity. Qed.
(** the mesh of a patch of a boxed surface has the same vertices and triangles and no normals *)
Theorem C54_patch (s : Surface F) r d m :
  patch_get_triangle_mesh {| sp_surface := s; sp_range := r; sp_division := d |} = Ok m ->
  patch_get_triangle_mesh {| sp_surface := box_surface s; sp_range := r; sp_division := d |} = Ok (mkTM (m_vertices m) [] (m_triangles m)).
Proof.
  unfold patch_get_triangle_mesh, patch_get_points. cbn [sp_surface sp_range sp_division box_surface sf_get_point sf_get_normals]. destruct r as [ur vr], d as [ud vd].
  destruct (uniform_divide ur ud); cbn [obind]; try discriminate. destruct (uniform_divide vr vd); cbn [obind]; try discriminate.
  destruct (mapM _ _); cbn [obind]; try discriminate. intros E. obind_inv E. cbn [default_normals obind].
  obind_inv E. obind_inv E. obind_inv E. apply Ok_inj in E. subst m. cbn [m_vertices m_triangles].
  rewrite E1. cbn [obind]. rewrite E2. reflexivity.
Qed.
End Boxed.
(** ... although the surface has normals *)
Theorem C54_normals_refuted : exists (s : Surface f64) r d m m',
  patch_get_triangle_mesh (NF := F64Num) {| sp_surface := s; sp_range := r; sp_division := d |} = Ok m /\
  patch_get_triangle_mesh (NF := F64Num) {| sp_surface := box_surface s; sp_range := r; sp_division := d |} = Ok m' /\
  length (m_normals m) = 9 /\ m_normals m' = [].
Proof.
  exists (sp_surface bumpy_patch), (sp_range bumpy_patch), (sp_division bumpy_patch). eexists _, _.
  split; [vm_compute; reflexivity|]. split; [vm_compute; reflexivity|]. split; reflexivity.
Qed.
