(** Property C65: the meshes of all faces of a solid with plane faces fit together. *)
From Coq Require Import Reals Lra Lia Arith NArith ZArith Permutation List.
From Verif Require Import Prelude Num M_vec M_utils M_curve M_polygon M_meshgen M_surface L_base L_vec L_geom L_cycle L_polygon L_round
  Props_utils Props_polygon Props_ears Props_merge Props_mesh Props_gridmesh Props_round Props_loops Props_knot Props_bspline
  L_simple L_sides L_twoears L_earexist L_clip Props_simple L_drop Props_straight L_grid Props_grid Props_lattice L_convex Props_trim Props_trim3 Props_trim4.
Open Scope R_scope.

(** ** Specification: directed edges in space, closed surfaces, volume *)
Definition edge3 := (vec3 R * vec3 R)%type.
Lemma v3_dec (p q : vec3 R) : {p = q} + {p <> q}.
Proof.
  destruct p as [a b c], q as [d e f]. destruct (Req_EM_T a d) as [<-|N]; [|right; congruence]. destruct (Req_EM_T b e) as [<-|N]; [|right; congruence].
  destruct (Req_EM_T c f) as [<-|N]; [left; reflexivity|right; congruence].
Defined.
Definition edge3_dec (e f : edge3) : {e = f} + {e <> f}.
Proof. destruct e as [p q], f as [r s]. destruct (v3_dec p r) as [<-|N]; [|right; congruence]. destruct (v3_dec q s) as [<-|N]; [left; reflexivity|right; congruence]. Defined.
(** how often [p q] is run through, minus how often backwards *)
Definition net (E : list edge3) (p q : vec3 R) : Z := (Z.of_nat (count_occ edge3_dec E (p, q)) - Z.of_nat (count_occ edge3_dec E (q, p)))%Z.
(** every edge is run through equally often in both directions: the surface has no border *)
Definition closed_edges (E : list edge3) : Prop := forall p q, net E p q = 0%Z.
Fixpoint mesh_triangles_of (V : list (vec3 R)) (t : list N) : list (vec3 R * vec3 R * vec3 R) :=
  let v i := nth (N.to_nat i) V (V3 0 0 0) in
  match t with a :: b :: c :: r => (v a, v b, v c) :: mesh_triangles_of V r | _ => [] end.
Definition mesh_tris (m : TriangleMesh R) := mesh_triangles_of (m_vertices m) (m_triangles m).
Definition mesh_edges (m : TriangleMesh R) : list edge3 := flat_map (fun '(a, b, c) => [(a, b); (b, c); (c, a)]) (mesh_tris m).
Definition border (vs : list (vec3 R)) : list edge3 := pairs (vs ++ firstn 1 vs).
Definition det3 (a b c : vec3 R) : R := x3 a * (y3 b * z3 c - z3 b * y3 c) - y3 a * (x3 b * z3 c - z3 b * x3 c) + z3 a * (x3 b * y3 c - y3 b * x3 c).
(** six times the volume of the pyramid from [o] over the triangle, over a mesh, over a polygon *)
Definition pyramid6 (o : vec3 R) '((a, b, c) : vec3 R * vec3 R * vec3 R) : R := det3 (vsub a o) (vsub b o) (vsub c o).
Definition mesh_vol6 (o : vec3 R) (m : TriangleMesh R) : R := sumR (pyramid6 o) (mesh_tris m).
Definition loop_vol6 (o : vec3 R) (vs : list (vec3 R)) : R := sumR (fun '(a, b) => pyramid6 o (hd (V3 0 0 0) vs, a, b)) (border vs).

(** A plane face with one border loop; [fc_rnd] the random numbers drawn while its edges are sampled. *)
Record Face := { fc_plane : Plane R; fc_fuel : nat; fc_rnd : nat -> nat -> list bool -> R; fc_edges : list (CurveSegment R); fc_corners : list (vec3 R) }.
Definition fc_mesh (f : Face) : outcome (TriangleMesh R) := plane_trim (fc_plane f) (fc_fuel f) (fc_rnd f) [fc_edges f].
Definition fc_flat (f : Face) : list (vec2 R) := map (plane_project (fc_plane f)) (fc_corners f).
(** the face is a simple counter-clockwise polygon, seen along the plane's normal *)
Definition face_ok (f : Face) : Prop := proper_loops (fc_fuel f) (fc_rnd f) [fc_edges f] [fc_corners f] /\
  (3 <= length (fc_corners f))%nat /\ (N.of_nat (length (fc_corners f)) < 2 ^ 32)%N /\
  proper_polygon (fc_flat f) /\ resolved (fc_flat f) /\ 0 < area2 (fc_flat f) /\ forall v, ~ reflex_between (fc_flat f) v.
(** no straight vertex, or no inward one *)
Definition keeps_corners (f : Face) : Prop :=
  (forall i, (i < length (fc_corners f))%nat -> turn (fc_flat f) i <> 0) \/ (forall i, (i < length (fc_corners f))%nat -> 0 <= turn (fc_flat f) i).
Definition face_flat (f : Face) : Prop := orthonormal (p_u_axis (fc_plane f)) (p_v_axis (fc_plane f)) /\ Forall (on_plane (fc_plane f)) (fc_corners f).

(** ** Edge sums in space *)
Definition ind (p q a b : vec3 R) : R := if edge3_dec (a, b) (p, q) then 1 else 0.
Definition flow (p q a b : vec3 R) : R := ind p q a b - ind q p a b.
Definition esum3 (w : vec3 R -> vec3 R -> R) (E : list edge3) : R := sumR (fun e => w (fst e) (snd e)) E.
Lemma ind_swap p q a b : ind p q b a = ind q p a b.
Proof. unfold ind. destruct (edge3_dec (b, a) (p, q)) as [E|E], (edge3_dec (a, b) (q, p)) as [E'|E']; congruence. Qed.
Lemma flow_antisym p q : antisym (flow p q).
Proof. intros a b. unfold flow. rewrite (ind_swap p q a b), (ind_swap q p a b). lra. Qed.
Lemma count_ind E p q : INR (count_occ edge3_dec E (p, q)) = esum3 (ind p q) E.
Proof.
  induction E as [|[a b] E IH]; [reflexivity|]. unfold esum3, sumR in *. cbn [count_occ map fold_right fst snd]. unfold ind at 1. destruct (edge3_dec (a, b) (p, q)); [rewrite S_INR|]; lra.
Qed.
Lemma sumR_sub {A} (f g : A -> R) l : sumR (fun x => f x - g x) l = sumR f l - sumR g l.
Proof. unfold sumR. induction l as [|x l IH]; cbn [map fold_right]; lra. Qed.
Lemma net_flow E p q : IZR (net E p q) = esum3 (flow p q) E.
Proof. unfold net. rewrite minus_IZR, <- !INR_IZR_INZ, !count_ind. unfold esum3, flow. now rewrite <- sumR_sub. Qed.
Lemma sumR_app {A} (f : A -> R) l l' : sumR f (l ++ l') = sumR f l + sumR f l'.
Proof. unfold sumR. rewrite map_app. induction (map f l) as [|x r IH]; cbn; lra. Qed.
Lemma net_app E E' p q : net (E ++ E') p q = (net E p q + net E' p q)%Z.
Proof. unfold net. rewrite !count_occ_app. lia. Qed.
Lemma border_sum w vs : esum3 w (border vs) = cyc w vs.
Proof.
  assert (P : forall l, esum3 w (pairs l) = chain w l). { induction l as [|a [|b l] IH]; try reflexivity. change (pairs (a :: b :: l)) with ((a, b) :: pairs (b :: l)). unfold esum3, sumR in *. cbn [map fold_right fst snd]. rewrite IH. reflexivity. }
  unfold border. rewrite P. destruct vs; reflexivity.
Qed.
Lemma emit_tris (V : list (vec3 R)) L : (forall i, In i L -> let '(a, b, c) := i in (N.of_nat a < 2 ^ 32)%N /\ (N.of_nat b < 2 ^ 32)%N /\ (N.of_nat c < 2 ^ 32)%N) ->
  mesh_triangles_of V (emit L) = map (fun '(a, b, c) => (nth a V (V3 0 0 0), nth b V (V3 0 0 0), nth c V (V3 0 0 0))) L.
Proof.
  induction L as [|[[a b] c] L IH]; intros H; [reflexivity|]. destruct (H _ (or_introl eq_refl)) as (Ha & Hb & Hc). change (emit ((a, b, c) :: L)) with ([as_u32 a; as_u32 b; as_u32 c] ++ emit L).
  rewrite !as_u32_small by assumption. cbn [app mesh_triangles_of map]. rewrite !Nnat.Nat2N.id, IH by (intros; apply H; now right). reflexivity.
Qed.
Lemma tris_sum w (V : list (vec3 R)) L : 
  esum3 w (flat_map (fun '(a, b, c) => [(a, b); (b, c); (c, a)]) (map (fun '(a, b, c) => (nth a V (V3 0 0 0), nth b V (V3 0 0 0), nth c V (V3 0 0 0))) L)) =
  sumw (fun i j => w (nth i V (V3 0 0 0)) (nth j V (V3 0 0 0))) (map (fun '(a, b, c) => [a; b; c]) L).
Proof.
  unfold sumw. induction L as [|[[a b] c] L IH]; [reflexivity|]. cbn [map flat_map fold_right]. rewrite <- IH, cyc3. unfold esum3. rewrite sumR_app. f_equal. unfold sumR. cbn [map fold_right fst snd]. lra.
Qed.
Lemma cyc_ext {A} (w w' : A -> A -> R) l : (forall a b, In a l -> In b l -> w a b = w' a b) -> cyc w l = cyc w' l.
Proof.
  destruct l as [|x l]; [reflexivity|]. intros H. unfold cyc. assert (P : forall r, incl r (x :: l) -> chain w r = chain w' r).
  { induction r as [|a [|b r] IH]; intros I; try reflexivity. rewrite !chain_cons2, H, IH; [reflexivity| | |]; try (apply I; cbn; auto). intros z Hz. apply I. now right. }
  apply P. intros z Hz. apply in_app_or in Hz as [Hz|[<-|[]]]; [exact Hz|now left].
Qed.
Lemma seq_nth_self {A} (l extra : list A) d : map (fun i => nth i (l ++ extra) d) (seq 0 (length l)) = l.
Proof.
  apply (nth_ext _ _ d d); [now rewrite map_length, seq_length|]. intros i Hi. rewrite map_length, seq_length in Hi. rewrite (nth_indep _ _ (nth 0 (l ++ extra) d)) by now rewrite map_length, seq_length.
  rewrite (map_nth (fun i => nth i (l ++ extra) d)), seq_nth by exact Hi. now rewrite app_nth1.
Qed.
Lemma sublist_full (k l : list nat) : sublist k l -> NoDup l -> incl l k -> k = l.
Proof.
  induction 1 as [|x l l' H IH|x l l' H IH]; intros ND I.
  - reflexivity.
  - f_equal. inversion ND as [|? ? N1 N2]; subst. apply IH; auto. intros z Hz. destruct (I z (or_intror Hz)) as [<-|K]; [contradiction|exact K].
  - exfalso. inversion ND as [|? ? N1 N2]; subst. apply N1. eapply sublist_In; [exact H|]. apply I. now left.
Qed.

(** ** Volume sums *)
Lemma last_same {A} (l : list A) : forall c a b, last (c :: l) a = last (c :: l) b.
Proof. induction l as [|d l IH]; intros c a b; [reflexivity|]. apply (IH d a b). Qed.
Lemma chain_last {A} (g : A -> R) l : forall a, chain (fun x y => g x - g y) (a :: l) = g a - g (last l a).
Proof. induction l as [|b l IH]; intros a; [cbn; lra|]. rewrite chain_cons2, IH. destruct l as [|c l]; [cbn; lra|]. change (last (b :: c :: l) a) with (last (c :: l) a). rewrite (last_same l c b a). lra. Qed.
Lemma cyc_potential {A} (g : A -> R) l : cyc (fun x y => g x - g y) l = 0.
Proof. destruct l as [|a l]; [reflexivity|]. unfold cyc. cbn [app]. rewrite chain_last, last_last. lra. Qed.
Lemma cyc_add {A} (w w' : A -> A -> R) l : cyc (fun a b => w a b + w' a b) l = cyc w l + cyc w' l.
Proof.
  assert (P : forall r, chain (fun a b => w a b + w' a b) r = chain w r + chain w' r). { induction r as [|a [|b r] IH]; try (cbn; lra). rewrite !chain_cons2, IH. lra. }
  destruct l; [cbn; lra|]. apply P.
Qed.
Lemma fan_area (o : vec2 R) ps : cyc (fun a b => tri_area2 o a b) ps = area2 ps.
Proof.
  rewrite (cyc_ext _ (fun a b => cross2 a b + (cross2 o a - cross2 o b))); [|intros a b _ _; unfold tri_area2, cross2; ring].
  rewrite (cyc_add cross2 (fun a b => cross2 o a - cross2 o b)), cyc_potential. unfold area2. lra.
Qed.
Definition height (o : vec3 R) (s : Plane R) : R := det3 (vsub (p_origin s) o) (p_u_axis s) (p_v_axis s).
Lemma pyramid_flat o s a b c : orthonormal (p_u_axis s) (p_v_axis s) -> on_plane s a -> on_plane s b -> on_plane s c ->
  pyramid6 o (a, b, c) = height o s * tri_area2 (plane_project s a) (plane_project s b) (plane_project s c).
Proof.
  intros H (a1 & a2 & ->) (b1 & b2 & ->) (c1 & c2 & ->). rewrite !C33_inverse by exact H. unfold height, pyramid6, det3, tri_area2, plane_get_point. destruct s as [[ox oy oz] n [ux uy uz] [vx vy vz]], o as [px py pz].
  cbn [p_origin p_u_axis p_v_axis x2 y2]. vsimp. cbn [x3 y3 z3]. rnum. ring.
Qed.
Lemma sum_on_plane s vs : Forall (on_plane s) vs -> exists A B, let n := INR (length vs) in
  sumR (@x3 R) vs = n * x3 (p_origin s) + A * x3 (p_u_axis s) + B * x3 (p_v_axis s) /\
  sumR (@y3 R) vs = n * y3 (p_origin s) + A * y3 (p_u_axis s) + B * y3 (p_v_axis s) /\
  sumR (@z3 R) vs = n * z3 (p_origin s) + A * z3 (p_u_axis s) + B * z3 (p_v_axis s).
Proof.
  induction 1 as [|p vs (a & b & ->) _ (A & B & IH)]; [exists 0, 0; cbn; repeat split; lra|]. exists (a + A), (b + B). cbv zeta in *. cbn [length]. rewrite S_INR. unfold sumR in *. cbn [map fold_right].
  destruct IH as (-> & -> & ->). unfold plane_get_point. vsimp. rnum. cbn [x3 y3 z3]. repeat split; ring.
Qed.
Lemma mean_on_plane s vs c : vs <> [] -> Forall (on_plane s) vs -> mean_of vs c -> on_plane s c.
Proof.
  intros Hne HF (Hx & Hy & Hz). destruct (sum_on_plane s vs HF) as (A & B & Ex & Ey & Ez). cbv zeta in *. rewrite Ex in Hx. rewrite Ey in Hy. rewrite Ez in Hz.
  assert (P : 0 < INR (length vs)) by (apply lt_0_INR; destruct vs; [congruence|cbn; lia]). set (n := INR (length vs)) in *.
  assert (D : forall x y z t : R, n * x = n * y + A * z + B * t -> x = y + z * (A / n) + t * (B / n)).
  { intros x y z t E. apply (Rmult_eq_reg_l n); [|lra]. rewrite E. field. lra. }
  exists (A / n), (B / n). apply D in Hx, Hy, Hz. unfold plane_get_point. destruct c as [cx cy cz]. vsimp. rnum. cbn [x3 y3 z3] in *. now rewrite Hx, Hy, Hz.
Qed.
Lemma sumR_ext {A} (f g : A -> R) l : (forall x, In x l -> f x = g x) -> sumR f l = sumR g l.
Proof. intros H. unfold sumR. f_equal. now apply map_ext_in. Qed.
Lemma sumR_scale {A} (f : A -> R) k l : sumR (fun x => k * f x) l = k * sumR f l.
Proof. unfold sumR. induction l as [|x l IH]; cbn [map fold_right]; [lra|rewrite IH; lra]. Qed.
Lemma sumR_map {A B} (f : B -> R) (g : A -> B) l : sumR f (map g l) = sumR (fun x => f (g x)) l.
Proof. unfold sumR. now rewrite map_map. Qed.
Lemma border_In vs a b : In (a, b) (border vs) -> In a vs /\ In b vs.
Proof.
  unfold border. intros I. assert (P : forall l : list (vec3 R), In (a, b) (pairs l) -> In a l /\ In b l).
  { induction l as [|x [|y l] IH]; cbn [pairs]; try (intros []; fail). intros [E|E]; [injection E as <- <-; cbn; auto|]. destruct (IH E). split; now right. }
  destruct (P _ I) as [Ia Ib]. assert (Q : forall x, In x (vs ++ firstn 1 vs) -> In x vs). { intros x Ix. apply in_app_or in Ix as [Ix|Ix]; [exact Ix|]. destruct vs; [destruct Ix|]. destruct Ix as [<-|[]]. now left. } auto.
Qed.
Lemma loop_volume o s vs : vs <> [] -> orthonormal (p_u_axis s) (p_v_axis s) -> Forall (on_plane s) vs -> loop_vol6 o vs = height o s * area2 (map (plane_project s) vs).
Proof.
  intros Hne HO HF. rewrite Forall_forall in HF. unfold loop_vol6. destruct vs as [|v0 r]; [congruence|]. cbn [hd]. set (vs := v0 :: r) in *.
  rewrite (sumR_ext _ (fun e => height o s * tri_area2 (plane_project s v0) (plane_project s (fst e)) (plane_project s (snd e)))).
  - rewrite sumR_scale. f_equal. change (esum3 (fun a b => tri_area2 (plane_project s v0) (plane_project s a) (plane_project s b)) (border vs) = area2 (map (plane_project s) vs)).
    rewrite border_sum, <- (cyc_map (plane_project s) (fun a b => tri_area2 (plane_project s v0) a b)). apply fan_area.
  - intros [a b] I. apply border_In in I as [Ia Ib]. cbn [fst snd]. apply pyramid_flat; auto. apply HF. now left.
Qed.

(** ** The theorems *)
Lemma sublist_filter_eq (k l : list nat) (P : nat -> bool) : sublist k l -> NoDup l -> (forall i, In i l -> (In i k <-> P i = true)) -> k = filter P l.
Proof.
  induction 1 as [|x l l' H IH|x l l' H IH]; intros ND I.
  - reflexivity.
  - inversion ND as [|? ? N1 N2]; subst. cbn [filter]. rewrite (proj1 (I x (or_introl eq_refl)) (or_introl eq_refl)). f_equal. apply IH; [exact N2|]. intros i Hi. rewrite <- (I i (or_intror Hi)). cbn. split; [now right|]. intros [<-|K]; [contradiction|exact K].
  - inversion ND as [|? ? N1 N2]; subst. cbn [filter]. destruct (P x) eqn:Ex.
    + exfalso. apply (I x (or_introl eq_refl)) in Ex. apply N1. eapply sublist_In; eassumption.
    + apply IH; [exact N2|]. intros i Hi. apply I. now right.
Qed.
Lemma sublist_map {A B} (f : A -> B) l l' : sublist l l' -> sublist (map f l) (map f l').
Proof. induction 1; now constructor. Qed.
Lemma face_mesh f : face_ok f -> exists m kept, fc_mesh f = Ok m /\ sublist kept (fc_corners f) /\
  (keeps_corners f -> kept = fc_corners f) /\
  ((exists i, (i < length (fc_corners f))%nat /\ turn (fc_flat f) i < 0) -> kept = map (fun i => nth i (fc_corners f) (V3 0 0 0)) (filter (fun i => if Req_EM_T (turn (fc_flat f) i) 0 then false else true) (seq 0 (length (fc_corners f))))) /\
  (forall p q, net (mesh_edges m) p q = net (border kept) p q) /\
  (face_flat f -> forall o, mesh_vol6 o m = loop_vol6 o (fc_corners f)).
Proof.
  destruct f as [s fuel rnd edges vs]. unfold face_ok, keeps_corners, face_flat, fc_mesh, fc_flat. cbn [fc_plane fc_fuel fc_rnd fc_edges fc_corners]. intros (HL & H3 & HN & HP & HR & HA & HB).
  destruct (C45_proper s fuel rnd [edges] vs HL H3 HN HP HR HA HB) as (m & extra & L & kept & E & EV & _ & ET & C & SK & F & A & X & _). cbv zeta in F, A.
  assert (LV : (length (m_vertices m) <= length vs + 1)%nat). { rewrite EV, app_length. destruct C as [(_ & (c & -> & _) & _)|(_ & -> & _)]; cbn; lia. }
  rewrite Forall_forall in F. rewrite map_length in F.
  assert (Small : forall i, In i L -> let '(a, b, c) := i in (N.of_nat a < 2 ^ 32)%N /\ (N.of_nat b < 2 ^ 32)%N /\ (N.of_nat c < 2 ^ 32)%N).
  { intros [[a b] c] I. destruct (F _ I) as (Ha & Hb & Hc & _). split; [|split]; (eapply N.le_lt_trans; [|exact HN]); lia. }
  assert (ETr : mesh_tris m = map (fun '(a, b, c) => (nth a (m_vertices m) (V3 0 0 0), nth b (m_vertices m) (V3 0 0 0), nth c (m_vertices m) (V3 0 0 0))) L) by (unfold mesh_tris; rewrite ET; now apply emit_tris).
  exists m, (map (fun i => nth i (m_vertices m) (V3 0 0 0)) kept). split; [exact E|]. split; [|split; [|split; [|split]]].
  - pose proof (seq_nth_self vs extra (V3 0 0 0)) as K. rewrite <- EV in K. rewrite <- K. now apply sublist_map.
  - intros HK. replace kept with (seq 0 (length vs)); [rewrite EV; apply seq_nth_self|]. destruct C as [(_ & _ & _ & ->)|((i & Hi & Hn) & _ & _ & IK)]; [reflexivity|]. symmetry.
    apply sublist_full; [exact SK|apply seq_NoDup|]. intros j Hj. apply in_seq in Hj. apply IK. split; [lia|]. destruct HK as [HK|HK]; [apply HK; lia|]. exfalso. specialize (HK i Hi). lra.
  - intros (j & Hj & Hn). destruct C as [(P & _)|(_ & EX & _ & IK)]; [exfalso; specialize (P j Hj); lra|]. rewrite EV, EX, app_nil_r. f_equal. apply sublist_filter_eq; [exact SK|apply seq_NoDup|].
    intros i Hi. apply in_seq in Hi. rewrite IK. destruct (Req_EM_T _ _) as [Z|Z]; [split; [tauto|discriminate]|]. split; [reflexivity|]. intros _. split; [lia|exact Z].
  - intros p q. apply eq_IZR. rewrite !net_flow, border_sum, cyc_map. unfold mesh_edges. rewrite ETr, tris_sum. apply X. intros a b. apply flow_antisym.
  - intros [HO HF] o. rewrite (loop_volume o s) by (auto; intros ->; cbn in H3; lia). rewrite <- A. unfold mesh_vol6. rewrite ETr, sumR_map.
    assert (HV : Forall (on_plane s) (m_vertices m)).
    { rewrite EV. apply Forall_app. split; [exact HF|]. destruct C as [(_ & (c & -> & HM) & _)|(_ & -> & _)]; [|constructor]. constructor; [|constructor]. eapply mean_on_plane; [|exact HF|exact HM]. intros ->. cbn in H3. lia. }
    rewrite Forall_forall in HV. unfold total_area2. change (fold_right Rplus 0 (map ?g L)) with (sumR g L). rewrite <- sumR_scale. apply sumR_ext. intros [[a b] c] I. destruct (F _ I) as (Ha & Hb & Hc & _).
    rewrite (pyramid_flat o s) by (auto; apply HV, nth_In; assumption). f_equal.
    assert (PT : forall i, (i < length (m_vertices m))%nat -> pt (map (plane_project s) (m_vertices m)) i = plane_project s (nth i (m_vertices m) (V3 0 0 0))).
    { intros i Hi. unfold pt. rewrite (nth_indep _ _ (plane_project s (V3 0 0 0))) by now rewrite map_length. apply map_nth. }
    now rewrite !PT.
Qed.
Lemma kept_nets fs : Forall face_ok fs -> exists ms ks, mapM fc_mesh fs = Ok ms /\
  Forall2 (fun f k => (keeps_corners f -> k = fc_corners f) /\
    ((exists i, (i < length (fc_corners f))%nat /\ turn (fc_flat f) i < 0) -> k = map (fun i => nth i (fc_corners f) (V3 0 0 0)) (filter (fun i => if Req_EM_T (turn (fc_flat f) i) 0 then false else true) (seq 0 (length (fc_corners f)))))) fs ks /\
  forall p q, net (flat_map mesh_edges ms) p q = net (flat_map border ks) p q.
Proof.
  induction 1 as [|f fs Hf _ (ms & ks & E & IH1 & IH2)]; [exists [], []; repeat split; try constructor|]. destruct (face_mesh f Hf) as (m & kept & Em & _ & HK & HT & HE & _). exists (m :: ms), (kept :: ks). cbn [mapM]. rewrite Em. cbn [obind]. rewrite E. cbn [obind].
  split; [reflexivity|]. split; [constructor; auto|]. intros p q. cbn [flat_map]. now rewrite !net_app, IH2, HE.
Qed.
(** C65: the meshes of the faces of a closed polyhedron have no border, and enclose its volume. *)
Theorem C65_watertight (fs : list Face) : Forall face_ok fs -> exists ms, mapM fc_mesh fs = Ok ms /\
  (Forall keeps_corners fs ->
     (forall p q, net (flat_map mesh_edges ms) p q = net (flat_map (fun f => border (fc_corners f)) fs) p q) /\
     (closed_edges (flat_map (fun f => border (fc_corners f)) fs) -> closed_edges (flat_map mesh_edges ms))) /\
  (Forall face_flat fs -> forall o, sumR (mesh_vol6 o) ms = sumR (fun f => loop_vol6 o (fc_corners f)) fs).
Proof.
  intros H. assert (K : exists ms, mapM fc_mesh fs = Ok ms /\
    (Forall keeps_corners fs -> forall p q, net (flat_map mesh_edges ms) p q = net (flat_map (fun f => border (fc_corners f)) fs) p q) /\
    (Forall face_flat fs -> forall o, sumR (mesh_vol6 o) ms = sumR (fun f => loop_vol6 o (fc_corners f)) fs)).
  { induction H as [|f fs Hf _ (ms & E & IH1 & IH2)]; [exists []; repeat split; reflexivity|]. destruct (face_mesh f Hf) as (m & kept & Em & _ & HK & _ & HE & HV). exists (m :: ms). cbn [mapM]. rewrite Em. cbn [obind]. rewrite E. cbn [obind]. split; [reflexivity|]. split.
    - intros HF p q. inversion HF as [|? ? F1 F2]; subst. cbn [flat_map]. rewrite !net_app, IH1, HE, HK by assumption. reflexivity.
    - intros HF o. inversion HF as [|? ? F1 F2]; subst. unfold sumR in *. cbn [map fold_right]. rewrite IH2, HV by assumption. reflexivity. }
  destruct K as (ms & E & K1 & K2). exists ms. split; [exact E|]. split; [|exact K2]. intros HF. split; [now apply K1|]. intros HC p q. rewrite K1 by exact HF. apply HC.
Qed.

(** ** A solid: the prism of height 1 over an L *)
Definition box_plane (o u v : vec3 R) : Plane R := {| p_origin := o; p_normal := cross3 u v; p_u_axis := u; p_v_axis := v |}.
Definition mk_face (rnd : nat -> nat -> list bool -> R) (o u v : vec3 R) (vs : list (vec3 R)) : Face :=
  {| fc_plane := box_plane o u v; fc_fuel := 1; fc_rnd := rnd; fc_edges := edgesR vs; fc_corners := vs |}.
Section Ell.
Context (rnd : nat -> nat -> list bool -> R).
(** the corners, at the bottom and at the top *)
Definition b0 := V3 0 0 0. Definition b1 := V3 4 0 0. Definition b2 := V3 4 1 0. Definition b3 := V3 1 1 0. Definition b4 := V3 1 4 0. Definition b5 := V3 0 4 0.
Definition t0 := V3 0 0 1. Definition t1 := V3 4 0 1. Definition t2 := V3 4 1 1. Definition t3 := V3 1 1 1. Definition t4 := V3 1 4 1. Definition t5 := V3 0 4 1.
(** a vertex in the middle of the bottom edge b0 b1 *)
Definition bm := V3 2 0 0.
Definition ex := V3 1 0 0. Definition ey := V3 0 1 0. Definition ez := V3 0 0 1. Definition nx := V3 (-1) 0 0. Definition ny := V3 0 (-1) 0.
Definition side (u a b c d : vec3 R) : Face := mk_face rnd a u ez [a; b; c; d].
Definition ell_top : Face := mk_face rnd t0 ex ey [t0; t1; t2; t3; t4; t5].
Definition ell_bottom : Face := mk_face rnd b0 ey ex [b0; b5; b4; b3; b2; b1].
Definition ell_sides : list Face := [side ey b1 b2 t2 t1; side nx b2 b3 t3 t2; side ey b3 b4 t4 t3; side nx b4 b5 t5 t4; side ny b5 b0 t0 t5].
Definition ell : list Face := ell_top :: ell_bottom :: side ex b0 b1 t1 t0 :: ell_sides.
(** the same solid, the edge between b0 and b1 split in the middle on both faces that have it *)
Definition ell_split : list Face := ell_top :: mk_face rnd b0 ey ex [b0; b5; b4; b3; b2; b1; bm] :: mk_face rnd b0 ex ez [b0; bm; b1; t1; t0] :: ell_sides.
(** a face checked on integers *)
Definition small (zs : list (Z * Z)) : bool := forallb (fun '(x, y) => (Z.abs x <? 2 ^ 25) && (Z.abs y <? 2 ^ 25))%Z zs.
Lemma mk_face_ok o u v vs zs : map (plane_project (box_plane o u v)) vs = map rz zs -> (zproper zs && negb (zreflex_between zs) && small zs && (3 <=? length zs)%nat && (length zs <? 100)%nat)%bool = true ->
  0 < area2 (map rz zs) -> corners_apart vs -> face_ok (mk_face rnd o u v vs).
Proof.
  intros EF. rewrite !Bool.andb_true_iff, Bool.negb_true_iff, Nat.leb_le, Nat.ltb_lt. intros [[[[Hp Hr] Hs] H3] H1] HA HC. assert (EL : length zs = length vs) by (rewrite <- (map_length rz zs), <- EF; apply map_length).
  unfold face_ok, fc_flat. cbn [mk_face fc_plane fc_fuel fc_rnd fc_edges fc_corners]. rewrite EF. split; [apply edges_loop; [lia|exact HC]|]. split; [lia|]. split; [lia|]. split; [now apply zproper_sound|].
  split; [|split; [exact HA|intros w; now apply zreflex_sound]]. apply integers_resolved. apply Forall_forall. intros [x y] I. unfold small in Hs. rewrite forallb_forall in Hs. specialize (Hs _ I). cbv beta iota in Hs. now rewrite Bool.andb_true_iff, !Z.ltb_lt in Hs.
Qed.
Ltac flat := cbn [map p_origin p_u_axis p_v_axis box_plane]; unfold plane_project, dot3, rz, b0, b1, b2, b3, b4, b5, t0, t1, t2, t3, t4, t5, bm, ex, ey, ez, nx, ny; cbn [p_origin p_u_axis p_v_axis box_plane map]; vsimp; cbn [x3 y3 z3 fst snd]; rnum; repeat (f_equal; try lra).
Ltac face zs := apply (mk_face_ok _ _ _ _ zs); [flat|reflexivity|unfold area2, cyc, chain, cross2, rz; cbn; lra|
  unfold corners_apart; cbn [app firstn pairs]; repeat (constructor; [unfold apart, distance_squared3, length_squared3, dot3; cbn; lra|]); constructor].
Lemma ell_sides_ok : Forall face_ok ell_sides.
Proof.
  unfold ell_sides, side. constructor; [face ([(0, 0); (1, 0); (1, 1); (0, 1)]%Z)|]. constructor; [face ([(0, 0); (3, 0); (3, 1); (0, 1)]%Z)|]. constructor; [face ([(0, 0); (3, 0); (3, 1); (0, 1)]%Z)|].
  constructor; [face ([(0, 0); (1, 0); (1, 1); (0, 1)]%Z)|]. constructor; [face ([(0, 0); (4, 0); (4, 1); (0, 1)]%Z)|]. constructor.
Qed.
Lemma ell_top_ok : face_ok ell_top.
Proof. unfold ell_top. face ([(0, 0); (4, 0); (4, 1); (1, 1); (1, 4); (0, 4)]%Z). Qed.
Lemma ell_ok : Forall face_ok ell.
Proof.
  constructor; [exact ell_top_ok|]. constructor; [unfold ell_bottom; face ([(0, 0); (4, 0); (4, 1); (1, 1); (1, 4); (0, 4)]%Z)|]. constructor; [unfold side; face ([(0, 0); (4, 0); (4, 1); (0, 1)]%Z)|]. exact ell_sides_ok.
Qed.
Lemma ell_split_ok : Forall face_ok ell_split.
Proof.
  constructor; [exact ell_top_ok|]. constructor; [face ([(0, 0); (4, 0); (4, 1); (1, 1); (1, 4); (0, 4); (0, 2)]%Z)|]. constructor; [face ([(0, 0); (2, 0); (4, 0); (4, 1); (0, 1)]%Z)|]. exact ell_sides_ok.
Qed.
Lemma keeps_checked f zs : fc_flat f = map rz zs -> (forallb (fun i => negb (zturn zs i =? 0)%Z) (seq 0 (length zs)) || forallb (fun i => (0 <=? zturn zs i)%Z) (seq 0 (length zs)))%bool = true -> keeps_corners f.
Proof.
  intros EF H. assert (EL : length zs = length (fc_corners f)) by (rewrite <- (map_length rz zs), <- EF; apply map_length). unfold keeps_corners. rewrite EF, <- EL. apply Bool.orb_true_iff in H. rewrite !forallb_forall in H.
  destruct H as [H|H]; [left|right]; intros i Hi; specialize (H i ltac:(apply in_seq; lia)); rewrite turn_rz.
  - apply not_0_IZR. now apply Bool.negb_true_iff, Z.eqb_neq in H.
  - apply IZR_le. now apply Z.leb_le.
Qed.
Ltac keeps zs := apply (keeps_checked _ zs); [unfold fc_flat, ell_top, ell_bottom, side; cbn [mk_face fc_plane fc_corners]; flat|reflexivity].
Lemma ell_sides_keep : Forall keeps_corners ell_sides.
Proof.
  unfold ell_sides. constructor; [keeps ([(0, 0); (1, 0); (1, 1); (0, 1)]%Z)|]. constructor; [keeps ([(0, 0); (3, 0); (3, 1); (0, 1)]%Z)|]. constructor; [keeps ([(0, 0); (3, 0); (3, 1); (0, 1)]%Z)|].
  constructor; [keeps ([(0, 0); (1, 0); (1, 1); (0, 1)]%Z)|]. constructor; [keeps ([(0, 0); (4, 0); (4, 1); (0, 1)]%Z)|]. constructor.
Qed.
Lemma ell_top_keep : keeps_corners ell_top.
Proof. keeps ([(0, 0); (4, 0); (4, 1); (1, 1); (1, 4); (0, 4)]%Z). Qed.
Lemma ell_keep : Forall keeps_corners ell.
Proof.
  constructor; [exact ell_top_keep|]. constructor; [keeps ([(0, 0); (4, 0); (4, 1); (1, 1); (1, 4); (0, 4)]%Z)|]. constructor; [keeps ([(0, 0); (4, 0); (4, 1); (0, 1)]%Z)|]. exact ell_sides_keep.
Qed.
Lemma flat_checked o u v vs zs : orthonormal u v -> vs = map (fun p => plane_get_point (box_plane o u v) (IZR (fst p)) (IZR (snd p))) zs -> face_flat (mk_face rnd o u v vs).
Proof.
  intros HO ->. split; [exact HO|]. apply Forall_forall. intros q I. apply in_map_iff in I as (p & <- & _). cbn [mk_face fc_plane]. now exists (IZR (fst p)), (IZR (snd p)).
Qed.
Ltac flatf zs := apply (flat_checked _ _ _ _ zs); [unfold orthonormal, unit3, dot3; cbn; repeat split; lra|unfold plane_get_point; flat].
Lemma ell_flat : Forall face_flat ell.
Proof.
  unfold ell, ell_sides, ell_top, ell_bottom, side. constructor; [flatf ([(0, 0); (4, 0); (4, 1); (1, 1); (1, 4); (0, 4)]%Z)|]. constructor; [flatf ([(0, 0); (4, 0); (4, 1); (1, 1); (1, 4); (0, 4)]%Z)|]. constructor; [flatf ([(0, 0); (4, 0); (4, 1); (0, 1)]%Z)|].
  constructor; [flatf ([(0, 0); (1, 0); (1, 1); (0, 1)]%Z)|]. constructor; [flatf ([(0, 0); (3, 0); (3, 1); (0, 1)]%Z)|]. constructor; [flatf ([(0, 0); (3, 0); (3, 1); (0, 1)]%Z)|].
  constructor; [flatf ([(0, 0); (1, 0); (1, 1); (0, 1)]%Z)|]. constructor; [flatf ([(0, 0); (4, 0); (4, 1); (0, 1)]%Z)|]. constructor.
Qed.
Ltac borders := cbn [flat_map map ell ell_split ell_top ell_bottom ell_sides side mk_face fc_corners border firstn app pairs].
Ltac cancel p q := unfold esum3, sumR; borders; cbn [map fold_right fst snd];
  pose proof (flow_antisym p q t0 t1); pose proof (flow_antisym p q t1 t2); pose proof (flow_antisym p q t2 t3); pose proof (flow_antisym p q t3 t4); pose proof (flow_antisym p q t4 t5); pose proof (flow_antisym p q t5 t0);
  pose proof (flow_antisym p q b0 b1); pose proof (flow_antisym p q b1 b2); pose proof (flow_antisym p q b2 b3); pose proof (flow_antisym p q b3 b4); pose proof (flow_antisym p q b4 b5); pose proof (flow_antisym p q b5 b0);
  pose proof (flow_antisym p q b0 t0); pose proof (flow_antisym p q b1 t1); pose proof (flow_antisym p q b2 t2); pose proof (flow_antisym p q b3 t3); pose proof (flow_antisym p q b4 t4); pose proof (flow_antisym p q b5 t5);
  pose proof (flow_antisym p q b0 bm); pose proof (flow_antisym p q bm b1); lra.
Lemma ell_closed : closed_edges (flat_map (fun f => border (fc_corners f)) ell).
Proof. intros p q. apply eq_IZR. rewrite net_flow. cancel p q. Qed.
Lemma ell_split_closed : closed_edges (flat_map (fun f => border (fc_corners f)) ell_split).
Proof. intros p q. apply eq_IZR. rewrite net_flow. cancel p q. Qed.
(** the L has area 7 *)
Example C65_nonvacuous : exists ms, mapM fc_mesh ell = Ok ms /\ length ms = 8%nat /\ closed_edges (flat_map mesh_edges ms) /\ forall o, sumR (mesh_vol6 o) ms = 6 * 7.
Proof.
  destruct (C65_watertight ell ell_ok) as (ms & E & K1 & K2). exists ms. split; [exact E|]. split; [now rewrite (mapM_length _ _ _ E)|]. split; [apply K1; [exact ell_keep|exact ell_closed]|].
  intros o. rewrite K2 by exact ell_flat. unfold loop_vol6, sumR. borders. cbn [map fold_right hd]. unfold pyramid6, det3, b0, b1, b2, b3, b4, b5, t0, t1, t2, t3, t4, t5. destruct o as [ox oy oz]. vsimp. cbn [x3 y3 z3]. rnum. ring.
Qed.
(** C65, refuted without [keeps_corners]: the middle of the split edge is a vertex of the mesh of the side face, but not of that of the bottom. *)
Lemma split_bottom_kept : let f := mk_face rnd b0 ey ex [b0; b5; b4; b3; b2; b1; bm] in
  map (fun i => nth i (fc_corners f) (V3 0 0 0)) (filter (fun i => if Req_EM_T (turn (fc_flat f) i) 0 then false else true) (seq 0 (length (fc_corners f)))) = [b0; b5; b4; b3; b2; b1] /\
  exists i, (i < length (fc_corners f))%nat /\ turn (fc_flat f) i < 0.
Proof.
  cbv zeta. assert (EF : fc_flat (mk_face rnd b0 ey ex [b0; b5; b4; b3; b2; b1; bm]) = map rz [(0, 0); (4, 0); (4, 1); (1, 1); (1, 4); (0, 4); (0, 2)]%Z) by (unfold fc_flat; cbn [mk_face fc_plane fc_corners]; flat).
  rewrite EF. split.
  - rewrite (filter_ext _ (fun i => negb (zturn [(0, 0); (4, 0); (4, 1); (1, 1); (1, 4); (0, 4); (0, 2)] i =? 0)%Z)); [reflexivity|].
    intros i. rewrite turn_rz. set (z := zturn _ i). destruct (Req_EM_T (IZR z) 0) as [E|E], (Z.eqb_spec z 0) as [E'|E']; try reflexivity; exfalso; [apply E'; now apply eq_IZR_R0|apply E; now rewrite E'].
  - exists 3%nat. split; [cbn; lia|]. rewrite turn_rz. change (zturn [(0, 0); (4, 0); (4, 1); (1, 1); (1, 4); (0, 4); (0, 2)]%Z 3) with (-9)%Z. lra.
Qed.
Theorem C65_tjunction_refuted : Forall face_ok ell_split /\ closed_edges (flat_map (fun f => border (fc_corners f)) ell_split) /\
  exists ms, mapM fc_mesh ell_split = Ok ms /\ net (flat_map mesh_edges ms) b0 bm = 1%Z.
Proof.
  split; [exact ell_split_ok|]. split; [exact ell_split_closed|]. destruct (kept_nets ell_split ell_split_ok) as (ms & ks & E & F & HE). exists ms. split; [exact E|]. rewrite HE.
  pose proof (ell_split_closed b0 bm) as C. unfold ell_split in C, F. inversion F as [|? kt ? k1 F0 F1]; subst. inversion F1 as [|? kb ? k2 F2 F3]; subst. inversion F3 as [|? km ? k4 F4 F5]; subst. clear F F1 F3.
  destruct F0 as [F0 _]. specialize (F0 ell_top_keep). subst kt. destruct F2 as [_ F2]. destruct split_bottom_kept as [EB HB]. cbv zeta in EB, HB. specialize (F2 HB). rewrite EB in F2. subst kb. clear EB HB.
  destruct F4 as [F4 _]. specialize (F4 ltac:(keeps ([(0, 0); (2, 0); (4, 0); (4, 1); (0, 1)]%Z))). subst km.
  assert (ES : flat_map border k4 = flat_map (fun f => border (fc_corners f)) ell_sides).
  { pose proof ell_sides_keep as K. revert K F5. generalize ell_sides k4. clear. induction l as [|f l IH]; intros k K F5; inversion F5 as [|? y ? ? F6 F7]; subst; [reflexivity|]. inversion K; subst. cbn [flat_map]. destruct F6 as [F6 _]. rewrite F6 by assumption. f_equal. now apply IH. }
  cbn [flat_map] in *. rewrite ES. rewrite !net_app in *. set (A := net (flat_map _ ell_sides) b0 bm) in *. clearbody A. cbn [mk_face fc_corners] in *. set (B := net (border (fc_corners ell_top)) b0 bm) in *. clearbody B. set (D := net (border [b0; bm; b1; t1; t0]) b0 bm) in *. clearbody D.
  assert (G : net (border [b0; b5; b4; b3; b2; b1]) b0 bm = (net (border [b0; b5; b4; b3; b2; b1; bm]) b0 bm + 1)%Z); [|lia].
  apply eq_IZR. rewrite plus_IZR, !net_flow. unfold esum3, sumR. borders. cbn [map fold_right fst snd].
  assert (N : forall a b c d e f : R, (a <> d \/ b <> e \/ c <> f) -> V3 a b c <> V3 d e f) by (intros a b c d e f H Q; injection Q; intros; destruct H as [H|[H|H]]; auto).
  assert (D1 : b0 <> bm) by (apply N; left; lra). assert (D2 : b1 <> b0) by (apply N; left; lra). assert (D3 : b1 <> bm) by (apply N; left; lra).
  assert (Z1 : flow b0 bm b1 bm = 0) by (unfold flow, ind; destruct (edge3_dec _ _), (edge3_dec _ _); try congruence; lra).
  assert (Z2 : flow b0 bm b1 b0 = 0) by (unfold flow, ind; destruct (edge3_dec _ _), (edge3_dec _ _); try congruence; lra).
  assert (Z3 : flow b0 bm bm b0 = -1) by (unfold flow, ind; destruct (edge3_dec _ _), (edge3_dec _ _); try congruence; lra).
  lra.
Qed.
End Ell.
(** The two faces on the split edge in doubles: the vertex in the middle (number 6, number 1) is used by the side only. *)
Example C65_tjunction_doubles :
  trim64 [[(0, 0); (4, 0); (4, 1); (1, 1); (1, 4); (0, 4); (0, 2)]]%Z = Ok (7%nat, [0; 1; 2; 3; 4; 5; 0; 2; 3; 3; 5; 0]%N) /\
  trim64 [[(0, 0); (2, 0); (4, 0); (4, 1); (0, 1)]]%Z = Ok (6%nat, [5; 0; 1; 5; 1; 2; 5; 2; 3; 5; 3; 4; 5; 4; 0]%N).
Proof. split; vm_compute; reflexivity. Qed.
