(** Property C70, continued: [Plane::trim] on a face with holes, in doubles. *)
From Coq Require Import ZArith NArith Reals Lra Lia List Bool Arith Floats.SpecFloat Psatz Permutation.
From Verif Require Import Prelude Num M_vec M_utils M_curve M_polygon M_meshgen M_surface L_base L_vec L_geom L_cycle L_polygon L_float L_grid L_err L_bserr
  Props_bspline Props_polygon Props_ears L_simple L_sides L_twoears L_earexist L_clip Props_simple Props_segments Props_grid Props_accuracy Props_robust
  Props_merge Props_mesh Props_loops L_convex Props_trim Props_straight Props_lattice Props_trim3 Props_trim4 Props_solid Props_plane64 L_weak L_wiggle L_bridges Props_holes.
Open Scope R_scope.

(** ** Choosing the outer loop *)
(** The rightmost corner of a loop is found from comparisons alone, which doubles make exactly. *)
Lemma minval_val : num64 (fminval : f64) /\ val (fminval : f64) = @fminval R RNum.
Proof.
  assert (E : (fminval : f64) = S754_finite true 9007199254740991 971) by (vm_compute; reflexivity). split; [rewrite E; split; reflexivity|]. rewrite E.
  change (@fminval R RNum) with (- RMAX). unfold RMAX. cbn [B2R]. rewrite mult_IZR. replace (IZR (2 ^ 971)) with (pow2 971) by (symmetry; apply (pow2_Z 971); lia).
  change (2 ^ 53 - 1)%Z with 9007199254740991%Z. lra.
Qed.
Section Outer64.
Context (ps : list (vec2 f64)).
Hypothesis HX : forall p, In p ps -> num64 (x2 p).
Lemma max_x_num s e : forall st x m, num64 (fst st) -> foldM (fun '(x_max, i_max) index => p <- idx ps index ;; Ok (if (x2 p >? x_max)%num then (x2 p, index) else (x_max, i_max))) st (Prelude.range s e) = Ok (x, m) ->
  num64 x /\ foldM (fun '(x_max, i_max) index => p <- idx (map val2 ps) index ;; Ok (if (x2 p >? x_max)%num then (x2 p, index) else (x_max, i_max))) (val (fst st), snd st) (Prelude.range s e) = Ok (val x, m).
Proof.
  generalize (Prelude.range s e). intros l. induction l as [|i l IH]; intros [y k] x m Hy; cbn [fst snd] in *.
  - cbn [foldM]. intros E. injection E as <- <-. auto.
  - cbn [foldM]. unfold idx. rewrite nth_error_map. destruct (nth_error ps i) as [p|] eqn:Ei; cbn [obind option_map]; [|discriminate].
    pose proof (HX p (nth_error_In _ _ Ei)) as Hp. change (x2 p >? y)%num with (fltb y (x2 p)). change (x2 (val2 p) >? val y)%num with (Rltb (val y) (val (x2 p))). rewrite <- (ltb_val _ _ Hy Hp).
    destruct (fltb y (x2 p)); intros E; [exact (IH (x2 p, i) x m Hp E)|exact (IH (y, k) x m Hy E)].
Qed.
Lemma max_x_val s e x m : max_x ps s e = Ok (x, m) -> num64 x /\ max_x (map val2 ps) s e = Ok (val x, m).
Proof. intros E. destruct minval_val as [N V]. destruct (max_x_num s e (fminval, 0%nat) x m N E) as [H1 H2]. split; [exact H1|]. unfold max_x. rewrite <- V. exact H2. Qed.
Lemma isort_map {A B} (g : A -> B) la lb l : (forall a b, In a l -> In b l -> lb (g a) (g b) = la a b) -> isort lb (map g l) = map g (isort la l).
Proof.
  induction l as [|x l IH]; intros H; [reflexivity|]. cbn [map isort]. rewrite IH by (intros; apply H; now right).
  assert (K : forall y, In y (isort la l) -> lb (g y) (g x) = la y x) by (intros y I; apply H; [right; exact (Permutation_in _ (isort_perm _ _) I)|now left]). revert K. generalize (isort la l). clear.
  induction l as [|y l IH]; intros K; [reflexivity|]. cbn [map isort_insert]. rewrite K by now left. destruct (la y x); [|reflexivity]. cbn [map]. f_equal. apply IH. intros z I. apply K. now right.
Qed.
(** the loop chosen in doubles reaches furthest right *)
Lemma outer64 offs : loops_ok ps offs -> exists so eo hs l, merge_polygons ps offs = Ok l /\ Permutation ((so, eo) :: hs) (pairs offs) /\ merged (computed_splice ps) (seq so (eo - so)) hs l /\
  exists i, (so <= i < eo)%nat /\ forall s e j, In (s, e) (pairs offs) -> (s <= j < e)%nat -> x2 (pt (map val2 ps) j) <= x2 (pt (map val2 ps) i).
Proof.
  intros H. pose proof H as [Hne HF]. destruct (merge_structure ps offs H) as (L & so & eo & mo & xo & rest & l & M1 & M2 & ER & Em & Hm).
  assert (PL : Permutation ((so, eo, mo, xo) :: rest) L) by (rewrite <- ER, <- Permutation_rev; apply isort_perm).
  assert (PE : Permutation ((so, eo) :: map ends rest) (pairs offs)) by (rewrite <- M1; change ((so, eo) :: map ends rest) with (map ends ((so, eo, mo, xo) :: rest)); now apply Permutation_map).
  exists so, eo, (map ends rest), l. split; [exact Em|]. split; [exact PE|]. split; [exact Hm|].
  set (g := fun '(s, e, m, x) => (s, e, m, val x) : nat * nat * nat * R). rewrite Forall_forall in M2.
  assert (NL : forall a, In a L -> num64 (snd a)) by (intros [[[s e] m] x] I; destruct (M2 _ I) as (_ & _ & E); exact (proj1 (max_x_val _ _ _ _ E))).
  assert (ER' : rev (isort (fun a b : nat * nat * nat * R => Rltb (snd a) (snd b)) (map g L)) = g (so, eo, mo, xo) :: map g rest).
  { rewrite (isort_map g (fun a b : nat * nat * nat * f64 => fltb (snd a) (snd b))); [rewrite <- map_rev; exact (f_equal (map g) ER)|].
    intros a b Ia Ib. transitivity (Rltb (val (snd a)) (val (snd b))); [destruct a as [[[? ?] ?] ?], b as [[[? ?] ?] ?]; reflexivity|]. symmetry. apply ltb_val; now apply NL. }
  pose proof (sorted_last (snd : nat * nat * nat * R -> R) _ _ _ (isort_max snd (map g L)) ER') as SO. rewrite Forall_forall in SO.
  assert (FV : forall s e, In (s, e) (pairs offs) -> (s < e <= length (map val2 ps))%nat /\ fminval < x2 (pt (map val2 ps) s)).
  { intros s e I. rewrite Forall_forall in HF. specialize (HF _ I). cbn beta iota in HF. destruct HF as (Hs & p & Ep & Hp). rewrite map_length. split; [exact Hs|]. assert (Ept : pt (map val2 ps) s = val2 p) by (unfold pt; apply nth_error_nth; rewrite nth_error_map, Ep; reflexivity). rewrite Ept.
    destruct minval_val as [N V]. rewrite <- V. cbn [val2 x2]. apply Rltb_true. rewrite <- (ltb_val _ _ N (HX _ (nth_error_In _ _ Ep))). exact Hp. }
  assert (Io : In (so, eo, mo, xo) L) by (apply (Permutation_in _ PL); now left). destruct (M2 _ Io) as (_ & Hmo & Exo). apply max_x_val in Exo as [_ Exo].
  destruct (FV so eo (Permutation_in _ PE (or_introl eq_refl))) as [Fo1 Fo2]. destruct (max_x_R _ so eo (val xo) mo Fo1 Fo2 Exo) as [Q1 Q2].
  exists mo. split; [exact Hmo|]. intros s e j I Hj. rewrite Q2. destruct (FV s e I) as [F1 F2]. apply (Permutation_in _ (Permutation_sym PE)) in I. destruct I as [I|I]; [injection I as <- <-; now apply Q1|].
  apply in_map_iff in I as ([[[s' e'] m'] x'] & Ee & I). cbn [ends] in Ee. injection Ee as -> ->. assert (IL : In (s, e, m', x') L) by (apply (Permutation_in _ PL); now right).
  destruct (M2 _ IL) as (_ & _ & Ex). apply max_x_val in Ex as [_ Ex]. destruct (max_x_R _ s e (val x') m' F1 F2 Ex) as [Q3 _].
  specialize (SO (g (s, e, m', x')) (in_map g _ _ I)). cbn [g snd] in SO. specialize (Q3 j Hj). lra.
Qed.
End Outer64.

(** ** The same concave corners *)
Lemma flat_concave M (s : Plane f64) vs : clear_face M s vs -> (3 <= length vs)%nat -> forall l, find_concave_vertices (map (plane_project s) vs) l = find_concave_vertices (exact_flat s vs) l.
Proof.
  intros HC H3 l. set (ps := map (plane_project s) vs). set (rs := exact_flat s vs). destruct (cf_len s vs) as [Lr Lp]. fold ps rs in Lr, Lp.
  pose proof (flat_clear M s vs HC H3) as FC. fold ps in FC.
  assert (ND : NoDup ps) by (apply (clear_nodup (7 * M) ps rs FC); lia).
  destruct (same_place p64_dec ps rs ND) as (f & E); [congruence|destruct rs; [cbn in Lr; lia|discriminate]|].
  assert (P : forall i, (i < length ps)%nat -> f (nth i ps (V2 f0 f0)) = pt rs i).
  { intros i Hi. rewrite <- E. unfold pt. rewrite (nth_indep _ _ (f (V2 f0 f0))) by (rewrite map_length; exact Hi). symmetry. apply map_nth. }
  rewrite <- E. symmetry. apply find_concave_transfer. intros a b c Ha Hb Hc. pose proof FC as (HM7 & HB & _).
  rewrite <- (convexity_clear (7 * M) HM7 a b c) by (auto; now apply (clear_triples (7 * M) ps)). apply (In_nth _ _ (V2 f0 f0)) in Ha, Hb, Hc. destruct Ha as (i & Hi & <-), Hb as (j & Hj & <-), Hc as (k & Hk & <-).
  rewrite !P, <- !val2_pt by assumption. apply convexity_same. revert i j k Hi Hj Hk. apply same_all. rewrite Lp. intros i j k Hi Hj Hk N1 N2 N3.
  destruct (cf_small M s vs HC) as [Q _]. pose proof (cf_wide M s vs HC H3 i j k Hi Hj Hk N1 N2 N3) as W. pose proof (cf_close M s vs HC i j k Hi Hj Hk) as K. fold rs in W, K. fold ps in K.
  set (a := tri_area2 (pt (map val2 ps) i) _ _) in *. set (b := tri_area2 (pt rs i) _ _) in *. pose proof TOL_pos. apply Rabs_le_inv in K. right.
  destruct (Rle_lt_dec 0 b); [left; rewrite Rabs_right in W by lra|right; rewrite Rabs_left in W by lra]; lra.
Qed.

(** ** C70 in doubles *)
Definition val_loops (loops : list (list (vec3 f64))) : list (list (vec3 R)) := map (map val3) loops.
(** loop [k] is the outer one, by a margin: it reaches further right than any other; the others go round clockwise *)
Definition outer_loop64 (M : R) (s : Plane f64) (loops : list (list (vec3 f64))) (k : nat) : Prop :=
  forall j p, j <> k -> nth_error loops j = Some p -> area2 (exact_flat s p) < 0 /\
    exists a, In a (nth k loops []) /\ forall b, In b p -> x2 (plane_project (val_plane s) (val3 b)) + pow2 (-47) * M < x2 (plane_project (val_plane s) (val3 a)).
Lemma ends_map {A B} (g : A -> B) loops : forall n, ends_from n (map (map g) loops) = ends_from n loops.
Proof. induction loops as [|p ls IH]; intros n; [reflexivity|]. cbn [map ends_from]. rewrite map_length. destruct p as [|x p]; [exact (IH n)|]. cbn [map nonempty]. now rewrite IH. Qed.
Lemma eps_47 : pow2 (-47) = 64 * eps.
Proof. rewrite <- eps_pow2. replace 64 with (pow2 6) by (rewrite <- pow2_Z by lia; reflexivity). rewrite <- pow2_add. reflexivity. Qed.
Theorem C70_face64 (s : Plane f64) fuel rnd bounds loops k l M : proper_loops fuel rnd bounds loops -> (2 <= length loops)%nat ->
  let vs := concat loops in let rs := exact_flat s vs in clear_face M s vs -> outer_loop64 M s loops k -> 0 < sumR (fun p => area2 (exact_flat s p)) loops ->
  merge_polygons (map (plane_project s) vs) (0 :: ends_from 0 loops)%nat = Ok l -> at_most_twice l -> simple_polygon (poly rs l) -> repeats_turn_left rs l ->
  exists T, let m := mkTM vs [] (emit T) in plane_trim s fuel rnd bounds = Ok m /\ length T = (length vs + 2 * length loops - 4)%nat /\
    Forall (fun '(a, b, c) => cyc_triple l a b c /\ 0 < tri_area2 (pt rs a) (pt rs b) (pt rs c)) T /\
    total_area2 rs T = sumR (fun p => area2 (exact_flat s p)) loops /\
    (forall q, off_all_lines rs T q -> sumR (fun p => winding (exact_flat s p) q) loops = INR (covers rs T q) /\ (covers rs T q <= 1)%nat) /\
    forall p q, net (mesh_edges (val_mesh m)) p q = net (flat_map border (val_loops loops)) p q.
Proof.
  intros HL H2 vs rs HC HO HA EM HT2 HS HT. set (ps := map (plane_project s) vs) in *. destruct (cf_len s vs) as [Lr Lp]. fold rs in Lr. fold ps in Lp.
  assert (EF : filter nonempty loops = loops) by (apply filter_all; intros p; exact (proper_nonempty _ _ _ _ p HL)).
  assert (EV : concat (val_loops loops) = map val3 vs) by (unfold val_loops, vs; now rewrite concat_map).
  assert (EFv : filter nonempty (val_loops loops) = val_loops loops).
  { apply filter_all. intros p I. apply in_map_iff in I as (q & <- & I). rewrite <- EF in I. apply filter_In in I as [_ I]. now destruct q. }
  assert (EO : (0 :: ends_from 0 (val_loops loops) = 0 :: ends_from 0 loops)%nat) by (unfold val_loops; now rewrite ends_map).
  pose proof (ends_delimit [] loops) as HD. cbn [length app] in HD. fold vs in HD. rewrite EF in HD. set (offs := (0 :: ends_from 0 loops)%nat) in *. pose proof (F2_length _ _ _ HD) as LP.
  assert (RG : Forall (fun r : nat * nat => (fst r < snd r <= length vs)%nat) (pairs offs)) by (eapply occupies_ranges; exact HD).
  assert (NX : forall p, In p ps -> num64 (x2 p)). { intros p I. apply in_map_iff in I as (v & <- & Iv). apply (In_nth _ _ vzero) in Iv as (i & Hi & <-). apply (cf_project M s vs HC i Hi). }
  assert (H3 : (3 <= length vs)%nat).
  { destruct loops as [|p0 [|p1 ls]]; cbn [length] in H2; try lia. assert (X : exists p, In p [p0; p1] /\ area2 (exact_flat s p) < 0).
    { destruct (Nat.eq_dec k 0) as [->|N]; [exists p1; split; [cbn; auto|apply (HO 1%nat p1); auto]|exists p0; split; [cbn; auto|apply (HO 0%nat p0); auto]]. }
    destruct X as (p & I & Ap). assert (L3 : (3 <= length p)%nat).
    { destruct p as [|a [|b [|c p]]]; [| | |cbn; lia]; exfalso; revert Ap; unfold exact_flat, area2, cyc, chain, cross2; cbn; lra. }
    unfold vs. cbn [concat]. rewrite !app_length. cbn [In] in I. destruct I as [<-|[<-|[]]]; lia. }
  assert (HN : (N.of_nat (length vs) < 2 ^ 32)%N) by (destruct HC as (_ & _ & _ & _ & _ & HN & _); lia).
  pose proof (cf_M M s vs HC) as [M1 M2]. destruct (cf_small M s vs HC) as [SM1 SM2]. pose proof TOL_pos as TP.
  assert (LO : loops_ok ps offs).
  { split; [intros E; rewrite E in LP; cbn in LP; lia|]. eapply Forall_impl; [|exact RG]. intros [a b] Hab. cbn [fst snd] in Hab. rewrite Lp. split; [exact Hab|].
    destruct (nth_error ps a) as [p|] eqn:Ea; [|apply nth_error_None in Ea; lia]. exists p. split; [reflexivity|]. destruct minval_val as [N V].
    pose proof (flat_clear M s vs HC H3) as (M7 & HB & _). fold ps in HB. specialize (HB p (nth_error_In _ _ Ea)). destruct HB as (B1 & _ & B2 & _). transitivity (Rltb (@fminval R RNum) (val (x2 p))); [rewrite <- V; exact (ltb_val _ _ N B1)|]. apply Rltb_true.
    change (@fminval R RNum) with (- RMAX). apply Rabs_le_inv in B2. assert (pow2 500 < RMAX) by (unfold RMAX; rewrite <- pow2_Z by lia; apply IZR_lt; reflexivity). lra. }
  destruct (outer64 ps NX offs LO) as (so & eo & hs & l' & EM' & PH & HM & io & Hio & Hmax).
  assert (l' = l) as -> by (apply Ok_inj; now rewrite <- EM').
  assert (Io : In (so, eo) (pairs offs)) by (apply (Permutation_in _ PH); now left).
  destruct (F2_nth _ _ _ _ HD Io) as (j0 & p0 & Ej0 & Ep0 & Hp0).
  assert (XE : forall i, (i < length vs)%nat -> Rabs (x2 (pt (map val2 ps) i) - x2 (pt rs i)) <= 32 * (eps * M)).
  { intros i Hi. pose proof (cf_val s vs i Hi) as E. fold ps in E. rewrite E. apply (cf_project M s vs HC i Hi). }
  assert (LPt : forall r p, occupies vs r p -> (snd r <= length vs)%nat /\ map (pt rs) (seq (fst r) (snd r - fst r)) = map (fun v => plane_project (val_plane s) (val3 v)) p).
  { intros r p H. split; [apply H|]. rewrite <- (map_map val3). apply (occupies_loop (val_plane s) (map val3 vs)). destruct H as [H1 H4]. split; [now rewrite map_length|]. rewrite skipn_map, firstn_map. now rewrite H4. }
  assert (IN : forall r p a, occupies vs r p -> In a p -> exists i, (fst r <= i < snd r)%nat /\ pt rs i = plane_project (val_plane s) (val3 a) /\ (i < length vs)%nat).
  { intros r p a H I. destruct (LPt r p H) as [Lr' E]. apply (in_map (fun v => plane_project (val_plane s) (val3 v))) in I. rewrite <- E in I. apply in_map_iff in I as (i & Ei & I). apply in_seq in I. exists i. split; [lia|]. split; [exact Ei|lia]. }
  assert (IN' : forall r p i, occupies vs r p -> (fst r <= i < snd r)%nat -> exists a, In a p /\ pt rs i = plane_project (val_plane s) (val3 a) /\ (i < length vs)%nat).
  { intros r p i H Hi. destruct (LPt r p H) as [Lr' E]. assert (I : In (pt rs i) (map (fun v => plane_project (val_plane s) (val3 v)) p)) by (rewrite <- E; apply in_map, in_seq; lia).
    apply in_map_iff in I as (a & Ea & I). exists a. split; [exact I|]. split; [now symmetry|lia]. }
  assert (E0 : j0 = k).
  { destruct (Nat.eq_dec j0 k) as [E|N]; [exact E|]. exfalso. destruct (HO j0 p0 N Ep0) as (_ & c & Ic & Hc).
    destruct (nth_error loops k) as [pk|] eqn:Ek; [|apply nth_error_None in Ek; rewrite nth_overflow in Ic by exact Ek; destruct Ic].
    rewrite (nth_error_nth _ _ _ Ek) in Ic. destruct (F2_nth_r _ _ _ _ _ HD Ek) as ([sk ek] & Erk & Hk). destruct (IN _ _ _ Hk Ic) as (i & Hi & Ei & Li).
    destruct (IN' _ _ io Hp0 Hio) as (b' & Ib' & Eb' & Lb'). specialize (Hc b' Ib'). pose proof (Hmax sk ek i (nth_error_In _ _ Erk) Hi) as K. rewrite <- Ei, <- Eb', eps_47 in Hc.
    pose proof (XE i Li) as X1. pose proof (XE io Lb') as X2. apply Rabs_le_inv in X1, X2. lra. }
  subst j0.
  assert (ER : map (plane_project (val_plane s)) (concat (val_loops loops)) = rs) by (rewrite EV; reflexivity).
  assert (SF : forall f : list (vec2 R) -> R, sumR (fun p => f (map (plane_project (val_plane s)) p)) (val_loops loops) = sumR (fun p => f (exact_flat s p)) loops) by (intros f; unfold val_loops; rewrite sumR_map; reflexivity).
  destruct (holes_core (computed_splice ps) (val_plane s) (val_loops loops) k l so eo hs EFv) as (conc & T & E1 & E2 & LT & FT & AT & CT & NT).
  - unfold val_loops. now rewrite map_length.
  - rewrite EV, map_length. exact HN.
  - rewrite ER. intros i j m Hi Hj Hm N1 N2 N3. rewrite Lr in *. pose proof (cf_wide M s vs HC H3 i j m Hi Hj Hm N1 N2 N3). fold rs in H. lra.
  - intros j p Nj Ep. unfold val_loops in Ep. rewrite nth_error_map in Ep. destruct (nth_error loops j) as [p'|] eqn:Ep'; [|discriminate]. injection Ep as <-. apply (HO j p' Nj Ep').
  - rewrite SF. exact HA.
  - rewrite EO. exact PH.
  - rewrite EO. exact Ej0.
  - exact HM.
  - exact HT2.
  - rewrite ER. exact HS.
  - rewrite ER. exact HT.
  - cbv zeta in *. rewrite ER in *. rewrite EV in LT, NT. rewrite map_length in LT. unfold val_loops in LT. rewrite map_length in LT. exists T.
    split; [|split; [exact LT|split; [exact FT|split; [rewrite AT; apply SF|split; [|exact NT]]]]].
    + apply (trim_several s fuel rnd bounds loops l conc (emit T) HL H2 EF EM); [fold vs; rewrite (flat_concave M s vs HC H3); exact E1|fold vs; rewrite (proj2 (flat_same M s vs HC H3)); exact E2].
    + intros q Hq. rewrite <- (SF (fun r => winding r q)). apply CT. exact Hq.
Qed.

(** ** Solids whose faces may have holes *)
Record LFace64 := { lf_plane : Plane f64; lf_fuel : nat; lf_rnd : nat -> nat -> list bool -> f64; lf_bounds : list (list (CurveSegment f64)); lf_loops : list (list (vec3 f64)) }.
Definition lf_mesh (f : LFace64) : outcome (TriangleMesh f64) := plane_trim (lf_plane f) (lf_fuel f) (lf_rnd f) (lf_bounds f).
Definition lf_border (f : LFace64) : list edge3 := flat_map border (val_loops (lf_loops f)).
(** one loop: simple, counter-clockwise; several: as in [C70_face64] *)
Definition lface64_ok (f : LFace64) : Prop := let s := lf_plane f in let vs := concat (lf_loops f) in let rs := exact_flat s vs in
  proper_loops (lf_fuel f) (lf_rnd f) (lf_bounds f) (lf_loops f) /\ exists M, clear_face M s vs /\
  ((length (lf_loops f) = 1%nat /\ (3 <= length vs)%nat /\ simple_polygon rs /\ 0 < area2 rs) \/
   (2 <= length (lf_loops f))%nat /\ 0 < sumR (fun p => area2 (exact_flat s p)) (lf_loops f) /\
     exists k l, outer_loop64 M s (lf_loops f) k /\ merge_polygons (map (plane_project s) vs) (0 :: ends_from 0 (lf_loops f))%nat = Ok l /\ at_most_twice l /\ simple_polygon (poly rs l) /\ repeats_turn_left rs l).
Lemma face_net (s : Plane f64) fuel rnd bounds vs M : proper_loops fuel rnd bounds [vs] -> clear_face M s vs -> (3 <= length vs)%nat -> simple_polygon (exact_flat s vs) -> 0 < area2 (exact_flat s vs) ->
  exists m, plane_trim s fuel rnd bounds = Ok m /\ forall p q, net (mesh_edges (val_mesh m)) p q = net (border (map val3 vs)) p q.
Proof.
  intros HL HC H3 HS HA. destruct (C66_face s fuel rnd bounds vs M HL HC H3 HS HA) as (m & extra & L & E & EV & _ & ET & C & F & _ & X & _). cbv zeta in F.
  exists m. split; [exact E|]. assert (LV : (length (m_vertices m) <= length vs + 1)%nat). { rewrite EV, app_length. destruct C as [(_ & _ & c & -> & _)|(_ & _ & ->)]; cbn; lia. }
  rewrite Forall_forall in F. unfold exact_flat in F. rewrite !map_length in F. destruct HC as (_ & _ & _ & _ & _ & HN & _).
  assert (Small : forall i, In i L -> let '(a, b, c) := i in (N.of_nat a < 2 ^ 32)%N /\ (N.of_nat b < 2 ^ 32)%N /\ (N.of_nat c < 2 ^ 32)%N).
  { intros [[a b] c] I. destruct (F _ I) as (Ha & Hb & Hc & _). lia. }
  set (V := map val3 (m_vertices m)). assert (ETr : mesh_tris (val_mesh m) = map (fun '(a, b, c) => (nth a V (V3 0 0 0), nth b V (V3 0 0 0), nth c V (V3 0 0 0))) L) by (unfold mesh_tris, val_mesh; cbn [m_vertices m_triangles]; fold V; rewrite ET; now apply emit_tris).
  intros p q. apply eq_IZR. rewrite !net_flow, border_sum. unfold mesh_edges. rewrite ETr, tris_sum. rewrite X by (intros a b; apply flow_antisym). rewrite <- (cyc_map (fun i => nth i V (V3 0 0 0))). f_equal.
  unfold V. rewrite EV, map_app. rewrite <- (map_length val3 vs). apply seq_nth_self.
Qed.
Lemma lface64_mesh f : lface64_ok f -> exists m, lf_mesh f = Ok m /\ forall p q, net (mesh_edges (val_mesh m)) p q = net (lf_border f) p q.
Proof.
  destruct f as [s fuel rnd bounds loops]. unfold lface64_ok, lf_mesh, lf_border. cbn [lf_plane lf_fuel lf_rnd lf_bounds lf_loops]. intros (HL & M & HC & [(H1 & H3 & HS & HA)|(H2 & HA & k & l & HO & EM & HT & HS & HR)]).
  - destruct loops as [|vs [|]]; cbn [length] in H1; try lia. cbn [concat] in *. rewrite app_nil_r in *. destruct (face_net s fuel rnd bounds vs M HL HC H3 HS HA) as (m & E & K). exists m. split; [exact E|].
    intros p q. cbn [val_loops map flat_map]. rewrite app_nil_r. apply K.
  - destruct (C70_face64 s fuel rnd bounds loops k l M HL H2 HC HO HA EM HT HS HR) as (T & E & _ & _ & _ & _ & K). eexists. split; [exact E|]. exact K.
Qed.
(** C70: solids in doubles whose faces may have holes; if the edges of all loops cancel, so do those of all triangles. *)
Theorem C70_watertight64 (fs : list LFace64) : Forall lface64_ok fs -> exists ms, mapM lf_mesh fs = Ok ms /\
  (forall p q, net (flat_map mesh_edges (map val_mesh ms)) p q = net (flat_map lf_border fs) p q) /\
  (closed_edges (flat_map lf_border fs) -> closed_edges (flat_map mesh_edges (map val_mesh ms))).
Proof.
  intros H. assert (K : exists ms, mapM lf_mesh fs = Ok ms /\ forall p q, net (flat_map mesh_edges (map val_mesh ms)) p q = net (flat_map lf_border fs) p q).
  { induction H as [|f fs Hf _ (ms & E & IH)]; [exists []; split; reflexivity|]. destruct (lface64_mesh f Hf) as (m & Em & HE). exists (m :: ms). cbn [mapM]. rewrite Em. cbn [obind]. rewrite E. cbn [obind]. split; [reflexivity|].
    intros p q. cbn [flat_map map]. now rewrite !net_app, IH, HE. }
  destruct K as (ms & E & K). exists ms. split; [exact E|]. split; [exact K|]. intros HC p q. rewrite K. apply HC.
Qed.

(** ** A box with a rectangular hole through it *)
Definition lface (o u v : Z3) (ls : list (list Z3)) : LFace64 :=
  {| lf_plane := box64 o u v; lf_fuel := 1; lf_rnd := fun _ _ _ => f0; lf_bounds := map (fun l => sides64 (map z64 l)) ls; lf_loops := map (map z64) ls |}.
Definition zleft (zs : list (Z * Z)) (l : list nat) : bool := let n := length l in
  forallb (fun i => forallb (fun j => (i =? j)%nat || negb (nth i l 0 =? nth j l 0)%nat ||
    (0 <? zarea (Props_lattice.zpt zs (nth ((i + n - 1) mod n) l 0%nat)) (Props_lattice.zpt zs (nth i l 0%nat)) (Props_lattice.zpt zs (nth ((i + 1) mod n) l 0%nat)))%Z) (seq 0 n)) (seq 0 n).
Definition ztwice (l : list nat) : bool := forallb (fun x => (count_occ Nat.eq_dec l x <=? 2)%nat) l.
Definition zouter (zl : list (list (Z * Z))) (k : nat) : bool := forallb (fun j => (j =? k)%nat ||
    (match nth_error zl j with Some p => (zarea2 p <? 0)%Z && existsb (fun a => forallb (fun b => (fst b <? fst a)%Z) p) (nth k zl []) | None => false end)) (seq 0 (length zl)).
Lemma zsimple_ok zs : Props_plane64.zsimple zs = true -> simple_polygon (map rz zs).
Proof.
  intros HS. unfold simple_polygon, segments_cross. rewrite map_length. intros i j Hi Hj [K1 K2]. unfold zsimple in HS. rewrite forallb_forall in HS. specialize (HS i ltac:(apply in_seq; lia)). rewrite forallb_forall in HS. specialize (HS j ltac:(apply in_seq; lia)). cbv zeta in HS.
  rewrite !pt_rz, !rz_area, <- !mult_IZR in K1, K2. apply lt_IZR in K1, K2. apply negb_true_iff, andb_false_iff in HS. rewrite !Z.ltb_ge in HS. lia.
Qed.
Lemma zarea2_ok p : area2 (map rz p) = IZR (zarea2 p).
Proof.
  destruct p as [|a p]; [reflexivity|]. unfold area2, zarea2, zedges. cbn [map cyc app firstn].
  assert (G : forall q x, chain cross2 (map rz (x :: q)) = IZR (fold_right Z.add 0%Z (map (fun '(a, b) => ztri (0, 0)%Z a b) (pairs (x :: q))))).
  { induction q as [|y q IH]; intros x; [reflexivity|]. change (pairs (x :: y :: q)) with ((x, y) :: pairs (y :: q)). cbn [map fold_right]. rewrite plus_IZR, <- IH. cbn [map chain]. f_equal. unfold cross2, rz, ztri. cbn [x2 y2 fst snd]. rewrite minus_IZR, !mult_IZR, !minus_IZR. lra. }
  specialize (G (p ++ [a]) a). cbn [app] in G. rewrite <- G. unfold cyc. cbn [map]. rewrite map_app. reflexivity.
Qed.
Lemma lface_checked o u v ls k l : let cs := concat ls in let zs := zflat o u v cs in
  (zbound 16 o && zbound 1 u && zbound 1 v && forallb (zbound 16) cs && (length cs <=? 100)%nat && forallb nonempty ls)%bool = true -> Props_plane64.zgeneral zs = true ->
  Forall (fun c => to_polygon (NF := F64Num) 1 (fun _ _ => f0) (sides64 (map z64 c)) = Ok (map z64 c)) ls ->
  ((length ls =? 1)%nat && (3 <=? length cs)%nat && Props_plane64.zsimple zs && (0 <? zarea2 zs)%Z = true \/
   merge_polygons (NF := F64Num) (map (plane_project (box64 o u v)) (map z64 cs)) (0%nat :: ends_from 0 ls) = Ok l /\
   (2 <=? length ls)%nat && (0 <? fold_right Z.add 0 (map (fun c => zarea2 (zflat o u v c)) ls))%Z && zouter (map (zflat o u v) ls) k && ztwice l && Props_plane64.zsimple (map (Props_lattice.zpt zs) l) && zleft zs l = true) ->
  lface64_ok (lface o u v ls).
Proof.
  intros cs zs H1 HG HP HX. rewrite !andb_true_iff, Nat.leb_le in H1. destruct H1 as [[[[[Ho Hu] Hv] Hl] H100] HE].
  destruct (z64_bounded 16 o ltac:(lia) Ho) as [Bo Eo]. destruct (z64_bounded 1 u ltac:(lia) Hu) as [Bu Eu]. destruct (z64_bounded 1 v ltac:(lia) Hv) as [Bv Ev].
  assert (Bl : forall p, In p cs -> bounded3 16 (z64 p) /\ val3 (z64 p) = r3 p) by (intros p I; apply z64_bounded; [lia|]; rewrite forallb_forall in Hl; now apply Hl).
  assert (PF : forall p, In p cs -> plane_project (val_plane (box64 o u v)) (val3 (z64 p)) = rz (zdot3 (zsub3 p o) u, zdot3 (zsub3 p o) v)).
  { intros p I. rewrite (proj2 (Bl p I)). unfold plane_project, val_plane, box64. cbn [p_origin p_u_axis p_v_axis]. rewrite Eo, Eu, Ev.
    destruct p as [[p1 p2] p3], o as [[o1 o2] o3], u as [[u1 u2] u3], v as [[v1 v2] v3]. unfold r3, rz, zdot3, zsub3, dot3. vsimp. cbn [x3 y3 z3 fst snd]. rnum. rewrite !plus_IZR, !mult_IZR, !minus_IZR. reflexivity. }
  assert (EF : forall c, incl c cs -> exact_flat (box64 o u v) (map z64 c) = map rz (zflat o u v c)).
  { intros c Hc. unfold exact_flat, zflat. rewrite !map_map. apply map_ext_in. intros p I. apply PF, Hc, I. }
  assert (IC : forall c, In c ls -> incl c cs) by (intros c I x Ix; apply in_concat; now exists c).
  assert (Ln : length zs = length cs) by apply map_length.
  assert (EC : concat (map (map z64) ls) = map z64 cs) by (unfold cs; now rewrite concat_map).
  assert (AS : sumR (fun p => area2 (exact_flat (box64 o u v) p)) (map (map z64) ls) = IZR (fold_right Z.add 0%Z (map (fun c => zarea2 (zflat o u v c)) ls))).
  { rewrite sumR_map. unfold sumR. clear - EF IC. assert (K : forall c, In c ls -> area2 (exact_flat (box64 o u v) (map z64 c)) = IZR (zarea2 (zflat o u v c))) by (intros c I; rewrite EF by (now apply IC); apply zarea2_ok).
    clear - K. induction ls as [|c ls IH]; [reflexivity|]. cbn [map fold_right]. rewrite plus_IZR, <- IH by (intros; apply K; now right). f_equal. apply K. now left. }
  unfold lface64_ok. cbn [lface lf_plane lf_fuel lf_rnd lf_bounds lf_loops]. rewrite EC, EF by apply incl_refl. fold zs. rewrite !map_length. split; [|exists 16; split].
  - exists (map (map z64) ls). split; [|apply filter_all; intros p I; apply in_map_iff in I as (c & <- & I); rewrite forallb_forall in HE; specialize (HE c I); now destruct c].
    split; [now rewrite !map_length|]. intros i b p. rewrite !nth_error_map. destruct (nth_error ls i) as [c|] eqn:Ei; cbn [option_map]; [|discriminate]. intros E1 E2. injection E1 as <-. injection E2 as <-. rewrite Forall_forall in HP. apply HP. eapply nth_error_In. exact Ei.
  - split; [split; [lra|]|]. { apply Rle_trans with (pow2 4); [rewrite <- pow2_Z by lia; cbn; lra|apply pow2_le; lia]. }
    split; [intros p I; apply in_map_iff in I as (q & <- & Iq); now apply Bl|]. split; [exact Bo|]. split; [exact Bu|]. split; [exact Bv|]. rewrite map_length. split; [lia|].
    cbv zeta. rewrite EF by apply incl_refl. fold zs. intros i j m Hi Hj Hm N1 N2 N3. unfold Props_plane64.zgeneral in HG. rewrite forallb_forall in HG. rewrite Ln in HG. specialize (HG i ltac:(apply in_seq; lia)). rewrite forallb_forall in HG. specialize (HG j ltac:(apply in_seq; lia)). rewrite forallb_forall in HG. specialize (HG m ltac:(apply in_seq; lia)).
    apply Nat.eqb_neq in N1, N2, N3. rewrite N1, N2, N3 in HG. cbn [orb] in HG. apply negb_true_iff, Z.eqb_neq in HG. rewrite !pt_rz, rz_area, <- abs_IZR.
    assert (B : 1 <= IZR (Z.abs (zarea (Props_lattice.zpt zs i) (Props_lattice.zpt zs j) (Props_lattice.zpt zs m)))) by (apply IZR_le; lia). assert (LN : INR (length cs) <= 100) by (rewrite INR_IZR_INZ; apply IZR_le; lia). pose proof (pos_INR (length cs)).
    rewrite eps_13. assert (INR (length cs) * (8192 * eps * (16 * 16)) <= 100 * (8192 * eps * (16 * 16))) by (apply Rmult_le_compat_r; [unfold eps; lra|exact LN]). unfold eps, TOL in *. lra.
  - destruct HX as [HX|[EM HX]]; rewrite !andb_true_iff in HX.
    + destruct HX as [[[X1 X2] X3] X4]. apply Nat.eqb_eq in X1. apply Nat.leb_le in X2. apply Z.ltb_lt in X4. left. split; [exact X1|]. split; [exact X2|]. split; [now apply zsimple_ok|]. rewrite zarea2_ok. now apply IZR_lt.
    + destruct HX as [[[[[X1 X2] X3] X4] X5] X6]. apply Nat.leb_le in X1. apply Z.ltb_lt in X2. right. split; [exact X1|]. split; [rewrite AS; now apply IZR_lt|]. exists k, l. split; [|split; [|split; [|split]]].
      * intros j p Nj Ep. rewrite nth_error_map in Ep. destruct (nth_error ls j) as [c|] eqn:Ej; [|discriminate]. injection Ep as <-. pose proof (nth_error_In _ _ Ej) as Ic. unfold zouter in X3. rewrite forallb_forall in X3. rewrite map_length in X3.
        assert (Lj : (j < length ls)%nat) by (apply nth_error_Some; congruence). specialize (X3 j ltac:(apply in_seq; lia)). apply Nat.eqb_neq in Nj. rewrite Nj, nth_error_map, Ej in X3. cbn [orb option_map] in X3. apply andb_true_iff in X3 as [X31 X32].
        split; [rewrite EF, zarea2_ok by (now apply IC); apply IZR_lt; now apply Z.ltb_lt|]. apply existsb_exists in X32 as (a & Ia & Ha). rewrite forallb_forall in Ha.
        change (@nil (Z * Z)) with (zflat o u v []) in Ia. rewrite map_nth in Ia. apply in_map_iff in Ia as (a' & <- & Ia). exists (z64 a'). split; [change (@nil (vec3 f64)) with (map z64 []); rewrite map_nth; now apply in_map|].
        assert (Ick : In a' cs). { apply in_concat. exists (nth k ls []). split; [|exact Ia]. apply nth_In. destruct (Nat.lt_ge_cases k (length ls)) as [|G]; [assumption|]. rewrite nth_overflow in Ia by exact G. destruct Ia. }
        intros b Ib. apply in_map_iff in Ib as (b' & <- & Ib). rewrite !PF by (assumption || (apply (IC c Ic); assumption)). specialize (Ha _ (in_map _ _ _ Ib)). cbn [fst] in Ha. apply Z.ltb_lt in Ha. cbn [rz x2 fst].
        assert (IZR (zdot3 (zsub3 b' o) u) + 1 <= IZR (zdot3 (zsub3 a' o) u)) by (rewrite <- plus_IZR; apply IZR_le; lia). rewrite eps_47. unfold eps. lra.
      * rewrite ends_map. exact EM.
      * intros x. destruct (in_dec Nat.eq_dec x l) as [I|I]; [unfold ztwice in X4; rewrite forallb_forall in X4; apply Nat.leb_le; now apply X4|]. rewrite (proj1 (count_occ_not_In Nat.eq_dec l x) I). lia.
      * replace (poly (map rz zs) l) with (map rz (map (Props_lattice.zpt zs) l)); [now apply zsimple_ok|]. unfold poly. rewrite map_map. apply map_ext. intros i. symmetry. apply pt_rz.
      * intros i j Hi Hj N E. unfold zleft in X6. rewrite forallb_forall in X6. specialize (X6 i ltac:(apply in_seq; lia)). rewrite forallb_forall in X6. specialize (X6 j ltac:(apply in_seq; lia)).
        apply Nat.eqb_neq in N. rewrite N, E, Nat.eqb_refl in X6. cbn [negb orb] in X6. apply Z.ltb_lt in X6. unfold corner_at. rewrite !pt_rz, rz_area. apply IZR_lt. rewrite E. exact X6.
Qed.
Section Frame64.
Open Scope Z_scope.
Let a0 := (0, 0, 0). Let a1 := (10, 0, 0). Let a2 := (10, 10, 0). Let a3 := (0, 10, 0). Let b0 := (0, 0, 2). Let b1 := (10, 0, 2). Let b2 := (10, 10, 2). Let b3 := (0, 10, 2).
Let g0 := (5, 9, 0). Let g1 := (5, 4, 0). Let g2 := (2, 4, 0). Let g3 := (2, 9, 0). Let h0 := (5, 9, 2). Let h1 := (5, 4, 2). Let h2 := (2, 4, 2). Let h3 := (2, 9, 2).
Definition frame64 : list LFace64 :=
  [lface b0 (1, 0, 0) (0, 1, 0) [[b0; b1; b2; b3]; [h0; h1; h2; h3]]; lface a0 (-1, 0, 0) (0, 1, 0) [[a0; a3; a2; a1]; [g3; g2; g1; g0]];
   lface a0 (1, 0, 0) (0, 0, 1) [[a0; a1; b1; b0]]; lface a1 (0, 1, 0) (0, 0, 1) [[a1; a2; b2; b1]]; lface a2 (-1, 0, 0) (0, 0, 1) [[a2; a3; b3; b2]]; lface a3 (0, -1, 0) (0, 0, 1) [[a3; a0; b0; b3]];
   lface g0 (0, -1, 0) (0, 0, 1) [[g0; g1; h1; h0]]; lface g1 (-1, 0, 0) (0, 0, 1) [[g1; g2; h2; h1]]; lface g2 (0, 1, 0) (0, 0, 1) [[g2; g3; h3; h2]]; lface g3 (1, 0, 0) (0, 0, 1) [[g3; g0; h0; h3]]].
Lemma frame64_ok : Forall lface64_ok frame64.
Proof.
  unfold frame64. constructor; [|constructor].
  1, 2: eapply lface_checked with (k := 0%nat); [reflexivity|reflexivity|repeat (constructor; [vm_compute; reflexivity|]); constructor|right; split; [vm_compute; reflexivity|vm_compute; reflexivity]].
  repeat (constructor; [apply lface_checked with (k := 0%nat) (l := []); [reflexivity|reflexivity|repeat (constructor; [vm_compute; reflexivity|]); constructor|left; vm_compute; reflexivity]|]). constructor.
Qed.
Example C70_watertight64_nonvacuous : exists ms, mapM lf_mesh frame64 = Ok ms /\ length ms = 10%nat /\ closed_edges (flat_map mesh_edges (map val_mesh ms)).
Proof.
  destruct (C70_watertight64 frame64 frame64_ok) as (ms & E & _ & K). exists ms. split; [exact E|]. split; [now rewrite (mapM_length _ _ _ E)|]. apply K. intros p q. apply eq_IZR. rewrite net_flow.
  assert (LB : forall o u v ls, lf_border (lface o u v ls) = flat_map (fun l => map (fun '(a, b) => (val3 (z64 a), val3 (z64 b))) (pairs (l ++ firstn 1 l))) ls).
  { intros o u v ls. unfold lf_border, val_loops, lface. cbn [lf_loops]. rewrite map_map, flat_map_concat_map, map_map, flat_map_concat_map. f_equal. apply map_ext. intros l. apply border_map. }
  unfold frame64. cbn [flat_map]. rewrite !LB. unfold esum3, sumR. cbn [flat_map app firstn pairs combine map tl fold_right fst snd].
  assert (A : forall a b, flow p q (val3 (z64 b)) (val3 (z64 a)) = (- flow p q (val3 (z64 a)) (val3 (z64 b)))%R) by (intros; apply flow_antisym).
  pose proof (A a0 a1). pose proof (A a1 a2). pose proof (A a2 a3). pose proof (A a3 a0). pose proof (A b0 b1). pose proof (A b1 b2). pose proof (A b2 b3). pose proof (A b3 b0). pose proof (A a0 b0). pose proof (A a1 b1). pose proof (A a2 b2). pose proof (A a3 b3).
  pose proof (A g0 g1). pose proof (A g1 g2). pose proof (A g2 g3). pose proof (A g3 g0). pose proof (A h0 h1). pose proof (A h1 h2). pose proof (A h2 h3). pose proof (A h3 h0). pose proof (A g0 h0). pose proof (A g1 h1). pose proof (A g2 h2). pose proof (A g3 h3). lra.
Qed.
End Frame64.
