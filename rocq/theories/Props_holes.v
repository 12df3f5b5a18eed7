(** Property C70: faces with holes.  Merging the loops of a face gives one closed sequence of
    vertices that runs through each bridge twice; when its edges do not cross and it turns left
    wherever it comes by a vertex twice, the triangles cut from it tile the face. *)
From Coq Require Import Reals Lra Lia Arith NArith ZArith Permutation Sorted.
From Verif Require Import Prelude Num M_vec M_utils M_curve M_polygon M_meshgen M_surface L_base L_vec L_geom L_cycle L_polygon L_round
  Props_utils Props_polygon Props_ears Props_merge Props_mesh Props_gridmesh Props_round Props_loops Props_knot Props_bspline
  L_simple L_sides L_twoears L_earexist L_clip Props_simple L_drop Props_straight L_grid Props_grid Props_lattice L_convex Props_trim Props_trim3 Props_trim4 L_twoears L_earexist L_clip L_drop L_weak L_wiggle L_bridges Props_solid.
Open Scope R_scope.

(** no vertex is visited more than twice, and the sequence turns left at each visit of a vertex
    that is visited twice *)
Definition at_most_twice (l : list nat) : Prop := forall x, (count_occ Nat.eq_dec l x <= 2)%nat.
Definition repeats_turn_left (ps : list (vec2 R)) (l : list nat) : Prop :=
  forall i j, (i < length l)%nat -> (j < length l)%nat -> i <> j -> nth i l 0%nat = nth j l 0%nat -> 0 < corner_at ps l i.

Lemma corner_at_pos ps l i : (i < length l)%nat ->
  corner_at ps l i = tri_area2 (pt ps (pos_at l (prev_pos (length l) i))) (pt ps (pos_at l i)) (pt ps (pos_at l (next_pos (length l) i))).
Proof. intros Hi. unfold corner_at. rewrite (Nat.add_comm i (length l)), prev_pos_mod, next_pos_mod by exact Hi. reflexivity. Qed.
Lemma pt_poly ps l i : (i < length l)%nat -> pt (poly ps l) i = pt ps (pos_at l i).
Proof. intros Hi. unfold pt at 1, poly. rewrite (nth_indep _ _ (pt ps 0)) by now rewrite map_length. apply map_nth. Qed.
Lemma sublist_mapped {A B} (g : A -> B) l l' : sublist l l' -> sublist (map g l) (map g l').
Proof. induction 1; now constructor. Qed.
Lemma NoDup_map_on {A B} (g : A -> B) l : (forall a b, In a l -> In b l -> g a = g b -> a = b) -> NoDup l -> NoDup (map g l).
Proof.
  intros H ND. induction ND as [|a l Na ND IH]; cbn [map]; constructor.
  - intros I. apply in_map_iff in I as (b & E & I). apply Na. rewrite <- (H b a); [exact I|now right|now left|exact E].
  - apply IH. intros x y Ix Iy. apply H; now right.
Qed.

(** A cycle of bridges and loops as made by merging *)
Section Cycle.
Context (ps : list (vec2 R)) (l L : list nat).
Notation n := (length l).
Notation f := (pos_at l).
Notation wp := (fun a b => cross2 (pt ps a) (pt ps b)).
Context (HV : forall x, In x l -> (x < length ps)%nat) (H3 : (3 <= n)%nat) (HL : labelled wp l L) (HG : general_position ps)
  (HS : simple_polygon (poly ps l)) (HT : repeats_turn_left ps l) (HA : 0 < area2 (poly ps l)).
Notation pe := (wiggle ps f n).
Lemma f_In i : (i < n)%nat -> In (f i) l. Proof. intros Hi. now apply nth_In. Qed.
Lemma c_sep a b c : (a < n)%nat -> (b < n)%nat -> (c < n)%nat -> f a <> f b -> f b <> f c -> f a <> f c -> TOL < Rabs (tri_area2 (pt ps (f a)) (pt ps (f b)) (pt ps (f c))).
Proof. intros Ha Hb Hc N1 N2 N3. apply HG; auto; apply HV, f_In; assumption. Qed.
Lemma c_good : ev (fun e => good (map (pe e) (seq 0 n))).
Proof.
  apply wiggle_good; [exact H3|exact c_sep| | | |].
  - intros i j Hi Hj N E. destruct (copies wp l L HL H3 i j Hi Hj N E) as (x & [[E1 E2]|[E1 E2]]).
    + exact (pos_beside wp l L HL H3 i j x Hi Hj E1 E2).
    + pose proof (pos_beside wp l L HL H3 j i x Hj Hi E1 E2). tauto.
  - intros i j Hi Hj N E. rewrite <- corner_at_pos by exact Hi. now apply (HT i j).
  - intros x z Hx Hz. pose proof (HS x z) as K. assert (LP : length (poly ps l) = n) by apply map_length. rewrite LP in K. specialize (K Hx Hz).
    destruct (pn_lt n x Hx) as [_ Nx]. destruct (pn_lt n z Hz) as [_ Nz].
    rewrite (next_pos_mod n x Hx), (next_pos_mod n z Hz) in K. rewrite (pt_poly ps l x Hx), (pt_poly ps l z Hz), (pt_poly ps l _ Nx), (pt_poly ps l _ Nz) in K. exact K.
  - rewrite <- (map_nth_seq l) in HA. unfold poly in HA. rewrite map_map in HA. exact HA.
Qed.
Lemma c_dpair i j : In i (seq 0 n) -> In j (seq 0 n) -> i <> j -> f i = f j -> dpair ps f (seq 0 n) i j \/ dpair ps f (seq 0 n) j i.
Proof.
  intros Hi Hj N E. apply in_seq in Hi, Hj. cbn [Nat.add] in Hi, Hj.
  assert (D : forall i j x, (i < n)%nat -> (j < n)%nat -> pos_at L i = (2 * x)%nat -> pos_at L j = S (2 * x) -> dpair ps f (seq 0 n) i j).
  { intros a b x Ha Hb E1 E2. destruct (pos_apair wp l L HL H3 a b x Ha Hb E1 E2) as (X & Y & HR & HC). exists X, Y. split; [exact HR|].
    unfold area2. rewrite <- (map_map f (pt ps)), cyc_map. exact HC. }
  destruct (copies wp l L HL H3 i j) as (x & [[E1 E2]|[E1 E2]]); try lia; try exact E; [left|right]; eapply D; eauto; lia.
Qed.
Lemma c_lim i : In i (seq 0 n) -> limp (fun e => pe e i) (pt ps (f i)).
Proof. intros _. apply wiggle_lim. Qed.
Lemma c_turn a v b : corner (seq 0 n) a v b -> doubled f (seq 0 n) v -> 0 < tri_area2 (pt ps (f a)) (pt ps (f v)) (pt ps (f b)).
Proof.
  intros HC (v' & I & N & E). destruct (seq_corner n a v b H3 HC) as (Hv & Ea & Eb). apply in_seq in I.
  pose proof (HT v v' Hv ltac:(lia) (not_eq_sym N) (eq_sym E)) as K. unfold corner_at in K.
  rewrite (Nat.add_comm v n), prev_pos_mod, next_pos_mod in K by exact Hv. subst a b.
  rewrite ?(Nat.add_comm v n), ?prev_pos_mod, ?next_pos_mod by exact Hv. exact K.
Qed.
Theorem bridged_tiling : exists conc T, find_concave_vertices ps l = Ok (l, conc) /\ trianglate_polygon ps l conc = Ok (emit T) /\ (length T + 2 = n)%nat /\
  Forall (fun '(a, b, c) => cyc_triple l a b c /\ 0 < tri_area2 (pt ps a) (pt ps b) (pt ps c)) T /\
  (forall w, antisym w -> cyc w l = sumw w (map (fun '(a, b, c) => [a; b; c]) T)) /\
  forall q, off_all_lines ps T q -> (covers ps T q <= 1)%nat.
Proof.
  assert (T0 : 0 < TOL) by (unfold TOL; lra).
  assert (Cor : forall i, (i < n)%nat -> TOL < Rabs (corner_at ps l i)).
  { intros i Hi. rewrite corner_at_pos by exact Hi. pose proof (seq_corner_pos n i H3 Hi) as HC.
    destruct (weak_apart ps f (seq 0 n) pe (seq_NoDup n 0) c_lim c_good c_dpair _ _ _ HC) as (K1 & K2 & K3).
    destruct (pn_lt n i Hi) as [P1 P2]. now apply c_sep. }
  destruct (C38_find_concave ps l HV) as (conc & EC & SC & PC). rewrite (filter_bent ps l Cor) in EC. change (map (fun i => nth i l 0%nat) (seq 0 n)) with (map f (seq 0 n)) in EC.
  rewrite map_nth_seq in EC.
  assert (Hconc : forall x, In x conc <-> exists a v b, corner (seq 0 n) a v b /\ x = f v /\ tri_area2 (pt ps (f a)) (pt ps (f v)) (pt ps (f b)) < 0).
  { intros x. split.
    - intros I. apply (Permutation_in _ PC) in I. apply in_map_iff in I as (i & <- & I). apply filter_In in I as [I R]. apply in_seq in I. cbn [Nat.add] in I.
      unfold right_turn in R. apply Rltb_true in R. rewrite corner_at_pos in R by lia. exists (prev_pos n i), i, (next_pos n i). split; [apply seq_corner_pos; [exact H3|lia]|]. split; [reflexivity|lra].
    - intros (a & v & b & HC & -> & R). apply (Permutation_in _ (Permutation_sym PC)). assert (Hv : (v < n)%nat) by (destruct (corner_In _ _ _ _ HC) as (_ & I & _); apply in_seq in I; lia).
      apply (in_map f). apply filter_In. split; [apply in_seq; lia|]. unfold right_turn. apply Rltb_true. specialize (Cor v Hv). rewrite corner_at_pos in * by exact Hv.
      destruct (corner_uniq _ _ _ _ _ _ (seq_NoDup n 0) ltac:(now rewrite seq_length) HC (seq_corner_pos n v H3 Hv)) as [-> ->].
      revert Cor. unfold Rabs. destruct (Rcase_abs _); lra. }
  assert (NC : NoDup conc).
  { apply (Permutation_NoDup (Permutation_sym PC)). apply NoDup_map_on; [|apply NoDup_filter, seq_NoDup]. intros a b Ia Ib E. apply filter_In in Ia as [Ia Ra], Ib as [Ib _]. apply in_seq in Ia, Ib.
    destruct (Nat.eq_dec a b) as [K|K]; [exact K|]. exfalso. unfold right_turn in Ra. apply Rltb_true in Ra. pose proof (HT a b ltac:(lia) ltac:(lia) K E). lra. }
  destruct (weak_tiling ps f (seq 0 n) pe (seq_NoDup n 0)) with (conc := conc) as (Tr & E & HR).
  - intros v I. apply in_seq in I. apply HV, f_In. lia.
  - intros a b c Ia Ib Ic. apply in_seq in Ia, Ib, Ic. apply c_sep; lia.
  - exact c_lim.
  - exact c_good.
  - exact c_dpair.
  - exact c_turn.
  - now rewrite seq_length.
  - exact NC.
  - exact Hconc.
  - rewrite map_nth_seq in E. exists conc, (map (f3 f) Tr). pose proof HR as (K1 & K2 & K3 & _). rewrite seq_length in K1. repeat split; auto.
    + now rewrite map_length.
    + apply Forall_map. eapply Forall_impl; [|exact K2]. intros [[a b] c] [C P]. cbn [f3]. split; [|exact P]. rewrite <- (map_nth_seq l) at 1.
      destruct C as [C|[C|C]]; apply (sublist_mapped f) in C; [left|right; left|right; right]; exact C.
    + intros w Aw. rewrite <- (map_nth_seq l) at 1. rewrite cyc_map, K3 by (intros x y; apply Aw). unfold sumw. rewrite !map_map. f_equal. apply map_ext. intros [[a b] c]. cbn [f3].
      rewrite <- (cyc_map f w [a; b; c]). reflexivity.
    + intros q Hq. apply (weak_covers ps f (seq 0 n) pe c_lim Tr q HR Hq).
Qed.
End Cycle.

(** ** Plane::trim *)
(** loop [k] reaches further right than each other loop, and the other loops are clockwise *)
Definition outer_loop (s : Plane R) (loops : list (list (vec3 R))) (k : nat) : Prop :=
  forall j p, j <> k -> nth_error loops j = Some p -> area2 (map (plane_project s) p) < 0 /\
    exists a, In a (nth k loops []) /\ forall b, In b p -> x2 (plane_project s b) < x2 (plane_project s a).
Lemma F2_nth {A B} (P : A -> B -> Prop) la lb a : Forall2 P la lb -> In a la -> exists j b, nth_error la j = Some a /\ nth_error lb j = Some b /\ P a b.
Proof.
  induction 1 as [|x y la lb H _ IH]; [intros []|]. intros [->|I]; [exists 0%nat, y; auto|]. destruct (IH I) as (j & b & K). now exists (S j), b.
Qed.
Lemma F2_nth_r {A B} (P : A -> B -> Prop) la lb j b : Forall2 P la lb -> nth_error lb j = Some b -> exists a, nth_error la j = Some a /\ P a b.
Proof.
  intros H. revert j. induction H as [|x y la lb H _ IH]; intros [|j] E; cbn [nth_error] in *; try discriminate; [injection E as <-; eauto|auto].
Qed.
Lemma offsets_cover (loops : list (list (vec3 R))) : filter nonempty loops = loops ->
  flat_map (fun '(a, b) => seq a (b - a)) (pairs (0 :: ends_from 0 loops))%nat = seq 0 (length (concat loops)).
Proof.
  intros EF. enough (G : forall (ls : list (list (vec3 R))) st, filter nonempty ls = ls -> flat_map (fun '(a, b) => seq a (b - a)) (pairs (st :: ends_from st ls)) = seq st (length (concat ls))) by (apply G; exact EF).
  clear. induction ls as [|p ls IH]; intros st E; [reflexivity|]. cbn [filter] in E. destruct (nonempty p) eqn:Ep.
  - injection E as E. cbn [ends_from]. rewrite Ep, pairs_cons. cbn [flat_map concat]. rewrite IH by exact E. rewrite app_length, seq_app. do 2 f_equal. lia.
  - exfalso. assert (X := f_equal (@length _) E). cbn [length] in X. pose proof (filter_length_le nonempty ls). lia.
Qed.
Lemma flat_map_perm {A B} (g : A -> list B) l l' : Permutation l l' -> Permutation (flat_map g l) (flat_map g l').
Proof.
  induction 1; cbn [flat_map]; [constructor|now apply Permutation_app_head| |etransitivity; eassumption]. rewrite !app_assoc. apply Permutation_app_tail, Permutation_app_comm.
Qed.
Lemma loop_cyc {A} (w : A -> A -> R) (d : A) vs r p : occupies vs r p -> cyc (fun i j => w (nth i vs d) (nth j vs d)) (seq (fst r) (snd r - fst r)) = cyc w p.
Proof.
  intros H. rewrite <- (cyc_map (fun i => nth i vs d) w). f_equal. pose proof (occupies_length _ _ _ H) as L. apply (nth_ext _ _ (nth 0 vs d) d); rewrite map_length, seq_length; [congruence|]. intros i Hi.
  rewrite (map_nth (fun i => nth i vs d)), seq_nth by exact Hi. symmetry. apply occupies_nth; [exact H|lia].
Qed.
Lemma esum3_flat w (ls : list (list (vec3 R))) : esum3 w (flat_map border ls) = sumR (cyc w) ls.
Proof.
  induction ls as [|p ls IH]; [reflexivity|]. cbn [flat_map]. unfold esum3 in *. rewrite sumR_app, IH. unfold sumR at 3. cbn [map fold_right]. f_equal. apply border_sum.
Qed.
Lemma merged_In Q l hs r x : merged Q l hs r -> In x r -> In x l \/ In x (flat_map (fun '(s, e) => seq s (e - s))%nat hs).
Proof.
  induction 1 as [l|pre o post s e m hs r HM HQ HR IH]; [auto|]. intros I. apply IH in I as [I|I]; [|right; cbn [flat_map]; apply in_app_iff; now right].
  apply in_app_iff in I as [I|[I|I]]; [left; apply in_app_iff; now left|left; subst x; apply in_elt|].
  cbn [flat_map]. apply in_app_iff in I as [I|[I|[I|I]]].
  - right. apply in_app_iff. left. apply in_seq. apply in_app_iff in I. rewrite !in_seq in I. lia.
  - right. apply in_app_iff. left. apply in_seq. lia.
  - left. subst x. apply in_elt.
  - left. apply in_app_iff. right. now right.
Qed.
(** the loops and the result of merging them, whatever rule chose the bridges *)
Lemma holes_core Q (s : Plane R) loops k l so eo hs : filter nonempty loops = loops -> (2 <= length loops)%nat ->
  let vs := concat loops in let ps := map (plane_project s) vs in let offs := (0 :: ends_from 0 loops)%nat in (N.of_nat (length vs) < 2 ^ 32)%N ->
  general_position ps -> (forall j p, j <> k -> nth_error loops j = Some p -> area2 (map (plane_project s) p) < 0) -> 0 < sumR (fun p => area2 (map (plane_project s) p)) loops ->
  Permutation ((so, eo) :: hs) (pairs offs) -> nth_error (pairs offs) k = Some (so, eo) -> merged Q (seq so (eo - so)) hs l -> at_most_twice l -> simple_polygon (poly ps l) -> repeats_turn_left ps l ->
  exists conc T, let m := mkTM vs [] (emit T) in find_concave_vertices ps l = Ok (l, conc) /\ trianglate_polygon ps l conc = Ok (emit T) /\ length T = (length vs + 2 * length loops - 4)%nat /\
    Forall (fun '(a, b, c) => cyc_triple l a b c /\ 0 < tri_area2 (pt ps a) (pt ps b) (pt ps c)) T /\
    total_area2 ps T = sumR (fun p => area2 (map (plane_project s) p)) loops /\
    (forall q, off_all_lines ps T q -> sumR (fun p => winding (map (plane_project s) p) q) loops = INR (covers ps T q) /\ (covers ps T q <= 1)%nat) /\
    forall p q, net (mesh_edges m) p q = net (flat_map border loops) p q.
Proof.
  intros EF H2 vs ps offs HN HG HO HA PH Hk HM HC HS HT. assert (Ln : length ps = length vs) by apply map_length.
  pose proof (ends_delimit [] loops) as HD. cbn [length app] in HD. fold vs in HD. rewrite EF in HD. fold offs in HD.
  pose proof (offsets_cover loops EF) as FS. fold vs in FS. fold offs in FS. pose proof (F2_length _ _ _ HD) as LP.
  assert (RG : Forall (fun r : nat * nat => (fst r < snd r <= length vs)%nat) (pairs offs)) by (eapply occupies_ranges; exact HD).
  assert (Lh : length loops = S (length hs)) by (apply Permutation_length in PH; cbn [length] in PH; congruence).
  assert (PS : Permutation (seq so (eo - so) ++ flat_map (fun '(s, e) => seq s (e - s))%nat hs) (seq 0 (length vs))) by (rewrite <- FS; exact (flat_map_perm (fun '(s, e) => seq s (e - s))%nat _ _ PH)).
  assert (Ll : length l = (length vs + 2 * (length loops - 1))%nat).
  { destruct (merged_contents _ _ _ _ HM) as (br & Lb & PB & _). rewrite app_assoc in PB. rewrite (Permutation_length PB), app_length, (Permutation_length PS), seq_length. f_equal. rewrite Lh, <- Lb. cbn [Nat.sub]. rewrite Nat.sub_0_r. clear. induction br as [|[a b] br IH]; [reflexivity|]. cbn [flat_map app length]. rewrite IH. lia. }
  assert (Lv : (length loops <= length vs)%nat).
  { unfold vs. rewrite <- EF at 1. clear. induction loops as [|p ls IH]; [cbn; lia|]. cbn [filter concat]. rewrite app_length. destruct p as [|x p]; cbn [nonempty length]; lia. }
  assert (VR : forall x, In x l -> (x < length ps)%nat).
  { intros x I. rewrite Ln. apply (merged_In _ _ _ _ x HM) in I. apply in_app_iff in I. apply (Permutation_in _ PS) in I. apply in_seq in I. lia. }
  assert (NDr : NoDup (seq so (eo - so) ++ flat_map (fun '(s, e) => seq s (e - s))%nat hs)) by exact (Permutation_NoDup (Permutation_sym PS) (seq_NoDup _ _)).
  pose proof (NoDup_app_disj _ _ NDr) as DJ.
  assert (Io : In (so, eo) (pairs offs)) by (apply (Permutation_in _ PH); now left).
  assert (HH : forall a b, In (a, b) hs -> cyc (fun i j => cross2 (pt ps i) (pt ps j)) (seq a (b - a)) < 0).
  { intros a b I. assert (Ip : In (a, b) (pairs offs)) by (apply (Permutation_in _ PH); now right). rewrite Forall_forall in RG.
    destruct (F2_nth _ _ _ _ HD Ip) as (j & p & Ej & Ep & Hp).
    assert (Njk : j <> k).
    { intros ->. rewrite Ej in Hk. injection Hk as -> ->. pose proof (RG _ Io) as K. cbn [fst snd] in K. apply (DJ so); [apply in_seq; lia|]. apply in_flat_map. exists (so, eo). split; [exact I|apply in_seq; lia]. }
    pose proof (HO j p Njk Ep) as K. rewrite <- (occupies_loop s vs (a, b) p Hp) in K. unfold loop_points, area2, poly in K. rewrite cyc_map in K. exact K. }
  destruct (merged_labels (fun i j => cross2 (pt ps i) (pt ps j)) (cross2_antisym ps) _ _ _ _ HM HC) with (L := map (Nat.mul 2) (seq so (eo - so))) as (L & HLb).
  { intros x I1 I2. exact (DJ x I1 I2). }
  { apply (NoDup_app_l _ (seq so (eo - so))). apply (Permutation_NoDup (Permutation_app_comm _ _) NDr). }
  { exact HH. }
  { apply labelled_once, seq_NoDup. }
  assert (CL : forall w : nat -> nat -> R, antisym w -> cyc w l = sumR (fun r => cyc w (seq (fst r) (snd r - fst r))) (pairs offs)).
  { intros w Hw. rewrite (merged_cyc _ _ _ _ _ Hw HM). rewrite <- (sumR_perm _ _ _ PH). unfold sumR. cbn [map fold_right fst snd]. do 2 f_equal. apply map_ext. intros [a b]. reflexivity. }
  assert (A : area2 (poly ps l) = sumR (fun p => area2 (map (plane_project s) p)) loops).
  { unfold area2 at 1, poly. rewrite cyc_map, CL by apply cross2_antisym. eapply sumR_Forall2; [exact HD|]. intros r p H. cbv beta. rewrite <- (occupies_loop s vs r p H). unfold loop_points, area2, poly. now rewrite cyc_map. }
  assert (W : forall q, winding (poly ps l) q = sumR (fun p => winding (map (plane_project s) p) q) loops).
  { intros q. unfold winding at 1, poly. rewrite cyc_map, CL by (intros a b; apply wind_antisym). eapply sumR_Forall2; [exact HD|]. intros r p H. cbv beta. rewrite <- (occupies_loop s vs r p H). unfold loop_points, winding, poly. now rewrite cyc_map. }
  destruct (bridged_tiling ps l L VR) as (conc & T & E1 & E2 & LT & FT & CW & CV); [lia|exact HLb|exact HG|exact HS|exact HT|rewrite A; exact HA|].
  exists conc, T. cbv zeta.
  assert (HP : Forall (fun '(a, b, c) => 0 < tri_area2 (pt ps a) (pt ps b) (pt ps c)) T) by (eapply Forall_impl; [|exact FT]; intros [[a b] c] [_ ?]; assumption).
  split; [exact E1|split; [exact E2|split; [lia|split; [exact FT|split; [|split]]]]].
  - rewrite <- A. unfold area2, poly. rewrite cyc_map, CW by apply cross2_antisym. symmetry. apply sumw_tri.
  - intros q Hq. split; [|now apply CV]. rewrite <- W. rewrite <- (covers_sum ps q T HP Hq), <- CW by (intros a b; apply wind_antisym). unfold winding, poly. apply cyc_map.
  - intros p q. apply eq_IZR. rewrite !net_flow, esum3_flat. unfold mesh_edges, mesh_tris. cbn [m_triangles m_vertices]. rewrite emit_tris.
    + rewrite tris_sum. rewrite <- CW, CL by (intros a b; apply flow_antisym). eapply sumR_Forall2; [exact HD|]. intros r c H. cbv beta. now apply loop_cyc.
    + rewrite Forall_forall in FT. intros [[a b] c] I. destruct (FT _ I) as [C _].
      assert (Bd : forall x, In x [a; b; c] -> (N.of_nat x < 2 ^ 32)%N).
      { intros x Ix. assert (In x l) by (destruct C as [C|[C|C]]; (eapply sublist_In; [exact C|]); cbn [In] in *; tauto). apply VR in H. rewrite Ln in H. lia. }
      repeat split; apply Bd; cbn [In]; auto.
Qed.
Lemma trim_several {F} {NF : Num F} (s : Plane F) fuel rnd bounds loops l conc tris : proper_loops fuel rnd bounds loops -> (2 <= length loops)%nat -> filter nonempty loops = loops ->
  let vs := concat loops in let ps := map (plane_project s) vs in
  merge_polygons ps (0 :: ends_from 0 loops)%nat = Ok l -> find_concave_vertices ps l = Ok (l, conc) -> trianglate_polygon ps l conc = Ok tris -> plane_trim s fuel rnd bounds = Ok (mkTM vs [] tris).
Proof.
  intros HL H2 EF vs ps EM E1 E2. unfold plane_trim. rewrite (collect_proper _ _ _ _ HL). cbn [obind]. fold vs. unfold plane_trim_polygons.
  assert (Lo : length (0%nat :: ends_from 0 loops) = S (length loops)) by (cbn [length]; now rewrite ends_length, EF). rewrite Lo.
  replace (S (length loops) =? 2)%nat with false by (symmetry; apply Nat.eqb_neq; lia). replace (2 <? S (length loops))%nat with true by (symmetry; apply Nat.ltb_lt; lia).
  fold ps. rewrite EM. cbn [obind]. rewrite E1. cbn [obind]. rewrite E2. reflexivity.
Qed.
(** C70: a face with holes, in exact arithmetic. *)
Theorem C70_holes (s : Plane R) fuel rnd bounds loops k l : proper_loops fuel rnd bounds loops -> (2 <= length loops)%nat ->
  let vs := concat loops in let ps := map (plane_project s) vs in (N.of_nat (length vs) < 2 ^ 32)%N -> (forall p, In p ps -> fminval < x2 p) ->
  general_position ps -> outer_loop s loops k -> 0 < sumR (fun p => area2 (map (plane_project s) p)) loops ->
  merge_polygons ps (0 :: ends_from 0 loops)%nat = Ok l -> at_most_twice l -> simple_polygon (poly ps l) -> repeats_turn_left ps l ->
  exists T, let m := mkTM vs [] (emit T) in plane_trim s fuel rnd bounds = Ok m /\ length T = (length vs + 2 * length loops - 4)%nat /\
    Forall (fun '(a, b, c) => cyc_triple l a b c /\ 0 < tri_area2 (pt ps a) (pt ps b) (pt ps c)) T /\
    total_area2 ps T = sumR (fun p => area2 (map (plane_project s) p)) loops /\
    (forall q, off_all_lines ps T q -> sumR (fun p => winding (map (plane_project s) p) q) loops = INR (covers ps T q) /\ (covers ps T q <= 1)%nat) /\
    forall p q, net (mesh_edges m) p q = net (flat_map border loops) p q.
Proof.
  intros HL H2 vs ps HN Hx HG HO HA EM HC HS HT. assert (Ln : length ps = length vs) by apply map_length.
  pose proof (ends_delimit [] loops) as HD. cbn [length app] in HD. fold vs in HD.
  assert (EF : filter nonempty loops = loops) by (apply filter_all; intros p; exact (proper_nonempty _ _ _ _ p HL)). rewrite EF in HD.
  set (offs := (0 :: ends_from 0 loops)%nat) in *. pose proof (F2_length _ _ _ HD) as LP.
  assert (RG : Forall (fun r : nat * nat => (fst r < snd r <= length vs)%nat) (pairs offs)) by (eapply occupies_ranges; exact HD).
  assert (LO : loops_ok ps offs).
  { split; [intros E; rewrite E in LP; cbn in LP; lia|]. eapply Forall_impl; [|exact RG]. intros [a b] Hab. cbn [fst snd] in Hab. rewrite Ln. split; [exact Hab|].
    destruct (nth_error ps a) as [p|] eqn:Ea; [|apply nth_error_None in Ea; lia]. exists p. split; [reflexivity|]. apply Rltb_true. apply Hx. eapply nth_error_In. exact Ea. }
  destruct (C41_merge ps offs LO) as (so & eo & hs & l' & EM' & PH & (io & Hio & Hmax) & HM & _).
  assert (l' = l) as -> by (apply Ok_inj; now rewrite <- EM').
  assert (IN : forall r p a, occupies vs r p -> In a p -> exists i, (fst r <= i < snd r)%nat /\ pt ps i = plane_project s a).
  { intros r p a H I. pose proof (occupies_loop s vs r p H) as E. apply (in_map (plane_project s)) in I. rewrite <- E in I. unfold loop_points, poly in I. apply in_map_iff in I as (i & Ei & I). apply in_seq in I. exists i. split; [lia|exact Ei]. }
  assert (IN' : forall r p i, occupies vs r p -> (fst r <= i < snd r)%nat -> exists a, In a p /\ pt ps i = plane_project s a).
  { intros r p i H Hi. pose proof (occupies_loop s vs r p H) as E. assert (I : In (pt ps i) (map (plane_project s) p)) by (rewrite <- E; unfold loop_points, poly; apply in_map, in_seq; lia).
    apply in_map_iff in I as (a & Ea & I). exists a. auto. }
  assert (Io : In (so, eo) (pairs offs)) by (apply (Permutation_in _ PH); now left).
  destruct (F2_nth _ _ _ _ HD Io) as (j0 & p0 & Ej0 & Ep0 & Hp0).
  assert (E0 : j0 = k).
  { destruct (Nat.eq_dec j0 k) as [E|N]; [exact E|]. exfalso. destruct (HO j0 p0 N Ep0) as (_ & c & Ic & Hc).
    destruct (nth_error loops k) as [pk|] eqn:Ek; [|apply nth_error_None in Ek; rewrite nth_overflow in Ic by exact Ek; destruct Ic].
    rewrite (nth_error_nth _ _ _ Ek) in Ic. destruct (F2_nth_r _ _ _ _ _ HD Ek) as ([sk ek] & Erk & Hk). destruct (IN _ _ _ Hk Ic) as (i & Hi & Ei).
    destruct (IN' _ _ io Hp0 Hio) as (b' & Ib' & Eb'). specialize (Hc b' Ib'). pose proof (Hmax sk ek i (nth_error_In _ _ Erk) Hi) as K. rewrite Ei, Eb' in K. lra. }
  subst j0. destruct (holes_core (nearest_splice ps) s loops k l so eo hs EF H2 HN HG) as (conc & T & E1 & E2 & C); [intros j p Nj Ep; apply (HO j p Nj Ep)|exact HA|exact PH|exact Ej0|exact HM|exact HC|exact HS|exact HT|].
  exists T. cbv zeta in C |- *. split; [now apply (trim_several s fuel rnd bounds loops l conc)|exact C].
Qed.
(** the volume between a point and the mesh is that between the point and the loops *)
Theorem C70_volume (s : Plane R) loops T o : let vs := concat loops in let ps := map (plane_project s) vs in
  orthonormal (p_u_axis s) (p_v_axis s) -> Forall (on_plane s) vs -> (forall p, In p loops -> p <> []) -> (N.of_nat (length vs) < 2 ^ 32)%N ->
  Forall (fun '(a, b, c) => a < length vs /\ b < length vs /\ c < length vs)%nat T -> total_area2 ps T = sumR (fun p => area2 (map (plane_project s) p)) loops ->
  mesh_vol6 o (mkTM vs [] (emit T)) = sumR (loop_vol6 o) loops.
Proof.
  intros vs ps HO HF HE HN HT HA. rewrite Forall_forall in HF, HT.
  rewrite (sumR_ext (loop_vol6 o) (fun p => height o s * area2 (map (plane_project s) p))).
  - rewrite sumR_scale, <- HA. unfold mesh_vol6, mesh_tris. cbn [m_triangles m_vertices]. rewrite emit_tris.
    + rewrite sumR_map. unfold total_area2. change (fold_right Rplus 0 (map ?g T)) with (sumR g T). rewrite <- sumR_scale. apply sumR_ext. intros [[a b] c] I. destruct (HT _ I) as (Ha & Hb & Hc).
      rewrite (pyramid_flat o s) by (auto; apply HF, nth_In; assumption). f_equal.
      assert (PT : forall i, (i < length vs)%nat -> pt ps i = plane_project s (nth i vs (V3 0 0 0))).
      { intros i Hi. unfold pt, ps. rewrite (nth_indep _ _ (plane_project s (V3 0 0 0))) by now rewrite map_length. apply map_nth. }
      now rewrite !PT.
    + intros [[a b] c] I. destruct (HT _ I) as (Ha & Hb & Hc). split; [|split]; lia.
  - intros p I. apply loop_volume; [now apply HE|exact HO|]. apply Forall_forall. intros x Ix. apply HF. apply in_concat. exists p. auto.
Qed.
(** ** A square with a triangular hole *)
Lemma segment_distance_across (p a b : vec2 R) d h : 0 < h -> 0 <= d -> 0 < dot2 (vsub p a) (vsub b a) < h * h -> length_squared2 (vsub b a) = h * h ->
  Rabs (perp_dot (vsub p a) (vsub b a)) = d * h -> distance_to_line_segment2 p a b = d.
Proof.
  intros Hh Hd [P1 P2] EL EP. unfold distance_to_line_segment2. change (length2 (vsub b a)) with (fsqrt (length_squared2 (vsub b a))). rewrite EL. revert P1 P2 EP.
  set (x := dot2 _ _). set (y := perp_dot _ _). rnum. intros P1 P2 EP. destruct (Rleb_spec x 0); [lra|]. destruct (Rleb_spec (h * h) x); [lra|]. rewrite EP, sqrt_square by lra. field. lra.
Qed.
Definition plate : list (list (vec3 R)) := [[V3 0 0 0; V3 10 0 0; V3 10 10 0; V3 0 10 0]; [V3 8 3 0; V3 4 5 0; V3 7 8 0]].
Definition plate2 : list (vec2 R) := [V2 0 0; V2 10 0; V2 10 10; V2 0 10; V2 8 3; V2 4 5; V2 7 8].
Lemma plate_flat : map (plane_project xy_plane) (concat plate) = plate2.
Proof. unfold plate, plate2. cbn [concat app map]. unfold plane_project, dot3. cbn [p_origin p_u_axis p_v_axis xy_plane]. repeat (apply f_equal2; [apply f_equal2; cbn; lra|]). reflexivity. Qed.
Lemma plate_general : general_position plate2.
Proof.
  assert (G : forall i j k, (i < j < k)%nat -> (k < 7)%nat -> TOL < Rabs (tri_area2 (pt plate2 i) (pt plate2 j) (pt plate2 k))).
  { intros i j k H1 H2. assert (IJ : (i <= 4 /\ j <= 5)%nat) by lia. destruct IJ as [IJ1 IJ2].
    do 7 (destruct k as [|k]; [do 6 (destruct j as [|j]; [first [exfalso; lia|do 5 (destruct i as [|i]; [first [exfalso; lia|unfold pt, plate2, TOL; cbn; unfold tri_area2; cbn [x2 y2]; unfold Rabs; destruct (Rcase_abs _); lra]|]); exfalso; lia]|]); exfalso; lia|]). exfalso. lia. }
  assert (S1 : forall a b c : vec2 R, Rabs (tri_area2 a b c) = Rabs (tri_area2 b a c)) by (intros a b c; rewrite <- Rabs_Ropp; f_equal; unfold tri_area2; ring).
  assert (S2 : forall a b c : vec2 R, Rabs (tri_area2 a b c) = Rabs (tri_area2 a c b)) by (intros a b c; rewrite <- Rabs_Ropp; f_equal; unfold tri_area2; ring).
  intros i j k Hi Hj Hk N1 N2 N3. change (length plate2) with 7%nat in *.
  assert (C : (i < j < k \/ i < k < j \/ j < i < k \/ j < k < i \/ k < i < j \/ k < j < i)%nat) by lia.
  destruct C as [C|[C|[C|[C|[C|C]]]]].
  - apply G; lia.
  - rewrite S2. apply G; lia.
  - rewrite S1. apply G; lia.
  - rewrite S1, S2. apply G; lia.
  - rewrite S2, S1. apply G; lia.
  - rewrite S1, S2, S1. apply G; lia.
Qed.
Lemma below_all x : - 1000 < x -> @fminval R RNum < x.
Proof. assert (M : fminval < - 1000) by (change (- RMAX < - 1000); apply Ropp_lt_contravar; unfold RMAX; apply (IZR_lt 1000); reflexivity). lra. Qed.
Lemma plate_far p : In p plate2 -> fminval < x2 p.
Proof. intros H. apply below_all. unfold plate2 in H. cbn [In] in H. repeat (destruct H as [<-|H]; [cbn; lra|]). destruct H. Qed.
Lemma plate_merge : merge_polygons plate2 [0; 4; 7]%nat = Ok [0; 1; 4; 5; 6; 4; 1; 2; 3]%nat.
Proof.
  assert (LO : loops_ok plate2 [0; 4; 7]%nat).
  { split; [discriminate|]. constructor; [|constructor; [|constructor]]; (split; [cbn; lia|]); eexists; (split; [reflexivity|]); apply Rltb_true, below_all; cbn; lra. }
  destruct (C41_merge plate2 [0; 4; 7]%nat LO) as (so & eo & hs & l & EM & PH & (io & Hio & Hmax) & HM & _). rewrite EM. f_equal. clear EM LO. cbn [pairs combine skipn] in *.
  assert (K : x2 (pt plate2 1) <= x2 (pt plate2 io)) by (apply (Hmax 0%nat 4%nat); [now left|lia]). clear Hmax.
  assert (Io : (io < 4)%nat).
  { assert (I : In (so, eo) (pairs [0; 4; 7]%nat)) by (apply (Permutation_in _ PH); now left). cbn in I. destruct I as [I|[I|[]]]; injection I as <- <-; [lia|].
    exfalso. assert (C : io = 4%nat \/ io = 5%nat \/ io = 6%nat) by lia. destruct C as [->|[->| ->]]; unfold pt, plate2 in K; cbn in K; lra. }
  assert (EP : (so, eo) = (0, 4)%nat /\ hs = [(4, 7)]%nat).
  { assert (I : In (so, eo) (pairs [0; 4; 7]%nat)) by (apply (Permutation_in _ PH); now left). cbn in I. destruct I as [I|[I|[]]]; [|injection I as <- <-; lia]. split; [auto|]. rewrite <- I in PH. apply Permutation_cons_inv, Permutation_sym in PH. now apply Permutation_length_1_inv in PH. }
  destruct EP as [EP ->]. injection EP as -> ->. clear PH Hio K Io io. cbn [Nat.sub seq] in HM.
  inversion HM as [|pre o post s e m hs' r Hm (HQ1 & HQ2 & HQ3) HR E1 E2 E3]. subst s e hs' r.
  assert (m = 4%nat) as ->.
  { pose proof (HQ1 4%nat ltac:(lia)) as K. assert (C : m = 4%nat \/ m = 5%nat \/ m = 6%nat) by lia. destruct C as [->|[->| ->]]; [reflexivity| |]; exfalso; unfold pt, plate2 in K; cbn in K; lra. }
  inversion HR as [l0 EL EH|]. subst l. clear HR HQ1. rewrite E1 in HQ2, HQ3. cbn [length] in HQ2, HQ3.
  assert (DS : forall j, (j < 4)%nat -> edge_distance plate2 [0; 1; 2; 3]%nat (pt plate2 4) j = nth j [3; 2; 7; 8] 0).
  { intros j Hj. unfold edge_distance. do 4 (destruct j as [|j]; [apply (segment_distance_across _ _ _ _ 10); unfold pt, plate2, dot2, length_squared2, perp_dot, vsub; cbn; try lra; unfold Rabs; destruct (Rcase_abs _); lra|]). lia. }
  assert (KP : length pre = 1%nat).
  { specialize (HQ3 1%nat ltac:(lia)). rewrite !DS in HQ3 by lia. cbn [nth] in HQ3.
    assert (2 < RMAX) by (unfold RMAX; apply (IZR_lt 2); reflexivity). specialize (HQ3 H). assert (C : (length pre = 0 \/ length pre = 1 \/ length pre = 2 \/ length pre = 3)%nat) by lia.
    destruct C as [C|[C|[C|C]]]; rewrite C in HQ3; cbn [nth] in HQ3; [lra|exact C|lra|lra]. }
  destruct pre as [|p0 [|]]; cbn [length] in KP; try discriminate. cbn [app] in E1. injection E1 as -> -> ->. reflexivity.
Qed.
Lemma plate_simple : simple_polygon (poly plate2 [0; 1; 4; 5; 6; 4; 1; 2; 3]%nat).
Proof.
  unfold simple_polygon, segments_cross. cbn [poly map length]. intros i j Hi Hj [K1 K2].
  do 9 (destruct i as [|i]; [do 9 (destruct j as [|j]; [unfold pt, plate2 in K1, K2; cbn in K1, K2; unfold tri_area2 in K1, K2; cbn [x2 y2] in K1, K2; lra|]); lia|]). lia.
Qed.
Lemma plate_turns : repeats_turn_left plate2 [0; 1; 4; 5; 6; 4; 1; 2; 3]%nat.
Proof.
  intros i j Hi Hj N E. cbn [length] in *.
  do 9 (destruct i as [|i]; [do 9 (destruct j as [|j]; [cbn in E; (discriminate E || lia || (unfold corner_at, pt, plate2; cbn; unfold tri_area2; cbn [x2 y2]; lra))|]); lia|]). lia.
Qed.
Lemma plate_loops rnd : proper_loops 1 rnd (map edgesR plate) plate.
Proof.
  exists plate. split; [|reflexivity]. split; [reflexivity|]. intros k b p. destruct k as [|[|[|k]]]; cbn [plate map nth_error]; try discriminate; intros E1 E2; injection E1 as <-; injection E2 as <-.
  all: apply C53_straight_loop; [discriminate| |]; cbn [edgesR app firstn pairs combine map x3 y3 z3].
  1, 3: repeat (constructor; [apply segR_straight|]); constructor.
  all: repeat (constructor; [unfold apart, distance_squared3, length_squared3, dot3; cbn; lra|]); constructor.
Qed.
Lemma xy_orthonormal : orthonormal (p_u_axis xy_plane) (p_v_axis xy_plane).
Proof. unfold orthonormal, unit3, dot3. cbn. repeat split; lra. Qed.
Lemma xy_on q : z3 q = 0 -> on_plane xy_plane q.
Proof. destruct q as [x y z]. cbn [z3]. intros ->. exists x, y. unfold plane_get_point, xy_plane. cbn. f_equal; lra. Qed.
Example C70_holes_nonvacuous rnd : exists T, plane_trim xy_plane 1 rnd (map edgesR plate) = Ok (mkTM (concat plate) [] (emit T)) /\ length T = 7%nat /\ total_area2 plate2 T = 182 /\
  mesh_vol6 (V3 0 0 (-3)) (mkTM (concat plate) [] (emit T)) = 546.
Proof.
  assert (AR : sumR (fun p => area2 (map (plane_project xy_plane) p)) plate = 182).
  { unfold plate, sumR, area2, plane_project, dot3. cbn [map fold_right]. cbn [p_origin p_u_axis p_v_axis xy_plane]. unfold cyc, chain, cross2. cbn. lra. }
  destruct (C70_holes xy_plane 1 rnd (map edgesR plate) plate 0%nat [0; 1; 4; 5; 6; 4; 1; 2; 3]%nat) as (T & E & L & F & A & _); rewrite ?plate_flat.
  - apply plate_loops.
  - cbn. lia.
  - cbn. lia.
  - exact plate_far.
  - exact plate_general.
  - intros j p Nj Ej. destruct j as [|[|[|j]]]; cbn [plate nth_error] in Ej; try discriminate; [lia|]. injection Ej as <-. split.
    + unfold area2, plane_project, dot3. cbn [map]. cbn [p_origin p_u_axis p_v_axis xy_plane]. unfold cyc, chain, cross2. cbn. lra.
    + exists (V3 10 0 0). split; [cbn; auto|]. intros b I. unfold plane_project, dot3. cbn [p_origin p_u_axis p_v_axis xy_plane]. repeat (destruct I as [<-|I]; [cbn; lra|]). destruct I.
  - lra.
  - exact plate_merge.
  - intros x. cbn [count_occ]. repeat (destruct (Nat.eq_dec _ x)); lia.
  - exact plate_simple.
  - exact plate_turns.
  - exists T. split; [exact E|]. split; [exact L|]. split; [rewrite plate_flat, AR in A; exact A|].
    rewrite (C70_volume xy_plane plate T (V3 0 0 (-3))); [unfold plate, sumR; cbn [map fold_right]; rewrite !(loop_volume _ xy_plane)| | | | | |exact A].
    + transitivity (3 * sumR (fun p => area2 (map (plane_project xy_plane) p)) plate); [|rewrite AR; lra]. unfold sumR, plate. cbn [map fold_right]. unfold height, det3. cbn. lra.
    + discriminate.
    + exact xy_orthonormal.
    + repeat (constructor; [apply xy_on; reflexivity|]). constructor.
    + discriminate.
    + exact xy_orthonormal.
    + repeat (constructor; [apply xy_on; reflexivity|]). constructor.
    + exact xy_orthonormal.
    + repeat (constructor; [apply xy_on; reflexivity|]). constructor.
    + intros p I. unfold plate in I. cbn [In] in I. destruct I as [<-|[<-|[]]]; discriminate.
    + cbn. lia.
    + eapply Forall_impl; [|exact F]. intros [[a b] c] [C _]. assert (Bd : forall x, In x [a; b; c] -> (x < 7)%nat).
      { intros x Ix. assert (I : In x [0; 1; 4; 5; 6; 4; 1; 2; 3]%nat) by (destruct C as [C|[C|C]]; (eapply sublist_In; [exact C|]); cbn [In] in *; tauto). cbn [In] in I. lia. }
      change (length (concat plate)) with 7%nat. repeat split; apply Bd; cbn [In]; auto.
Qed.
(** The same face in doubles; the bridge joins vertex 4 to vertex 1. *)
Definition merge64 (ls : list (list (Z * Z))) : outcome (list nat) :=
  merge_polygons (NF := F64Num) (map (fun c => V2 (f64_of_Z (fst c)) (f64_of_Z (snd c))) (concat ls)) (0%nat :: ends_from 0 ls).
Example C70_doubles : let ls := [[(0, 0); (10, 0); (10, 10); (0, 10)]; [(8, 3); (4, 5); (7, 8)]]%Z in
  merge64 ls = Ok [0; 1; 4; 5; 6; 4; 1; 2; 3]%nat /\
  trim64 ls = Ok (7%nat, [0; 1; 4; 6; 4; 1; 0; 4; 5; 6; 1; 2; 3; 0; 5; 6; 2; 3; 5; 6; 3]%N).
Proof. split; vm_compute; reflexivity. Qed.

(** ** Where the hypotheses fail *)
Open Scope Z_scope.
Definition ztri (a b c : Z * Z) : Z := (fst b - fst a) * (snd c - snd a) - (snd b - snd a) * (fst c - fst a).
Definition zpt (P : list (Z * Z)) (i : nat) : Z * Z := nth i P (0, 0).
Definition zcross (a b c d : Z * Z) : bool := (ztri a b c * ztri a b d <? 0) && (ztri c d a * ztri c d b <? 0).
Definition zedges (P : list (Z * Z)) : list ((Z * Z) * (Z * Z)) := pairs (P ++ firstn 1 P).
Definition zcrossing (P : list (Z * Z)) : bool := existsb (fun '(a, b) => existsb (fun '(c, d) => zcross a b c d) (zedges P)) (zedges P).
(** twice the signed area of a polygon, and of each triangle of a mesh *)
Definition zarea2 (P : list (Z * Z)) : Z := fold_right Z.add 0 (map (fun '(a, b) => ztri (0, 0) a b) (zedges P)).
Fixpoint ztris (P : list (Z * Z)) (t : list N) : list Z :=
  match t with a :: b :: c :: t => ztri (zpt P (N.to_nat a)) (zpt P (N.to_nat b)) (zpt P (N.to_nat c)) :: ztris P t | _ => [] end.
Definition zgeneral (P : list (Z * Z)) : bool := let n := seq 0 (length P) in
  forallb (fun i => forallb (fun j => forallb (fun k => (i =? j)%nat || (j =? k)%nat || (i =? k)%nat || negb (ztri (zpt P i) (zpt P j) (zpt P k) =? 0)) n) n) n.
Definition report (ls : list (list (Z * Z))) : outcome (list nat * bool * list Z) :=
  l <- merge64 ls ;; r <- trim64 ls ;; Ok (l, zcrossing (map (zpt (concat ls)) l), ztris (concat ls) (snd r)).
(** A triangular hole in a square; nothing crosses and no three points are on a line.  The
    merged sequence turns left at one visit of vertex 4 and right at the other: one of the seven
    triangles is clockwise, and overlaps the others. *)
Theorem C70_turns_refuted : let ls := [[(0, 0); (10, 0); (10, 10); (0, 10)]; [(9, 6); (3, 6); (5, 9)]] in
  zgeneral (concat ls) = true /\ map zarea2 ls = [200; -18] /\ map zcrossing ls = [false; false] /\
  report ls = Ok ([0; 1; 4; 5; 6; 4; 1; 2; 3]%nat, false, [60; -21; 36; 50; 30; 10; 17]).
Proof. repeat split; vm_compute; reflexivity. Qed.
(** A square hole in a square plate leaves half of the plate, or nothing of it. *)
Theorem C70_plate_refuted : let ls h := [[(0, 0); (10, 0); (10, 10); (0, 10)]; h] in let h1 := [(1, 1); (1, 2); (2, 2); (2, 1)] in let h2 := [(1, 1); (1, 5); (5, 5); (5, 1)] in
  map zarea2 [h1; h2] = [-2; -32] /\
  report (ls h1) = Ok ([0; 6; 7; 4; 5; 6; 0; 1; 2; 3]%nat, false, [100]) /\ report (ls h2) = Ok ([0; 6; 7; 4; 5; 6; 0; 1; 2; 3]%nat, false, []).
Proof. repeat split; vm_compute; reflexivity. Qed.
(** A bridge that crosses the hole it leads to: half of the square is lost. *)
Theorem C70_crossing_refuted : let ls := [[(0, 0); (10, 0); (10, 10); (0, 10)]; [(4, 5); (3, 4); (4, 7)]] in
  zgeneral (concat ls) = true /\ map zarea2 ls = [200; -2] /\ map zcrossing ls = [false; false] /\
  report ls = Ok ([0; 1; 2; 3; 4; 5; 6; 4; 3]%nat, true, [100]).
Proof. repeat split; vm_compute; reflexivity. Qed.
