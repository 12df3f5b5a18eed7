(** Property C45: planes, one loop without general position. *)
From Coq Require Import Reals Lra Lia Arith NArith ZArith Permutation List.
From Verif Require Import Prelude Num M_vec M_utils M_curve M_polygon M_meshgen M_surface L_base L_vec L_geom L_cycle L_polygon L_round
  Props_utils Props_polygon Props_ears Props_merge Props_mesh Props_gridmesh Props_round Props_loops Props_knot Props_bspline
  L_simple L_sides L_twoears L_earexist L_clip Props_simple L_drop Props_straight L_grid Props_grid Props_lattice L_convex Props_trim Props_trim3.
Open Scope R_scope.
Lemma resolved_turn ps i : resolved ps -> (i < length ps)%nat -> turn ps i = 0 \/ TOL < Rabs (turn ps i).
Proof. intros HR Hi. apply HR; auto; apply Nat.mod_upper_bound; lia. Qed.
(** Without three corners on a line, sides that do not cross meet in their common corner only. *)
Lemma simple_proper (ps : list (vec2 R)) : (3 <= length ps)%nat -> simple_polygon ps ->
  (forall i j k, (i < length ps)%nat -> (j < length ps)%nat -> (k < length ps)%nat -> i <> j -> j <> k -> i <> k -> tri_area2 (pt ps i) (pt ps j) (pt ps k) <> 0) -> proper_polygon ps.
Proof.
  intros H3 HS HG. set (n := length ps) in *. assert (ML : forall i, ((i + 1) mod n < n)%nat) by (intros; apply Nat.mod_upper_bound; lia).
  assert (NX : forall i, (i < n)%nat -> ((i + 1) mod n <> i)%nat) by (intros i Hi X; rewrite next_pos_mod in X by exact Hi; unfold next_pos in X; destruct (Nat.eqb_spec i (n - 1)); lia).
  assert (IJ : forall i j, (i < n)%nat -> (j < n)%nat -> ((i + 1) mod n = (j + 1) mod n)%nat -> i = j). { intros i j Hi Hj X. rewrite !next_pos_mod in X by assumption. unfold next_pos in X. destruct (Nat.eqb_spec i (n - 1)), (Nat.eqb_spec j (n - 1)); lia. }
  split.
  - apply (NoDup_nth ps (V2 0 0)). fold n. intros i j Hi Hj E. destruct (Nat.eq_dec i j) as [|N]; [assumption|exfalso].
    assert (K : exists k, (k < n)%nat /\ k <> i /\ k <> j).
    { destruct (Nat.eq_dec i 0), (Nat.eq_dec j 0); try lia; [destruct (Nat.eq_dec j 1); [exists 2%nat|exists 1%nat]|destruct (Nat.eq_dec i 1); [exists 2%nat|exists 1%nat]|exists 0%nat]; lia. }
    destruct K as (k & Hk & N1 & N2). apply (HG i j k Hi Hj Hk N (not_eq_sym N2) (not_eq_sym N1)). change (pt ps i = pt ps j) in E. rewrite E. unfold tri_area2. ring.
  - fold n. assert (Adj : forall i z, (i < n)%nat -> on_segment (pt ps i) (pt ps ((i + 1) mod n)) z -> on_segment (pt ps ((i + 1) mod n)) (pt ps (((i + 1) mod n + 1) mod n)) z -> z = pt ps ((i + 1) mod n)).
    { intros i z Hi (t & Ht & E1 & E2) (u & Hu & F1 & F2). set (j := ((i + 1) mod n)%nat) in *. set (k := ((j + 1) mod n)%nat) in *. assert (Hj : (j < n)%nat) by apply ML. assert (Hk : (k < n)%nat) by apply ML.
      assert (Nik : i <> k). { intros X. unfold k in X. rewrite next_pos_mod in X by exact Hj. unfold j in X. rewrite next_pos_mod in X by exact Hi. unfold next_pos in X. destruct (Nat.eqb_spec i (n - 1)); [destruct (Nat.eqb_spec 0 (n - 1))|destruct (Nat.eqb_spec (i + 1) (n - 1))]; lia. }
      pose proof (HG i j k Hi Hj Hk (not_eq_sym (NX i Hi)) (not_eq_sym (NX j Hj)) Nik) as N. assert (Z : u * tri_area2 (pt ps i) (pt ps j) (pt ps k) = 0).
      { transitivity (tri_area2 (pt ps i) (pt ps j) z); [unfold tri_area2; rewrite F1, F2; ring|unfold tri_area2; rewrite E1, E2; ring]. }
      apply Rmult_integral in Z as [Z|Z]; [|contradiction]. subst u. apply v2_ext; lra. }
    intros i j z Hi Hj Nij Oi Oj. destruct (Nat.eq_dec j ((i + 1) mod n)) as [E|N1]; [left; split; [exact E|]; rewrite E; apply Adj; [exact Hi|exact Oi|now rewrite <- E]|].
    destruct (Nat.eq_dec i ((j + 1) mod n)) as [E|N2]; [right; split; [exact E|]; rewrite E; apply Adj; [exact Hj|exact Oj|now rewrite <- E]|]. exfalso.
    assert (N3 : ((i + 1) mod n <> (j + 1) mod n)%nat) by (intros X; apply Nij; now apply IJ).
    destruct Oi as (t & Ht & E1 & E2), Oj as (u & Hu & F1 & F2). apply (HS i j Hi Hj). pose proof (NX i Hi) as Xi. pose proof (NX j Hj) as Xj.
    pose proof (HG i _ j Hi (ML i) Hj (not_eq_sym Xi) (not_eq_sym N1) Nij) as G1. pose proof (HG i _ _ Hi (ML i) (ML j) (not_eq_sym Xi) N3 N2) as G2.
    pose proof (HG j _ i Hj (ML j) Hi (not_eq_sym Xj) (not_eq_sym N2) (not_eq_sym Nij)) as G3. pose proof (HG j _ _ Hj (ML j) (ML i) (not_eq_sym Xj) (not_eq_sym N3) N1) as G4.
    set (a := pt ps i) in *. set (b := pt ps ((i + 1) mod n)) in *. set (c := pt ps j) in *. set (d := pt ps ((j + 1) mod n)) in *.
    assert (S1 : (1 - u) * tri_area2 a b c + u * tri_area2 a b d = 0). { transitivity (tri_area2 a b z); [unfold tri_area2; rewrite F1, F2; ring|unfold tri_area2; rewrite E1, E2; ring]. }
    assert (S2 : (1 - t) * tri_area2 c d a + t * tri_area2 c d b = 0). { transitivity (tri_area2 c d z); [unfold tri_area2; rewrite E1, E2; ring|unfold tri_area2; rewrite F1, F2; ring]. }
    assert (Opp : forall t p q, 0 <= t <= 1 -> p <> 0 -> q <> 0 -> (1 - t) * p + t * q = 0 -> p * q < 0).
    { intros t' p q Ht' Hp Hq E. destruct (Rtotal_order (p * q) 0) as [L|[L|L]]; [exact L|apply Rmult_integral in L as [?|?]; contradiction|exfalso].
      assert (Z : p * ((1 - t') * p + t' * q) = 0) by (rewrite E; ring). assert (P0 : 0 < p * p) by (pose proof (Rle_0_sqr p) as [Q|Q]; [exact Q|]; symmetry in Q; apply Rmult_integral in Q as [?|?]; contradiction).
      assert (0 <= (1 - t') * (p * p)) by (apply Rmult_le_pos; lra). assert (0 <= t' * (p * q)) by (apply Rmult_le_pos; lra). assert (Z1 : (1 - t') * (p * p) = 0) by lra. apply Rmult_integral in Z1 as [Z1|Z1]; [|lra]. assert (Z2 : t' * (p * q) = 0) by lra. apply Rmult_integral in Z2 as [Z2|Z2]; lra. }
    split; [exact (Opp u _ _ Hu G1 G2 S1)|exact (Opp t _ _ Ht G3 G4 S2)].
Qed.
(** What ear clipping does on a polygon, with what [Plane::trim] looks at. *)
Lemma proper_cases (ps : list (vec2 R)) : let n := length ps in (3 <= n)%nat -> proper_polygon ps -> resolved ps -> 0 < area2 ps -> (forall v, ~ reflex_between ps v) ->
  good ps /\ exists kept conc, compute_vertex_convexity ps = Ok (kept, conc) /\ length kept <> length conc /\ sublist kept (seq 0 n) /\ (forall i, In i kept <-> (i < n)%nat /\ turn ps i <> 0) /\
    (conc = [] /\ (forall i, (i < n)%nat -> 0 <= turn ps i) /\ convex_loop ps \/
     conc <> [] /\ (exists i, (i < n)%nat /\ turn ps i < 0) /\ exists T, trianglate_polygon ps kept conc = Ok (emit T) /\ (length T + 2 = length kept)%nat /\
       Forall (fun '(i, j, k) => (i < n)%nat /\ (j < n)%nat /\ (k < n)%nat /\ 0 < tri_area2 (pt ps i) (pt ps j) (pt ps k)) T /\
       total_area2 ps T = area2 ps /\ (forall w, antisym w -> sumw w (map (fun '(a, b, c) => [a; b; c]) T) = cyc w kept) /\
       forall q, off_all_lines ps T q -> INR (covering ps T q) = winding ps q).
Proof.
  intros n H3 HP HR HA HB. pose proof TOL_pos as TP. pose proof (proper_good ps ltac:(lia) HP HA) as G. split; [exact G|].
  assert (CP : forall x v y, corner ps x v y -> exists i, (i < n)%nat /\ T x v y = turn ps i).
  { intros x v y Hc. apply corner_position in Hc as (i & Hi & ->); [|lia]. exists i. split; [exact Hi|]. now apply turn_corner. }
  destruct (C64_sound ps ltac:(lia) HP HR HA) as (kept & conc & T & D & rest & EC & ET & IV & IC & FT & FD & HLn & A & X & W). fold n in IV, IC.
  assert (SK : sublist kept (seq 0 n)).
  { pose proof EC as EC'. rewrite C38_vertex_convexity in EC'. apply Ok_inj in EC'. apply (f_equal fst) in EC'. cbn [fst] in EC'. rewrite <- EC'. apply sublist_filter. }
  destruct (convex_corner ps G) as (x0 & v0 & y0 & Hc0 & Hp0). destruct (CP _ _ _ Hc0) as (j0 & Hj0 & Ej0). rewrite Ej0 in Hp0.
  exists kept, conc. split; [exact EC|]. split; [|split; [exact SK|split; [exact IV|]]].
  { intros E. pose proof EC as EC'. rewrite C38_vertex_convexity in EC'. apply Ok_inj in EC'. pose proof (f_equal snd EC') as E2. cbn [snd] in E2. pose proof (f_equal fst EC') as E1. cbn [fst] in E1.
    assert (P : incl kept conc). { apply NoDup_length_incl; [rewrite <- E2; apply NoDup_filter, seq_NoDup|lia|]. intros z Hz. apply IC in Hz. apply IV. split; [tauto|lra]. }
    assert (K : In j0 conc) by (apply P, IV; split; [exact Hj0|lra]). apply IC in K. lra. }
  destruct conc as [|i0 conc0]; [left|right].
  - (* no inward corner: the polygon is convex *)
    assert (Pos : forall i, (i < n)%nat -> 0 <= turn ps i). { intros i Hi. destruct (Rle_lt_dec 0 (turn ps i)) as [|L]; [assumption|]. destruct (proj2 (IC i) (conj Hi L)). }
    split; [reflexivity|]. split; [exact Pos|]. split; [|split].
    + intros i k Hi Hk. fold n in Hi, Hk |- *. apply (sees_weakly _ ps (le_n _) G).
      * intros x v y Hc. destruct (CP _ _ _ Hc) as (t & Ht & ->). auto.
      * apply nth_In. exact Hk.
      * assert (E : edge ps (pt ps i) (pt ps ((i + 1) mod n))). { pose proof (corner_map (pt ps) _ _ _ _ (seq_corner_ex n i H3 Hi)) as K. change (map (pt ps) (seq 0 n)) with (poly ps (seq 0 (length ps))) in K. rewrite poly_seq in K. now apply corner_edge in K. } now rewrite next_pos_mod in E by lia.
    + fold n. intros i Hi E. destruct G as [[ND _] _ _ _]. apply NoDup_nth in E; auto; unfold next_pos in *; destruct (Nat.eqb_spec i (n - 1)); fold n; lia.
    + exists j0. split; [exact Hj0|]. rewrite turn_corner by (auto; lia). destruct (resolved_turn ps j0 HR Hj0) as [Z|Z]; [lra|]. rewrite Rabs_right in Z by lra. exact Z.
  - assert (I0 : (i0 < n)%nat /\ turn ps i0 < 0) by (apply IC; now left).
    assert (D = []) as ->. { destruct D as [|v D]; [reflexivity|]. inversion FD as [|? ? K]; subst. exfalso. exact (HB v K). }
    destruct HLn as [[-> HLn]|[K _]]; [|congruence]. cbn [length] in HLn. change (area2 (poly ps [])) with 0 in A.
    split; [discriminate|]. split; [now exists i0|]. exists T. split; [exact ET|]. split; [lia|]. split; [|split; [lra|split; [intros w Aw; symmetry; now apply X|]]].
    + eapply Forall_impl; [|exact FT]. intros [[a b] c] [Hct Hp]. assert (K : forall x, In x [a; b; c] -> (x < n)%nat).
      { intros x Ix. assert (I : In x kept); [|apply IV in I; tauto]. destruct Hct as [S|[S|S]]; eapply sublist_In; [exact S| |exact S| |exact S|]; cbn [In] in *; tauto. }
      split; [apply K; cbn; auto|]. split; [apply K; cbn; auto|]. split; [apply K; cbn; auto|exact Hp].
    + intros q Hq. destruct (W q Hq) as (W2 & W3 & _). change (winding (poly ps []) q) with 0 in W3. change (INR (covers ps T q) = winding ps q). lra.
Qed.
Lemma good_once ps : good ps -> forall V T q, INR (covering V T q) = winding ps q -> (covering V T q <= 1)%nat.
Proof. intros G V T q E. destruct (winding01 ps q G) as [W|W]; rewrite W in E; [change 0 with (INR 0) in E|change 1 with (INR 1) in E]; apply INR_eq in E; lia. Qed.
(** C45: a single loop, simple and counter-clockwise; vertices may be straight or on common lines. *)
Theorem C45_proper (s : Plane R) fuel rnd bounds vs : proper_loops fuel rnd bounds [vs] -> let ps := map (plane_project s) vs in let n := length vs in
  (3 <= n)%nat -> (N.of_nat n < 2 ^ 32)%N -> proper_polygon ps -> resolved ps -> 0 < area2 ps -> (forall v, ~ reflex_between ps v) ->
  exists m extra T kept, plane_trim s fuel rnd bounds = Ok m /\ m_vertices m = vs ++ extra /\ m_normals m = [] /\ m_triangles m = emit T /\
    ((forall i, (i < n)%nat -> 0 <= turn ps i) /\ (exists c, extra = [c] /\ mean_of vs c) /\ length T = n /\ kept = seq 0 n \/
     (exists i, (i < n)%nat /\ turn ps i < 0) /\ extra = [] /\ (length T + 2 = length kept)%nat /\ forall i, In i kept <-> (i < n)%nat /\ turn ps i <> 0) /\
    sublist kept (seq 0 n) /\
    let V := map (plane_project s) (m_vertices m) in
    Forall (fun '(i, j, k) => (i < length V)%nat /\ (j < length V)%nat /\ (k < length V)%nat /\ 0 < tri_area2 (pt V i) (pt V j) (pt V k)) T /\
    total_area2 V T = area2 ps /\ (forall w, antisym w -> sumw w (map (fun '(a, b, c) => [a; b; c]) T) = cyc w kept) /\
    forall q, off_all_lines V T q -> INR (covering V T q) = winding ps q /\ (covering V T q <= 1)%nat.
Proof.
  intros HL ps n H3 HN HP HR HA HB. assert (Ln : length ps = n) by apply map_length.
  destruct (proper_cases ps ltac:(lia) HP HR HA HB) as (G & kept & conc & EC & NE & SK & IV & C). pose proof (good_once ps G) as W1. rewrite Ln in *.
  destruct C as [(-> & Pos & HC)|(NC & I0 & T & ET & HLn & FT & A & X & W)].
  - destruct (C45_convex s fuel rnd bounds vs HL HC HN) as (m & c & T' & E & EV & HM & ET' & HT & F & A' & SW & W').
    exists m, [c], T', (seq 0 n). split; [exact E|]. split; [exact EV|].
    split. { rewrite (plane_trim_single _ _ _ _ _ HL) in E. unfold plane_trim_polygons in E. cbn [length Nat.eqb] in E. fold ps in E. rewrite EC in E. cbn [obind] in E.
      destruct (length kept =? length [])%nat; [apply Ok_inj in E; now subst m|]. cbn [length Nat.eqb] in E. bindas E t Et. apply Ok_inj in E. now subst m. }
    split; [exact ET'|]. split; [left; split; [exact Pos|]; split; [now exists c|]; split; [exact HT|reflexivity]|]. split; [apply sublist_refl|]. split; [exact F|]. split; [exact A'|]. split; [exact SW|].
    intros q Hq. split; [now apply W'|]. eapply W1. now apply W'.
  - exists (mkTM vs [] (emit T)), [], T, kept. rewrite (plane_trim_single _ _ _ _ _ HL). unfold plane_trim_polygons. cbn [length Nat.eqb]. fold ps. rewrite EC. cbn [obind].
    apply Nat.eqb_neq in NE. rewrite NE. destruct conc as [|i0 conc0]; [congruence|]. cbn [length Nat.eqb]. rewrite ET. cbn [obind m_vertices m_triangles m_normals]. rewrite app_nil_r. fold ps.
    split; [reflexivity|]. split; [reflexivity|]. split; [reflexivity|]. split; [reflexivity|].
    split; [right; split; [exact I0|]; split; [reflexivity|]; split; [exact HLn|exact IV]|]. split; [exact SK|]. cbv zeta. rewrite Ln. split; [exact FT|]. split; [exact A|]. split; [exact X|].
    intros q Hq. split; [now apply W|]. eapply W1. now apply W.
Qed.
(** Loops of straight edges between given corners. *)
Definition corners_apart (vs : list (vec3 R)) : Prop := Forall (fun '(a, b) => apart a b) (pairs (vs ++ firstn 1 vs)).
Lemma edges_loop rnd vs : (2 <= length vs)%nat -> corners_apart vs -> proper_loops 1 rnd [edgesR vs] [vs].
Proof.
  intros H2 HA. destruct vs as [|a [|b l]]; cbn [length] in H2; try lia. exists [a :: b :: l]. split; [|reflexivity]. split; [reflexivity|].
  intros k e p. destruct k as [|[|k]]; cbn [nth_error]; try discriminate. intros E1 E2. injection E1 as <-. injection E2 as <-.
  apply C53_straight_loop; [discriminate| |exact HA].
  unfold edgesR. cbn [firstn app]. induction (pairs _) as [|[x y] r IH]; [constructor|]. cbn [map]. constructor; [apply segR_straight|exact IH].
Qed.
Lemma integers_resolved zs : Forall (fun '(x, y) => Z.abs x < 2 ^ 25 /\ Z.abs y < 2 ^ 25)%Z zs -> resolved (map rz zs).
Proof. intros H. destruct (zq_grid zs H) as [HG <-]. exact (grid_resolved _ _ _ HG). Qed.
(** The dart with a straight vertex. *)
Definition dart5_3 : list (vec3 R) := [V3 0 0 0; V3 2 0 0; V3 4 0 0; V3 1 1 0; V3 0 4 0].
Lemma dart5_project : map (plane_project xy_plane) dart5_3 = map rz dart5.
Proof. unfold dart5_3, dart5, rz, xy_plane, plane_project, dot3. cbn [map p_origin p_u_axis p_v_axis]. vsimp. cbn [x3 y3 z3 fst snd]. rnum. repeat (f_equal; try lra). Qed.
Example C45_proper_nonvacuous rnd : exists T, plane_trim xy_plane 1 rnd [edgesR dart5_3] = Ok (mkTM dart5_3 [] (emit T)) /\ length T = 2%nat.
Proof.
  assert (HA : area2 (map rz dart5) = 8) by (unfold area2, cyc, chain, cross2, rz, dart5; cbn; lra).
  destruct (C45_proper xy_plane 1 rnd [edgesR dart5_3] dart5_3) as (m & extra & T & kept & E & EV & EN & ET & C & SK & _); rewrite ?dart5_project.
  - apply edges_loop; [cbn; lia|]. unfold corners_apart, dart5_3. cbn [app firstn pairs]. repeat (constructor; [unfold apart, distance_squared3, length_squared3, dot3; cbn; lra|]). constructor.
  - cbn; lia.
  - reflexivity.
  - apply zproper_sound. reflexivity.
  - apply integers_resolved. unfold dart5. repeat constructor; cbn; lia.
  - lra.
  - intros v. apply zreflex_sound. reflexivity.
  - rewrite dart5_project in C. destruct C as [(P & _)|(_ & -> & LT & IK)].
    + exfalso. specialize (P 3%nat ltac:(cbn; lia)). rewrite turn_rz in P. cbn in P. lra.
    + rewrite app_nil_r in EV. exists T. split; [rewrite E; destruct m; cbn in *; now subst|].
      assert (EK : NoDup kept) by (eapply sublist_NoDup; [exact SK|apply seq_NoDup]).
      assert (K : Permutation kept [0; 2; 3; 4]%nat).
      { apply NoDup_Permutation; [exact EK|repeat constructor; cbn; lia|]. intros i. rewrite IK. cbn [length dart5_3]. split.
        - intros [Hi Ht]. destruct i as [|[|[|[|[|i]]]]]; try (cbn; tauto); [|lia]. exfalso. apply Ht. rewrite turn_rz. reflexivity.
        - intros Hi. cbn in Hi. destruct Hi as [<-|[<-|[<-|[<-|[]]]]]; (split; [lia|]); rewrite turn_rz; cbn; lra. }
      apply Permutation_length in K. cbn in K. lia.
Qed.
