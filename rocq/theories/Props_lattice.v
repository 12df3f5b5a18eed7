(** Property C64 in doubles: simple polygons with integer corners, vertices on common lines allowed; the clipper loses part of some of them. *)
From Coq Require Import ZArith Reals Lra Lia List Bool Arith Floats.SpecFloat.
From Verif Require Import Prelude Num M_vec M_utils M_polygon L_base L_vec L_geom L_cycle L_polygon L_float L_grid Props_polygon Props_ears L_sides Props_simple L_clip L_drop Props_straight Props_grid Props_segments.
Open Scope R_scope.

(** ** Polygons on the grid *)
Lemma grid_resolved s K (ps : list (vec2 f64)) : on_grid s K ps -> resolved (map val2 ps).
Proof.
  intros HG. set (rs := map val2 ps). assert (EL : length rs = length ps) by apply map_length. intros i j k Hi Hj Hk. rewrite EL in Hi, Hj, Hk.
  destruct (Req_dec (tri_area2 (pt rs i) (pt rs j) (pt rs k)) 0) as [|HN]; [left; assumption|right]. destruct HG as (Hs & HK & HF). rewrite Forall_forall in HF.
  assert (P : forall i, (i < length ps)%nat -> exists p, grid2 s K p /\ pt rs i = val2 p).
  { intros i0 H0. exists (nth i0 ps (V2 f0 f0)). split; [apply HF, nth_In, H0|]. unfold pt, rs. rewrite (nth_indep _ _ (val2 (V2 f0 f0))) by (rewrite map_length; exact H0). apply map_nth. }
  destruct (P i Hi) as (a & Ga & Ea). destruct (P j Hj) as (b & Gb & Eb). destruct (P k Hk) as (c & Gc & Ec). rewrite Ea, Eb, Ec in *.
  destruct (cross_grid s K Hs HK b a c a Gb Ga Gc Ga) as [GR V].
  destruct (grid_near (s + s) _ _ GR ltac:(lia) ltac:(lia)) as [EN EZ]. 
  assert (ET : tri_area2 (val2 a) (val2 b) (val2 c) = val (perp_dot (vsub b a) (vsub c a))) by (rewrite V; unfold tri_area2, perp_dot; vsimp; rnum; ring).
  rewrite ET in *. destruct (Rle_lt_dec (Rabs (val (perp_dot (vsub b a) (vsub c a)))) TOL) as [L|L]; [exfalso|exact L].
  apply HN, EZ. rewrite EN. unfold near, abs_diff_eq, ftol. rnum. rewrite Rminus_0_r. apply Rleb_true. exact L.
Qed.
(** C64 in doubles: any simple counter-clockwise polygon on the grid is tiled if no inward vertex lies between two others, and otherwise the triangles are inside and do not overlap. *)
Theorem C64_grid s K (ps : list (vec2 f64)) : on_grid s K ps -> let n := length ps in let rs := map val2 ps in (3 <= n)%nat -> proper_polygon rs -> 0 < area2 rs ->
  exists vs conc T, compute_vertex_convexity ps = Ok (vs, conc) /\ trianglate_polygon ps vs conc = Ok (emit T) /\
    (forall i, In i vs <-> (i < n)%nat /\ turn rs i <> 0) /\
    Forall (fun '(a, b, c) => cyc_triple vs a b c /\ 0 < tri_area2 (pt rs a) (pt rs b) (pt rs c)) T /\
    total_area2 rs T <= area2 rs /\
    (forall q, off_all_lines rs T q -> (covers rs T q <= 1)%nat /\ (covers rs T q = 1%nat -> winding rs q = 1)) /\
    ((forall v, ~ reflex_between rs v) -> (length T + 2 = length vs)%nat /\ area2 rs = total_area2 rs T /\ forall q, off_all_lines rs T q -> winding rs q = INR (covers rs T q)).
Proof.
  intros HG. cbv zeta. set (rs := map val2 ps). assert (EL : length rs = length ps) by apply map_length. intros H3 HP HA. destruct (C60_same_triangles s K ps HG) as (E1 & _ & E2). fold rs in E1, E2.
  pose proof (grid_resolved s K ps HG) as HR. fold rs in HR. destruct (C64_sound rs ltac:(rewrite EL; exact H3) HP HR HA) as (vs & conc & T & D & rest & C1 & C2 & IV & _ & FT & FD & HL & A & HX & W).
  exists vs, conc, T. split; [now rewrite E1|]. split; [now rewrite E2|]. split; [rewrite <- EL; exact IV|]. split; [exact FT|].
  split. { destruct HL as [[-> _]|(_ & _ & _ & P)]; [change (area2 (poly rs [])) with 0 in A|]; lra. }
  split. { intros q Hq. destruct (W q Hq) as (? & _ & ?). split; assumption. }
  intros HN. assert (D = []) as ->. { destruct D as [|v D]; [reflexivity|]. inversion FD as [|x l X]; subst. exfalso. exact (HN v X). }
  destruct HL as [[-> L]|[X _]]; [|congruence]. change (area2 (poly rs [])) with 0 in A. cbn [length] in L. split; [lia|]. split; [lra|].
  intros q Hq. destruct (W q Hq) as (_ & X & _). change (winding (poly rs []) q) with 0 in X. lra.
Qed.

(** ** Integer polygons can be checked *)
Definition zpt (zs : list (Z * Z)) (i : nat) : Z * Z := nth i zs (0, 0)%Z.
Definition rz (p : Z * Z) : vec2 R := V2 (IZR (fst p)) (IZR (snd p)).
Definition zarea (a b c : Z * Z) : Z := ((fst b - fst a) * (snd c - snd a) - (snd b - snd a) * (fst c - fst a))%Z.
Definition zdot (u p : Z * Z) : Z := (fst u * fst p + snd u * snd p)%Z.
Definition zsub (p q : Z * Z) : Z * Z := (fst p - fst q, snd p - snd q)%Z.
(** all of [a b] below all of [c d] in the direction [u] *)
Definition zbelow (u a b c d : Z * Z) : bool := ((zdot u a <? zdot u c) && (zdot u a <? zdot u d) && (zdot u b <? zdot u c) && (zdot u b <? zdot u d))%Z.
Definition zapart (a b c d : Z * Z) : bool := let e := zsub b a in let f := zsub d c in
  existsb (fun u => zbelow u a b c d || zbelow u c d a b) [e; f; (snd e, - fst e)%Z; (snd f, - fst f)%Z].
(** the sides [a b] and [b c] share only [b] *)
Definition zhinge (a b c : Z * Z) : bool := (negb (zarea a b c =? 0) || (zdot (zsub a b) (zsub c b) <? 0))%Z.
Definition zproper (zs : list (Z * Z)) : bool := let n := length zs in let side i := (zpt zs i, zpt zs ((i + 1) mod n)) in
  forallb (fun i => forallb (fun j => (i =? j)%nat || negb ((fst (zpt zs i) =? fst (zpt zs j)) && (snd (zpt zs i) =? snd (zpt zs j)))%Z) (seq 0 n)) (seq 0 n) &&
  forallb (fun i => forallb (fun j => (i =? j)%nat ||
    (if (j =? (i + 1) mod n)%nat then zhinge (zpt zs i) (zpt zs j) (zpt zs ((j + 1) mod n))
     else if (i =? (j + 1) mod n)%nat then zhinge (zpt zs j) (zpt zs i) (zpt zs ((i + 1) mod n))
     else zapart (zpt zs i) (zpt zs ((i + 1) mod n)) (zpt zs j) (zpt zs ((j + 1) mod n)))) (seq 0 n)) (seq 0 n).
Lemma pt_rz zs i : pt (map rz zs) i = rz (zpt zs i).
Proof. unfold pt, zpt. change (V2 0 0) with (rz (0, 0)%Z). apply map_nth. Qed.
Lemma rz_area a b c : tri_area2 (rz a) (rz b) (rz c) = IZR (zarea a b c).
Proof. unfold tri_area2, zarea, rz. cbn [x2 y2]. rewrite minus_IZR, !mult_IZR, !minus_IZR. ring. Qed.
Lemma comb_le t a b M : 0 <= t <= 1 -> a <= M -> b <= M -> (1 - t) * a + t * b <= M.
Proof. intros Ht Ha Hb. pose proof (Rmult_le_compat_l (1 - t) a M ltac:(lra) Ha). pose proof (Rmult_le_compat_l t b M ltac:(lra) Hb). lra. Qed.
Lemma comb_lt t a b M : 0 <= t <= 1 -> a < M -> b < M -> (1 - t) * a + t * b < M.
Proof.
  intros Ht Ha Hb. destruct (Rle_lt_dec a b) as [L|L].
  - pose proof (comb_le t a b b Ht L (Rle_refl _)). lra.
  - pose proof (comb_le t a b a Ht (Rle_refl _) (Rlt_le _ _ L)). lra.
Qed.
Definition rdot (u : Z * Z) (z : vec2 R) : R := IZR (fst u) * x2 z + IZR (snd u) * y2 z.
Lemma rdot_rz u p : rdot u (rz p) = IZR (zdot u p).
Proof. unfold rdot, rz, zdot. cbn [x2 y2]. now rewrite plus_IZR, !mult_IZR. Qed.
Lemma rdot_on u a b z : on_segment a b z -> exists t, 0 <= t <= 1 /\ rdot u z = (1 - t) * rdot u a + t * rdot u b.
Proof. intros (t & Ht & E1 & E2). exists t. split; [exact Ht|]. unfold rdot. rewrite E1, E2. ring. Qed.
Lemma zbelow_sound u a b c d z : zbelow u a b c d = true -> on_segment (rz a) (rz b) z -> on_segment (rz c) (rz d) z -> False.
Proof.
  unfold zbelow. rewrite !andb_true_iff, !Z.ltb_lt. intros [[[H1 H2] H3] H4] O1 O2. apply IZR_lt in H1, H2, H3, H4. rewrite <- !rdot_rz in *.
  destruct (rdot_on u _ _ _ O1) as (t & Ht & E1). destruct (rdot_on u _ _ _ O2) as (s & Hs & E2). set (M := Rmin (rdot u (rz c)) (rdot u (rz d))).
  assert (Ha : rdot u (rz a) < M) by (unfold M, Rmin; destruct (Rle_dec _ _); assumption). assert (Hb : rdot u (rz b) < M) by (unfold M, Rmin; destruct (Rle_dec _ _); assumption).
  pose proof (comb_lt t _ _ M Ht Ha Hb). pose proof (Rmin_l (rdot u (rz c)) (rdot u (rz d))) as Ml. pose proof (Rmin_r (rdot u (rz c)) (rdot u (rz d))) as Mr. fold M in Ml, Mr.
  pose proof (comb_le s (- rdot u (rz c)) (- rdot u (rz d)) (- M) Hs ltac:(lra) ltac:(lra)). lra.
Qed.
Lemma zapart_sound a b c d z : zapart a b c d = true -> on_segment (rz a) (rz b) z -> on_segment (rz c) (rz d) z -> False.
Proof.
  unfold zapart. cbv zeta. intros H O1 O2. apply existsb_exists in H as (u & _ & H). apply orb_true_iff in H as [H|H]; [exact (zbelow_sound _ _ _ _ _ _ H O1 O2)|exact (zbelow_sound _ _ _ _ _ _ H O2 O1)].
Qed.
Lemma zhinge_sound a b c z : zhinge a b c = true -> on_segment (rz a) (rz b) z -> on_segment (rz b) (rz c) z -> z = rz b.
Proof.
  unfold zhinge. rewrite orb_true_iff, negb_true_iff, Z.eqb_neq, Z.ltb_lt. intros H (t & Ht & X1 & Y1) (s & Hs & X2 & Y2).
  assert (DX : (1 - t) * (x2 (rz a) - x2 (rz b)) = s * (x2 (rz c) - x2 (rz b))) by lra. assert (DY : (1 - t) * (y2 (rz a) - y2 (rz b)) = s * (y2 (rz c) - y2 (rz b))) by lra.
  assert (S0 : s = 0).
  { destruct H as [H|H].
    - assert (HR : tri_area2 (rz a) (rz b) (rz c) <> 0) by (rewrite rz_area; now apply not_0_IZR).
      assert (E : s * tri_area2 (rz a) (rz b) (rz c) = 0).
      { transitivity ((x2 (rz b) - x2 (rz a)) * (s * (y2 (rz c) - y2 (rz b))) - (y2 (rz b) - y2 (rz a)) * (s * (x2 (rz c) - x2 (rz b)))); [unfold tri_area2; ring|]. rewrite <- DX, <- DY. ring. }
      apply Rmult_integral in E as [E|E]; [exact E|contradiction].
    - apply IZR_lt in H. unfold zdot, zsub in H. cbn [fst snd] in H. rewrite plus_IZR, !mult_IZR, !minus_IZR in H. unfold rz in DX, DY. cbn [x2 y2] in DX, DY.
      set (p := IZR (fst a) - IZR (fst b)) in *. set (q := IZR (snd a) - IZR (snd b)) in *. set (u := IZR (fst c) - IZR (fst b)) in *. set (v := IZR (snd c) - IZR (snd b)) in *.
      destruct (Req_dec s 0) as [|N]; [assumption|exfalso]. assert (0 < s) by lra.
      (* s |c-b|^2 = (1-t) (a-b).(c-b) *)
      assert (E : s * (u * u + v * v) = (1 - t) * (p * u + q * v)) by (replace (s * (u * u + v * v)) with (s * u * u + s * v * v) by ring; rewrite <- DX, <- DY; ring).
      assert (P : 0 < u * u + v * v). { destruct (Req_dec u 0) as [U|U]; [destruct (Req_dec v 0) as [V|V]|]; [rewrite U, V in H; lra| |]; [pose proof (Rsqr_pos_lt v V) as K; pose proof (Rle_0_sqr u)|pose proof (Rsqr_pos_lt u U) as K; pose proof (Rle_0_sqr v)]; unfold Rsqr in *; lra. }
      pose proof (Rmult_lt_0_compat s _ H0 P). pose proof (Rmult_le_compat_l (1 - t) (p * u + q * v) 0 ltac:(lra) ltac:(lra)). lra. }
  rewrite S0 in X2, Y2. apply v2_ext; [rewrite X2|rewrite Y2]; ring.
Qed.
Lemma zproper_sound zs : zproper zs = true -> proper_polygon (map rz zs).
Proof.
  unfold zproper, proper_polygon. cbv zeta. rewrite map_length. set (n := length zs). rewrite andb_true_iff, !forallb_forall. intros [HD HS].
  split.
  - apply (NoDup_nth (map rz zs) (V2 0 0)). rewrite map_length. fold n. intros i j Hi Hj E. change (pt (map rz zs) i = pt (map rz zs) j) in E. rewrite !pt_rz in E.
    specialize (HD i ltac:(apply in_seq; lia)). rewrite forallb_forall in HD. specialize (HD j ltac:(apply in_seq; lia)). apply orb_true_iff in HD as [K|K]; [now apply Nat.eqb_eq|].
    apply negb_true_iff, andb_false_iff in K. unfold rz in E. injection E as E1 E2. apply eq_IZR in E1, E2. rewrite E1, E2, !Z.eqb_refl in K. destruct K; discriminate.
  - intros i j z Hi Hj N. rewrite !pt_rz. intros O1 O2. specialize (HS i ltac:(apply in_seq; lia)). rewrite forallb_forall in HS. specialize (HS j ltac:(apply in_seq; lia)).
    apply orb_true_iff in HS as [K|K]; [apply Nat.eqb_eq in K; congruence|]. destruct (Nat.eqb_spec j ((i + 1) mod n)) as [E|E1].
    + left. split; [exact E|]. apply (zhinge_sound _ _ _ z K); [rewrite E; exact O1|exact O2].
    + destruct (Nat.eqb_spec i ((j + 1) mod n)) as [E|E2].
      * right. split; [exact E|]. apply (zhinge_sound _ _ _ z K); [rewrite E; exact O2|exact O1].
      * exfalso. exact (zapart_sound _ _ _ _ _ K O1 O2).
Qed.
(** is there an inward vertex between two others? *)
Definition zturn (zs : list (Z * Z)) (i : nat) : Z := let n := length zs in zarea (zpt zs ((i + n - 1) mod n)) (zpt zs i) (zpt zs ((i + 1) mod n)).
Definition zreflex_between (zs : list (Z * Z)) : bool := let n := length zs in
  existsb (fun v => (zturn zs v <? 0)%Z && existsb (fun a => existsb (fun b => negb (a =? v)%nat && negb (b =? v)%nat &&
    ((zarea (zpt zs a) (zpt zs b) (zpt zs v) =? 0) && (zdot (zsub (zpt zs a) (zpt zs v)) (zsub (zpt zs b) (zpt zs v)) <=? 0))%Z) (seq 0 n)) (seq 0 n)) (seq 0 n).
Lemma turn_rz zs i : turn (map rz zs) i = IZR (zturn zs i).
Proof. unfold turn, zturn. cbv zeta. rewrite map_length, !pt_rz. apply rz_area. Qed.
Lemma on_area a b z : on_segment a b z -> tri_area2 a b z = 0.
Proof. intros (t & _ & E1 & E2). unfold tri_area2. rewrite E1, E2. ring. Qed.
Lemma zreflex_sound zs v : zreflex_between zs = false -> ~ reflex_between (map rz zs) v.
Proof.
  intros H (Hv & Ht & a & b & Ha & Hb & Na & Nb & O). rewrite map_length in *. rewrite turn_rz in Ht. apply lt_IZR in Ht. rewrite !pt_rz in O. apply Bool.not_true_iff_false in H. apply H. clear H.
  pose proof (on_area _ _ _ O) as A. rewrite rz_area in A. apply eq_IZR_R0 in A. unfold zreflex_between. cbv zeta.
  apply existsb_exists. exists v. split; [apply in_seq; lia|]. apply andb_true_iff. split; [now apply Z.ltb_lt|]. apply existsb_exists. exists a. split; [apply in_seq; lia|].
  apply existsb_exists. exists b. split; [apply in_seq; lia|]. rewrite !andb_true_iff, !negb_true_iff, !Nat.eqb_neq, Z.eqb_eq, Z.leb_le. repeat split; auto.
  apply le_IZR. destruct O as (t & T & E1 & E2). unfold rz in E1, E2. cbn [x2 y2] in E1, E2. unfold zdot, zsub. cbn [fst snd]. rewrite plus_IZR, !mult_IZR, !minus_IZR, E1, E2.
  set (p := IZR (fst (zpt zs a))). set (q := IZR (fst (zpt zs b))). set (r := IZR (snd (zpt zs a))). set (s := IZR (snd (zpt zs b))).
  replace ((p - ((1 - t) * p + t * q)) * (q - ((1 - t) * p + t * q)) + (r - ((1 - t) * r + t * s)) * (s - ((1 - t) * r + t * s))) with (- (t * (1 - t) * (Rsqr (p - q) + Rsqr (r - s)))) by (unfold Rsqr; ring).
  pose proof (Rle_0_sqr (p - q)). pose proof (Rle_0_sqr (r - s)). pose proof (Rmult_le_pos t (1 - t) ltac:(lra) ltac:(lra)) as K. pose proof (Rmult_le_pos _ (Rsqr (p - q) + Rsqr (r - s)) K ltac:(lra)). lra.
Qed.
Definition zq (p : Z * Z) : vec2 f64 := q64 (fst p) (snd p).
Lemma zq_grid zs : Forall (fun '(x, y) => Z.abs x < 2 ^ 25 /\ Z.abs y < 2 ^ 25)%Z zs -> on_grid 0 (2 ^ 25 - 1) (map zq zs) /\ map val2 (map zq zs) = map rz zs.
Proof.
  intros HZ. rewrite Forall_forall in HZ. split.
  - split; [lia|]. split; [reflexivity|]. apply Forall_forall. intros p I. apply in_map_iff in I as ([x y] & <- & I). specialize (HZ _ I) as [Hx Hy]. split; cbn [x2 y2 q64 zq fst snd]; apply int_grid; lia.
  - rewrite map_map. apply map_ext_in. intros [x y] I. specialize (HZ _ I) as [Hx Hy]. unfold val2, zq, q64, rz. cbn [x2 y2 fst snd]. rewrite !(fun z H => proj2 (int_grid z (2 ^ 25) H)) by lia. reflexivity.
Qed.
(** C64: a simple counter-clockwise polygon with integer corners below 2^25, in doubles. *)
Theorem C64_integers (zs : list (Z * Z)) : let ps := map zq zs in let rs := map rz zs in let n := length zs in
  Forall (fun '(x, y) => Z.abs x < 2 ^ 25 /\ Z.abs y < 2 ^ 25)%Z zs -> (3 <= n)%nat -> proper_polygon rs -> 0 < area2 rs ->
  exists vs conc T, compute_vertex_convexity ps = Ok (vs, conc) /\ trianglate_polygon ps vs conc = Ok (emit T) /\
    (forall i, In i vs <-> (i < n)%nat /\ turn rs i <> 0) /\
    Forall (fun '(a, b, c) => cyc_triple vs a b c /\ 0 < tri_area2 (pt rs a) (pt rs b) (pt rs c)) T /\
    total_area2 rs T <= area2 rs /\
    (forall q, off_all_lines rs T q -> (covers rs T q <= 1)%nat /\ (covers rs T q = 1%nat -> winding rs q = 1)) /\
    ((forall v, ~ reflex_between rs v) -> (length T + 2 = length vs)%nat /\ area2 rs = total_area2 rs T /\ forall q, off_all_lines rs T q -> winding rs q = INR (covers rs T q)).
Proof.
  cbv zeta. intros HZ. destruct (zq_grid zs HZ) as [HG ER]. pose proof (C64_grid 0 (2 ^ 25 - 1) (map zq zs) HG) as K. cbv zeta in K. rewrite ER, map_length in K. exact K.
Qed.
(** a dart with a straight vertex: all of it is tiled *)
Definition dart5 : list (Z * Z) := [(0, 0); (2, 0); (4, 0); (1, 1); (0, 4)]%Z.
Example C64_integers_nonvacuous : exists vs conc T, compute_vertex_convexity (map zq dart5) = Ok (vs, conc) /\ trianglate_polygon (map zq dart5) vs conc = Ok (emit T) /\
  vs = [0; 2; 3; 4]%nat /\ length T = 2%nat /\ total_area2 (map rz dart5) T = 8.
Proof.
  assert (HA : area2 (map rz dart5) = 8) by (unfold area2, cyc, chain, cross2, rz, dart5; cbn; lra).
  destruct (C64_integers dart5) as (vs & conc & T & E1 & E2 & _ & _ & _ & _ & K).
  - unfold dart5. repeat constructor; cbn; lia.
  - cbn. lia.
  - apply zproper_sound. reflexivity.
  - lra.
  - destruct K as (K1 & K2 & _); [intros v; apply zreflex_sound; reflexivity|]. exists vs, conc, T. split; [exact E1|]. split; [exact E2|].
    assert (E : exists c, compute_vertex_convexity (map zq dart5) = Ok ([0; 2; 3; 4]%nat, c)) by (eexists; vm_compute; reflexivity). destruct E as (c & E). rewrite E in E1. apply Ok_inj in E1. injection E1 as <- _.
    split; [reflexivity|]. split; [cbn in K1; lia|]. rewrite <- K2. exact HA.
Qed.
(** C64, refuted without the condition: the plus sign made of five unit squares.  Its triangles have area2 6 of 10: the square in the middle is left out.
    When the clipper removes a vertex that has become straight (utils/polygon.rs:110-112, 122-124) the vertex stays in the list of inward points and keeps blocking ears. *)
Definition plus_sign : list (Z * Z) := [(2, 1); (3, 1); (3, 2); (2, 2); (2, 3); (1, 3); (1, 2); (0, 2); (0, 1); (1, 1); (1, 0); (2, 0)]%Z.
Theorem C64_plus_refuted : let ps := map zq plus_sign in let rs := map rz plus_sign in
  proper_polygon rs /\ resolved rs /\ area2 rs = 10 /\
  exists vs conc T, compute_vertex_convexity ps = Ok (vs, conc) /\ trianglate_polygon ps vs conc = Ok (emit T) /\
    compute_vertex_convexity rs = Ok (vs, conc) /\ trianglate_polygon rs vs conc = Ok (emit T) /\ total_area2 rs T = 6.
Proof.
  cbv zeta. destruct (zq_grid plus_sign) as [HG ER]; [unfold plus_sign; repeat constructor; cbn; lia|].
  split; [apply zproper_sound; reflexivity|]. split; [rewrite <- ER; exact (grid_resolved _ _ _ HG)|]. split; [unfold area2, cyc, chain, cross2, rz, plus_sign; cbn; lra|].
  exists (seq 0 12), [0; 3; 6; 9]%nat, [(0, 1, 2); (3, 4, 5); (6, 7, 8); (9, 10, 11); (0, 2, 3); (6, 8, 9)]%nat.
  assert (C : compute_vertex_convexity (map zq plus_sign) = Ok (seq 0 12, [0; 3; 6; 9]%nat)) by (vm_compute; reflexivity).
  assert (C' : trianglate_polygon (map zq plus_sign) (seq 0 12) [0; 3; 6; 9]%nat = Ok (emit [(0, 1, 2); (3, 4, 5); (6, 7, 8); (9, 10, 11); (0, 2, 3); (6, 8, 9)]%nat)) by (vm_compute; reflexivity).
  destruct (C60_same_triangles _ _ _ HG) as (S1 & _ & S2). rewrite ER in S1, S2.
  split; [exact C|]. split; [exact C'|]. split; [rewrite <- S1; exact C|]. split; [rewrite <- S2; exact C'|].
  unfold total_area2. cbn [map fold_right]. rewrite !pt_rz, !rz_area. cbn. lra.
Qed.
