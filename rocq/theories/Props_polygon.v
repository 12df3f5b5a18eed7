(** Properties C37, C38, C44: polygon orientation, corner classification, point in triangle. *)
From Coq Require Import Reals Lra Psatz Lia Arith Permutation Sorted Floats.SpecFloat.
From Verif Require Import Prelude Num M_vec M_utils M_polygon L_base L_vec L_geom L_cycle L_polygon L_f64.
Open Scope R_scope.

(** ** Specification *)
(** twice the signed area of a triangle; of a closed polygon (shoelace formula) *)
Definition tri_area2 (A B C : vec2 R) : R := (x2 B - x2 A) * (y2 C - y2 A) - (x2 C - x2 A) * (y2 B - y2 A).
Definition cross2 (A B : vec2 R) : R := x2 A * y2 B - x2 B * y2 A.
Definition area2 (ps : list (vec2 R)) : R := cyc cross2 ps.
Definition pt (points : list (vec2 R)) (i : nat) : vec2 R := nth i points (V2 0 0).
Definition poly (points : list (vec2 R)) (l : list nat) : list (vec2 R) := map (pt points) l.
Lemma cross2_antisym points : antisym (fun a b => cross2 (pt points a) (pt points b)).
Proof. intros a b. unfold cross2. ring. Qed.
Lemma cyc_map {A B} (f : A -> B) (w : B -> B -> R) l : cyc w (map f l) = cyc (fun a b => w (f a) (f b)) l.
Proof.
  assert (C : forall l, chain w (map f l) = chain (fun a b => w (f a) (f b)) l).
  { induction l0 as [|a [|b t] IH]; [reflexivity|reflexivity|]. change (map f (a :: b :: t)) with (f a :: map f (b :: t)).
    change (chain w (f a :: map f (b :: t))) with (w (f a) (f b) + chain w (map f (b :: t))). rewrite IH. reflexivity. }
  destruct l as [|a l]; [reflexivity|]. unfold cyc. cbn [map]. change (f a :: map f l) with (map f (a :: l)). change [f a] with (map f [a]).
  rewrite <- map_app. apply C.
Qed.
Lemma area2_poly points l : area2 (poly points l) = cyc (fun a b => cross2 (pt points a) (pt points b)) l.
Proof. unfold area2, poly. apply cyc_map. Qed.
Lemma area2_tri A B C : area2 [A; B; C] = tri_area2 A B C.
Proof. unfold area2. rewrite cyc3. unfold cross2, tri_area2. ring. Qed.

(** ** C37: orientation *)
Definition trapezoid (A B : vec2 R) : R := (x2 B - x2 A) * (y2 A + y2 B).
Lemma chain_telescope (ps : list (vec2 R)) a : chain trapezoid (a :: ps) = - chain cross2 (a :: ps) + (x2 (last ps a) * y2 (last ps a) - x2 a * y2 a).
Proof.
  revert a. induction ps as [|b ps IH]; intros a; [cbn; lra|]. rewrite !chain_cons2, IH.
  replace (last (b :: ps) a) with (last ps b) by (destruct ps as [|c ps]; [reflexivity|]; clear; revert c; induction ps as [|d ps IH]; intros c; [reflexivity|]; cbn in *; apply IH).
  unfold trapezoid, cross2. ring.
Qed.
Lemma cyc_trapezoid ps : cyc trapezoid ps = - area2 ps.
Proof.
  unfold area2, cyc. destruct ps as [|a ps]; [lra|]. cbn [app]. rewrite chain_telescope, last_last. ring.
Qed.
Lemma firstn_S_nth {A} (l : list A) k d : (k < length l)%nat -> firstn (S k) l = firstn k l ++ [nth k l d].
Proof.
  revert l. induction k as [|k IH]; intros [|b l] H; cbn in H; try lia; [reflexivity|].
  change (b :: firstn (S k) l = b :: (firstn k l ++ [nth k l d])). now rewrite IH by lia.
Qed.
Theorem C37_empty : is_polygon_counter_clockwise (F := R) [] = Panic.
Proof. reflexivity. Qed.
Theorem C37_ccw_iff_positive_area (ps : list (vec2 R)) : ps <> [] ->
  exists b, is_polygon_counter_clockwise ps = Ok b /\ (b = true <-> 0 < area2 ps).
Proof.
  intros Hne. destruct ps as [|a ps]; [congruence|]. clear Hne. unfold is_polygon_counter_clockwise.
  set (l := a :: ps). assert (HL : (1 <= length l)%nat) by (cbn; lia). rewrite usub_Ok by lia. cbn [obind].
  set (n1 := (length l - 1)%nat). assert (En1 : n1 = (length l - 1)%nat) by reflexivity. clearbody n1. clearbody l.
  assert (E : foldM (fun sum i => p1 <- idx l (i + 1) ;; p <- idx l i ;; Ok (fadd sum (fmul (fsub (x2 p1) (x2 p)) (fadd (y2 p) (y2 p1))))) f0 (Prelude.range 0 n1)
              = Ok (chain trapezoid l)).
  { replace (chain trapezoid l) with (chain trapezoid (firstn (S n1) l)) by (rewrite firstn_all2 by lia; reflexivity).
    destruct (foldM_range (fun i s => s = chain trapezoid (firstn (S i) l)) (fun sum i => p1 <- idx l (i + 1) ;; p <- idx l i ;; Ok (fadd sum (fmul (fsub (x2 p1) (x2 p)) (fadd (y2 p) (y2 p1))))) 0 n1 f0) as (s & Es & Hs); [lia|destruct l; [cbn in HL; lia|]; cbn; rnum; reflexivity| |rewrite Es; now rewrite Hs].
    intros i s Hi ->. rewrite (idx_nth _ _ (V2 0 0)), (idx_nth _ _ (V2 0 0)) by lia. cbn [obind]. eexists. split; [reflexivity|]. rnum.
    replace (i + 1)%nat with (S i) by lia. rewrite (firstn_S_nth l (S i) (V2 0 0)) by lia. rewrite (firstn_S_nth l i (V2 0 0)) by lia. rewrite chain_snoc. f_equal. }
  replace (foldM _ _ _) with (Ok (chain trapezoid l)) by (symmetry; exact E). cbn [obind].
  rewrite (idx_nth _ 0 (V2 0 0)), (idx_nth _ n1 (V2 0 0)) by lia. cbn [obind]. eexists. split; [reflexivity|]. rnum.
  replace (chain trapezoid l + (x2 (nth 0 l (V2 0 0)) - x2 (nth n1 l (V2 0 0))) * (y2 (nth n1 l (V2 0 0)) + y2 (nth 0 l (V2 0 0)))) with (cyc trapezoid l).
  - rewrite cyc_trapezoid. rewrite Rltb_true. lra.
  - destruct (exists_last (l := l)) as (k & z & Ek); [intros El; subst l; cbn in HL; lia|]. rewrite En1, Ek, app_length. cbn [length].
    replace (length k + 1 - 1)%nat with (length k) by lia. rewrite nth_middle.
    unfold cyc. destruct k as [|b k]; cbn [app nth].
    + cbn. unfold trapezoid. lra.
    + change (b :: (k ++ [z]) ++ [b]) with (((b :: k) ++ [z]) ++ [b]). rewrite chain_snoc. unfold trapezoid at 3. reflexivity.
Qed.

(** the answer does not depend on the starting vertex or on a translation; reversing the polygon flips it (non-zero area) *)
Lemma chain_rev (w : vec2 R -> vec2 R -> R) (Hw : antisym w) l : chain w (rev l) = - chain w l.
Proof.
  induction l as [|a [|b l] IH]; [cbn; lra|cbn; lra|]. cbn [rev] in *. rewrite chain_snoc, IH, chain_cons2. pose proof (Hw a b). lra.
Qed.
Lemma cross2_anti : antisym cross2.
Proof. intros a b. unfold cross2. ring. Qed.
Lemma area2_rev ps : area2 (rev ps) = - area2 ps.
Proof.
  unfold area2. destruct ps as [|a ps]; [cbn; lra|]. cbn [rev]. rewrite cyc_rot. cbn [app]. unfold cyc.
  replace ((a :: rev ps) ++ [a]) with (rev ((a :: ps) ++ [a])) by (cbn [app]; rewrite app_comm_cons, rev_app_distr; cbn [rev app]; reflexivity).
  apply chain_rev, cross2_anti.
Qed.
Definition shift (d p : vec2 R) : vec2 R := V2 (x2 p + x2 d) (y2 p + y2 d).
Lemma area2_shift d ps : area2 (map (shift d) ps) = area2 ps.
Proof.
  unfold area2. rewrite cyc_map.
  assert (C : forall l a, chain (fun a b => cross2 (shift d a) (shift d b)) (a :: l) = chain cross2 (a :: l) + (x2 d * (y2 (last l a) - y2 a) - y2 d * (x2 (last l a) - x2 a))).
  { induction l as [|b l IH]; intros a; [cbn; lra|]. rewrite !chain_cons2, IH.
    replace (last (b :: l) a) with (last l b) by (destruct l as [|c l]; [reflexivity|]; clear; revert c; induction l as [|e l IH]; intros c; [reflexivity|]; cbn in *; apply IH).
    unfold cross2, shift. cbn [x2 y2]. ring. }
  destruct ps as [|a ps]; [reflexivity|]. unfold cyc. cbn [app]. rewrite C, last_last. ring.
Qed.
Theorem C37_invariance (ps qs : list (vec2 R)) d : ps ++ qs <> [] ->
  is_polygon_counter_clockwise (ps ++ qs) = is_polygon_counter_clockwise (qs ++ ps) /\
  is_polygon_counter_clockwise (map (shift d) (ps ++ qs)) = is_polygon_counter_clockwise (ps ++ qs) /\
  (area2 (ps ++ qs) <> 0 -> exists b, is_polygon_counter_clockwise (ps ++ qs) = Ok b /\ is_polygon_counter_clockwise (rev (ps ++ qs)) = Ok (negb b)).
Proof.
  intros Hne.
  assert (BX : forall l l' : list (vec2 R), l <> [] -> l' <> [] -> (0 < area2 l <-> 0 < area2 l') -> is_polygon_counter_clockwise l = is_polygon_counter_clockwise l').
  { intros l l' H H' HA. destruct (C37_ccw_iff_positive_area l H) as (b & -> & Hb). destruct (C37_ccw_iff_positive_area l' H') as (b' & -> & Hb'). f_equal.
    destruct b, b'; try reflexivity; [symmetry; tauto|tauto]. }
  assert (Hne' : qs ++ ps <> []) by (destruct ps, qs; cbn; try discriminate; rewrite ?app_nil_r in *; auto).
  split; [|split].
  - apply BX; auto. unfold area2. now rewrite cyc_rot.
  - apply BX; auto; [destruct (ps ++ qs); [congruence|discriminate]|]. now rewrite area2_shift.
  - intros Hz. destruct (C37_ccw_iff_positive_area _ Hne) as (b & -> & Hb).
    assert (Hr : rev (ps ++ qs) <> []) by (intros E; apply (f_equal (@rev _)) in E; rewrite rev_involutive in E; cbn in E; contradiction).
    destruct (C37_ccw_iff_positive_area _ Hr) as (b' & -> & Hb'). exists b. split; [reflexivity|]. f_equal. rewrite area2_rev in Hb'.
    destruct b, b'; cbn; try reflexivity.
    + exfalso. assert (0 < area2 (ps ++ qs)) by now apply Hb. assert (0 < - area2 (ps ++ qs)) by now apply Hb'. lra.
    + exfalso. assert (~ 0 < area2 (ps ++ qs)) by (intros X; apply Hb in X; discriminate). assert (~ 0 < - area2 (ps ++ qs)) by (intros X; apply Hb' in X; discriminate). lra.
Qed.
Example C37_nonvacuous : area2 [V2 0 0; V2 2 0; V2 0 3] = 6.
Proof. rewrite area2_tri. unfold tri_area2. cbn [x2 y2]. lra. Qed.

(** ** C38: classification of corners *)
Definition TOL : R := 1 / 10000000.
(** twice the area of the corner at position [i] of the index polygon [l]: positive for a left turn *)
Definition corner_at (points : list (vec2 R)) (l : list nat) (i : nat) : R :=
  let n := length l in
  tri_area2 (pt points (nth ((i + n - 1) mod n) l 0%nat)) (pt points (nth i l 0%nat)) (pt points (nth ((i + 1) mod n) l 0%nat)).
Definition bent points l i : bool := Rltb TOL (Rabs (corner_at points l i)).
Definition right_turn points l i : bool := Rltb (corner_at points l i) (- TOL).
Lemma convexity_cases (A B C : vec2 R) : let t := tri_area2 A B C in
  match compute_convexity A B C with
  | Convex => TOL < t
  | Concave => t < - TOL
  | Colinear => Rabs t <= TOL
  end.
Proof.
  cbv zeta. unfold compute_convexity.
  replace (perp_dot (vsub B A) (vsub C B)) with (tri_area2 A B C) by (unfold tri_area2, perp_dot; vsimp; ring).
  unfold near, abs_diff_eq, ftol. rnum. rewrite Rminus_0_r. fold TOL.
  replace (IZR 1 / IZR 10000000) with TOL by reflexivity.
  destruct (Rleb_spec (Rabs (tri_area2 A B C)) TOL) as [H|H]; [exact H|].
  destruct (Rltb_spec 0 (tri_area2 A B C)) as [P|P]; revert H; unfold Rabs; destruct (Rcase_abs _); lra.
Qed.
Lemma corner_index (points : list (vec2 R)) l i : (i < length l)%nat -> (forall x, In x l -> (x < length points)%nat) ->
  exists A B C, (exists a, idx l ((length l + i - 1) mod length l) = Ok a /\ idx points a = Ok A) /\
    (exists b, idx l i = Ok b /\ idx points b = Ok B) /\ (exists c, idx l ((i + 1) mod length l) = Ok c /\ idx points c = Ok C) /\
    corner_at points l i = tri_area2 A B C.
Proof.
  intros Hi HV. set (n := length l) in *.
  assert (M : forall k, (k mod n < n)%nat) by (intros; apply Nat.mod_upper_bound; lia).
  exists (pt points (nth ((i + n - 1) mod n) l 0%nat)), (pt points (nth i l 0%nat)), (pt points (nth ((i + 1) mod n) l 0%nat)).
  assert (G : forall k, (k < n)%nat -> exists a, idx l k = Ok a /\ idx points a = Ok (pt points (nth k l 0%nat))).
  { intros k Hk. exists (nth k l 0%nat). split; [now apply idx_nth|]. apply idx_nth, HV, nth_In. exact Hk. }
  split; [rewrite (Nat.add_comm i n); apply G, M|]. split; [apply G, Hi|]. split; [apply G, M|]. reflexivity.
Qed.
Lemma class_bool points l i A B C : corner_at points l i = tri_area2 A B C ->
  (bent points l i = match compute_convexity A B C with Colinear => false | _ => true end) /\
  (right_turn points l i = match compute_convexity A B C with Concave => true | _ => false end).
Proof.
  intros E. unfold bent, right_turn. rewrite E. pose proof (convexity_cases A B C) as H. cbv zeta in H. assert (0 < TOL) by (unfold TOL; lra).
  destruct (compute_convexity A B C); split;
    repeat match goal with |- context [Rltb ?a ?b] => destruct (Rltb_spec a b) as [X|X] end; try reflexivity; exfalso;
    revert X H; unfold Rabs; try destruct (Rcase_abs _); lra.
Qed.
Theorem C38_vertex_convexity (points : list (vec2 R)) :
  let n := length points in
  compute_vertex_convexity points = Ok (filter (bent points (seq 0 n)) (seq 0 n), filter (right_turn points (seq 0 n)) (seq 0 n)).
Proof.
  cbv zeta. set (n := length points). unfold compute_vertex_convexity. fold n.
  match goal with |- foldM ?g _ _ = _ => destruct (foldM_range (fun i s => s = (filter (bent points (seq 0 n)) (seq 0 i), filter (right_turn points (seq 0 n)) (seq 0 i))) g 0 n ([], [])) as (s & Es & Hs) end;
    [lia|reflexivity| |rewrite Es, Hs; reflexivity].
  intros i [v c] Hi Evc. inversion Evc; subst v c. clear Evc. rewrite usub_Ok by lia. cbn [obind].
  destruct (corner_index points (seq 0 n) i) as (A & B & C & (a & Ea & EA) & (b & Eb & EB) & (c & Ec & EC) & E).
  { rewrite seq_length. lia. } { intros x Hx. apply in_seq in Hx. fold n. lia. }
  rewrite seq_length in Ea, Ec.
  assert (Sq : forall k x, idx (seq 0 n) k = Ok x -> x = k).
  { intros k x H. apply (idx_Ok_nth _ _ _ 0%nat) in H as [H1 H2]. rewrite seq_length in H1. now rewrite seq_nth in H2. }
  apply Sq in Ea, Eb, Ec. subst a b c. rewrite EA. cbn [obind]. rewrite EB. cbn [obind]. rewrite EC. cbn [obind].
  eexists. split; [reflexivity|]. destruct (class_bool points (seq 0 n) i A B C E) as [K1 K2].
  rewrite Nat.add_1_r, seq_S, !filter_app. cbn [filter Nat.add]. rewrite K1, K2.
  destruct (compute_convexity A B C); rewrite ?app_nil_r; reflexivity.
Qed.
Theorem C38_find_concave (points : list (vec2 R)) (l : list nat) : (forall x, In x l -> (x < length points)%nat) ->
  let n := length l in
  exists conc, find_concave_vertices points l = Ok (map (fun i => nth i l 0%nat) (filter (bent points l) (seq 0 n)), conc) /\
    StronglySorted le conc /\ Permutation conc (map (fun i => nth i l 0%nat) (filter (right_turn points l) (seq 0 n))).
Proof.
  intros HV. cbv zeta. set (n := length l). unfold find_concave_vertices. fold n.
  match goal with |- context [foldM ?g _ _] => destruct (foldM_range (fun i s => s = (filter (fun i => negb (bent points l i)) (seq 0 i), map (fun i => nth i l 0%nat) (filter (right_turn points l) (seq 0 i)))) g 0 n ([], [])) as (s & Es & Hs) end;
    [lia|reflexivity| |].
  - intros i [v c] Hi Evc. inversion Evc; subst v c. clear Evc. rewrite usub_Ok by lia. cbn [obind].
    destruct (corner_index points l i) as (A & B & C & (a & Ea & EA) & (b & Eb & EB) & (c & Ec & EC) & E); [fold n; lia|exact HV|]. fold n in Ea, Ec.
    rewrite Ea. cbn [obind]. rewrite Eb. cbn [obind]. rewrite Ec. cbn [obind]. rewrite EA. cbn [obind]. rewrite EB. cbn [obind]. rewrite EC. cbn [obind].
    eexists. split; [reflexivity|]. destruct (class_bool points l i A B C E) as [K1 K2].
    rewrite Nat.add_1_r, seq_S, !filter_app. cbn [filter Nat.add]. rewrite K1, K2, map_app. cbn [map].
    apply (idx_Ok_nth _ _ _ 0%nat) in Eb as [_ Eb].
    destruct (compute_convexity A B C); cbn [negb map]; rewrite ?app_nil_r, ?Eb; reflexivity.
  - rewrite Es. cbn [obind]. rewrite Hs. eexists. split.
    + unfold n. rewrite (remove_positions l (fun i => negb (bent points l i)) 0%nat).
      rewrite (filter_ext (fun i => negb (negb (bent points l i))) (bent points l)) by (intros; apply negb_involutive). reflexivity.
    + split; [apply sort_nat_sorted|apply isort_perm].
Qed.
(** Both copies of a repeated corner count as straight, so the corner is lost: of the unit square with its second corner listed
    twice only a triangle survives (and half of the area with it). *)
Definition q64 (x y : Z) : vec2 spec_float := V2 (f64_of_Z x) (f64_of_Z y).
Theorem C38_repeated_corner_lost : compute_vertex_convexity (NF := F64Num) [q64 0 0; q64 1 0; q64 1 0; q64 1 1; q64 0 1] = Ok ([0; 3; 4]%nat, []).
Proof. vm_compute. reflexivity. Qed.
Example C38_nonvacuous : compute_vertex_convexity (NF := F64Num) [q64 0 0; q64 2 0; q64 4 0; q64 4 4; q64 2 1; q64 0 4] = Ok ([0; 2; 3; 4; 5]%nat, [4%nat]).
Proof. vm_compute. reflexivity. Qed.

(** ** C44: the two inside tests *)
Definition bary (u v w : R) (a b c : vec2 R) : vec2 R := V2 (u * x2 a + v * x2 b + w * x2 c) (u * y2 a + v * y2 b + w * y2 c).
(** barycentric coordinates all at least [-e] *)
Definition in_triangle (e : R) (a b c p : vec2 R) : Prop :=
  exists u v w, u + v + w = 1 /\ - e <= u /\ - e <= v /\ - e <= w /\ p = bary u v w a b c.
Lemma tri_split a b c p : tri_area2 a b p + tri_area2 b c p + tri_area2 c a p = tri_area2 a b c.
Proof. unfold tri_area2. ring. Qed.
Lemma bary_areas u v w a b c : u + v + w = 1 -> let p := bary u v w a b c in
  tri_area2 a b p = w * tri_area2 a b c /\ tri_area2 b c p = u * tri_area2 a b c /\ tri_area2 c a p = v * tri_area2 a b c.
Proof. intros H. replace u with (1 - v - w) by lra. cbv zeta. unfold tri_area2, bary. cbn [x2 y2]. repeat split; ring. Qed.
Lemma bary_of a b c p : tri_area2 a b c <> 0 -> let S := tri_area2 a b c in
  p = bary (tri_area2 b c p / S) (tri_area2 c a p / S) (tri_area2 a b p / S) a b c.
Proof. intros H. cbv zeta. destruct p as [x y]. unfold bary. revert H. unfold tri_area2. cbn [x2 y2]. intros H. f_equal; field; exact H. Qed.
Lemma in_triangle_areas e a b c p : 0 < tri_area2 a b c ->
  (in_triangle e a b c p <-> - (e * tri_area2 a b c) <= tri_area2 a b p /\ - (e * tri_area2 a b c) <= tri_area2 b c p /\ - (e * tri_area2 a b c) <= tri_area2 c a p).
Proof.
  intros HS. split.
  - intros (u & v & w & H1 & Hu & Hv & Hw & E). subst p. destruct (bary_areas u v w a b c H1) as (-> & -> & ->). repeat split; nra.
  - intros (H1 & H2 & H3). exists (tri_area2 b c p / tri_area2 a b c), (tri_area2 c a p / tri_area2 a b c), (tri_area2 a b p / tri_area2 a b c).
    assert (D : forall z, - (e * tri_area2 a b c) <= z -> - e <= z / tri_area2 a b c).
    { intros z Hz. apply (Rmult_le_reg_r (tri_area2 a b c)); [exact HS|]. replace (z / tri_area2 a b c * tri_area2 a b c) with z by (field; lra). lra. }
    split; [pose proof (tri_split a b c p) as Hs; set (t := tri_area2 a b c) in *; replace (tri_area2 b c p) with (t - tri_area2 a b p - tri_area2 c a p) by lra; field; lra|].
    repeat split; auto. apply bary_of. lra.
Qed.
Lemma perp_tri (a b p : vec2 R) : perp_dot (vsub a p) (vsub b p) = tri_area2 a b p.
Proof. unfold tri_area2, perp_dot. vsimp. ring. Qed.
Lemma geb_true (x : R) : (x >=? 0)%num = true <-> 0 <= x.
Proof. rnum. rewrite Rleb_true. lra. Qed.
Theorem C44_ear_test (a b c p : vec2 R) : 0 < tri_area2 a b c -> (is_inside_triangle a b c p = true <-> in_triangle 0 a b c p).
Proof.
  intros HS. unfold is_inside_triangle. rewrite !perp_tri, !andb_true_iff, !geb_true, in_triangle_areas by exact HS. rewrite Rmult_0_l, Ropp_0. tauto.
Qed.
(** the mesher's test, exactly: barycentric coordinates at least [- TOL / twice the area] *)
Theorem C44_mesher_test (a b c p : vec2 R) : 0 < tri_area2 a b c ->
  (point_is_inside_triangle p a b c = true <-> in_triangle (TOL / tri_area2 a b c) a b c p).
Proof.
  intros HS. unfold point_is_inside_triangle. cbv zeta. rewrite !perp_tri, !andb_true_iff, in_triangle_areas by exact HS.
  replace (TOL / tri_area2 a b c * tri_area2 a b c) with TOL by (field; lra).
  assert (N : forall z, ((z >=? 0)%num || near z 0)%bool = true <-> - TOL <= z).
  { intros z. rewrite orb_true_iff, geb_true. unfold near, abs_diff_eq, ftol. rnum. rewrite Rminus_0_r, Rleb_true. replace (IZR 1 / IZR 10000000) with TOL by reflexivity.
    assert (0 < TOL) by (unfold TOL; lra). unfold Rabs. destruct (Rcase_abs z); lra. }
  change (@f0 R RNum) with 0. rewrite !N. tauto.
Qed.
(** and it accepts every point the ear clipper's test accepts *)
Corollary C44_mesher_accepts_all (a b c p : vec2 R) : 0 < tri_area2 a b c -> in_triangle 0 a b c p -> point_is_inside_triangle p a b c = true.
Proof.
  intros HS H. apply C44_mesher_test; [exact HS|]. destruct H as (u & v & w & H1 & Hu & Hv & Hw & E). exists u, v, w.
  assert (0 < TOL / tri_area2 a b c) by (apply Rdiv_lt_0_compat; [unfold TOL; lra|exact HS]). repeat split; try lra. exact E.
Qed.
(** for a clockwise triangle the ear clipper's test is false everywhere: every reflex corner looks like an ear *)
Theorem C44_clockwise_never_inside (a b c p : vec2 R) : tri_area2 a b c < 0 -> is_inside_triangle a b c p = false.
Proof.
  intros HS. destruct (is_inside_triangle a b c p) eqn:E; [exfalso|reflexivity]. unfold is_inside_triangle in E.
  rewrite !perp_tri, !andb_true_iff, !geb_true in E. pose proof (tri_split a b c p). lra.
Qed.
Example C44_nonvacuous : is_inside_triangle (V2 0 0) (V2 4 0) (V2 0 4) (V2 1 2) = true /\ is_inside_triangle (V2 0 0) (V2 4 0) (V2 0 4) (V2 3 2) = false.
Proof.
  split; [apply C44_ear_test; [unfold tri_area2; cbn; lra|]; apply in_triangle_areas; [unfold tri_area2; cbn; lra|]; unfold tri_area2; cbn; lra|].
  apply not_true_iff_false. rewrite C44_ear_test by (unfold tri_area2; cbn; lra). rewrite in_triangle_areas by (unfold tri_area2; cbn; lra). unfold tri_area2; cbn; lra.
Qed.
