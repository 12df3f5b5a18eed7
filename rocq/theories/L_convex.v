(** Simple polygons that turn left at every corner are convex. *)
From Coq Require Import Reals Lra Lia Arith Permutation Classical.
From Verif Require Import Prelude Num M_vec M_utils M_polygon L_base L_vec L_geom L_cycle L_polygon Props_polygon Props_ears L_simple L_sides L_twoears L_earexist L_clip Props_simple.
Open Scope R_scope.
(** seen from a vertex beside which all corners turn left, the boundary runs counter-clockwise *)
Lemma sees : forall k P a, (length P <= k)%nat -> good P -> In a P -> (forall x v y, corner P x v y -> v <> a -> 0 < T x v y) ->
  forall x y, edge P x y -> x <> a -> y <> a -> 0 < T a x y.
Proof.
  induction k as [|k IH]; intros P a Hk G Ia HC x y E Nx Ny; [pose proof (good_len P G); lia|].
  assert (R0 : exists b c l, rotof P (a :: b :: c :: l)).
  { pose proof (good_len P G) as HL. apply in_split in Ia as (u & v & ->). rewrite app_length in HL. cbn [length] in HL.
    destruct (v ++ u) as [|b [|c l]] eqn:Ev; apply (f_equal (@length P2)) in Ev as El; rewrite app_length in El; cbn [length] in El; try lia.
    exists b, c, l. exists u, (a :: v). split; [reflexivity|]. cbn [app]. now rewrite Ev. }
  destruct R0 as (b & c & l & R). assert (HB : corner P a b c) by (exists l; exact R).
  pose proof (good_gp P G) as Gg. pose proof (good_simple P G) as Gs. pose proof (good_len P G) as Gl. destruct (corner_distinct _ _ _ _ (proj1 Gg) HB) as (D1 & D2 & D3).
  assert (TB : 0 < T a b c) by (apply HC; auto).
  destruct l as [|d l].
  - apply (rotof_edge _ _ _ _ R) in E. destruct E as [E|[E|[E|[]]]]; injection E as <- <-; congruence || assumption.
  - assert (HE : ear P a b c).
    { apply reflex_enough; auto. intros x' v y' Hv L N1 _. specialize (HC x' v y' Hv N1). lra. }
    assert (Rb : rotof P (b :: c :: (d :: l) ++ [a])) by (eapply rotof_trans; [exact R|]; exists [a], (b :: c :: d :: l); auto).
    assert (Rc : rotof P (c :: (d :: l) ++ a :: [b])) by (eapply rotof_trans; [exact R|]; exists [a; b], (c :: d :: l); auto).
    assert (G' : good (c :: (d :: l) ++ [a])) by (apply (clip_good P a b c (d :: l) G HE Rb); discriminate).
    pose proof (proj1 (good_gp _ G')) as ND'. pose proof (good_len _ G') as GL'.
    assert (EP : forall u v, edge (c :: (d :: l) ++ [a]) u v -> edge P u v \/ u = a /\ v = c).
    { intros u v K. apply chord_edges1 in K as [K|K]; [left|right; exact K]. apply (rotof_edge _ _ _ _ Rc), chord_edges. now left. }
    assert (HC' : forall x v y, corner (c :: (d :: l) ++ [a]) x v y -> v <> a -> 0 < T x v y).
    { intros x' v y' Hv N. destruct (corner_edge _ _ _ _ Hv) as [K1 K2]. apply EP in K2 as [K2|[? _]]; [|congruence]. apply EP in K1 as [K1|[-> ->]].
      - apply HC; auto. apply corner_iff; [exact (proj1 Gg)|exact Gl|]. auto.
      - assert (Hn : corner P b c y').
        { apply corner_iff; [exact (proj1 Gg)|exact Gl|]. split; [apply (corner_edge _ _ _ _ HB)|exact K2]. }
        apply (keep_next P y' a b c); auto. destruct (corner_distinct _ _ _ _ ND' Hv) as (_ & _ & ?). congruence. }
    assert (HLk : (length (c :: (d :: l) ++ [a]) <= k)%nat).
    { pose proof (Permutation_length (rotof_perm _ _ Rb)) as K. change (length (b :: c :: (d :: l) ++ [a])) with (S (length (c :: (d :: l) ++ [a]))) in K. lia. }
    assert (Ia' : In a (c :: (d :: l) ++ [a])) by (right; apply in_or_app; right; now left).
    apply (rotof_edge _ _ _ _ Rc) in E. apply chord_edges in E as [E|E].
    + apply (IH _ a HLk G' Ia' HC'); auto. apply chord_edges1. now left.
    + cbn in E. destruct E as [E|[E|[]]]; injection E as <- <-; congruence || assumption.
Qed.
(** a polygon that nowhere turns right has no vertex on the right of a side *)
Lemma sees_weakly : forall k P, (length P <= k)%nat -> good P -> (forall x v y, corner P x v y -> 0 <= T x v y) ->
  forall a x y, In a P -> edge P x y -> 0 <= T a x y.
Proof.
  induction k as [|k IH]; intros P Hk G HC a x y Ia E; [pose proof (good_len P G); lia|].
  pose proof (good_gp P G) as Gg. pose proof (good_len P G) as Gl. pose proof (proj1 Gg) as ND.
  assert (Z1 : forall u v : P2, T u u v = 0) by (intros; unfold tri_area2; ring). assert (Z2 : forall u v : P2, T u v u = 0) by (intros; unfold tri_area2; ring).
  destruct (classic (exists x v y, corner P x v y /\ T x v y = 0)) as [(p & v & q & HB & Z)|NS].
  2:{ destruct (classic_eq x a) as [->|Nx]; [rewrite Z1; lra|]. destruct (classic_eq y a) as [->|Ny]; [rewrite Z2; lra|].
    left. apply (sees _ P a (le_n _) G Ia); auto. intros x' v y' Hv _. destruct (HC x' v y' Hv) as [|Z]; [assumption|]. exfalso. apply NS. exists x', v, y'. auto. }
  destruct (corner_ends P p v q HB) as (l & R). destruct (drop_good P p v q l G R Z) as [_ G']. destruct (corner_straight P p v q Gg HB Z) as (s & Hs & Es).
  assert (RP : rotof P (q :: l ++ p :: [v])). { eapply rotof_trans; [exact R|]. exists [v], (q :: l ++ [p]). split; [reflexivity|]. cbn [app]. now rewrite <- app_assoc. }
  assert (EP : forall x y, edge P x y <-> edge (q :: l ++ p :: [v]) x y) by (intros; apply rotof_edge; exact RP).
  assert (ES : forall u w, edge (q :: l ++ [p]) u w -> edge P u w \/ (u = p /\ w = q)).
  { intros u w K. apply (chord_edges1 q p l) in K. destruct K as [K|K]; [left|now right]. apply EP. apply chord_edges. now left. }
  destruct (corner_edge _ _ _ _ HB) as [Epv Evq]. destruct (corner_distinct _ _ _ _ ND HB) as (D1 & D2 & D3). destruct (corner_In _ _ _ _ HB) as (Ip & Iv & Iq).
  assert (HC' : forall x v y, corner (q :: l ++ [p]) x v y -> 0 <= T x v y).
  { intros x' u y' Hu. destruct (corner_edge _ _ _ _ Hu) as [K1 K2]. apply ES in K1, K2. destruct K1 as [K1|[-> ->]]; [destruct K2 as [K2|[-> ->]]|].
    - apply HC. now apply corner_iff.
    - assert (K : 0 <= T x' p v) by (apply HC; now apply corner_iff). assert (T x' p q = s * T x' p v) as -> by (rewrite Es; unfold tri_area2; cbn [at_ x2 y2]; ring). apply mul_p; lra.
    - destruct K2 as [K2|[-> _]]; [|congruence]. assert (K : 0 <= T v q y') by (apply HC; now apply corner_iff).
      assert (E1 : T v q y' = (s - 1) * T p v y') by (rewrite Es; unfold tri_area2; cbn [at_ x2 y2]; ring). assert (T p q y' = s * T p v y') as -> by (rewrite Es; unfold tri_area2; cbn [at_ x2 y2]; ring).
      rewrite E1 in K. apply mul_p; [lra|]. destruct (Rle_lt_dec 0 (T p v y')) as [|L]; [assumption|]. pose proof (mul_pp (s - 1) (- T p v y') ltac:(lra) ltac:(lra)). lra. }
  assert (HLk : (length (q :: l ++ [p]) <= k)%nat).
  { pose proof (Permutation_length (rotof_perm _ _ R)) as K. change (length (v :: q :: l ++ [p])) with (S (length (q :: l ++ [p]))) in K. lia. }
  assert (Epq : edge (q :: l ++ [p]) p q) by (apply (chord_edges1 q p l); now right).
  assert (S1 : forall a x y, In a (q :: l ++ [p]) -> edge P x y -> 0 <= T a x y).
  { intros a' x' y' Ia' E'. apply EP in E'. apply chord_edges in E' as [E'|E'].
    - apply (IH _ HLk G' HC'); auto. apply (chord_edges1 q p l). now left.
    - pose proof (IH _ HLk G' HC' a' p q Ia' Epq) as K. assert (E1 : T a' p q = s * T a' p v) by (rewrite Es; unfold tri_area2; cbn [at_ x2 y2]; ring).
      assert (K1 : 0 <= T a' p v). { rewrite E1 in K. destruct (Rle_lt_dec 0 (T a' p v)) as [|L]; [assumption|]. pose proof (mul_pp s (- T a' p v) ltac:(lra) ltac:(lra)). lra. }
      cbn in E'. destruct E' as [E'|[E'|[]]]; injection E' as <- <-; [exact K1|]. assert (T a' v q = (s - 1) * T a' p v) as -> by (rewrite Es; unfold tri_area2; cbn [at_ x2 y2]; ring). apply mul_p; lra. }
  assert (Ia' : In a (v :: q :: l ++ [p])) by (apply (rotof_In _ _ _ R); exact Ia). destruct Ia' as [<-|Ia']; [|now apply S1].
  pose proof (S1 p x y ltac:(right; apply in_or_app; right; now left) E) as Kp. pose proof (S1 q x y ltac:(now left) E) as Kq.
  assert (E1 : T q x y + (s - 1) * T p x y = s * T v x y) by (rewrite Es; unfold tri_area2; cbn [at_ x2 y2]; ring).
  pose proof (mul_p (s - 1) (T p x y) ltac:(lra) Kp). destruct (Rle_lt_dec 0 (T v x y)) as [|L]; [assumption|]. pose proof (mul_pp s (- T v x y) ltac:(lra) ltac:(lra)). lra.
Qed.
Lemma pt_edge ps i : (i + 1 < length ps)%nat -> edge ps (pt ps i) (pt ps (i + 1)).
Proof.
  intros H. destruct ps as [|x ps]; [cbn in H; lia|]. unfold edge, edges. cbn [length] in H.
  assert (K : forall (l : list P2) j, (j + 1 < length l)%nat -> In (nth j l (V2 0 0), nth (j + 1) l (V2 0 0)) (links l)).
  { induction l as [|u [|v l] IH]; intros j Hj; cbn [length] in Hj; try lia. change (links (u :: v :: l)) with ((u, v) :: links (v :: l)).
    destruct j as [|j]; [left; reflexivity|right]. apply (IH j). cbn [length]. lia. }
  unfold pt. replace (nth i (x :: ps) (V2 0 0)) with (nth i ((x :: ps) ++ [x]) (V2 0 0)) by (apply app_nth1; cbn [length]; lia).
  replace (nth (i + 1) (x :: ps) (V2 0 0)) with (nth (i + 1) ((x :: ps) ++ [x]) (V2 0 0)) by (apply app_nth1; cbn [length]; lia).
  apply K. rewrite app_length. cbn [length]. lia.
Qed.
(** a polygon with no crossing edges that turns left at every corner is convex *)
Lemma left_turns_convex ps : good ps -> (forall x v y, corner ps x v y -> 0 < T x v y) ->
  forall i j k, (i < j < k)%nat -> (k < length ps)%nat -> 0 < tri_area2 (pt ps i) (pt ps j) (pt ps k).
Proof.
  intros G HC. pose proof (good_gp ps G) as [ND _].
  assert (Inj : forall i j, (i < length ps)%nat -> (j < length ps)%nat -> i <> j -> pt ps i <> pt ps j) by (intros i j Hi Hj N E; apply N; revert E; now apply NoDup_nth).
  assert (St : forall a i, (a < length ps)%nat -> (i + 1 < length ps)%nat -> a <> i -> a <> (i + 1)%nat -> 0 < T (pt ps a) (pt ps i) (pt ps (i + 1))).
  { intros a i Ha Hi N1 N2. apply (sees _ ps _ (le_n _) G); [apply nth_In; exact Ha|intros; now apply HC|now apply pt_edge|apply Inj; lia|apply Inj; lia]. }
  (* the first edge seen from later vertices *)
  assert (F : forall i j, (i + 1 < j)%nat -> (j < length ps)%nat -> 0 < T (pt ps i) (pt ps (i + 1)) (pt ps j)).
  { intros i j H1 H2. specialize (St j i H2 ltac:(lia) ltac:(lia) ltac:(lia)). unfold tri_area2 in *. lra. }
  intros i j k [H1 H2] Hk. revert H2 Hk. induction k as [|k IHk]; intros H2 Hk; [lia|].
  destruct (Nat.eq_dec (S k) (j + 1)) as [->|N]; [apply St; lia|]. replace (S k) with (k + 1)%nat in * by lia.
  specialize (IHk ltac:(lia) ltac:(lia)). pose proof (St i k ltac:(lia) Hk ltac:(lia) ltac:(lia)) as S1.
  destruct (Nat.eq_dec j (i + 1)) as [->|Nj]; [apply F; lia|].
  pose proof (F i j ltac:(lia) ltac:(lia)) as Fj. pose proof (F i k ltac:(lia) ltac:(lia)) as Fk. pose proof (F i (k + 1)%nat ltac:(lia) ltac:(lia)) as Fk1.
  assert (Pl : T (pt ps i) (pt ps (i + 1)) (pt ps k) * T (pt ps i) (pt ps j) (pt ps (k + 1)) =
    T (pt ps i) (pt ps (i + 1)) (pt ps j) * T (pt ps i) (pt ps k) (pt ps (k + 1)) + T (pt ps i) (pt ps (i + 1)) (pt ps (k + 1)) * T (pt ps i) (pt ps j) (pt ps k)) by (unfold tri_area2; ring).
  apply (Rmult_lt_reg_l _ _ _ Fk). rewrite Pl, Rmult_0_r. apply Rplus_lt_0_compat; now apply Rmult_lt_0_compat.
Qed.

(** ** The winding number of a simple polygon is 0 or 1 *)
Definition nudge (q : P2) (e : R) : P2 := V2 (x2 q + e) (y2 q + e * e).
Lemma limp_nudge q : limp (nudge q) q.
Proof.
  split; unfold nudge; cbn [x2 y2].
  - apply (lim_eq _ (x2 q + 0)); [ring|]. apply lim_add; [apply lim_const|apply lim_id].
  - apply (lim_eq _ (y2 q + 0 * 0)); [ring|]. apply lim_add; [apply lim_const|apply lim_mul; apply lim_id].
Qed.
Lemma nudge_T a b q e : T a b (nudge q e) = T a b q + e * (- (y2 b - y2 a) + e * (x2 b - x2 a)).
Proof. unfold tri_area2, nudge. cbn [x2 y2]. ring. Qed.
(** the side of the line on which a slightly moved point lies *)
Lemma nudge_side a b q : a <> b -> ev (fun e => T a b (nudge q e) <> 0 /\ (0 < T a b q -> 0 < T a b (nudge q e)) /\ (T a b q < 0 -> T a b (nudge q e) < 0) /\
  (T a b q = 0 -> y2 a < y2 b -> T a b (nudge q e) < 0) /\ (T a b q = 0 -> y2 b < y2 a -> 0 < T a b (nudge q e))).
Proof.
  intros N. destruct (Rtotal_order (T a b q) 0) as [H|[H|H]].
  - eapply ev_imp; [|apply (lim_neg (fun e => T a b (nudge q e)) (T a b q)); [apply lim_T; auto using limp_const, limp_nudge|exact H]]. cbv beta. intros e _ K. repeat split; intros; lra.
  - assert (L : lim0 (fun e => - (y2 b - y2 a) + e * (x2 b - x2 a)) (- (y2 b - y2 a))).
    { apply (lim_eq _ (- (y2 b - y2 a) + 0 * (x2 b - x2 a))); [ring|]. apply lim_add; [apply lim_const|apply lim_mul; [apply lim_id|apply lim_const]]. }
    destruct (Rtotal_order (y2 a) (y2 b)) as [Y|[Y|Y]].
    + eapply ev_imp; [|apply (lim_neg _ _ L); lra]. cbv beta. intros e He K. rewrite !nudge_T, H. set (z := - (y2 b - y2 a) + e * (x2 b - x2 a)) in *.
      pose proof (mul_pp e (- z) He ltac:(lra)). repeat split; intros; lra.
    + apply ev_all. intros e He. rewrite !nudge_T, H, Y. assert (X : x2 b - x2 a <> 0). { intros E. apply N. destruct a as [ax ay], b as [bx by_]. cbn [x2 y2] in *. f_equal; lra. }
      replace (0 + e * (- (y2 b - y2 b) + e * (x2 b - x2 a))) with ((e * e) * (x2 b - x2 a)) by ring. repeat split; intros; try lra.
      apply Rmult_integral_contrapositive. split; [|exact X]. apply Rgt_not_eq. now apply mul_pp.
    + eapply ev_imp; [|apply (lim_pos _ _ L); lra]. cbv beta. intros e He K. rewrite !nudge_T, H. set (z := - (y2 b - y2 a) + e * (x2 b - x2 a)) in *.
      pose proof (mul_pp e z He ltac:(lra)). repeat split; intros; lra.
  - eapply ev_imp; [|apply (lim_pos (fun e => T a b (nudge q e)) (T a b q)); [apply lim_T; auto using limp_const, limp_nudge|exact H]]. cbv beta. intros e _ K. repeat split; intros; lra.
Qed.
Lemma nudge_height (y : R) q : ev (fun e => (y <= y2 (nudge q e) <-> y <= y2 q)).
Proof.
  destruct (Rle_or_lt y (y2 q)) as [H|H].
  - apply ev_all. intros e He. cbn [nudge y2]. pose proof (mul_pp e e He He). split; intros; lra.
  - eapply ev_imp; [|apply (lim_neg (fun e => y2 (nudge q e) - y) (y2 q - y)); [apply lim_sub; [apply limp_nudge|apply lim_const]|lra]]. cbv beta. intros e _ K. split; intros; lra.
Qed.
Lemma nudge_wind q a b : a <> b -> ev (fun e => wind (nudge q e) a b = wind q a b /\ T a b (nudge q e) <> 0).
Proof.
  intros N. eapply ev_imp; [|apply ev_and; [apply (nudge_side a b q N)|apply ev_and; [apply (nudge_height (y2 a) q)|apply (nudge_height (y2 b) q)]]].
  cbv beta. intros e _ ((Z & H1 & H2 & H3 & H4) & Ya & Yb). split; [|exact Z]. unfold wind. rewrite (nb_ltb (y2 q) (y2 b)), (nb_ltb (y2 q) (y2 a)), (nb_ltb (y2 (nudge q e)) (y2 b)), (nb_ltb (y2 (nudge q e)) (y2 a)).
  assert (B : forall y, (y <= y2 (nudge q e) <-> y <= y2 q) -> Rleb y (y2 (nudge q e)) = Rleb y (y2 q)).
  { intros y Hy. destruct (Rleb_spec y (y2 (nudge q e))) as [U|U], (Rleb_spec y (y2 q)) as [U'|U']; try reflexivity; exfalso; [apply Hy in U|apply Hy in U']; lra. }
  rewrite (B _ Ya), (B _ Yb). destruct (Rleb_spec (y2 a) (y2 q)) as [La|La], (Rleb_spec (y2 b) (y2 q)) as [Lb|Lb]; cbn [andb negb]; try reflexivity.
  - assert (Y : y2 a < y2 b) by lra. replace (Rltb 0 (T a b (nudge q e))) with (Rltb 0 (T a b q)); [reflexivity|].
    destruct (Rltb_spec 0 (T a b q)) as [K|K]; symmetry; [apply Rltb_true; auto|apply Rltb_false]. destruct K as [K|K]; [apply H2 in K; lra|apply (fun h => H3 h Y) in K; lra].
  - assert (Y : y2 b < y2 a) by lra. replace (Rltb (T a b (nudge q e)) 0) with (Rltb (T a b q) 0); [reflexivity|].
    destruct (Rltb_spec (T a b q) 0) as [K|K]; symmetry; [apply Rltb_true; auto|apply Rltb_false]. destruct K as [K|K]; [apply H1 in K; lra|symmetry in K; apply (fun h => H4 h Y) in K; lra].
Qed.
Lemma cyc_edges_ext {A} (w w' : A -> A -> R) P : (forall a b, edge P a b -> w a b = w' a b) -> cyc w P = cyc w' P.
Proof.
  destruct P as [|a l]; [reflexivity|]. unfold edge, edges, cyc. generalize ((a :: l) ++ [a]). intros l'.
  induction l' as [|x [|y l'] IH]; intros Hl; [reflexivity|reflexivity|]. rewrite !chain_cons2. rewrite (Hl x y (or_introl eq_refl)). rewrite IH; [reflexivity|]. intros; apply Hl. now right.
Qed.
Lemma winding_generic : forall k P q, (length P <= k)%nat -> good P -> (forall a b, In a P -> In b P -> a <> b -> T a b q <> 0) -> winding P q = 0 \/ winding P q = 1.
Proof.
  induction k as [|k IH]; intros P q Hk GP HO; [pose proof (good_len P GP); lia|].
  destruct (convex_corner P GP) as (a0 & b0 & c0 & H0 & _). destruct (corner_edge _ _ _ _ H0) as [E0 _].
  destruct (ear_exists (length P) P ltac:(lia) GP a0 b0 E0) as (p & c & n & E & _). pose proof E as (HC & HT & _).
  destruct (corner_ends P p c n HC) as (l & R). destruct (corner_In _ _ _ _ HC) as (Ip & Ic & In_). destruct (corner_distinct _ _ _ _ (proj1 (good_gp P GP)) HC) as (D1 & D2 & D3).
  assert (OL : off_lines p c n q) by (repeat split; apply HO; auto).
  pose proof (clip_winding P p c n l q R) as W. rewrite (tri_one p c n q HT OL) in W.
  destruct (strictly_inside p c n q) eqn:Ei.
  { right. apply inside_pos in Ei as (P1 & P2 & P3). apply (ear_winding P p c n); auto. }
  rewrite W, Rplus_0_l. pose proof (Permutation_length (rotof_perm _ _ R)) as HL. cbn [length] in HL. rewrite app_length in HL. cbn [length] in HL.
  destruct l as [|x l].
  - left. unfold winding. cbn [app]. apply cyc2, wind_antisym.
  - apply (IH (n :: (x :: l) ++ [p])); [cbn [length] in *; rewrite app_length; cbn [length]; lia|apply (clip_good P p c n); [exact GP|exact E|exact R|discriminate]|].
    intros a b Ia Ib. apply HO; apply (rotof_In _ _ _ R); now right.
Qed.
Lemma winding01 P q : good P -> winding P q = 0 \/ winding P q = 1.
Proof.
  intros G. pose proof (good_gp P G) as [ND _]. pose proof (good_len P G) as HL.
  assert (K : ev (fun e => forall a, In a P -> forall b, In b P -> a <> b -> wind (nudge q e) a b = wind q a b /\ T a b (nudge q e) <> 0)).
  { apply (ev_list P (fun a e => forall b, In b P -> a <> b -> wind (nudge q e) a b = wind q a b /\ T a b (nudge q e) <> 0)). intros a Ia.
    apply (ev_list P (fun b e => a <> b -> wind (nudge q e) a b = wind q a b /\ T a b (nudge q e) <> 0)). intros b Ib.
    destruct (classic_eq a b) as [->|N]; [apply ev_all; congruence|]. eapply ev_imp; [|apply (nudge_wind q a b N)]. auto. }
  apply ev_ex in K as (e & _ & K).
  replace (winding P q) with (winding P (nudge q e)).
  - apply (winding_generic (length P)); auto. intros a b Ia Ib N. now apply K.
  - apply cyc_edges_ext. intros a b E. destruct (edge_In _ _ _ E). apply K; auto. apply (edge_neq P); auto. lia.
Qed.
