(** Clipping an ear of a simple polygon. *)
From Coq Require Import Reals Lra Psatz Lia Arith Permutation.
From Verif Require Import Prelude Num M_vec M_utils M_polygon L_base L_vec L_geom L_cycle L_polygon Props_polygon Props_ears L_simple L_sides L_twoears L_earexist.
Open Scope R_scope.

(** ** It is enough to look at the reflex vertices *)
Lemma cone_height a v b c n p : T a v b * (T n p c - T n p v) = T c v b * (T n p a - T n p v) - T c v a * (T n p b - T n p v).
Proof. unfold tri_area2. ring. Qed.
Lemma T_near_v q v e d : T q (mv v e d) v = e * crs (dsub q v) d.
Proof. unfold tri_area2, mv, crs, dsub. cbn [x2 y2]. ring. Qed.
Lemma crs_dm_c a v b c : crs (dsub c v) (dm a v b) = T c v a + 2 * T c v b.
Proof. unfold tri_area2, crs, dsub, dm. cbn [x2 y2]. ring. Qed.
Lemma nocross_ends q r a b : nocross q r a b -> nocross q r b a.
Proof. intros (d & k & H). exists d, k. tauto. Qed.
Lemma reflex_enough P p c n : good P -> corner P p c n -> 0 < T p c n ->
  (forall a v b, corner P a v b -> T a v b <= 0 -> v <> p -> v <> n -> ~ in_tri p c n v) -> ear P p c n.
Proof.
  intros GP HC HT HR. pose proof GP as [G S HL C]. split; [exact HC|]. split; [exact HT|].
  destruct (max_sel P (fun v => v <> p /\ v <> c /\ v <> n /\ in_tri p c n v) (fun v => T n p v) (other_dec p c n)) as [H|(v & Iv & (N1 & N2 & N3 & I) & Hm)].
  { intros v Iv M1 M2 M3 M4. exact (H v Iv (conj M1 (conj M2 (conj M3 M4)))). }
  exfalso. destruct (in_tri_strict P p c n v G HC HT Iv N1 N2 N3 I) as (Hf & Hg & Hh). destruct (corner_In _ _ _ _ HC) as (Ip & Ic & In_).
  destruct (In_corner P v HL Iv) as (a & b & HV). destruct (corner_In _ _ _ _ HV) as (Ia & _ & Ib). destruct (corner_distinct _ _ _ _ (proj1 G) HV) as (D1 & D2 & D3).
  assert (PV : 0 < T a v b). { destruct (Rlt_le_dec 0 (T a v b)) as [|L]; [assumption|]. exfalso. apply (HR a v b HV); auto. }
  destruct (corner_edge _ _ _ _ HV) as [Eav Evb].
  assert (Nac : a <> c). { intros ->. destruct (corner_edges P p c n c v (proj1 G) HC Eav) as [[? ?]|[[_ ?]|[? _]]]; congruence. }
  assert (Nbc : b <> c). { intros ->. destruct (corner_edges P p c n v c (proj1 G) HC Evb) as [[? _]|[[? _]|[_ ?]]]; congruence. }
  assert (Hm' : forall x, In x P -> x <> p -> x <> c -> x <> n -> in_tri p c n x -> T n p x <= T n p v) by (intros x Ix M1 M2 M3 M4; apply Hm; auto).
  assert (O : forall w, In w P -> w <> c -> T n p v < T n p w -> T p c w < 0 \/ T c n w < 0).
  { intros w Iw M1 L. destruct (in_tri_dec p c n w) as [Iw'|[?|[?|?]]]; [|auto|auto|lra]. exfalso.
    assert (T n p w <= T n p v); [|lra]. apply Hm'; auto; intros ->; [rewrite T_self2 in L|rewrite T_self1 in L]; lra. }
  pose proof (nbr_below P p c n v a G S HL HC HT Hf Hg Hh Hm' Nac (or_introl Eav)) as Ha.
  pose proof (nbr_below P p c n v b G S HL HC HT Hf Hg Hh Hm' Nbc (or_intror Evb)) as Hb.
  pose proof (bary_sum p c n v) as BS. assert (EC : T n p c = T p c n) by (unfold tri_area2; ring).
  assert (NW : ~ (T c v a <= 0 /\ 0 <= T c v b)).
  { intros [K1 K2]. pose proof (cone_height a v b c n p) as K.
    pose proof (mul_pp (T a v b) (T n p c - T n p v) PV ltac:(lra)). pose proof (mul_p (T c v b) (T n p v - T n p a) K2 ltac:(lra)). pose proof (mul_p (- T c v a) (T n p v - T n p b) ltac:(lra) ltac:(lra)). lra. }
  set (m := at_ c v (/ 2)).
  assert (Tm : forall x y, T x y m = (T x y c + T x y v) / 2) by (intros; unfold m; rewrite T_at; field).
  assert (Hmf : 0 < T p c m) by (rewrite Tm, T_self2; lra). assert (Hmg : 0 < T c n m) by (rewrite Tm, T_self1; lra). assert (Hmh : T n p v < T n p m) by (rewrite Tm, EC; lra).
  assert (Lq : limp (fun e => mv c e (dp p c n)) c) by apply limp_mv. assert (Lr : limp (fun e => mv v e (dm a v b)) v) by apply limp_mv.
  assert (K1 : ev (fun e => forall xy, In xy (edges P) -> nocross (mv c e (dp p c n)) m (fst xy) (snd xy))).
  { apply ev_list. intros [x y] He. cbn [fst snd]. destruct (corner_edges P p c n x y (proj1 G) HC He) as [[-> ->]|[[-> ->]|[Nx Ny]]].
    - apply ev_all. intros e He0. apply nocross_l. rewrite T_mv_b, crs_dp1. apply mul_pp; [apply mul_pp|]; assumption.
    - apply ev_all. intros e He0. apply nocross_l. rewrite T_mv_a, crs_dp2. apply mul_pp; [apply mul_pp|]; assumption.
    - apply (nocross_near (fun e => mv c e (dp p c n)) (fun _ => m) c m); [exact Lq|apply limp_const|]. destruct (edge_In _ _ _ He) as [Ix Iy].
      apply (wedge_nocross P p c n m x y); auto; try lra.
      + intros K. apply O; auto. destruct K as [K|[_ K]]; lra.
      + intros K. apply O; auto. destruct K as [K|[_ K]]; lra. }
  assert (K2 : ev (fun e => forall xy, In xy (edges P) -> nocross m (mv v e (dm a v b)) (fst xy) (snd xy))).
  { apply ev_list. intros [x y] He. cbn [fst snd]. destruct (corner_edges P p c n x y (proj1 G) HC He) as [[-> ->]|[[-> ->]|[Nx Ny]]].
    - apply (ev_imp (fun e => 0 < T p c (mv v e (dm a v b)))); [intros e _ K; apply nocross_l; now apply mul_pp|].
      eapply lim_pos; [apply lim_T; [apply limp_const|apply limp_const|exact Lr]|exact Hf].
    - apply (ev_imp (fun e => 0 < T c n (mv v e (dm a v b)))); [intros e _ K; apply nocross_l; now apply mul_pp|].
      eapply lim_pos; [apply lim_T; [apply limp_const|apply limp_const|exact Lr]|exact Hg].
    - assert (EV : forall e, T m (mv v e (dm a v b)) v = e * ((T c v a + 2 * T c v b) / 2)).
      { intros e. rewrite T_near_v. f_equal. rewrite <- crs_dm_c. unfold m, crs, dsub, at_. cbn [x2 y2]. field. }
      assert (MM : forall x y w e, T x y v = 0 -> T x y w = 0 -> T n p w <= T n p v -> T x y m <= 0 -> 0 < e -> T x y (mv v e (dm a v b)) < 0 -> nocross m (mv v e (dm a v b)) v w).
      { intros x' y' w e Zv Zw Hw Hm0 He0 Hr. destruct (meet_or_apart m (mv v e (dm a v b)) v w) as [|(z & (s & Hs & Es) & (t & Ht & Et))]; [assumption|exfalso].
        assert (Z1 : T x' y' z = 0) by (rewrite Et, T_at, Zv, Zw; ring). rewrite Es, T_at in Z1.
        assert (s = 0). { destruct (Req_dec s 0) as [|Ns]; [assumption|]. pose proof (mul_p (1 - s) (- T x' y' m) ltac:(lra) ltac:(lra)). pose proof (mul_pp s (- T x' y' (mv v e (dm a v b))) ltac:(lra) ltac:(lra)). lra. }
        subst s. rewrite at_0 in Es. subst z. assert (T n p m <= T n p v); [|lra]. rewrite Et, T_at. pose proof (mul_p t (T n p v - T n p w) ltac:(lra) ltac:(lra)). lra. }
      destruct (corner_edges P a v b x y (proj1 G) HV He) as [[-> ->]|[[-> ->]|[Mx My]]].
      + destruct (Rlt_le_dec (T c v a) 0) as [K|K].
        * assert (T c v b < 0) by (destruct (Rlt_le_dec (T c v b) 0); [assumption|exfalso; apply NW; lra]).
          apply (ev_imp (fun e => 0 < (-1) * T m (mv v e (dm a v b)) a)).
          -- intros e He0 K3. apply nocross_r. pose proof (mul_pp e (- ((T c v a + 2 * T c v b) / 2)) He0 ltac:(lra)) as K4. pose proof (EV e) as K5. pose proof (mul_pp _ _ K3 K4). rewrite K5. lra.
          -- eapply lim_pos; [apply lim_mul; [apply lim_const|apply lim_T; [apply limp_const|exact Lr|apply limp_const]]|].
             replace (T m v a) with (T c v a / 2); [lra|]. unfold m, tri_area2, at_. cbn [x2 y2]. field.
        * apply ev_all. intros e He0. apply nocross_ends. apply (MM a v); [apply T_self2|apply T_self1|exact Ha| |exact He0|].
          -- rewrite Tm, T_self2. replace (T a v c) with (- T c v a) by (unfold tri_area2; ring). lra.
          -- rewrite T_mv_b, crs_dm1. pose proof (mul_pp e (T a v b) He0 PV). lra.
      + destruct (Rlt_le_dec 0 (T c v b)) as [K|K].
        * assert (0 < T c v a) by (destruct (Rlt_le_dec 0 (T c v a)); [assumption|exfalso; apply NW; lra]).
          apply (ev_imp (fun e => 0 < T m (mv v e (dm a v b)) b)).
          -- intros e He0 K3. apply nocross_r. pose proof (mul_pp e ((T c v a + 2 * T c v b) / 2) He0 ltac:(lra)) as K4. rewrite (EV e). now apply mul_pp.
          -- eapply lim_pos; [apply lim_T; [apply limp_const|exact Lr|apply limp_const]|].
             replace (T m v b) with (T c v b / 2); [lra|]. unfold m, tri_area2, at_. cbn [x2 y2]. field.
        * apply ev_all. intros e He0. apply (MM v b); [apply T_self1|apply T_self2|exact Hb| |exact He0|].
          -- rewrite Tm, T_self1. replace (T v b c) with (T c v b) by (unfold tri_area2; ring). lra.
          -- rewrite T_mv_a, crs_dm2. pose proof (mul_pp e (T a v b) He0 PV). lra.
      + apply (nocross_near (fun _ => m) (fun e => mv v e (dm a v b)) m v); [apply limp_const|exact Lr|].
        destruct (edge_In _ _ _ He) as [Ix Iy]. assert (NZ : ~ on x y v) by (apply (proj2 G); assumption || congruence).
        apply (nocross_sub c v); [|exists (/ 2); split; [lra|reflexivity]|apply on_r].
        apply (wedge_nocross P p c n v x y); auto; try lra.
        * intros [K|[K _]]; [apply O; tauto|contradiction].
        * intros [K|[K _]]; [apply O; tauto|contradiction]. }
  destruct (ev_ex _ (ev_and _ _ (ev_and _ _ K1 K2) C)) as (e & He & [H1 H1'] & _ & H2). destruct (H2 p c n HC) as [H3 _]. destruct (H2 a v b HV) as [_ H4].
  rewrite (lft_near P p c n G HC HT e He) in H3. unfold rgt, sn in H4. destruct (Rlt_dec 0 (T a v b)); [|lra].
  rewrite (winding_move P m) in H4; [|intros x y Hxy; exact (H1' (x, y) Hxy)].
  rewrite (winding_move P (mv c e (dp p c n))) in H4; [lra|]. intros x y Hxy. exact (H1 (x, y) Hxy).
Qed.

(** ** What clipping leaves *)
Lemma clip_good P p c n l : good P -> ear P p c n -> rotof P (c :: n :: l ++ [p]) -> l <> [] -> good (n :: l ++ [p]).
Proof.
  intros GP E R NL. assert (R' : rotof P (n :: l ++ p :: [c])).
  { eapply rotof_trans; [exact R|]. exists [c], (n :: l ++ [p]). split; [reflexivity|]. cbn [app]. rewrite <- app_assoc. reflexivity. }
  destruct (ear_chord P p c n GP E) as [F W].
  destruct (chord_good n p l [c]) as [K _]; [exact NL|discriminate|exact (rotof_good _ _ R' GP)|exact (free_rot _ _ _ _ R' F)| |exact K].
  eapply ev_imp; [|exact W]. intros e _ H. now rewrite <- (rotof_winding P _ _ R').
Qed.
Lemma clip_winding P p c n l q : rotof P (c :: n :: l ++ [p]) -> winding P q = winding [p; c; n] q + winding (n :: l ++ [p]) q.
Proof.
  intros R. assert (R' : rotof P (n :: l ++ p :: [c])).
  { eapply rotof_trans; [exact R|]. exists [c], (n :: l ++ [p]). split; [reflexivity|]. cbn [app]. rewrite <- app_assoc. reflexivity. }
  rewrite (rotof_winding _ _ q R'), chord_winding. cbn [app]. lra.
Qed.
Lemma clip_area P p c n l : rotof P (c :: n :: l ++ [p]) -> area2 P = T p c n + area2 (n :: l ++ [p]).
Proof.
  intros R. unfold area2. rewrite (rotof_cyc cross2 _ _ R). rewrite <- (area2_tri p c n). unfold area2. rewrite cyc3.
  change (c :: n :: l ++ [p]) with (c :: (n :: l) ++ [p]). change (n :: l ++ [p]) with (n :: l ++ [p]). rewrite !cyc_ends. cbn [app]. unfold cyc.
  change (chain cross2 (c :: n :: l ++ [p])) with (cross2 c n + chain cross2 (n :: l ++ [p])). unfold cross2. ring.
Qed.
(** a convex neighbour of the tip stays convex *)
Lemma keep_prev P pp p c n : gp P -> simple P -> (3 <= length P)%nat -> ear P p c n -> corner P pp p c -> pp <> n -> 0 < T pp p c -> 0 < T pp p n.
Proof.
  intros G S HL (HC & HT & HV) HP N K. destruct (corner_In _ _ _ _ HP) as (Ipp & Ip & Ic). destruct (corner_In _ _ _ _ HC) as (_ & _ & In_).
  destruct (corner_distinct _ _ _ _ (proj1 G) HP) as (D1 & D2 & D3). destruct (corner_distinct _ _ _ _ (proj1 G) HC) as (D4 & D5 & D6).
  destruct (corner_edge _ _ _ _ HP) as [E1 _]. destruct (corner_edge _ _ _ _ HC) as [_ E2].
  assert (Z : T pp p n <> 0).
  { intros Z. destruct (on_line pp p n D1 Z) as (s & Es). destruct (Rlt_le_dec 1 s) as [L|L].
    - assert (E : T p c n = (1 - s) * T pp p c) by (rewrite Es, T_at, T_self1; replace (T p c pp) with (T pp p c) by (unfold tri_area2; ring); ring).
      pose proof (mul_pp (s - 1) (T pp p c) ltac:(lra) K). lra.
    - destruct (Rlt_le_dec s 0) as [L'|L'].
      + assert (ET : forall x y, T x y n = (1 - s) * T x y pp + s * T x y p) by (intros; rewrite Es; apply T_at).
        apply (HV pp); auto; try congruence. unfold in_tri. split; [|split].
        * replace (T p c pp) with (T pp p c) by (unfold tri_area2; ring). lra.
        * pose proof (ET p c) as E. rewrite T_self1 in E. pose proof (ET c pp) as E'. rewrite T_self2 in E'. replace (T c n pp) with (- T c pp n) by (unfold tri_area2; ring). rewrite E'.
          replace (T c pp p) with (T pp p c) by (unfold tri_area2; ring). pose proof (mul_pp (- s) (T pp p c) ltac:(lra) K). lra.
        * replace (T n p pp) with (- T pp p n) by (unfold tri_area2; ring). lra.
      + apply (proj2 G pp p n E1 In_); try congruence. exists s. auto. }
  destruct (Rdichotomy _ _ Z) as [L|L]; [exfalso|exact L].
  destruct (in_tri_dec p c n pp) as [I|[O|[O|O]]].
  - apply (HV pp); auto.
  - replace (T p c pp) with (T pp p c) in O by (unfold tri_area2; ring). lra.
  - apply (S c n E2 pp p E1). split.
    + replace (T c n p) with (T p c n) by (unfold tri_area2; ring). pose proof (mul_pp (- T c n pp) (T p c n) ltac:(lra) HT). lra.
    + pose proof (mul_pp (T pp p c) (- T pp p n) K ltac:(lra)). lra.
  - replace (T n p pp) with (- T pp p n) in O by (unfold tri_area2; ring). lra.
Qed.
Lemma keep_next P nn p c n : gp P -> simple P -> (3 <= length P)%nat -> ear P p c n -> corner P c n nn -> nn <> p -> 0 < T c n nn -> 0 < T p n nn.
Proof.
  intros G S HL (HC & HT & HV) HP N K. destruct (corner_In _ _ _ _ HP) as (Ic & In_ & Inn). destruct (corner_In _ _ _ _ HC) as (Ip & _ & _).
  destruct (corner_distinct _ _ _ _ (proj1 G) HP) as (D1 & D2 & D3). destruct (corner_distinct _ _ _ _ (proj1 G) HC) as (D4 & D5 & D6).
  destruct (corner_edge _ _ _ _ HP) as [_ E1]. destruct (corner_edge _ _ _ _ HC) as [E2 _].
  assert (Z : T p n nn <> 0).
  { intros Z. destruct (on_line nn n p) as (s & Es); [congruence|replace (T nn n p) with (- T p n nn) by (unfold tri_area2; ring); lra|]. destruct (Rlt_le_dec 1 s) as [L|L].
    - assert (E : T c n p = (1 - s) * T c n nn) by (rewrite Es, T_at, T_self2; ring). rewrite (T_rot p c n) in E. pose proof (mul_pp (s - 1) (T c n nn) ltac:(lra) K). lra.
    - destruct (Rlt_le_dec s 0) as [L'|L'].
      + assert (ET : forall x y, T x y p = (1 - s) * T x y nn + s * T x y n) by (intros; rewrite Es; apply T_at).
        apply (HV nn); auto; try congruence. unfold in_tri. split; [|split].
        * replace (T p c nn) with (T c nn p) by (unfold tri_area2; ring). rewrite ET, T_self2. replace (T c nn n) with (- T c n nn) by (unfold tri_area2; ring). pose proof (mul_pp (- s) (T c n nn) ltac:(lra) K). lra.
        * lra.
        * replace (T n p nn) with (- T p n nn) by (unfold tri_area2; ring). lra.
      + apply (proj2 G n nn p E1 Ip); try congruence. apply on_swap. exists s. auto. }
  destruct (Rdichotomy _ _ Z) as [L|L]; [exfalso|exact L].
  destruct (in_tri_dec p c n nn) as [I|[O|[O|O]]].
  - apply (HV nn); auto.
  - apply (S p c E2 n nn E1). split.
    + pose proof (mul_pp (T p c n) (- T p c nn) HT ltac:(lra)). lra.
    + replace (T n nn p) with (T p n nn) by (unfold tri_area2; ring). replace (T n nn c) with (T c n nn) by (unfold tri_area2; ring). pose proof (mul_pp (- T p n nn) (T c n nn) ltac:(lra) K). lra.
  - lra.
  - replace (T n p nn) with (- T p n nn) in O by (unfold tri_area2; ring). lra.
Qed.

(** ** Orientation and area *)
Lemma corner_ends {A} (P : list A) p c n : corner P p c n -> exists l, rotof P (c :: n :: l ++ [p]).
Proof. intros (l & Hl). exists l. eapply rotof_trans; [exact Hl|]. now exists [p], (c :: n :: l). Qed.
Lemma good_area : forall k P, (length P <= k)%nat -> good P -> 0 < area2 P.
Proof.
  induction k as [|k IH]; intros P Hk GP; [pose proof (good_len P GP); lia|].
  destruct (convex_corner P GP) as (a0 & b0 & c0 & H0 & _). destruct (corner_edge _ _ _ _ H0) as [E0 _].
  destruct (ear_exists (length P) P ltac:(lia) GP a0 b0 E0) as (p & c & n & E & _). pose proof E as (HC & HT & _).
  destruct (corner_ends P p c n HC) as (l & R). rewrite (clip_area P p c n l R).
  pose proof (Permutation_length (rotof_perm _ _ R)) as HL. cbn [length] in HL. rewrite app_length in HL. cbn [length] in HL.
  destruct l as [|x l].
  - cbn [app]. unfold area2. rewrite (cyc2 _ cross2_anti). lra.
  - assert (0 < area2 (n :: (x :: l) ++ [p])); [|lra]. apply IH; [cbn [length] in *; rewrite app_length; cbn [length]; lia|]. apply (clip_good P p c n); [exact GP|exact E|exact R|discriminate].
Qed.
Lemma links_rev {A} (l : list A) a b : In (a, b) (links l) -> In (b, a) (links (rev l)).
Proof.
  induction l as [|x l IH]; [intros []|]. destruct l as [|y l]; [intros []|]. intros H. cbn [rev] in *. rewrite <- app_assoc in *. cbn [app] in *.
  rewrite links_app. apply in_or_app. destruct H as [E|H]; [injection E as <- <-; right; now left|left; now apply IH].
Qed.
Lemma edge_rev {A} (P : list A) a b : edge P a b -> edge (rev P) b a.
Proof.
  destruct P as [|x l]; [intros []|]. unfold edge at 1, edges. intros H. apply links_rev in H. cbn [app rev] in H. rewrite rev_app_distr in H. cbn [rev app] in H.
  apply (rotof_edge (x :: rev l) (rev (x :: l))); [exact (rotof_cons x (rev l))|]. exact H.
Qed.
Lemma winding_rev P q : winding (rev P) q = - winding P q.
Proof.
  unfold winding. destruct P as [|a ps]; [cbn; lra|]. cbn [rev]. rewrite cyc_rot. cbn [app]. unfold cyc.
  replace ((a :: rev ps) ++ [a]) with (rev ((a :: ps) ++ [a])) by (cbn [app]; rewrite app_comm_cons, rev_app_distr; cbn [rev app]; reflexivity).
  apply chain_rev, wind_antisym.
Qed.
Lemma rev_gp P : gp P -> gp (rev P).
Proof.
  intros [ND G]. split; [now apply NoDup_rev|]. intros x y v E Iv N1 N2 O. apply edge_rev in E. rewrite rev_involutive in E.
  apply (G y x v E); auto; [now apply in_rev|now apply on_swap].
Qed.
Lemma rev_simple P : simple P -> simple (rev P).
Proof.
  intros S b c Hbc x y Hxy [K1 K2]. apply edge_rev in Hbc, Hxy. rewrite rev_involutive in Hbc, Hxy. apply (S c b Hbc y x Hxy). split.
  - rewrite (T_swap b c x), (T_swap b c y). lra.
  - rewrite (T_swap x y b), (T_swap x y c). lra.
Qed.
Lemma cw_rev P : gp P -> simple P -> (3 <= length P)%nat -> cw P -> ccw (rev P).
Proof.
  intros G S HL H. destruct (orient (rev P) (rev_gp P G) (rev_simple P S)) as [?|H']; [now rewrite rev_length|assumption|exfalso].
  destruct (ev_ex _ (ev_and _ _ H H')) as (e & He & [K _] & [K' _]). destruct P as [|x [|y l]]; [cbn in HL; lia..|].
  assert (E : edge (x :: y :: l) x y) by (left; reflexivity). destruct (K x y E) as [K1 K2]. destruct (K' y x (edge_rev _ _ _ E)) as [K3 K4].
  rewrite winding_rev in K4. rewrite ms_flip in K4. lra.
Qed.
(** for a simple polygon the sign of the area tells the orientation *)
Theorem simple_good P : gp P -> simple P -> (3 <= length P)%nat -> 0 < area2 P -> good P.
Proof.
  intros G S HL HA. destruct (orient P G S HL) as [C|C]; [constructor; assumption|exfalso].
  assert (GR : good (rev P)). { constructor; [now apply rev_gp|now apply rev_simple|now rewrite rev_length|now apply cw_rev]. }
  pose proof (good_area _ _ (le_n _) GR) as K. rewrite area2_rev in K. lra.
Qed.

(** ** A straight corner can be dropped *)
Lemma on_split a b v z : v <> a -> on a b v -> on a b z -> on a v z \/ on v b z.
Proof.
  intros N (s & Hs & Es) (t & Ht & Et).
  assert (S0 : s <> 0) by (intros ->; rewrite at_0 in Es; congruence).
  destruct (Rle_lt_dec t s) as [L|L]; [left|right].
  - exists (t / s). split.
    + split; [apply Rmult_le_pos; [lra|left; apply Rinv_0_lt_compat; lra]|]. apply (Rmult_le_reg_r s); [lra|]. replace (t / s * s) with t by (field; lra). lra.
    + subst z v. apply v2_ext; cbn [at_ x2 y2]; field; exact S0.
  - exists ((t - s) / (1 - s)). split.
    + split; [apply Rmult_le_pos; [lra|left; apply Rinv_0_lt_compat; lra]|]. apply (Rmult_le_reg_r (1 - s)); [lra|]. replace ((t - s) / (1 - s) * (1 - s)) with (t - s) by (field; lra). lra.
    + subst z v. apply v2_ext; cbn [at_ x2 y2]; field; lra.
Qed.
Lemma cross_meet b c x y : T b c x * T b c y < 0 -> T x y b * T x y c < 0 -> exists z, on b c z /\ on x y z.
Proof.
  intros K1 K2. destruct (meet_or_apart b c x y) as [N|H]; [exfalso|exact H].
  destruct (nocross_cases _ _ _ _ N) as [K|[K|(_ & _ & Z & _)]]; [lra|lra|rewrite Z in K1; lra].
Qed.
Lemma drop_good P a v b l : good P -> rotof P (v :: b :: l ++ [a]) -> T a v b = 0 -> l <> [] /\ good (b :: l ++ [a]).
Proof.
  intros GP R Z. pose proof GP as [G S HL _]. assert (HC : corner P a v b).
  { exists l. eapply rotof_trans; [exact R|]. exists (v :: b :: l), [a]. split; reflexivity. }
  destruct (corner_distinct _ _ _ _ (proj1 G) HC) as (D1 & D2 & D3). destruct (corner_edge _ _ _ _ HC) as [E1 E2]. destruct (corner_In _ _ _ _ HC) as (Ia & Iv & Ib).
  destruct (corner_straight P a v b G HC Z) as (s & Hs & Es).
  assert (Ov : on a b v). { exists (/ s). split; [split; [left; apply Rinv_0_lt_compat; lra|rewrite <- Rinv_1; apply Rinv_le_contravar; lra]|]. rewrite Es. apply v2_ext; cbn [at_ x2 y2]; field; lra. }
  pose proof (good_area _ _ (le_n _) GP) as HA. rewrite (clip_area P a v b l R), Z in HA.
  assert (NL : l <> []). { intros ->. cbn [app] in HA. unfold area2 in HA. rewrite (cyc2 _ cross2_anti) in HA. lra. }
  split; [exact NL|].
  assert (RP : rotof P (b :: l ++ a :: [v])). { eapply rotof_trans; [exact R|]. exists [v], (b :: l ++ [a]). split; [reflexivity|]. cbn [app]. now rewrite <- app_assoc. }
  assert (ED : forall x y, edge (b :: l ++ [a]) x y -> edge P x y \/ (x = a /\ y = b)).
  { intros x y E. apply (chord_edges1 b a l) in E. destruct E as [E|E]; [left|now right]. apply (rotof_edge _ _ _ _ RP). apply chord_edges. now left. }
  pose proof (Permutation_NoDup (rotof_perm _ _ R) (proj1 G)) as NDr. inversion NDr as [|? ? Nv NDq]; subst x l0.
  assert (IQ : forall x, In x (b :: l ++ [a]) -> In x P /\ x <> v).
  { intros x Ix. split; [apply (rotof_In _ _ _ R); now right|]. intros ->. exact (Nv Ix). }
  assert (ML : forall z x y, edge (b :: l ++ [a]) x y -> edge P x y -> on a b z -> on x y z -> (z = a \/ z = b) /\ (z = x \/ z = y)).
  { intros z x y Eq E Oz Oxy. destruct (edge_In _ _ _ Eq) as [Ix Iy]. destruct (IQ x Ix) as [_ Nx]. destruct (IQ y Iy) as [_ Ny].
    destruct (on_split a b v z ltac:(congruence) Ov Oz) as [O|O].
    - destruct (free_meet P a v x y z G ltac:(lia) Ia Iv D1 (edge_free P a v G S E1) E O Oxy) as [(M1 & M2)|[[_ M]|[_ M]]]; [|congruence..]. split; [|exact M2]. destruct M1 as [M1|M1]; [now left|]. destruct M2; congruence.
    - destruct (free_meet P v b x y z G ltac:(lia) Iv Ib D2 (edge_free P v b G S E2) E O Oxy) as [(M1 & M2)|[[M _]|[M _]]]; [|congruence..]. split; [|exact M2]. destruct M1 as [M1|M1]; [|now right]. destruct M2; congruence. }
  assert (XF : forall x y, edge (b :: l ++ [a]) x y -> ~ (T a b x * T a b y < 0 /\ T x y a * T x y b < 0)).
  { intros x y Eq [K1 K2]. destruct (ED x y Eq) as [E|[-> ->]]; [|rewrite T_self1 in K1; lra].
    destruct (cross_meet a b x y K1 K2) as (z & Oz & Oxy). destruct (ML z x y Eq E Oz Oxy) as [[-> | ->] [<- | <-]]; rewrite ?T_self1, ?T_self2 in K1; lra. }
  apply simple_good.
  - split; [exact NDq|]. intros x y w Eq Iw N1 N2 O. destruct (IQ w Iw) as [IwP Nw]. destruct (ED x y Eq) as [E|[-> ->]]; [exact (proj2 G x y w E IwP N1 N2 O)|].
    destruct (on_split a b v w ltac:(congruence) Ov O) as [O'|O']; [exact (proj2 G a v w E1 IwP N1 Nw O')|exact (proj2 G v b w E2 IwP Nw N2 O')].
  - intros x y E x' y' E' K. destruct (ED x y E) as [F|[-> ->]]; [|exact (XF x' y' E' K)]. destruct (ED x' y' E') as [F'|[-> ->]]; [exact (S x y F x' y' F' K)|].
    apply (XF x y E). tauto.
  - cbn [length]. rewrite app_length. destruct l; [congruence|]. cbn [length]. lia.
  - lra.
Qed.
