(** Properties C10-C14: B-spline curves. *)
From Coq Require Import Reals Lra Psatz Lia Arith Ranalysis5 Permutation.
From Verif Require Import Prelude Num M_vec M_utils M_curve L_base L_vec L_cdb L_insert L_knot L_bspline L_split Props_bezier Props_knot.
Open Scope R_scope.

(** ** C10: derivative() evaluates to the derivative, on every knot span of the domain [t_p, t_n]. *)
Theorem C10_bspline_derivative (c : BSpline R (vec3 R)) :
  valid_bspline c -> (1 <= bs_degree c)%nat ->
  let p := bs_degree c in let n := length (bs_cps c) in let t i := nth i (bs_knots c) 0 in
  exists d, bspline_derivative c = Ok d /\
    bs_degree d = (p - 1)%nat /\ length (bs_cps d) = (n - 1)%nat /\
    length (bs_knots d) = (length (bs_knots c) - 2)%nat /\
    (forall i, (i + 2 < length (bs_knots c))%nat -> nth i (bs_knots d) 0 = t (i + 1)%nat) /\
    forall s u, (p <= s < n)%nat -> t s < u < t (s + 1)%nat ->
      exists q, bspline3_get_point d u = Ok q /\
        derivable_pt_lim (curve_coord (bspline3_get_point c) x3) u (x3 q) /\
        derivable_pt_lim (curve_coord (bspline3_get_point c) y3) u (y3 q) /\
        derivable_pt_lim (curve_coord (bspline3_get_point c) z3) u (z3 q).
Proof.
  intros Hv Hp p n t. pose proof Hv as [Hs Hsep HL Hne]. fold p n in HL, Hne.
  destruct (shrink_nth (bs_knots c) ltac:(lia)) as [ks' (Eks' & HL' & Hk')].
  destruct (C17_spans ks' p 0) as [sp (Esp & HLsp & Hsp)]. rnum.
  unfold bspline_derivative. fold p. rewrite Eks'. cbn [obind]. rewrite Esp. cbn [obind]. rewrite usub_Ok by assumption. cbn [obind].
  eexists. split; [reflexivity|]. cbn [bs_degree bs_cps bs_knots].
  set (ders := map _ (combine (pairs (bs_cps c)) sp)).
  assert (HLd : length ders = (n - 1)%nat).
  { unfold ders. rewrite map_length, combine_length, pairs_length. fold n. rewrite HLsp. lia. }
  split; [reflexivity|]. split; [assumption|]. split; [assumption|]. split; [assumption|].
  intros s u Hsn Hu.
  assert (Hin : forall i, (i < length ks')%nat -> In (nth i ks' 0) (bs_knots c)).
  { intros i Hi. rewrite Hk' by lia. apply nth_In. lia. }
  assert (Hvd : valid_bspline (mkBSpline ders ks' (p - 1))).
  { split; cbn [bs_knots bs_cps bs_degree].
    - intros i j Hij. rewrite !Hk' by lia. apply Hs. lia.
    - apply (separated_incl (bs_knots c)); [assumption|]. intros a Ha. apply (In_nth _ _ 0) in Ha.
      destruct Ha as [i [Hi <-]]. now apply Hin.
    - lia.
    - lia. }
  assert (Hspan : forall x, t s < x < t (s + 1)%nat -> is_span (bs_knots c) x s).
  { intros x Hx. unfold is_span. fold (t s) (t (s + 1)%nat). repeat split; [lia|lra|lra|left; lra]. }
  assert (Hspan' : is_span ks' u (s - 1)).
  { unfold is_span. rewrite !Hk' by lia. replace (s - 1 + 1)%nat with s by lia. fold (t s) (t (s + 1)%nat).
    repeat split; [lia|lra|lra|left; lra]. }
  eexists. split; [apply (bspline_eval _ u (s - 1) Hvd); exact Hspan'|]. cbn [bs_knots bs_cps bs_degree].
  set (D := nth (length (bs_knots c) - 1) (bs_knots c) 0).
  set (T := fun i => nth i (bs_knots c) D).
  assert (HT : mono T) by (apply sorted_mono; [assumption|intros a Ha; now apply sorted_le_last]).
  assert (HTk : forall i, (i < length (bs_knots c))%nat -> t i = T i) by (intros; now apply nth_indep).
  assert (Hders : forall cc : vec3 R -> R, linear cc -> forall i, (i < n - 1)%nat ->
     cc (nth i ders vzero) = INR p * ratio 1 (T (S i + p)%nat - T (S i)) * (cc (nth (S i) (bs_cps c) vzero) - cc (nth i (bs_cps c) vzero))).
  { intros cc Hc i Hi. unfold ders.
    rewrite (nth_map_default _ _ _ ((vzero, vzero), 0)) by (rewrite combine_length, pairs_length; fold n; lia).
    assert (E : nth i (combine (pairs (bs_cps c)) sp) ((vzero, vzero), 0) = (nth i (pairs (bs_cps c)) (vzero, vzero), nth i sp 0)).
    { apply combine_nth. rewrite pairs_length. fold n. lia. }
    rewrite E, pairs_nth by (fold n; lia). cbn iota beta.
    rewrite !(lin_mulr Hc), (lin_sub Hc), Nat.add_1_r. rewrite Hsp by lia.
    rewrite !Hk' by lia. replace (i + p + 1)%nat with (S i + p)%nat by lia. rewrite Nat.add_1_r.
    rewrite (inv_or_zero_sep (bs_knots c)) by (try assumption; apply nth_In; lia).
    fold (t (S i + p)%nat) (t (S i)). rewrite !HTk by lia. rnum. ring. }
  assert (G : forall cc : vec3 R -> R, linear cc ->
    derivable_pt_lim (curve_coord (bspline3_get_point c) cc) u
      (cc (comb3 (fun i => cdb (fun i => nth i ks' 0) (s - 1) (p - 1) i u) ders))).
  { intros cc Hc.
    apply (derivable_pt_lim_locally_ext (fun x => sumf (fun i => cdb T s p i x * cc (nth i (bs_cps c) vzero)) n) _ u (t s) (t (s + 1)%nat) _ Hu).
    - intros x Hx. unfold curve_coord. rewrite (bspline_eval c x s Hv (Hspan x Hx)). rewrite comb3_coord by assumption.
      apply sumf_ext. intros i Hi. f_equal. symmetry. apply cdb_ext. intros m Hm. apply HTk. unfold n, p in *. lia.
    - rewrite comb3_coord by assumption. rewrite HLd.
      destruct p as [|k] eqn:Ep; [lia|]. rewrite Nat.sub_succ, Nat.sub_0_r.
      replace (sumf _ (n - 1)) with
        (sumf (fun i => cdb T s k (S i) u * (INR (S k) * ratio 1 (T (S i + S k)%nat - T (S i)) * (cc (nth (S i) (bs_cps c) vzero) - cc (nth i (bs_cps c) vzero)))) (n - 1)).
      + apply cdb_deriv_sum; [exact HT| |lia]. rewrite <- !HTk by lia. lra.
      + apply sumf_ext. intros i Hi. rewrite (Hders cc Hc i Hi). f_equal.
        replace (cdb T s k (S i) u) with (cdb T (s - 1 + 1) k (i + 1) u) by (f_equal; lia).
        rewrite <- cdb_shift. apply cdb_ext. intros m Hm. rewrite Hk' by lia. rewrite <- HTk by lia. reflexivity. }
  split; [apply G; auto with linear|]. split; apply G; auto with linear.
Qed.

(** A concrete curve: 4 control points, degree 2, clamped, one interior knot. *)
Definition c_ex : BSpline R (vec3 R) :=
  mkBSpline [V3 0 0 0; V3 1 2 0; V3 3 2 1; V3 4 0 0] [0; 0; 0; 1; 2; 2; 2] 2.
Lemma c_ex_valid : valid_bspline c_ex.
Proof.
  split; cbn [bs_knots bs_cps bs_degree c_ex].
  - apply sorted_by_pairs. intros i Hi. cbn [length] in Hi. do 6 (destruct i as [|i]; [cbn; lra|]). lia.
  - apply separated_ints. intros a Ha. cbn in Ha.
    repeat (destruct Ha as [<-|Ha]; [eexists; split; [reflexivity|lia]|]). destruct Ha.
  - reflexivity.
  - cbn; lia.
Qed.
Example C10_nonvacuous : valid_bspline c_ex /\ (1 <= bs_degree c_ex)%nat /\ (2 <= 3 < 4)%nat /\
  nth 3 (bs_knots c_ex) 0 < 3/2 < nth (3 + 1) (bs_knots c_ex) 0.
Proof. split; [apply c_ex_valid|]. cbn. repeat split; try lia; lra. Qed.

(** ** C11: knot insertion. *)
(** The new knot is at least the knot number [degree], or below all knots. *)
Theorem C11_add_knot_keeps_curve (c : BSpline R (vec3 R)) (x : R) :
  let t i := nth i (bs_knots c) 0 in let p := bs_degree c in
  let first := t 0%nat in let last := t (length (bs_knots c) - 1)%nat in
  valid_bspline c -> separated (x :: bs_knots c) -> x < first \/ t p <= x ->
  exists c', bspline_add_knot c x = Ok c' /\ valid_bspline c' /\
    bs_degree c' = p /\ length (bs_cps c') = S (length (bs_cps c)) /\
    Permutation (bs_knots c') (x :: bs_knots c) /\
    forall u, first < last -> first <= u -> (x <= last \/ u < last) ->
      bspline3_get_point c' u = bspline3_get_point c u.
Proof.
  intros t p first last Hv Hsep' Hx. pose proof Hv as [Hs Hsep HL Hne]. fold p in HL.
  destruct (knot_add_sorted (bs_knots c) x Hs) as [j (Hj & E & Hlo & Hhi & Hs')].
  assert (Hjp : j = 0%nat \/ (p < j)%nat).
  { destruct (le_lt_dec j p) as [H|H]; [left|right; assumption].
    destruct (Nat.eq_dec j 0) as [|NE]; [assumption|exfalso].
    destruct Hx as [Hx|Hx].
    - specialize (Hlo 0%nat ltac:(lia)). unfold first, t in Hx. lra.
    - specialize (Hhi p ltac:(lia)). unfold t in Hx. lra. }
  assert (HP : Permutation (firstn j (bs_knots c) ++ x :: skipn j (bs_knots c)) (x :: bs_knots c)).
  { rewrite <- Permutation_middle. now rewrite firstn_skipn. }
  assert (Hsep2 : separated (firstn j (bs_knots c) ++ x :: skipn j (bs_knots c))).
  { apply (separated_incl (x :: bs_knots c)); [assumption|]. intros a Ha. eapply Permutation_in; eauto. }
  destruct (ak_result c x j Hv Hj Hlo Hhi Hsep2 Hs' Hjp) as [cps' (E' & HL' & _)].
  exists (mkBSpline cps' (firstn j (bs_knots c) ++ x :: skipn j (bs_knots c)) p).
  split; [exact E'|]. split; [now apply (ak_valid c x j Hv Hj Hsep2 Hs' Hjp)|].
  cbn [bs_degree bs_cps bs_knots]. split; [reflexivity|]. split; [assumption|]. split; [assumption|].
  intros u Hfl Hu Hux.
  destruct (span_exists (bs_knots c) u Hs ltac:(lia) Hfl Hu) as [s Hspan].
  eapply (ak_same_curve c x j); eauto.
  intros H. destruct Hux as [Hux|Hux]; [unfold last, t in Hux; lra|exact Hux].
Qed.

Definition nofuel {A} (m : outcome A) : Prop := m <> OutOfFuel.
Lemma nofuel_bind {A B} (m : outcome A) (k : A -> outcome B) : nofuel m -> (forall a, nofuel (k a)) -> nofuel (obind m k).
Proof. unfold nofuel. destruct m; cbn; auto; congruence. Qed.
Lemma nofuel_idx {A} (l : list A) i : nofuel (idx l i).
Proof. apply idx_not_fuel. Qed.
Lemma nofuel_upd {A} (l : list A) i x : nofuel (upd l i x).
Proof. unfold nofuel, upd. destruct (i <? length l)%nat; congruence. Qed.
Lemma nofuel_usub a b : nofuel (usub a b).
Proof. unfold nofuel, usub. destruct (b <=? a)%nat; congruence. Qed.
Lemma nofuel_insert_at {A} (l : list A) i x : nofuel (insert_at l i x).
Proof. unfold nofuel, insert_at. destruct (i <=? length l)%nat; congruence. Qed.
Lemma nofuel_foldM {A S} (f : S -> A -> outcome S) xs : (forall s x, nofuel (f s x)) -> forall s, nofuel (foldM f s xs).
Proof.
  intros H. induction xs as [|x xs IH]; intros s; cbn; [unfold nofuel; congruence|].
  apply nofuel_bind; [apply H|apply IH].
Qed.
#[global] Hint Resolve nofuel_bind nofuel_idx nofuel_upd nofuel_usub nofuel_insert_at : nofuel.
Lemma nofuel_cases {A} (m : outcome A) : nofuel m -> (exists a, m = Ok a) \/ m = Panic.
Proof. unfold nofuel. destruct m; eauto; congruence. Qed.

(** Exactly the knots t_0 <= x < t_p (inside an unclamped start) make add_knot panic. *)
Theorem C11_add_knot_panics_iff (c : BSpline R (vec3 R)) (x : R) :
  let t i := nth i (bs_knots c) 0 in
  valid_bspline c -> separated (x :: bs_knots c) ->
  bspline_add_knot c x = Panic <-> t 0%nat <= x < t (bs_degree c).
Proof.
  intros t Hv Hsep'. split.
  - intros E. destruct (Rlt_le_dec x (t 0%nat)) as [H|H].
    + destruct (C11_add_knot_keeps_curve c x Hv Hsep' (or_introl H)) as [c' [E' _]]. congruence.
    + destruct (Rlt_le_dec x (t (bs_degree c))) as [H1|H1]; [lra|].
      destruct (C11_add_knot_keeps_curve c x Hv Hsep' (or_intror H1)) as [c' [E' _]]. congruence.
  - intros [H0 H1]. pose proof Hv as [Hs Hsep HL Hne].
    destruct (knot_add_sorted (bs_knots c) x Hs) as [j (Hj & E & Hlo & Hhi & Hs')].
    assert (J0 : (0 < j)%nat).
    { destruct (Nat.eq_dec j 0) as [->|]; [|lia]. specialize (Hhi 0%nat ltac:(lia)). unfold t in H0. lra. }
    assert (J1 : (j <= bs_degree c)%nat).
    { destruct (le_lt_dec j (bs_degree c)) as [|H]; [assumption|]. specialize (Hlo _ H). unfold t in H1. lra. }
    unfold bspline_add_knot. rewrite E. cbn [obind].
    rewrite (proj2 (Nat.eqb_neq j 0)) by lia. rewrite (proj2 (Nat.ltb_ge (bs_degree c) j)) by assumption.
    match goal with |- obind ?m ?k = Panic => set (M := m); set (K := k) end.
    assert (HK : forall cps en, (1 <= en)%nat -> K (cps, en) = Panic).
    { intros cps en Hen. unfold K.
      replace (rev (Prelude.range 0 en)) with (rev (Prelude.range 1 en) ++ [0%nat]).
      2:{ rewrite (range_cons 0 en) by lia. reflexivity. }
      rewrite foldM_app.
      match goal with |- obind (obind ?m _) _ = _ => assert (HN : nofuel m) end.
      { apply nofuel_foldM. intros. apply nofuel_bind; [apply nofuel_idx|]. intros.
        apply nofuel_bind; [apply nofuel_idx|]. intros. apply nofuel_bind; [apply nofuel_usub|]. intros.
        apply nofuel_bind; [apply nofuel_idx|]. intros. apply nofuel_bind; [apply nofuel_idx|]. intros. apply nofuel_upd. }
      destruct (nofuel_cases _ HN) as [[cps' ->]| ->]; cbn [obind foldM]; [|reflexivity].
      match goal with |- obind (obind (obind ?m _) _) _ = _ => destruct (nofuel_cases m (nofuel_idx _ _)) as [[q ->]| ->] end; cbn [obind]; [|reflexivity].
      match goal with |- obind (obind (obind ?m _) _) _ = _ => destruct (nofuel_cases m (nofuel_idx _ _)) as [[q' ->]| ->] end; cbn [obind]; reflexivity. }
    unfold M. destruct (Nat.ltb_spec (length (bs_cps c)) j).
    + cbn [obind]. apply HK. lia.
    + rewrite (idx_nth _ _ vzero) by lia. cbn [obind]. rewrite insert_at_Ok by lia. cbn [obind]. apply HK. lia.
Qed.

(** inserting any sequence of knots of the domain *)
Fixpoint insert_knots (c : BSpline R (vec3 R)) (xs : list R) : outcome (BSpline R (vec3 R)) :=
  match xs with [] => Ok c | x :: xs' => c' <- bspline_add_knot c x ;; insert_knots c' xs' end.

Lemma sorted_perm_first_last ks ks' x : sorted ks -> sorted ks' -> (1 <= length ks)%nat ->
  Permutation ks' (x :: ks) -> nth 0 ks 0 <= x <= nth (length ks - 1) ks 0 ->
  nth 0 ks' 0 = nth 0 ks 0 /\ nth (length ks' - 1) ks' 0 = nth (length ks - 1) ks 0.
Proof.
  intros Hs Hs' HL HP Hx. assert (HL' : length ks' = S (length ks)) by (apply Permutation_length in HP; exact HP).
  assert (A : forall a, In a ks' -> nth 0 ks 0 <= a <= nth (length ks - 1) ks 0).
  { intros a Ha. apply (Permutation_in _ HP) in Ha. destruct Ha as [<-|Ha]; [assumption|].
    apply (In_nth _ _ 0) in Ha. destruct Ha as [i [Hi <-]]. split; apply Hs; lia. }
  assert (B : forall a, In a (x :: ks) -> nth 0 ks' 0 <= a <= nth (length ks' - 1) ks' 0).
  { intros a Ha. apply (Permutation_in _ (Permutation_sym HP)) in Ha.
    apply (In_nth _ _ 0) in Ha. destruct Ha as [i [Hi <-]]. split; apply Hs'; lia. }
  pose proof (A (nth 0 ks' 0) ltac:(apply nth_In; lia)). pose proof (A (nth (length ks' - 1) ks' 0) ltac:(apply nth_In; lia)).
  pose proof (B (nth 0 ks 0) ltac:(right; apply nth_In; lia)). pose proof (B (nth (length ks - 1) ks 0) ltac:(right; apply nth_In; lia)).
  lra.
Qed.

Lemma sorted_perm_le ks ks' x p : sorted ks -> sorted ks' -> (p < length ks)%nat -> Permutation ks' (x :: ks) ->
  nth p ks 0 <= x -> nth p ks' 0 <= nth p ks 0.
Proof.
  intros Hs Hs' Hp HP Hx.
  destruct (Rle_lt_dec (nth p ks' 0) (nth p ks 0)) as [|H]; [assumption|exfalso].
  (* p+1 elements of ks are <= t_p, at most p of ks' are *)
  set (f := fun a => Rleb a (nth p ks 0)).
  assert (C1 : (p < length (filter f ks))%nat).
  { rewrite <- (firstn_skipn (S p) ks), filter_app, app_length.
    assert (E : filter f (firstn (S p) ks) = firstn (S p) ks).
    { apply filter_true. intros a Ha. unfold f. apply Rleb_true.
      apply (In_nth _ _ 0) in Ha. destruct Ha as [i [Hi <-]]. rewrite firstn_length in Hi.
      rewrite nth_firstn by lia. apply Hs. lia. }
    rewrite E, firstn_length. lia. }
  assert (C2 : (length (filter f ks') <= p)%nat).
  { rewrite <- (firstn_skipn p ks'), filter_app, app_length.
    assert (E : filter f (skipn p ks') = []).
    { apply filter_false. intros a Ha. unfold f. apply Rleb_false. apply (In_nth _ _ 0) in Ha. destruct Ha as [i [Hi <-]].
        rewrite skipn_length in Hi. rewrite nth_skipn. eapply Rlt_le_trans; [exact H|]. apply Hs'. lia. }
    rewrite E. cbn. pose proof (filter_length_le f (firstn p ks')). rewrite firstn_length in *. lia. }
  assert (HF : Permutation (filter f ks') (filter f (x :: ks))).
  { clear - HP. induction HP; cbn.
    - constructor.
    - destruct (f x0); [now constructor|assumption].
    - destruct (f x0), (f y); try reflexivity. constructor.
    - etransitivity; eauto. }
  apply Permutation_length in HF. cbn [filter] in HF. destruct (f x); cbn in HF; lia.
Qed.

Theorem C11_insertion_sequences (xs : list R) (c : BSpline R (vec3 R)) :
  let t i := nth i (bs_knots c) 0 in
  let first := t 0%nat in let last := t (length (bs_knots c) - 1)%nat in
  valid_bspline c -> separated (xs ++ bs_knots c) ->
  (forall x, In x xs -> t (bs_degree c) <= x <= last) -> first < last ->
  exists c', insert_knots c xs = Ok c' /\ valid_bspline c' /\ bs_degree c' = bs_degree c /\
    Permutation (bs_knots c') (xs ++ bs_knots c) /\
    length (bs_cps c') = (length xs + length (bs_cps c))%nat /\
    forall u, first <= u -> bspline3_get_point c' u = bspline3_get_point c u.
Proof.
  revert c. induction xs as [|x xs IH]; intros c t first last Hv Hsep Hx Hfl; cbn [insert_knots].
  - exists c. repeat (split; [solve [auto]|]). intros; reflexivity.
  - pose proof Hv as [Hs Hsp HL Hne].
    assert (Hxx := Hx x (or_introl eq_refl)).
    assert (HLp : (bs_degree c < length (bs_knots c))%nat) by lia.
    destruct (C11_add_knot_keeps_curve c x Hv) as [c1 (E1 & Hv1 & Hd1 & HL1 & HP1 & Hc1)].
    { apply (separated_incl ((x :: xs) ++ bs_knots c)); [assumption|]. intros a [<-|Ha]; [now left|]. apply in_or_app. now right. }
    { right. apply Hxx. }
    assert (Hpx : first <= t (bs_degree c)) by (apply Hs; lia).
    destruct (sorted_perm_first_last (bs_knots c) (bs_knots c1) x) as [Hf Hla]; [assumption|apply Hv1|lia|assumption|unfold first, last, t in *; lra|].
    assert (Hp1 : nth (bs_degree c) (bs_knots c1) 0 <= t (bs_degree c)).
    { apply (sorted_perm_le _ _ x); auto; [apply Hv1|apply Hxx]. }
    destruct (IH c1) as [c' (E' & Hv' & Hd' & HP' & HL' & Hc')].
    + assumption.
    + apply (separated_incl ((x :: xs) ++ bs_knots c)); [assumption|]. intros a Ha. apply in_app_or in Ha. apply in_or_app.
      destruct Ha as [Ha|Ha]; [left; now right|]. apply (Permutation_in _ HP1) in Ha. destruct Ha as [<-|Ha]; [left; now left|now right].
    + intros y Hy. rewrite Hd1, Hla. specialize (Hx y (or_intror Hy)). unfold last in Hx. unfold t in *. lra.
    + rewrite Hf, Hla. exact Hfl.
    + exists c'. rewrite E1. cbn [obind]. split; [exact E'|]. split; [assumption|]. split; [congruence|].
      split; [|split].
      * rewrite HP', HP1. cbn [app]. symmetry. apply Permutation_middle.
      * rewrite HL', HL1. cbn [length]. lia.
      * intros u Hu. rewrite Hc' by (rewrite Hf; exact Hu). apply Hc1; auto. left. apply Hxx.
Qed.

(** A knot appended beyond the end takes the end point away from the curve: at the old end
    parameter the new curve evaluates to the origin (computed in binary64). *)
Definition v64 (x y z : Z) : vec3 f64 := V3 (f64_of_Z x) (f64_of_Z y) (f64_of_Z z).
Example C11_end_point_lost :
  let c := mkBSpline [v64 1 0 0; v64 2 0 0] (map f64_of_Z [0; 0; 1; 1]%Z) 1 in
  bspline3_get_point c (f64_of_Z 1) = Ok (v64 2 0 0) /\
  obind (bspline_add_knot c (f64_of_Z 2)) (fun c' => bspline3_get_point c' (f64_of_Z 1)) = Ok (v64 0 0 0).
Proof. vm_compute. split; reflexivity. Qed.
Example C11_nonvacuous : valid_bspline c_ex /\ separated ([1; 2; 1] ++ bs_knots c_ex) /\
  (forall x, In x [1; 2; 1] -> nth (bs_degree c_ex) (bs_knots c_ex) 0 <= x <= nth (length (bs_knots c_ex) - 1) (bs_knots c_ex) 0) /\
  nth 0 (bs_knots c_ex) 0 < nth (length (bs_knots c_ex) - 1) (bs_knots c_ex) 0.
Proof.
  split; [apply c_ex_valid|]. split.
  - apply separated_ints. intros a Ha. cbn in Ha.
    repeat (destruct Ha as [<-|Ha]; [eexists; split; [reflexivity|lia]|]). destruct Ha.
  - split; [|cbn; lra]. cbn. intros x [<-|[<-|[<-|[]]]]; lra.
Qed.
