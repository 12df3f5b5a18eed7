(** Property C41: merging the loops of a face into one index polygon. *)
From Coq Require Import Reals Lra Psatz Lia Arith Permutation Sorted Floats.SpecFloat.
From Verif Require Import Prelude Num M_vec M_utils M_polygon L_base L_vec L_geom L_cycle L_polygon L_f64 Props_polygon Props_ears.
Open Scope nat_scope.

(** ** Specification *)
(** [merged Q outer holes result]: every hole s..e is spliced into the polygon behind one of its vertices o: walk to a vertex m of the
    hole, once around the hole back to m, and back to o.  [Q poly p s e m] constrains the position p of o and the choice of m. *)
Inductive merged (Q : list nat -> nat -> nat -> nat -> nat -> Prop) : list nat -> list (nat * nat) -> list nat -> Prop :=
| merged_nil outer : merged Q outer [] outer
| merged_step pre o post s e m holes result : s <= m < e -> Q (pre ++ o :: post) (length pre) s e m ->
    merged Q (pre ++ o :: (seq m (e - m) ++ seq s (m - s)) ++ m :: o :: post) holes result -> merged Q (pre ++ o :: post) ((s, e) :: holes) result.
(** loops given by their offsets: non-empty, within the points *)
Definition loops_ok {F} {NF : Num F} (points : list (vec2 F)) (offsets : list nat) : Prop :=
  pairs offsets <> [] /\
  Forall (fun '(s, e) => s < e <= length points /\ exists p, nth_error points s = Some p /\ (x2 p >? fminval)%num = true) (pairs offsets).

Section Merge.
Context {F : Type} {NF : Num F}.
Lemma insert_all {A} (xs l : list A) k : k <= length l ->
  foldM (fun l x => insert_at l k x) l (rev xs) = Ok (firstn k l ++ xs ++ skipn k l).
Proof.
  intros Hk. revert l Hk. induction xs as [|x xs IH] using rev_ind; intros l Hk; [cbn; now rewrite firstn_skipn|].
  rewrite rev_unit. cbn [foldM]. rewrite insert_at_Ok by exact Hk. cbn [obind].
  assert (Lf : length (firstn k l) = k) by (rewrite firstn_length; lia).
  rewrite IH by (rewrite app_length; cbn [length]; lia).
  rewrite firstn_app, Lf, Nat.sub_diag, firstn_O, app_nil_r, firstn_firstn, Nat.min_id.
  rewrite skipn_app, Lf, Nat.sub_diag, skipn_O, (skipn_all2 (firstn k l)) by lia. cbn [app]. now rewrite <- app_assoc.
Qed.
Lemma nearest_edge_spec (points : list (vec2 F)) outer p : outer <> [] -> valid_indices points outer ->
  exists k, nearest_edge points outer p = Ok k /\ k < length outer.
Proof.
  intros Hne HV. unfold nearest_edge. assert (0 < length outer) by (destruct outer; [congruence|cbn; lia]).
  match goal with |- context [foldM ?g _ _] => destruct (foldM_range (fun i (s : F * nat) => snd s < length outer) g 0 (length outer) (fmaxval, 0)) as ([d k] & -> & Hk) end;
    [lia|cbn; lia| |cbn in *; eauto].
  intros i [mn mi] Hi Hs. cbn [snd] in *.
  assert (G : forall j, j < length outer -> exists v a, idx outer j = Ok v /\ idx points v = Ok a).
  { intros j Hj. destruct (nth_error outer j) as [v|] eqn:Ev; [|apply nth_error_None in Ev; lia].
    destruct (nth_error points v) as [a|] eqn:Ea; [|apply nth_error_None in Ea; apply nth_error_In, HV in Ev; lia].
    exists v, a. unfold idx. now rewrite Ev, Ea. }
  destruct (G i ltac:(lia)) as (v & a & -> & E1). cbn [obind]. rewrite E1. cbn [obind].
  destruct (G ((i + 1) mod length outer) ltac:(apply Nat.mod_upper_bound; lia)) as (v' & b & -> & E2). cbn [obind]. rewrite E2. cbn [obind].
  eexists. split; [reflexivity|]. match goal with |- context [if ?b then _ else _] => destruct b end; cbn [snd]; lia.
Qed.
Lemma merge_two_spec (points : list (vec2 F)) outer s e m : outer <> [] -> valid_indices points outer -> s <= m < e -> e <= length points ->
  exists pre o post p, outer = pre ++ o :: post /\ nth_error points m = Some p /\ nearest_edge points outer p = Ok (length pre) /\
    merge_two_polygons points outer s e m = Ok (pre ++ o :: (seq m (e - m) ++ seq s (m - s)) ++ m :: o :: post).
Proof.
  intros Hne HV Hm He. destruct (nth_error points m) as [p|] eqn:Ep; [|apply nth_error_None in Ep; lia].
  destruct (nearest_edge_spec points outer p Hne HV) as (k & Ek & Hk).
  destruct (nth_error outer k) as [o|] eqn:Eo; [|apply nth_error_None in Eo; lia].
  destruct (nth_error_split _ _ Eo) as (pre & post & E & L). exists pre, o, post, p. split; [exact E|]. split; [reflexivity|]. split; [now rewrite L|].
  unfold merge_two_polygons. unfold idx at 1. rewrite Ep. cbn [obind]. rewrite Ek. cbn [obind]. unfold idx. rewrite Eo. cbn [obind].
  assert (Fk : firstn (k + 1) outer = pre ++ [o]).
  { rewrite E, firstn_app, <- L. replace (length pre + 1 - length pre) with 1 by lia. rewrite firstn_all2 by lia. reflexivity. }
  assert (Sk : skipn (k + 1) outer = post).
  { rewrite E, skipn_app, <- L. replace (length pre + 1 - length pre) with 1 by lia. rewrite skipn_all2 by lia. reflexivity. }
  rewrite insert_at_Ok by lia. cbn [obind]. rewrite Fk, Sk.
  assert (Fa : forall x, firstn (k + 1) ((pre ++ [o]) ++ x) = pre ++ [o]).
  { intros x. rewrite firstn_app, app_length. cbn [length]. replace (k + 1 - (length pre + 1)) with 0 by lia. rewrite firstn_O, app_nil_r. apply firstn_all2. rewrite app_length. cbn. lia. }
  assert (Sa : forall x, skipn (k + 1) ((pre ++ [o]) ++ x) = x).
  { intros x. rewrite skipn_app, app_length. cbn [length]. replace (k + 1 - (length pre + 1)) with 0 by lia. rewrite skipn_all2 by (rewrite app_length; cbn; lia). reflexivity. }
  rewrite insert_all by (rewrite !app_length; cbn; lia). cbn [obind]. rewrite Fa, Sa.
  rewrite insert_all by (rewrite !app_length; cbn; lia). rewrite Fa, Sa. f_equal. rewrite <- !app_assoc. cbn [app]. f_equal. f_equal.
  unfold Prelude.range, range_incl. f_equal. rewrite app_assoc_reverse || idtac.
  replace (S m - s) with (S (m - s)) by lia. rewrite seq_S, <- app_assoc. cbn [app]. replace (s + (m - s)) with m by lia. reflexivity.
Qed.
Lemma max_x_spec (points : list (vec2 F)) s e : s < e <= length points -> (exists p, nth_error points s = Some p /\ (x2 p >? fminval)%num = true) ->
  exists x m, max_x points s e = Ok (x, m) /\ s <= m < e.
Proof.
  intros Hs (p0 & E0 & H0). unfold max_x. unfold Prelude.range. replace (e - s) with (S (e - S s)) by lia. cbn [seq foldM].
  unfold idx at 1. rewrite E0. cbn [obind]. rewrite H0.
  match goal with |- context [foldM ?g _ (seq _ _)] => destruct (foldM_range (fun i (st : F * nat) => s <= snd st < i) g (S s) e (x2 p0, s)) as ([x m] & Em & Hm) end;
    [lia|cbn; lia| |unfold Prelude.range in Em; rewrite Em; cbn [snd] in Hm; eauto].
  intros i [x m] Hi Hm. cbn [snd] in *. destruct (nth_error points i) as [p|] eqn:Ep; [|apply nth_error_None in Ep; lia].
  unfold idx. rewrite Ep. cbn [obind]. eexists. split; [reflexivity|]. match goal with |- context [if ?b then _ else _] => destruct b end; cbn [snd]; lia.
Qed.

(** the choice of the splice, as computed *)
Definition computed_splice (points : list (vec2 F)) (poly : list nat) (k s e m : nat) : Prop :=
  exists x p, max_x points s e = Ok (x, m) /\ nth_error points m = Some p /\ nearest_edge points poly p = Ok k.
Lemma valid_splice (points : list (vec2 F)) pre o post s e m : valid_indices points (pre ++ o :: post) -> s <= m < e -> e <= length points ->
  valid_indices points (pre ++ o :: (seq m (e - m) ++ seq s (m - s)) ++ m :: o :: post).
Proof.
  intros HV Hm He x Hx. rewrite !in_app_iff in Hx. cbn [In] in Hx. rewrite !in_app_iff, !in_seq in Hx. cbn [In] in Hx.
  assert (K : In x (pre ++ o :: post) \/ x < e); [|destruct K; [now apply HV|lia]]. rewrite in_app_iff. cbn [In]. intuition lia.
Qed.
Theorem merge_fold (points : list (vec2 F)) : forall (rest : list (nat * nat * nat * F)) outer, outer <> [] -> valid_indices points outer ->
  Forall (fun '(s, e, m, x) => s < e <= length points /\ s <= m < e /\ max_x points s e = Ok (x, m)) rest ->
  exists result, foldM (fun vertices '(s, e, m, _) => merge_two_polygons points vertices s e m) outer rest = Ok result /\
    merged (computed_splice points) outer (map (fun '(s, e, _, _) => (s, e)) rest) result.
Proof.
  induction rest as [|[[[s e] m] x] rest IH]; intros outer Hne HV HF; [exists outer; split; [reflexivity|constructor]|].
  pose proof (Forall_inv HF) as H0. apply Forall_inv_tail in HF as HF'. cbn beta iota in H0. destruct H0 as (Hs & Hm & Ex). cbn [foldM map].
  destruct (merge_two_spec points outer s e m Hne HV Hm ltac:(lia)) as (pre & o & post & p & E & Ep & En & Eq). rewrite Eq. cbn [obind].
  destruct (IH (pre ++ o :: (seq m (e - m) ++ seq s (m - s)) ++ m :: o :: post)) as (result & Er & Hr); [destruct pre; discriminate| |exact HF'|].
  { apply valid_splice; [now rewrite <- E|exact Hm|lia]. }
  exists result. split; [exact Er|]. rewrite E at 1. apply (merged_step _ pre o post s e m); [exact Hm| |exact Hr]. exists x, p. rewrite <- E. auto.
Qed.
Definition loop_ok (points : list (vec2 F)) (l : nat * nat * nat * F) : Prop :=
  let '(s, e, m, x) := l in s < e <= length points /\ s <= m < e /\ max_x points s e = Ok (x, m).
Definition ends (l : nat * nat * nat * F) : nat * nat := let '(s, e, _, _) := l in (s, e).
Lemma merge_structure (points : list (vec2 F)) offsets : loops_ok points offsets ->
  exists L so eo mo xo rest result, map ends L = pairs offsets /\ Forall (loop_ok points) L /\
    rev (isort (fun a b : nat * nat * nat * F => (snd a <? snd b)%num) L) = (so, eo, mo, xo) :: rest /\
    merge_polygons points offsets = Ok result /\ merged (computed_splice points) (seq so (eo - so)) (map ends rest) result.
Proof.
  intros [Hne HF]. unfold merge_polygons.
  assert (ML : exists L, mapM (fun '(s, e) => ' (x, m) <- max_x points s e ;; Ok (s, e, m, x)) (pairs offsets) = Ok L /\
    map ends L = pairs offsets /\ Forall (loop_ok points) L).
  { clear Hne. induction HF as [|[s e] l [H1 H2] _ (L & EL & M1 & M2)]; [exists []; repeat split; constructor|]. cbn [mapM].
    destruct (max_x_spec points s e H1 H2) as (x & m & Ex & Hm). rewrite Ex. cbn [obind]. rewrite EL. cbn [obind].
    eexists. split; [reflexivity|]. cbn [map ends]. rewrite M1. split; [reflexivity|]. constructor; cbn; auto. }
  destruct ML as (L & EL & M1 & M2). rewrite EL. cbn [obind].
  set (sorted := isort _ L). assert (PS : Permutation (rev sorted) L) by (rewrite <- Permutation_rev; apply isort_perm).
  destruct (rev sorted) as [|[[[so eo] mo] xo] rest] eqn:ER.
  { apply Permutation_nil in PS. subst L. cbn in M1. congruence. }
  assert (HFs : Forall (loop_ok points) ((so, eo, mo, xo) :: rest)).
  { eapply Permutation_Forall; [|exact M2]. now symmetry. }
  pose proof (Forall_inv HFs) as Ho. apply Forall_inv_tail in HFs as HFr. cbn in Ho. destruct Ho as (Ho & _).
  destruct (merge_fold points rest (Prelude.range so eo)) as (result & Er & Hr); [|intros x Hx; apply in_seq in Hx; lia|exact HFr|].
  { unfold Prelude.range. destruct (eo - so) eqn:E; [lia|discriminate]. }
  exists L, so, eo, mo, xo, rest, result. repeat split; auto.
Qed.
(** C41 in any arithmetic: one of the loops is the outer one; all others are spliced into it. *)
Theorem C41_structure (points : list (vec2 F)) offsets : loops_ok points offsets ->
  exists so eo holes result, Permutation ((so, eo) :: holes) (pairs offsets) /\
    merge_polygons points offsets = Ok result /\ merged (computed_splice points) (seq so (eo - so)) holes result.
Proof.
  intros H. destruct (merge_structure points offsets H) as (L & so & eo & mo & xo & rest & result & M1 & _ & ER & Em & Hm).
  exists so, eo, (map ends rest), result. split; [|auto]. rewrite <- M1.
  change ((so, eo) :: map ends rest) with (map ends ((so, eo, mo, xo) :: rest)). apply Permutation_map. rewrite <- ER, <- Permutation_rev. apply isort_perm.
Qed.
End Merge.

(** ** Consequences of the structure *)
Lemma merged_contents Q outer holes result : merged Q outer holes result ->
  exists bridges, length bridges = length holes /\
    Permutation result (outer ++ flat_map (fun '(s, e) => seq s (e - s)) holes ++ flat_map (fun '(o, m) => [o; m]) bridges) /\
    Forall2 (fun '(s, e) '(o, m) => s <= m < e) holes bridges.
Proof.
  induction 1 as [outer|pre o post s e m holes result Hm HQ H (B & L & P & HB)].
  - exists []. repeat split; [cbn; now rewrite app_nil_r|constructor].
  - exists ((o, m) :: B). split; [cbn; lia|]. split; [|now constructor]. rewrite P. clear P.
    cbn [flat_map]. replace (e - s) with ((m - s) + (e - m)) by lia. rewrite seq_app. replace (s + (m - s)) with m by lia.
    apply (Permutation_count_occ Nat.eq_dec). intros x.
    repeat (rewrite ?count_occ_app; progress cbn [count_occ app]). rewrite ?count_occ_app.
    destruct (Nat.eq_dec o x), (Nat.eq_dec m x); lia.
Qed.
(** splicing adds the boundary of the hole: the two bridge edges cancel *)
Lemma cyc_splice (w : nat -> nat -> R) (Hw : antisym w) pre o post s e m : s <= m < e ->
  cyc w (pre ++ o :: (seq m (e - m) ++ seq s (m - s)) ++ m :: o :: post) = (cyc w (pre ++ o :: post) + cyc w (seq s (e - s)))%R.
Proof.
  intros Hm. replace (e - s) with ((m - s) + (e - m)) by lia. rewrite seq_app. replace (s + (m - s)) with m by lia.
  replace (e - m) with (S (e - S m)) by lia. cbn [seq]. set (A := seq s (m - s)). set (C := seq (S m) (e - S m)).
  rewrite (cyc_rot w A (m :: C)), (cyc_rot w pre (o :: post)), (cyc_rot w pre (o :: _)). cbn [app].
  set (L := C ++ A). unfold cyc. rewrite <- !app_assoc. cbn [app].
  rewrite chain_cons2.
  replace (m :: (L ++ m :: o :: post ++ pre) ++ [o]) with ((m :: L) ++ m :: o :: (post ++ pre) ++ [o]) by (cbn [app]; rewrite <- (app_assoc L); reflexivity).
  rewrite (chain_app w (m :: L) m). cbn [app]. rewrite (chain_cons2 w m o). pose proof (Hw o m). lra.
Qed.
Lemma merged_cyc Q outer holes result (w : nat -> nat -> R) : antisym w -> merged Q outer holes result ->
  cyc w result = (cyc w outer + fold_right Rplus 0 (map (fun '(s, e) => cyc w (seq s (e - s))) holes))%R.
Proof.
  intros Hw. induction 1 as [outer|pre o post s e m holes result Hm HQ H IH]; [cbn; lra|]. rewrite IH, cyc_splice by assumption. cbn [map fold_right]. lra.
Qed.

(** ** In exact arithmetic *)
Open Scope R_scope.
(** m is a rightmost vertex of the hole, and the edge of the polygon at position k is nearest to it *)
Definition edge_distance (points : list (vec2 R)) (l : list nat) (p : vec2 R) (j : nat) : R :=
  distance_to_line_segment2 p (pt points (nth j l 0%nat)) (pt points (nth ((j + 1) mod length l) l 0%nat)).
Definition nearest_splice (points : list (vec2 R)) (l : list nat) (k s e m : nat) : Prop :=
  (forall i, (s <= i < e)%nat -> x2 (pt points i) <= x2 (pt points m)) /\ (k < length l)%nat /\
  forall j, (j < length l)%nat -> edge_distance points l (pt points m) j < RMAX ->
    edge_distance points l (pt points m) k <= edge_distance points l (pt points m) j.
Lemma max_x_R (points : list (vec2 R)) s e x m : (s < e <= length points)%nat -> fminval < x2 (pt points s) -> max_x points s e = Ok (x, m) ->
  (forall i, (s <= i < e)%nat -> x2 (pt points i) <= x) /\ x2 (pt points m) = x.
Proof.
  intros Hs H0 E. unfold max_x in E.
  match type of E with foldM ?g ?s0 _ = _ => destruct (foldM_range_inv (fun i (st : R * nat) => (forall j, (s <= j < i)%nat -> x2 (pt points j) <= fst st) /\
     (st = (fminval, 0%nat) \/ x2 (pt points (snd st)) = fst st)) g s e s0 (x, m)) as [P1 P2] end; try lia; try exact E.
  - split; [intros; lia|now left].
  - intros i [a b] st Hi [K1 K2] Es. apply obind_Ok in Es as (p & Ep & Es). apply Ok_inj in Es. cbn [fst snd] in *. subst st.
    apply (idx_Ok_nth _ _ _ (V2 0 0)) in Ep as [_ Ep]. fold (pt points i) in Ep. subst p. change (fltb a (x2 (pt points i))) with (Rltb a (x2 (pt points i))).
    destruct (Rltb_spec a (x2 (pt points i))) as [Q|Q]; cbn [fst snd].
    + split; [|now right]. intros j Hj. destruct (Nat.eq_dec j i) as [->|]; [lra|]. specialize (K1 j ltac:(lia)). lra.
    + split; [|exact K2]. intros j Hj. destruct (Nat.eq_dec j i) as [->|]; [lra|]. apply K1; lia.
  - cbn [fst snd] in *. split; [exact P1|]. destruct P2 as [P2|P2]; [|exact P2]. exfalso. apply (f_equal fst) in P2. cbn [fst] in P2. specialize (P1 s ltac:(lia)). rewrite P2 in P1. lra.
Qed.
Lemma nearest_edge_R (points : list (vec2 R)) l p k : valid_indices points l -> nearest_edge points l p = Ok k ->
  forall j, (j < length l)%nat -> edge_distance points l p j < RMAX -> edge_distance points l p k <= edge_distance points l p j.
Proof.
  intros HV E. unfold nearest_edge in E. apply obind_Ok in E as ([d k'] & E & Ek). apply Ok_inj in Ek. cbn [snd] in Ek. subst k'.
  match type of E with foldM ?g ?s0 _ = _ => pose proof (foldM_range_inv (fun i (st : R * nat) => fst st <= RMAX /\ (forall j, (j < i)%nat -> edge_distance points l p j < RMAX -> fst st <= edge_distance points l p j) /\
     (fst st = edge_distance points l p (snd st) \/ st = (RMAX, 0%nat) /\ forall j, (j < i)%nat -> RMAX <= edge_distance points l p j)) g 0 (length l) s0 (d, k)) as P end.
  destruct P as (P0 & P1 & P2); [lia| | |exact E|].
  - cbn [fst]. change (@fmaxval R RNum) with RMAX. split; [lra|]. split; [intros; lia|right; split; [reflexivity|intros; lia]].
  - intros i [a b] st Hi (K0 & K1 & K2) Es. cbn [fst snd] in *.
    apply obind_Ok in Es as (v & Ev & Es). apply obind_Ok in Es as (A & EA & Es). apply obind_Ok in Es as (v' & Ev' & Es). apply obind_Ok in Es as (B & EB & Es).
    apply Ok_inj in Es.
    apply (idx_Ok_nth _ _ _ 0%nat) in Ev as [_ Ev], Ev' as [_ Ev']. apply (idx_Ok_nth _ _ _ (V2 0 0)) in EA as [_ EA], EB as [_ EB].
    fold (pt points v) in EA. fold (pt points v') in EB. subst A B v v'. fold (edge_distance points l p i) in Es. change (@fltb R RNum) with Rltb in Es.
    destruct (Rltb_spec (edge_distance points l p i) a) as [Q|Q]; subst st; cbn [fst snd].
    + split; [lra|]. split; [|now left]. intros j Hj Hj'. destruct (Nat.eq_dec j i) as [->|]; [lra|]. specialize (K1 j ltac:(lia) Hj'). lra.
    + split; [lra|]. split.
      * intros j Hj Hj'. destruct (Nat.eq_dec j i) as [->|]; [lra|]. apply K1; [lia|exact Hj'].
      * destruct K2 as [K2|[K2 K3]]; [now left|right]. split; [exact K2|]. intros j Hj. destruct (Nat.eq_dec j i) as [->|]; [|apply K3; lia].
        apply (f_equal fst) in K2. cbn [fst] in K2. lra.
  - cbn [fst snd] in *. intros j Hj Hd. destruct P2 as [P2|[_ P3]]; [rewrite <- P2; auto|]. specialize (P3 j Hj). lra.
Qed.
Lemma isort_max {A} (key : A -> R) l : Sorted.StronglySorted (fun a b => key a <= key b) (isort (fun a b => Rltb (key a) (key b)) l).
Proof.
  induction l as [|x l IH]; [constructor|]. cbn [isort]. revert IH. generalize (isort (fun a b => Rltb (key a) (key b)) l). clear l.
  induction l as [|y l IH]; intros HS; [repeat constructor|]. cbn [isort_insert]. inversion HS as [|? ? S1 S2]; subst. destruct (Rltb_spec (key y) (key x)) as [H|H].
  - constructor; [auto|]. rewrite Forall_forall in *. intros z Hz. apply (Permutation_in _ (isort_insert_perm _ _ _)) in Hz. destruct Hz as [<-|Hz]; [lra|auto].
  - constructor; [exact HS|]. constructor; [lra|]. eapply Forall_impl; [|exact S2]. cbn. intros; lra.
Qed.
Lemma sorted_last {A} (key : A -> R) l h t : Sorted.StronglySorted (fun a b => key a <= key b) l -> rev l = h :: t -> Forall (fun x => key x <= key h) t.
Proof.
  intros HS E. apply (f_equal (@rev A)) in E. rewrite rev_involutive in E. cbn [rev] in E. subst l. apply Forall_rev in HS || idtac.
  rewrite <- (rev_involutive t). apply Forall_rev. induction (rev t) as [|x l IH]; [constructor|]. cbn [app] in HS. inversion HS as [|? ? S1 S2]; subst.
  constructor; [|auto]. rewrite Forall_forall in S2. apply S2, in_or_app. right. now left.
Qed.
Lemma merged_nearest (points : list (vec2 R)) outer holes result : merged (computed_splice points) outer holes result -> valid_indices points outer ->
  Forall (fun '(s, e) => (s < e <= length points)%nat /\ fminval < x2 (pt points s)) holes -> merged (nearest_splice points) outer holes result.
Proof.
  induction 1 as [outer|pre o post s e m holes result Hm (x & p & Ex & Ep & En) H IH]; intros HV HF; [constructor|].
  pose proof (Forall_inv HF) as H0. cbn beta iota in H0. destruct H0 as [Hs H0]. apply Forall_inv_tail in HF.
  apply (merged_step _ pre o post s e m); [exact Hm| |apply IH; [now apply valid_splice; [|lia|lia]|exact HF]].
  destruct (max_x_R points s e x m Hs H0 Ex) as [M1 M2].
  assert (Ept : pt points m = p) by (unfold pt; apply (nth_error_nth _ _ _ Ep)).
  split; [intros i Hi; rewrite M2; auto|]. split; [rewrite app_length; cbn; lia|]. rewrite Ept. now apply nearest_edge_R.
Qed.
Definition loop_points (points : list (vec2 R)) (l : nat * nat) : list (vec2 R) := poly points (seq (fst l) (snd l - fst l)).
Definition sumR {A} (f : A -> R) (l : list A) : R := fold_right Rplus 0 (map f l).
Lemma sumR_perm {A} (f : A -> R) l l' : Permutation l l' -> sumR f l = sumR f l'.
Proof. unfold sumR. induction 1; cbn [map fold_right]; lra. Qed.
(** C41 in exact arithmetic: the outer loop is one that reaches furthest right; each hole is joined, from its rightmost vertex, to the first
    end of a nearest edge of what has been merged so far; every vertex is kept with two extra entries per hole; signed areas and
    winding numbers (around any point) of the result are the sums over the loops. *)
Theorem C41_merge (points : list (vec2 R)) offsets : loops_ok points offsets ->
  exists so eo holes result, merge_polygons points offsets = Ok result /\ Permutation ((so, eo) :: holes) (pairs offsets) /\
    (exists i, (so <= i < eo)%nat /\ forall s e j, In (s, e) (pairs offsets) -> (s <= j < e)%nat -> x2 (pt points j) <= x2 (pt points i)) /\
    merged (nearest_splice points) (seq so (eo - so)) holes result /\
    (exists bridges, length bridges = length holes /\
      Permutation result (flat_map (fun '(s, e) => seq s (e - s)) (pairs offsets) ++ flat_map (fun '(o, m) => [o; m]) bridges)) /\
    area2 (poly points result) = sumR (fun l => area2 (loop_points points l)) (pairs offsets) /\
    (forall q, winding (poly points result) q = sumR (fun l => winding (loop_points points l) q) (pairs offsets)).
Proof.
  intros H. pose proof H as [Hne HF]. destruct (merge_structure points offsets H) as (L & so & eo & mo & xo & rest & result & M1 & M2 & ER & Em & Hm).
  assert (PL : Permutation ((so, eo, mo, xo) :: rest) L) by (rewrite <- ER, <- Permutation_rev; apply isort_perm).
  assert (PE : Permutation ((so, eo) :: map ends rest) (pairs offsets)).
  { rewrite <- M1. change ((so, eo) :: map ends rest) with (map ends ((so, eo, mo, xo) :: rest)). now apply Permutation_map. }
  assert (HR : Forall (fun '(s, e) => (s < e <= length points)%nat /\ fminval < x2 (pt points s)) (pairs offsets)).
  { eapply Forall_impl; [|exact HF]. intros [s e] (K1 & p & Ep & Hp). split; [exact K1|]. unfold pt. rewrite (nth_error_nth _ _ _ Ep). revert Hp. rnum. now rewrite Rltb_true. }
  assert (HR' : Forall (fun '(s, e) => (s < e <= length points)%nat /\ fminval < x2 (pt points s)) ((so, eo) :: map ends rest)) by (eapply Permutation_Forall; [symmetry; exact PE|exact HR]).
  pose proof (Forall_inv HR') as Ho. cbn beta iota in Ho. destruct Ho as [Ho Ho']. apply Forall_inv_tail in HR'.
  assert (HV : valid_indices points (seq so (eo - so))) by (intros i Hi; apply in_seq in Hi; lia).
  exists so, eo, (map ends rest), result. split; [exact Em|]. split; [exact PE|]. split; [|split; [now apply merged_nearest|split; [|split]]].
  - assert (ML : Forall (loop_ok points) ((so, eo, mo, xo) :: rest)) by (eapply Permutation_Forall; [symmetry; exact PL|exact M2]).
    pose proof (Forall_inv ML) as (_ & Hmo & Exo). destruct (max_x_R points so eo xo mo Ho Ho' Exo) as [Q1 Q2].
    exists mo. split; [exact Hmo|]. intros s e j Hin Hj. rewrite Q2.
    assert (SO : Forall (fun x => snd x <= xo) rest).
    { pose proof (sorted_last (snd : nat * nat * nat * R -> R) _ _ _ (isort_max snd L) ER) as K. exact K. }
    apply (Permutation_in _ (Permutation_sym PE)) in Hin. destruct Hin as [Hin|Hin]; [inversion Hin; subst; auto|].
    apply in_map_iff in Hin as ([[[s' e'] m'] x'] & Ee & Hin). cbn in Ee. inversion Ee; subst s' e'.
    rewrite Forall_forall in SO. specialize (SO _ Hin). cbn [snd] in SO.
    apply Forall_inv_tail in ML. rewrite Forall_forall in ML. specialize (ML _ Hin). destruct ML as (Hs & Hm' & Ex).
    rewrite Forall_forall in HR. assert (I2 : In (s, e) (pairs offsets)) by (apply (Permutation_in _ PE); right; apply in_map_iff; exists (s, e, m', x'); auto).
    specialize (HR _ I2). cbn beta iota in HR. destruct (max_x_R points s e x' m' Hs (proj2 HR) Ex) as [Q3 _]. specialize (Q3 j Hj). lra.
  - destruct (merged_contents _ _ _ _ Hm) as (B & LB & PB & _). exists B. split; [exact LB|]. rewrite PB, app_assoc. apply Permutation_app_tail.
    change (seq so (eo - so) ++ flat_map (fun '(s, e) => seq s (e - s)) (map ends rest)) with (flat_map (fun '(s, e) => seq s (e - s)) ((so, eo) :: map ends rest)).
    now apply Permutation_flat_map.
  - rewrite <- (sumR_perm _ _ _ PE). unfold sumR. cbn [map fold_right]. unfold loop_points at 1. cbn [fst snd]. rewrite !area2_poly, (merged_cyc _ _ _ _ _ (cross2_antisym points) Hm). f_equal.
    f_equal. apply map_ext. intros [s e]. unfold loop_points. cbn [fst snd]. now rewrite area2_poly.
  - intros q. rewrite <- (sumR_perm _ _ _ PE). unfold sumR. cbn [map fold_right]. unfold loop_points at 1. cbn [fst snd]. unfold winding, poly. rewrite !cyc_map.
    assert (AW : antisym (fun a b => wind q (pt points a) (pt points b))) by (intros a b; apply wind_antisym).
    rewrite (merged_cyc _ _ _ _ _ AW Hm). f_equal. f_equal. apply map_ext. intros [s e]. unfold loop_points, poly. cbn [fst snd]. now rewrite cyc_map.
Qed.

(** a square with a triangular hole *)
Example C41_nonvacuous : merge_polygons (NF := F64Num) [q64 0 0; q64 10 0; q64 10 10; q64 0 10; q64 2 2; q64 2 4; q64 5 3] [0; 4; 7]%nat
  = Ok [0; 6; 4; 5; 6; 0; 1; 2; 3]%nat.
Proof. vm_compute. reflexivity. Qed.
Example C41_loops_ok : loops_ok (NF := F64Num) [q64 0 0; q64 10 0; q64 10 10; q64 0 10; q64 2 2; q64 2 4; q64 5 3] [0; 4; 7]%nat.
Proof.
  split; [discriminate|]. cbn [pairs]. constructor; [|constructor; [|constructor]]; (split; [cbn [length]; lia|]).
  - exists (q64 0 0). split; [reflexivity|vm_compute; reflexivity].
  - exists (q64 2 2). split; [reflexivity|vm_compute; reflexivity].
Qed.
(** The bridge need not stay inside: it goes to the first end of the nearest edge, which other edges may hide.  Here the rectangle 20 x 100
    has a thin notch at half height and a hole near the top right; the bridge 1-9 runs through the notch's edge 4-5. *)
Definition orient (a b c : Z * Z) : Z := ((fst b - fst a) * (snd c - snd a) - (fst c - fst a) * (snd b - snd a))%Z.
Definition crossing (a b c d : Z * Z) : bool := (orient a b c * orient a b d <? 0)%Z && (orient c d a * orient c d b <? 0)%Z.
Definition zedges (ps : list (Z * Z)) : list ((Z * Z) * (Z * Z)) := match ps with [] => [] | a :: t => combine ps (t ++ [a]) end.
Definition any_crossing (E : list ((Z * Z) * (Z * Z))) : bool := existsb (fun e => existsb (fun f => crossing (fst e) (snd e) (fst f) (snd f)) E) E.
Theorem C41_bridge_crosses_refuted :
  let outer := [(0, 0); (20, 0); (20, 100); (0, 100); (0, 51); (19, 50); (0, 49)]%Z in
  let hole := [(10, 90); (10, 92); (18, 91)]%Z in
  any_crossing (zedges outer ++ zedges hole) = false /\
  exists result, merge_polygons (NF := F64Num) (map (fun p => q64 (fst p) (snd p)) (outer ++ hole)) [0; 7; 10]%nat = Ok result /\
    any_crossing (zedges (map (fun i => nth i (outer ++ hole) (0, 0)%Z) result)) = true.
Proof. cbv zeta. split; [vm_compute; reflexivity|]. eexists. split; [vm_compute; reflexivity|]. vm_compute. reflexivity. Qed.
