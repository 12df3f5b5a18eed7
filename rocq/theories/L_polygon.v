(** Lemmas on the polygon functions of M_polygon. *)
From Coq Require Import Reals Lra Lia Arith Permutation.
From Verif Require Import Prelude Num M_vec M_utils M_polygon L_base L_cycle.
Open Scope nat_scope.

(** Destruct [H : obind m k = Ok b] with names. *)
Tactic Notation "bindas" hyp(H) simple_intropattern(a) ident(E) := apply obind_Ok in H; destruct H as [a [E H]].

Lemma sublist_remove_all {A} (l : list A) ps : sublist (remove_all l ps) l.
Proof.
  revert l. induction ps as [|p ps IH]; intros l; [apply sublist_refl|].
  eapply sublist_trans; [apply IH|apply sublist_delete].
Qed.
Lemma delete_at {A} (l1 l2 : list A) x n : n = length l1 -> delete_nth (l1 ++ x :: l2) n = l1 ++ l2.
Proof.
  intros ->. unfold delete_nth. rewrite firstn_app, Nat.sub_diag, firstn_all, app_nil_r. f_equal.
  rewrite skipn_app, skipn_all2 by lia. replace (S (length l1) - length l1) with 1 by lia. reflexivity.
Qed.
Lemma idx_at {A} (l1 l2 : list A) x n : n = length l1 -> idx (l1 ++ x :: l2) n = Ok x.
Proof. intros ->. apply idx_Ok. rewrite nth_error_app2, Nat.sub_diag by lia. reflexivity. Qed.

(** [del ds] = what is left of the cycle after deleting the positions [ds] *)
Definition del {A} (l : list A) (ds : list nat) : list A := remove_all l (rev (sort_nat ds)).
Ltac natif := repeat (match goal with |- context [Nat.ltb ?a ?b] => destruct (Nat.ltb_spec a b); try lia end).

(** three vertices in the cyclic order of [l] *)
Definition cyc_triple {A} (l : list A) (a b c : A) : Prop := sublist [a; b; c] l \/ sublist [b; c; a] l \/ sublist [c; a; b] l.
Lemma sublist_one {A} (l1 l2 : list A) x k : sublist k l2 -> sublist (x :: k) (l1 ++ x :: l2).
Proof. intros H. change (x :: k) with ([] ++ x :: k). apply sublist_app; [apply sublist_nil|now constructor]. Qed.
Lemma cyc_triple_mono {A} (l l' : list A) a b c : sublist l l' -> cyc_triple l a b c -> cyc_triple l' a b c.
Proof. intros S [H|[H|H]]; [left|right; left|right; right]; eapply sublist_trans; eassumption. Qed.
Definition idx_del_spec {A} (l : list A) (i : nat) (c n p : A) (mid : list A) : Prop :=
  let m := length l in
  length mid = m - 3 /\
  (forall w : A -> A -> R, cyc w l = cyc w (c :: n :: mid ++ [p])) /\ Permutation l (c :: n :: mid ++ [p]) /\ cyc_triple l p c n /\
  idx l i = Ok c /\ idx l (prev_pos m i) = Ok p /\ idx l (next_pos m i) = Ok n /\
  idx l (prev_pos m (prev_pos m i)) = Ok (last mid n) /\ idx l (next_pos m (next_pos m i)) = Ok (hd p mid) /\
  (length (del l [i]) = m - 1 /\ forall w : A -> A -> R, cyc w (del l [i]) = cyc w (n :: mid ++ [p])) /\
  (length (del l [i; prev_pos m i]) = m - 2 /\ forall w : A -> A -> R, cyc w (del l [i; prev_pos m i]) = cyc w (n :: mid)) /\
  (length (del l [i; next_pos m i]) = m - 2 /\ forall w : A -> A -> R, cyc w (del l [i; next_pos m i]) = cyc w (mid ++ [p])) /\
  (length (del l [i; prev_pos m i; next_pos m i]) = m - 3 /\ forall w : A -> A -> R, cyc w (del l [i; prev_pos m i; next_pos m i]) = cyc w mid).
Lemma idx_nth_list {A} (l : list A) i d : i < length l -> exists x, idx l i = Ok x /\ nth i l d = x.
Proof. intros H. exists (nth i l d). split; [now apply idx_nth|reflexivity]. Qed.
Lemma app_len2 {A} (l : list A) k : k <= length l -> exists l1 l2, l = l1 ++ l2 /\ length l1 = k.
Proof. intros H. exists (firstn k l), (skipn k l). split; [now rewrite firstn_skipn|]. rewrite firstn_length. lia. Qed.

Lemma ear_decomp {A} (l : list A) i : 3 <= length l -> i < length l -> exists c n p mid, idx_del_spec l i c n p mid.
Proof.
  intros Hm Hi. set (m := length l) in *.
  destruct (Nat.eq_dec i 0) as [->|N0].
  - (* the first position *)
    destruct l as [|c [|n l]]; [cbn in m; lia|cbn in m; lia|].
    destruct (exists_last (l := l)) as (mid & p & E); [intros ->; cbn in m; lia|]. subst l.
    exists c, n, p, mid. assert (Em : m = length mid + 3) by (unfold m; cbn [length]; rewrite app_length; cbn [length]; lia).
    unfold idx_del_spec. fold m. unfold prev_pos, next_pos. change (0 =? 0) with true. cbv iota.
    destruct (Nat.eqb_spec 0 (m - 1)); [lia|]. cbn [Nat.add].
    destruct (Nat.eqb_spec (m - 1) 0); [lia|]. destruct (Nat.eqb_spec 1 (m - 1)); [lia|].
    split; [lia|]. split; [reflexivity|]. split; [reflexivity|].
    split. { right. left. apply sub_keep, sub_keep, sublist_one, sublist_nil. } split; [reflexivity|].
    split. { apply (idx_at (c :: n :: mid) []). cbn [length]. lia. }
    split; [reflexivity|].
    split. { destruct (exists_last (l := n :: mid)) as (k & y & E); [discriminate|].
      assert (Ey : last mid n = y). { destruct mid as [|z mid]; [now destruct k as [|? [|]]; inversion E|].
        change (last (z :: mid) n) with (last (n :: z :: mid) n). rewrite E. apply last_last. }
      rewrite Ey. change (c :: n :: mid ++ [p]) with (c :: (n :: mid) ++ [p]). rewrite E.
      rewrite <- app_assoc. apply (idx_at (c :: k) [p] y). apply (f_equal (@length A)) in E. rewrite app_length in E. cbn [length] in *. lia. }
    split. { cbn [Nat.add]. destruct mid; reflexivity. }
    unfold del. cbn [sort_nat isort isort_insert]. natif. cbn [isort_insert]. natif. cbn [rev app]. unfold remove_all. cbn [fold_left].
    assert (D0 : forall k : list A, delete_nth (c :: k) 0 = k) by reflexivity.
    assert (D1 : delete_nth (c :: n :: mid ++ [p]) (m - 1) = c :: n :: mid).
    { rewrite (delete_at (c :: n :: mid) [] p) by (cbn [length]; lia). now rewrite app_nil_r. }
    rewrite D1. change (delete_nth (c :: n :: mid ++ [p]) 1) with (c :: mid ++ [p]). change (delete_nth (c :: n :: mid) 1) with (c :: mid). rewrite !D0.
    cbn [length]. rewrite !app_length. cbn [length]. repeat split; lia.
  - destruct (Nat.eq_dec i (m - 1)) as [Ei|N1].
    + (* the last position *)
      destruct l as [|n l]; [cbn in m; lia|].
      destruct (exists_last (l := l)) as (l' & c & E); [intros ->; cbn in m; lia|]. subst l.
      destruct (exists_last (l := l')) as (mid & p & E); [intros ->; cbn in m; lia|]. subst l'.
      exists c, n, p, mid. assert (Em : m = length mid + 3) by (unfold m; cbn [length]; rewrite !app_length; cbn [length]; lia).
      unfold idx_del_spec. fold m. unfold prev_pos, next_pos.
      destruct (Nat.eqb_spec i 0); [lia|]. destruct (Nat.eqb_spec i (m - 1)); [|lia].
      destruct (Nat.eqb_spec (i - 1) 0); [lia|]. destruct (Nat.eqb_spec 0 (m - 1)); [lia|].
      split; [lia|]. split. { intros w. change (n :: (mid ++ [p]) ++ [c]) with ((n :: mid ++ [p]) ++ [c]). now rewrite cyc_rot. }
      split. { change (n :: (mid ++ [p]) ++ [c]) with ((n :: mid ++ [p]) ++ [c]). symmetry. apply Permutation_cons_append. }
      split. { right. right. apply sub_keep. rewrite <- app_assoc. apply sublist_one. apply sublist_refl. }
      split. { apply (idx_at (n :: mid ++ [p]) []). cbn [length]. rewrite app_length. cbn [length]. lia. }
      split. { rewrite <- app_assoc. apply (idx_at (n :: mid) [c]). cbn [length]. lia. }
      split; [reflexivity|].
      split. { destruct (exists_last (l := n :: mid)) as (k & y & E); [discriminate|].
        assert (Ey : last mid n = y). { destruct mid as [|z mid]; [now destruct k as [|? [|]]; inversion E|].
          change (last (z :: mid) n) with (last (n :: z :: mid) n). rewrite E. apply last_last. }
        rewrite Ey. change (n :: (mid ++ [p]) ++ [c]) with (((n :: mid) ++ [p]) ++ [c]). rewrite E.
        rewrite <- !app_assoc. apply (idx_at k ([p] ++ [c]) y). apply (f_equal (@length A)) in E. rewrite app_length in E. cbn [length] in *. lia. }
      split. { cbn [Nat.add]. destruct mid; reflexivity. }
      unfold del. cbn [sort_nat isort isort_insert]. natif. cbn [isort_insert]. natif. cbn [isort_insert]. natif. cbn [rev app]. unfold remove_all. cbn [fold_left].
      assert (D0 : forall k : list A, delete_nth (n :: k) 0 = k) by reflexivity.
      assert (D1 : delete_nth (n :: (mid ++ [p]) ++ [c]) i = n :: mid ++ [p]).
      { rewrite (delete_at (n :: mid ++ [p]) [] c) by (cbn [length]; rewrite app_length; cbn [length]; lia). now rewrite app_nil_r. }
      assert (D2 : delete_nth (n :: mid ++ [p]) (i - 1) = n :: mid).
      { rewrite (delete_at (n :: mid) [] p) by (cbn [length]; lia). now rewrite app_nil_r. }
      rewrite D1, D2, !D0.
      cbn [length]. rewrite !app_length. cbn [length]. repeat split; lia.
    + (* in between *)
      destruct (app_len2 l (i - 1)) as (l1 & l2 & E & HL); [fold m; lia|].
      destruct l2 as [|p [|c [|n l2]]]; subst l; unfold m in *; rewrite app_length in *; cbn [length] in *; try lia.
      exists c, n, p, (l2 ++ l1). unfold idx_del_spec. rewrite (app_length l1). cbn [length].
      remember (length l1 + S (S (S (length l2)))) as M eqn:EM.
      unfold prev_pos, next_pos. destruct (Nat.eqb_spec i 0); [lia|]. destruct (Nat.eqb_spec i (M - 1)); [lia|].
      split; [rewrite app_length; lia|].
      split. { intros w. rewrite cyc_rot. cbn [app]. change (p :: c :: n :: l2 ++ l1) with ([p] ++ (c :: n :: l2 ++ l1)). rewrite cyc_rot. cbn [app]. reflexivity. }
      split. { rewrite Permutation_app_comm. cbn [app]. change (p :: c :: n :: l2 ++ l1) with ([p] ++ (c :: n :: l2 ++ l1)). rewrite Permutation_app_comm. reflexivity. }
      split. { left. apply sublist_one. apply sub_keep, sub_keep, sublist_nil. }
      split. { change (l1 ++ p :: c :: n :: l2) with (l1 ++ [p] ++ c :: n :: l2). rewrite app_assoc. apply idx_at. rewrite app_length. cbn [length]. lia. }
      split. { apply idx_at. lia. }
      split. { change (l1 ++ p :: c :: n :: l2) with (l1 ++ [p; c] ++ n :: l2). rewrite app_assoc. apply idx_at. rewrite app_length. cbn [length]. lia. }
      split. { destruct (Nat.eqb_spec (i - 1) 0) as [Z|Z].
        - destruct l1; [|cbn in HL; lia]. cbn [app length] in *. destruct (exists_last (l := n :: l2)) as (k & y & E); [discriminate|].
          rewrite app_nil_r. assert (Ey : last l2 n = y). { destruct l2 as [|z mid]; [now destruct k as [|? [|]]; inversion E|].
            change (last (z :: mid) n) with (last (n :: z :: mid) n). rewrite E. apply last_last. }
          rewrite Ey. rewrite E. apply (idx_at (p :: c :: k) [] y). apply (f_equal (@length A)) in E. rewrite app_length in E. cbn [length] in *. lia.
        - destruct (exists_last (l := l1)) as (k & y & E); [intros ->; cbn in HL; lia|]. subst l1. rewrite app_assoc, last_last.
          rewrite <- app_assoc. apply (idx_at k). rewrite app_length in HL. cbn [length] in HL. lia. }
      split. { destruct (Nat.eqb_spec (i + 1) (M - 1)) as [Z|Z].
        - destruct l2; [|cbn [length] in EM; lia]. cbn [app]. destruct l1; reflexivity.
        - destruct l2 as [|z l2]; [cbn [length] in EM; lia|]. cbn [app hd].
          change (l1 ++ p :: c :: n :: z :: l2) with (l1 ++ [p; c; n] ++ z :: l2). rewrite app_assoc. apply idx_at. rewrite app_length. cbn [length]. lia. }
      unfold del. cbn [sort_nat isort isort_insert]. natif. cbn [isort_insert]. natif. cbn [isort_insert]. natif. cbn [rev app]. unfold remove_all. cbn [fold_left].
      assert (D1 : delete_nth (l1 ++ p :: c :: n :: l2) i = l1 ++ p :: n :: l2).
      { change (l1 ++ p :: c :: n :: l2) with (l1 ++ [p] ++ c :: n :: l2). rewrite app_assoc. rewrite delete_at by (rewrite app_length; cbn [length]; lia). now rewrite <- app_assoc. }
      assert (D2 : delete_nth (l1 ++ p :: c :: n :: l2) (i + 1) = l1 ++ p :: c :: l2).
      { change (l1 ++ p :: c :: n :: l2) with (l1 ++ [p; c] ++ n :: l2). rewrite app_assoc. rewrite delete_at by (rewrite app_length; cbn [length]; lia). now rewrite <- app_assoc. }
      assert (D3 : delete_nth (l1 ++ p :: c :: l2) i = l1 ++ p :: l2).
      { change (l1 ++ p :: c :: l2) with (l1 ++ [p] ++ c :: l2). rewrite app_assoc. rewrite delete_at by (rewrite app_length; cbn [length]; lia). now rewrite <- app_assoc. }
      assert (D4 : forall k, delete_nth (l1 ++ p :: k) (i - 1) = l1 ++ k) by (intros; apply delete_at; lia).
      rewrite D1, D2, D3, !D4. rewrite !app_length. cbn [length].
      repeat split; try lia; intros w.
      * rewrite cyc_rot. cbn [app]. change (p :: n :: l2 ++ l1) with ([p] ++ n :: l2 ++ l1). rewrite cyc_rot. reflexivity.
      * rewrite cyc_rot. reflexivity.
      * rewrite cyc_rot. cbn [app]. change (p :: l2 ++ l1) with ([p] ++ l2 ++ l1). rewrite cyc_rot. reflexivity.
      * rewrite cyc_rot. reflexivity.
Qed.

(** ** One step of ear clipping *)
Section Ear.
Context {F : Type} {NF : Num F}.
Definition emit (T : list (nat * nat * nat)) : list N := flat_map (fun '(a, b, c) => [as_u32 a; as_u32 b; as_u32 c]) T.
(** the corner a b c is straight within the tolerance *)
Definition flat3 (points : list (vec2 F)) (a b c : nat) : Prop :=
  exists A B C, nth_error points a = Some A /\ nth_error points b = Some B /\ nth_error points c = Some C /\
    near (perp_dot (vsub B A) (vsub C B)) f0 = true.
(** what may be dropped without a triangle: a flat corner, or an edge with flat corners at both ends *)
Definition droppable (points : list (vec2 F)) (conc d : list nat) : Prop :=
  match d with
  | [a; b; c] => In b conc /\ flat3 points a b c
  | [a; b; c; e] => In b conc /\ In c conc /\ flat3 points a b c /\ flat3 points b c e
  | _ => False
  end.
Definition sumw (w : nat -> nat -> R) (ds : list (list nat)) : R := fold_right Rplus 0%R (map (cyc w) ds).
Definition clipped (points : list (vec2 F)) (st : ear_state) (i : nat) (st' : ear_state) (p c n : nat) (ds : list (list nat)) : Prop :=
  let m := length (e_verts st) in
  idx (e_verts st) i = Ok c /\ idx (e_verts st) (prev_pos m i) = Ok p /\ idx (e_verts st) (next_pos m i) = Ok n /\
  ~ In c (e_conc st) /\ is_ear points (e_conc st) p c n = Ok true /\
  e_tris st' = e_tris st ++ emit [(p, c, n)] /\ sublist (e_verts st') (e_verts st) /\ sublist (e_conc st') (e_conc st) /\
  Forall (droppable points (e_conc st)) ds /\ length ds <= 1 /\ (Forall (fun x => length x = 3 \/ length x = 4) ds) /\
  length (e_verts st) = length (e_verts st') + 1 + fold_right (fun d k => length d - 2 + k) 0 ds /\
  (4 <= m -> NoDup (e_verts st) -> Forall (fun d => NoDup (firstn 3 d)) ds) /\ (Forall (fun d => incl d (e_verts st)) ds) /\
  (3 <= m /\ cyc_triple (e_verts st) p c n \/ m = 2 /\ p = n) /\
  forall w, antisym w -> cyc w (e_verts st) = (cyc w [p; c; n] + sumw w ds + cyc w (e_verts st'))%R.

Lemma binary_search_None l x : binary_search l x = None <-> ~ In x l.
Proof.
  unfold binary_search. rewrite position_None. split.
  - intros H I. specialize (H x I). rewrite Nat.eqb_refl in H. discriminate.
  - intros H y Hy. apply Nat.eqb_neq. intros <-. contradiction.
Qed.
Lemma binary_search_Some l x j : binary_search l x = Some j -> In x l.
Proof.
  intros E. destruct (in_dec Nat.eq_dec x l) as [H|H]; [exact H|]. apply binary_search_None in H. congruence.
Qed.
Lemma remove_at_inv {A} (l l' : list A) j : remove_at l j = Ok l' -> j < length l /\ l' = delete_nth l j.
Proof. unfold remove_at. destruct (Nat.ltb_spec j (length l)); [|discriminate]. intros E. apply Ok_inj in E. auto. Qed.
Lemma compute_convexity_Colinear (a b c : vec2 F) : compute_convexity a b c = Colinear -> near (perp_dot (vsub b a) (vsub c b)) f0 = true.
Proof. unfold compute_convexity. destruct (near _ _); [auto|]. match goal with |- context [if ?b then _ else _] => destruct b end; discriminate. Qed.

Lemma update_prev_spec points verts conc m i prev next conc' ds : i < m -> m = length verts ->
  ear_update_prev points verts conc m i prev next = Ok (conc', ds) ->
  sublist conc' conc /\ (ds = [] \/ ds = [prev_pos m i] /\ In prev conc' /\
    exists pp, idx verts (prev_pos m (prev_pos m i)) = Ok pp /\ flat3 points pp prev next).
Proof.
  intros Hi Hm. unfold ear_update_prev. destruct (binary_search conc prev) as [j|] eqn:Bp.
  - intros E. bindas E k Ek. bindas E pp Epp. bindas E x E0. bindas E x0 E1. bindas E x1 E2.
    apply usub_inv in Ek as [Hk ->]. rewrite prev2_pos_mod in Epp by lia.
    destruct (compute_convexity x x0 x1) eqn:C.
    + bindas E y E3. apply remove_at_inv in E3 as [Hj ->]. apply Ok_inj in E. inversion E; subst. split; [apply sublist_delete|now left].
    + bindas E y E3. apply usub_inv in E3 as [_ ->]. apply Ok_inj in E. inversion E; subst conc' ds. split; [apply sublist_refl|right].
      rewrite prev_pos_mod by lia. split; [reflexivity|]. split; [eapply binary_search_Some; eassumption|]. exists pp. split; [exact Epp|]. exists x, x0, x1.
      split; [now apply idx_Ok|]. split; [now apply idx_Ok|]. split; [now apply idx_Ok|]. now apply compute_convexity_Colinear.
    + apply Ok_inj in E. inversion E; subst. split; [apply sublist_refl|now left].
  - intros E. apply Ok_inj in E. inversion E; subst. split; [apply sublist_refl|now left].
Qed.
Lemma update_next_spec points verts conc m i prev next conc' ds : i < m -> m = length verts ->
  ear_update_next points verts conc m i prev next = Ok (conc', ds) ->
  sublist conc' conc /\ (ds = [] \/ ds = [next_pos m i] /\ In next conc' /\
    exists nn, idx verts (next_pos m (next_pos m i)) = Ok nn /\ flat3 points prev next nn).
Proof.
  intros Hi Hm. unfold ear_update_next. destruct (binary_search conc next) as [j|] eqn:Bp.
  - intros E. bindas E nn Enn. bindas E x E0. bindas E x0 E1. bindas E x1 E2.
    rewrite next2_pos_mod in Enn by lia.
    destruct (compute_convexity x x0 x1) eqn:C.
    + bindas E y E3. apply remove_at_inv in E3 as [Hj ->]. apply Ok_inj in E. inversion E; subst. split; [apply sublist_delete|now left].
    + apply Ok_inj in E. inversion E; subst conc' ds. split; [apply sublist_refl|right].
      rewrite next_pos_mod by lia. split; [reflexivity|]. split; [eapply binary_search_Some; eassumption|]. exists nn. split; [exact Enn|]. exists x, x0, x1.
      split; [now apply idx_Ok|]. split; [now apply idx_Ok|]. split; [now apply idx_Ok|]. now apply compute_convexity_Colinear.
    + apply Ok_inj in E. inversion E; subst. split; [apply sublist_refl|now left].
  - intros E. apply Ok_inj in E. inversion E; subst. split; [apply sublist_refl|now left].
Qed.
Lemma sumw1 w d : sumw w [d] = cyc w d.
Proof. unfold sumw. cbn [map fold_right]. lra. Qed.

Lemma ear_step_spec points st m i st' m' : m = length (e_verts st) -> 2 <= m -> i < m ->
  ear_step points st m i = Ok (st', m') -> m' = length (e_verts st') /\
  (st' = st \/ exists p c n ds, clipped points st i st' p c n ds).
Proof.
  intros Hm H2 Hi. unfold ear_step. intros E. bindas E c Ec.
  destruct (binary_search (e_conc st) c) eqn:Bc; [apply Ok_inj in E; inversion E; subst; auto|].
  apply binary_search_None in Bc.
  rewrite usub_Ok in E by lia. cbn [obind] in E. rewrite prev_pos_mod, next_pos_mod in E by assumption.
  bindas E p Ep. bindas E n En. bindas E ear Eear.
  destruct ear; [|apply Ok_inj in E; inversion E; subst; auto].
  bindas E [conc1 del1] U1. bindas E [conc2 del2] U2.
  bindas E y E0. apply usub_inv in E0 as [HL ->]. apply Ok_inj in E.
  assert (E1 : mkEar (e_tris st ++ [as_u32 p; as_u32 c; as_u32 n]) (del (e_verts st) (i :: del1 ++ del2)) conc2 = st') by exact (f_equal fst E).
  assert (E2 : m - length (rev (sort_nat (i :: del1 ++ del2))) = m') by exact (f_equal snd E). clear E. subst st' m'. cbn [e_verts].
  apply update_prev_spec in U1 as [S1 U1]; [|assumption..]. apply update_next_spec in U2 as [S2 U2]; [|assumption..].
  assert (SL : forall l, length (sort_nat l) = length l).
  { assert (SI : forall x l, length (isort_insert Nat.ltb x l) = S (length l)) by (intros x l; induction l as [|y l IH]; [reflexivity|cbn [isort_insert]; destruct (y <? x); cbn [length]; rewrite ?IH; reflexivity]).
    induction l as [|y l IH]; [reflexivity|]. change (sort_nat (y :: l)) with (isort_insert Nat.ltb y (sort_nat l)). rewrite SI, IH. reflexivity. }
  rewrite rev_length, SL in *. cbn [length] in *. rewrite app_length in *.
  assert (S12 : sublist conc2 (e_conc st)) by (eapply sublist_trans; eassumption).
  assert (HD : length (del (e_verts st) (i :: del1 ++ del2)) = m - S (length del1 + length del2) /\
    exists ds, Forall (droppable points (e_conc st)) ds /\ length ds <= 1 /\ (Forall (fun x => length x = 3 \/ length x = 4) ds) /\
    (4 <= m -> NoDup (e_verts st) -> Forall (fun d => NoDup (firstn 3 d)) ds) /\ (Forall (fun d => incl d (e_verts st)) ds) /\
    length del1 + length del2 = fold_right (fun d k => length d - 2 + k) 0 ds /\
    (3 <= m /\ cyc_triple (e_verts st) p c n \/ m = 2 /\ p = n) /\
    forall w, antisym w -> cyc w (e_verts st) = (cyc w [p; c; n] + sumw w ds + cyc w (del (e_verts st) (i :: del1 ++ del2)))%R).
  { destruct (Nat.eq_dec m 2) as [M2|M2].
    - (* two vertices left: a degenerate triangle *)
      destruct (e_verts st) as [|a [|b [|x l]]]; cbn [length] in Hm; try lia.
      assert (Hpn : prev_pos m i = 1 - i /\ next_pos m i = 1 - i).
      { subst m. unfold prev_pos, next_pos. destruct (Nat.eqb_spec i 0), (Nat.eqb_spec i (2 - 1)); lia. }
      destruct Hpn as [P1 P2]. rewrite P1 in *. rewrite P2 in *. rewrite Ep in En. apply Ok_inj in En. subst n.
      assert (HC : forall w, antisym w -> cyc w [p; c; p] = 0%R) by (intros w Hw; rewrite cyc3; pose proof (Hw p c); pose proof (w_diag w Hw p); lra).
      assert (D1 : length (del [a; b] [i]) = 1 /\ forall w, antisym w -> cyc w (del [a; b] [i]) = 0%R).
      { assert (i = 0 \/ i = 1) as [->| ->] by lia; cbn; (split; [reflexivity|intros w Hw; rewrite (w_diag w Hw); lra]). }
      assert (D2 : del [a; b] [i; 1 - i] = []) by (assert (i = 0 \/ i = 1) as [->| ->] by lia; reflexivity).
      assert (Hab : forall w, antisym w -> cyc w [a; b] = 0%R) by (intros; now apply cyc2).
      assert (P3 : prev_pos m (1 - i) = i /\ next_pos m (1 - i) = i).
      { subst m. unfold prev_pos, next_pos. destruct (Nat.eqb_spec (1 - i) 0), (Nat.eqb_spec (1 - i) (2 - 1)); lia. }
      destruct P3 as [P3 P4]. rewrite P3 in U1. rewrite P4 in U2.
      destruct U1 as [->|(-> & I1 & pp & Epp & F1)]; destruct U2 as [->|(-> & I2 & nn & Enn & F2)]; cbn [app length Nat.add] in *.
      + destruct D1 as [D1 D1']. split; [lia|]. exists []. split; [constructor|]. split; [cbn; lia|]. split; [constructor|]. split; [constructor|]. split; [constructor|]. split; [reflexivity|]. split; [first [left; split; [lia|exact HCt]|right; split; [lia|reflexivity]]|].
        intros w Hw. rewrite Hab, HC, D1' by assumption. unfold sumw. cbn. lra.
      + rewrite D2. split; [cbn; lia|]. rewrite Ec in Enn. apply Ok_inj in Enn. subst nn. exists [[p; p; c]].
        split; [repeat constructor; [exact (sublist_In _ _ _ S12 I2)|exact F2]|]. split; [cbn; lia|]. split; [repeat constructor|].
        split; [lia|]. split; [constructor; [|constructor]; intros y [<-|[<-|[<-|[]]]]; eauto using idx_In|]. split; [reflexivity|]. split; [first [left; split; [lia|exact HCt]|right; split; [lia|reflexivity]]|].
        intros w Hw. rewrite sumw1, Hab, HC, cyc3 by assumption. cbn [cyc]. pose proof (Hw p c). pose proof (w_diag w Hw p). lra.
      + rewrite D2. split; [cbn; lia|]. rewrite Ec in Epp. apply Ok_inj in Epp. subst pp. exists [[c; p; p]].
        split; [repeat constructor; [exact (sublist_In _ _ _ S1 I1)|exact F1]|]. split; [cbn; lia|]. split; [repeat constructor|].
        split; [lia|]. split; [constructor; [|constructor]; intros y [<-|[<-|[<-|[]]]]; eauto using idx_In|]. split; [reflexivity|]. split; [first [left; split; [lia|exact HCt]|right; split; [lia|reflexivity]]|].
        intros w Hw. rewrite sumw1, Hab, HC, cyc3 by assumption. cbn [cyc]. pose proof (Hw p c). pose proof (w_diag w Hw p). lra.
      + lia.
    - destruct (ear_decomp (e_verts st) i) as (c' & n' & p' & mid & Hmid & Hl & HP & HCt & Xc & Xp & Xn & Xpp & Xnn & (L1 & K1) & (L2 & K2) & (L3 & K3) & (L4 & K4)); [lia|lia|].
      rewrite <- Hm in *. rewrite Ec in Xc. apply Ok_inj in Xc. subst c'. rewrite Ep in Xp. apply Ok_inj in Xp. subst p'. rewrite En in Xn. apply Ok_inj in Xn. subst n'.
      assert (Hlast : forall q, last (n :: mid) q = last mid n) by (intros q; destruct mid; [reflexivity|]; change (last (n :: n0 :: mid) q) with (last (n0 :: mid) q); clear; revert n0; induction mid as [|y l IH]; intros z; [reflexivity|]; cbn in *; apply IH).
      assert (ND : 4 <= m -> NoDup (e_verts st) -> p <> n /\ last mid n <> p /\ last mid n <> n /\ hd p mid <> p /\ hd p mid <> n).
      { intros H4 Nd. apply (Permutation_NoDup HP) in Nd. destruct mid as [|x mid]; [cbn in Hmid; lia|].
        assert (Hx : In (last (x :: mid) n) (x :: mid)).
        { destruct (exists_last (l := x :: mid)) as (k & y & Ek); [discriminate|]. rewrite Ek, last_last. apply in_or_app. right. now left. }
        inversion Nd as [|? ? _ Nd1]; subst. inversion Nd1 as [|? ? Nn Nd2]; subst. change ((x :: mid) ++ [p]) with ((x :: mid) ++ p :: []) in Nd2.
        apply (NoDup_remove (x :: mid) [] p) in Nd2 as [_ Nd2]. rewrite app_nil_r in Nd2.
        assert (Nn' : forall y, In y (x :: mid) -> y <> n) by (intros y Hy Ey; rewrite Ey in Hy; apply Nn; apply (in_or_app (x :: mid) [p]); now left).
        assert (Np' : forall y, In y (x :: mid) -> y <> p) by (intros y Hy Ey; rewrite Ey in Hy; contradiction).
        split; [intros Ey; apply Nn; apply (in_or_app (x :: mid) [p]); right; left; exact Ey|].
        split; [now apply Np'|]. split; [now apply Nn'|]. split; [apply Np'; now left|apply Nn'; now left]. }
      destruct U1 as [->|(-> & I1 & pp & Epp & F1)]; destruct U2 as [->|(-> & I2 & nn & Enn & F2)]; cbn [app length Nat.add] in *.
      + split; [lia|]. exists []. split; [constructor|]. split; [cbn; lia|]. split; [constructor|]. split; [constructor|]. split; [constructor|]. split; [reflexivity|]. split; [first [left; split; [lia|exact HCt]|right; split; [lia|reflexivity]]|].
        intros w Hw. rewrite Hl, K1, cyc_clip by assumption. unfold sumw. cbn [map fold_right]. lra.
      + split; [lia|]. rewrite Xnn in Enn. apply Ok_inj in Enn. subst nn. exists [[p; n; hd p mid]].
        split; [repeat constructor; [exact (sublist_In _ _ _ S12 I2)|exact F2]|]. split; [cbn; lia|]. split; [repeat constructor|].
        split; [intros H4 Nd; destruct (ND H4 Nd) as (? & ? & ? & ? & ?); constructor; [|constructor]; cbn [firstn]; repeat constructor; cbn [In]; intuition congruence|]. split; [constructor; [|constructor]; intros y [<-|[<-|[<-|[]]]]; eauto using idx_In|]. split; [reflexivity|]. split; [first [left; split; [lia|exact HCt]|right; split; [lia|reflexivity]]|].
        intros w Hw. rewrite sumw1, Hl, K3, cyc_clip by assumption. rewrite Rplus_assoc. f_equal.
        destruct mid as [|x mid]; cbn [app hd]; [rewrite cyc2, cyc1, cyc3 by assumption; pose proof (Hw p n); pose proof (w_diag w Hw p); lra|].
        change (n :: x :: mid ++ [p]) with (n :: x :: mid ++ [p]). rewrite cyc_clip by assumption. lra.
      + split; [lia|]. rewrite Xpp in Epp. apply Ok_inj in Epp. subst pp. exists [[last mid n; p; n]].
        split; [repeat constructor; [exact (sublist_In _ _ _ S1 I1)|exact F1]|]. split; [cbn; lia|]. split; [repeat constructor|].
        split; [intros H4 Nd; destruct (ND H4 Nd) as (? & ? & ? & ? & ?); constructor; [|constructor]; cbn [firstn]; repeat constructor; cbn [In]; intuition congruence|]. split; [constructor; [|constructor]; intros y [<-|[<-|[<-|[]]]]; eauto using idx_In|]. split; [reflexivity|]. split; [first [left; split; [lia|exact HCt]|right; split; [lia|reflexivity]]|].
        intros w Hw. rewrite sumw1, Hl, K2, cyc_clip by assumption. rewrite Rplus_assoc. f_equal.
        change (n :: mid ++ [p]) with ((n :: mid) ++ [p]). rewrite cyc_rot. cbn [app].
        destruct mid as [|x mid]; cbn [last]; [rewrite cyc2, cyc1, cyc3 by assumption; pose proof (Hw p n); pose proof (w_diag w Hw n); lra|].
        destruct (exists_last (l := x :: mid)) as (k & y & Ek); [discriminate|]. change (match mid with [] => x | _ :: _ => last mid n end) with (last (x :: mid) n).
        rewrite Ek, last_last. rewrite cyc_clip by assumption. lra.
      + split; [lia|]. rewrite Xpp in Epp. apply Ok_inj in Epp. subst pp. rewrite Xnn in Enn. apply Ok_inj in Enn. subst nn.
        exists [[last mid n; p; n; hd p mid]].
        split; [repeat constructor; [exact (sublist_In _ _ _ S1 I1)|exact (sublist_In _ _ _ S12 I2)|exact F1|exact F2]|]. split; [cbn; lia|]. split; [constructor; [now right|constructor]|].
        split; [intros H4 Nd; destruct (ND H4 Nd) as (? & ? & ? & ? & ?); constructor; [|constructor]; cbn [firstn]; repeat constructor; cbn [In]; intuition congruence|]. split; [constructor; [|constructor]; intros y [<-|[<-|[<-|[<-|[]]]]]; eauto using idx_In|]. split; [reflexivity|]. split; [first [left; split; [lia|exact HCt]|right; split; [lia|reflexivity]]|].
        intros w Hw. rewrite sumw1, Hl, K4, cyc_clip by assumption. rewrite Rplus_assoc. f_equal.
        destruct mid as [|x mid]; [|rewrite cyc_clip2 by (assumption || discriminate); cbn [hd]; reflexivity].
        cbn [last hd app]. rewrite cyc2, cyc4 by assumption. cbn [cyc]. pose proof (Hw p n). lra. }
  destruct HD as (HD & ds & Dr & Dl & D34 & Dnd & Din & Dn & Dt & Dw). split; [lia|]. right. exists p, c, n, ds. unfold clipped. rewrite <- Hm. cbn [e_tris e_verts e_conc].
  split; [exact Ec|]. split; [exact Ep|]. split; [exact En|]. split; [exact Bc|]. split; [exact Eear|].
  split; [reflexivity|]. split; [apply sublist_remove_all|]. split; [exact S12|].
  split; [exact Dr|]. split; [exact Dl|]. split; [exact D34|]. split; [lia|]. split; [exact Dnd|]. split; [exact Din|]. split; [exact Dt|]. exact Dw.
Qed.
End Ear.

(** ** Sorting and deleting *)
Lemma isort_insert_perm {A} (less : A -> A -> bool) x l : Permutation (isort_insert less x l) (x :: l).
Proof. induction l as [|y l IH]; [reflexivity|]. cbn [isort_insert]. destruct (less y x); [|reflexivity]. rewrite IH. apply perm_swap. Qed.
Lemma isort_perm {A} (less : A -> A -> bool) l : Permutation (isort less l) l.
Proof. induction l as [|x l IH]; [reflexivity|]. cbn [isort]. rewrite isort_insert_perm. now constructor. Qed.
Lemma sort_nat_sorted l : Sorted.StronglySorted le (sort_nat l).
Proof.
  induction l as [|x l IH]; [constructor|]. change (sort_nat (x :: l)) with (isort_insert Nat.ltb x (sort_nat l)). revert IH. generalize (sort_nat l). clear l.
  induction l as [|y l IH]; intros S; [repeat constructor|]. cbn [isort_insert]. inversion S as [|? ? S1 S2]; subst. destruct (Nat.ltb_spec y x) as [H|H].
  - constructor; [auto|]. rewrite Forall_forall in *. intros z Hz. apply (Permutation_in _ (isort_insert_perm _ _ _)) in Hz. destruct Hz as [<-|Hz]; [lia|auto].
  - constructor; [exact S|]. rewrite Forall_forall in *. intros z [<-|Hz]; [lia|]. specialize (S2 z Hz). lia.
Qed.
Lemma remove_all_app {A} ds : forall (l r : list A), Sorted.StronglySorted (fun a b => b < a) ds -> (forall j, In j ds -> j < length l) ->
  remove_all (l ++ r) ds = remove_all l ds ++ r.
Proof.
  induction ds as [|d ds IH]; intros l r St H; [reflexivity|]. inversion St as [|? ? S1 S2]; subst. unfold remove_all in *. cbn [fold_left].
  assert (Hd : d < length l) by (apply H; now left).
  replace (delete_nth (l ++ r) d) with (delete_nth l d ++ r).
  - apply IH; [exact S1|]. intros j Hj. rewrite delete_length by exact Hd. rewrite Forall_forall in S2. specialize (S2 j Hj). lia.
  - unfold delete_nth. rewrite <- app_assoc. rewrite firstn_app, (skipn_app (S d)). replace (d - length l) with 0 by lia. replace (S d - length l) with 0 by lia.
    cbn [firstn skipn]. rewrite app_nil_r. reflexivity.
Qed.
Lemma seq_sorted s n : Sorted.StronglySorted lt (seq s n).
Proof. revert s. induction n as [|n IH]; intros s; cbn; constructor; [apply IH|]. apply Forall_forall. intros x Hx. apply in_seq in Hx. lia. Qed.
Lemma filter_sorted {A} (R : A -> A -> Prop) f l : Sorted.StronglySorted R l -> Sorted.StronglySorted R (filter f l).
Proof.
  induction 1 as [|x l S IH H]; [constructor|]. cbn [filter]. destruct (f x); [|exact IH]. constructor; [exact IH|].
  rewrite Forall_forall in *. intros y Hy. apply filter_In in Hy. now apply H.
Qed.
Lemma sorted_rev l : Sorted.StronglySorted lt l -> Sorted.StronglySorted (fun a b : nat => b < a) (rev l).
Proof.
  induction 1 as [|x l S IH H]; [constructor|]. cbn [rev].
  assert (G : forall (a : list nat), Sorted.StronglySorted (fun a b : nat => b < a) a -> (forall y, In y a -> x < y) -> Sorted.StronglySorted (fun a b : nat => b < a) (a ++ [x])).
  { induction 1 as [|z a Sa IHa Ha]; intros Hx; [repeat constructor|]. cbn [app]. constructor; [apply IHa; intros; apply Hx; now right|].
    rewrite Forall_forall in *. intros y Hy. apply in_app_or in Hy as [Hy|[<-|[]]]; [auto|apply Hx; now left]. }
  apply G; [exact IH|]. intros y Hy. apply in_rev in Hy. rewrite Forall_forall in H. auto.
Qed.
(** deleting all positions satisfying [f] *)
Lemma remove_positions {A} (l : list A) f d : remove_all l (rev (filter f (seq 0 (length l)))) = map (fun i => nth i l d) (filter (fun i => negb (f i)) (seq 0 (length l))).
Proof.
  induction l as [|x l IH] using rev_ind; [reflexivity|]. rewrite app_length. cbn [length]. rewrite Nat.add_1_r, seq_S. cbn [Nat.add].
  rewrite !filter_app, rev_app_distr, map_app. cbn [filter].
  assert (E : map (fun i => nth i (l ++ [x]) d) (filter (fun i => negb (f i)) (seq 0 (length l))) = map (fun i => nth i l d) (filter (fun i => negb (f i)) (seq 0 (length l)))).
  { apply map_ext_in. intros i Hi. apply filter_In in Hi as [Hi _]. apply in_seq in Hi. apply app_nth1. lia. }
  rewrite E, <- IH. destruct (f (length l)); cbn [negb rev app map].
  - change (remove_all (l ++ [x]) (length l :: rev (filter f (seq 0 (length l))))) with (remove_all (delete_nth (l ++ [x]) (length l)) (rev (filter f (seq 0 (length l))))).
    rewrite (delete_at l [] x) by reflexivity. now rewrite !app_nil_r.
  - rewrite nth_middle. apply remove_all_app; [apply sorted_rev, filter_sorted, seq_sorted|].
    intros j Hj. apply in_rev in Hj. apply filter_In in Hj as [Hj _]. apply in_seq in Hj. lia.
Qed.
