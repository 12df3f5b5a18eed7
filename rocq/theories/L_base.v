(** General lemmas about the Rust vocabulary of Prelude.v. *)
From Coq Require Import Reals Lra Sorted Permutation.
From Verif Require Import Prelude Num M_vec.

(** ** outcome *)
Lemma Ok_inj {A} (a b : A) : Ok a = Ok b -> a = b.
Proof. congruence. Qed.
Lemma obind_Ok {A B} (m : outcome A) (k : A -> outcome B) b :
  obind m k = Ok b <-> exists a, m = Ok a /\ k a = Ok b.
Proof.
  destruct m; cbn; split; intros H; try discriminate.
  - eauto.
  - destruct H as [a' [E H]]. now injection E as <-.
  - destruct H as [a' [E H]]. discriminate.
  - destruct H as [a' [E H]]. discriminate.
Qed.

(** Destruct a hypothesis [obind m k = Ok b]. *)
Ltac obind_inv H :=
  match type of H with
  | obind ?m ?k = Ok _ =>
      let a := fresh "a" in let E := fresh "E" in
      apply obind_Ok in H; destruct H as [a [E H]]
  end.

(** ** idx, upd, usub *)
Lemma idx_Ok {A} (l : list A) i a : idx l i = Ok a <-> nth_error l i = Some a.
Proof.
  unfold idx. destruct (nth_error l i); split; intros H; try discriminate;
    injection H as ->; reflexivity.
Qed.
Lemma idx_nth {A} (l : list A) i d : i < length l -> idx l i = Ok (nth i l d).
Proof. intros H. apply idx_Ok. now apply nth_error_nth'. Qed.
Lemma idx_Panic {A} (l : list A) i : length l <= i -> idx l i = Panic.
Proof. intros H. unfold idx. now rewrite (proj2 (nth_error_None l i)). Qed.
Lemma idx_lt {A} (l : list A) i a : idx l i = Ok a -> i < length l.
Proof. intros H. apply idx_Ok in H. apply nth_error_Some. congruence. Qed.
Lemma idx_Ok_nth {A} (l : list A) i a d : idx l i = Ok a -> i < length l /\ nth i l d = a.
Proof.
  intros H. pose proof (idx_lt _ _ _ H). split; [assumption|].
  rewrite (idx_nth l i d) in H by assumption. now injection H.
Qed.
Lemma idx_In {A} (l : list A) i a : idx l i = Ok a -> In a l.
Proof. intros H. apply idx_Ok in H. eapply nth_error_In; eauto. Qed.
Lemma idx_not_fuel {A} (l : list A) i : idx l i <> OutOfFuel.
Proof. unfold idx. destruct (nth_error l i); congruence. Qed.

Lemma set_nth_length {A} (l : list A) i x : length (set_nth l i x) = length l.
Proof. revert i. induction l; destruct i; cbn; auto. Qed.
Lemma nth_set_nth {A} (l : list A) i j x d :
  nth j (set_nth l i x) d = if (i =? j) && (i <? length l) then x else nth j l d.
Proof.
  revert i j. induction l as [|h t IH]; intros [|i] [|j]; cbn; try reflexivity.
  - now rewrite andb_false_r.
  - rewrite IH. reflexivity.
Qed.
Lemma nth_set_nth_eq {A} (l : list A) i x d : i < length l -> nth i (set_nth l i x) d = x.
Proof.
  intros H. rewrite nth_set_nth, Nat.eqb_refl.
  now rewrite (proj2 (Nat.ltb_lt _ _) H).
Qed.
Lemma nth_set_nth_neq {A} (l : list A) i j x d : i <> j -> nth j (set_nth l i x) d = nth j l d.
Proof. intros H. rewrite nth_set_nth. now rewrite (proj2 (Nat.eqb_neq _ _) H). Qed.

Lemma upd_Ok {A} (l : list A) i x : i < length l -> upd l i x = Ok (set_nth l i x).
Proof. intros H. unfold upd. now rewrite (proj2 (Nat.ltb_lt _ _) H). Qed.
Lemma upd_inv {A} (l l' : list A) i x : upd l i x = Ok l' -> i < length l /\ l' = set_nth l i x.
Proof.
  unfold upd. destruct (Nat.ltb_spec i (length l)); intros E; [|discriminate].
  injection E as <-. auto.
Qed.
Lemma upd_Panic {A} (l : list A) i x : length l <= i -> upd l i x = Panic.
Proof. intros H. unfold upd. now rewrite (proj2 (Nat.ltb_ge _ _) H). Qed.

Lemma usub_Ok a b : b <= a -> usub a b = Ok (a - b).
Proof. intros H. unfold usub. now rewrite (proj2 (Nat.leb_le _ _) H). Qed.
Lemma usub_Panic a b : a < b -> usub a b = Panic.
Proof. intros H. unfold usub. now rewrite (proj2 (Nat.leb_gt _ _) H). Qed.
Lemma usub_inv a b c : usub a b = Ok c -> b <= a /\ c = a - b.
Proof.
  unfold usub. destruct (Nat.leb_spec b a); intros E; [|discriminate].
  injection E as <-. auto.
Qed.

Lemma insert_at_Ok {A} (l : list A) i x : i <= length l -> insert_at l i x = Ok (firstn i l ++ x :: skipn i l).
Proof. intros H. unfold insert_at. now rewrite (proj2 (Nat.leb_le _ _) H). Qed.
Lemma insert_at_inv {A} (l l' : list A) i x :
  insert_at l i x = Ok l' -> i <= length l /\ l' = firstn i l ++ x :: skipn i l.
Proof.
  unfold insert_at. destruct (Nat.leb_spec i (length l)); intros E; [|discriminate].
  injection E as <-. auto.
Qed.
Lemma slice_Ok {A} (l : list A) lo hi : lo <= hi -> hi <= length l ->
  slice l lo hi = Ok (firstn (hi - lo) (skipn lo l)).
Proof.
  intros H1 H2. unfold slice.
  now rewrite (proj2 (Nat.leb_le _ _) H1), (proj2 (Nat.leb_le _ _) H2).
Qed.
Lemma slice_inv {A} (l l' : list A) lo hi :
  slice l lo hi = Ok l' -> lo <= hi /\ hi <= length l /\ l' = firstn (hi - lo) (skipn lo l).
Proof.
  unfold slice. destruct (Nat.leb_spec lo hi); cbn; [|discriminate].
  destruct (Nat.leb_spec hi (length l)); intros E; [|discriminate].
  injection E as <-. auto.
Qed.

(** ** lists *)
Lemma nth_firstn {A} (l : list A) n i d : i < n -> nth i (firstn n l) d = nth i l d.
Proof.
  revert n i. induction l as [|h t IH]; intros [|n] i H; cbn; try lia; auto.
  destruct i; auto. apply IH. lia.
Qed.
Lemma nth_skipn {A} (l : list A) n i d : nth i (skipn n l) d = nth (n + i) l d.
Proof.
  revert n. induction l as [|h t IH]; intros [|n]; cbn; auto.
  destruct i; reflexivity.
Qed.
Lemma nth_insert {A} (l : list A) i x j d : i <= length l ->
  nth j (firstn i l ++ x :: skipn i l) d =
  if j <? i then nth j l d else if j =? i then x else nth (j - 1) l d.
Proof.
  intros H. assert (L : length (firstn i l) = i) by (rewrite firstn_length; lia).
  destruct (Nat.ltb_spec j i).
  - rewrite app_nth1 by lia. now apply nth_firstn.
  - rewrite app_nth2 by lia. rewrite L.
    destruct (Nat.eqb_spec j i).
    + subst. now rewrite Nat.sub_diag.
    + destruct (j - i) as [|m] eqn:E; [lia|]. cbn. rewrite nth_skipn. f_equal. lia.
Qed.
Lemma insert_length {A} (l : list A) i x : length (firstn i l ++ x :: skipn i l) = S (length l).
Proof. rewrite app_length. cbn. rewrite Nat.add_succ_r, <- app_length, firstn_skipn. reflexivity. Qed.

Lemma range_length lo hi : length (range lo hi) = hi - lo.
Proof. apply seq_length. Qed.
Lemma range_nil lo hi : hi <= lo -> range lo hi = [].
Proof. intros H. unfold range. now replace (hi - lo) with 0 by lia. Qed.
Lemma range_cons lo hi : lo < hi -> range lo hi = lo :: range (S lo) hi.
Proof. intros H. unfold range. replace (hi - lo) with (S (hi - S lo)) by lia. reflexivity. Qed.
Lemma range_snoc lo hi : lo <= hi -> range lo (S hi) = range lo hi ++ [hi].
Proof.
  intros H. unfold range. replace (S hi - lo) with (S (hi - lo)) by lia.
  rewrite seq_S. do 2 f_equal. lia.
Qed.
Lemma range_app lo mid hi : lo <= mid -> mid <= hi -> range lo hi = range lo mid ++ range mid hi.
Proof.
  intros H1 H2. unfold range. replace (hi - lo) with ((mid - lo) + (hi - mid)) by lia.
  rewrite seq_app. do 2 f_equal. lia.
Qed.
Lemma range_In lo hi i : In i (range lo hi) <-> lo <= i < hi.
Proof. unfold range. rewrite in_seq. lia. Qed.
Lemma range_incl_range lo hi : range_incl lo hi = range lo (S hi).
Proof. reflexivity. Qed.
Lemma nth_range lo hi i d : i < hi - lo -> nth i (range lo hi) d = lo + i.
Proof. intros H. unfold range. now apply seq_nth. Qed.

Lemma nth_error_range lo hi i : i < hi - lo -> nth_error (range lo hi) i = Some (lo + i).
Proof.
  intros H. rewrite (nth_error_nth' _ 0) by now rewrite range_length.
  now rewrite nth_range.
Qed.

(** ** foldM / mapM *)
Lemma foldM_app {A S} (f : S -> A -> outcome S) s xs ys :
  foldM f s (xs ++ ys) = obind (foldM f s xs) (fun s' => foldM f s' ys).
Proof.
  revert s. induction xs as [|x xs IH]; intros s; cbn; [reflexivity|].
  destruct (f s x); cbn; auto.
Qed.

(** total correctness of a loop over lo..hi *)
Lemma foldM_range {S} (P : nat -> S -> Prop) (f : S -> nat -> outcome S) lo hi s :
  lo <= hi -> P lo s ->
  (forall i s, lo <= i < hi -> P i s -> exists s', f s i = Ok s' /\ P (i + 1) s') ->
  exists s', foldM f s (range lo hi) = Ok s' /\ P hi s'.
Proof.
  intros H. remember (hi - lo) as n eqn:En. revert lo H En s.
  induction n as [|n IH]; intros lo H En s H0 Hstep.
  - exists s. rewrite range_nil by lia. split; [reflexivity|]. now replace hi with lo by lia.
  - rewrite range_cons by lia.
    destruct (Hstep lo s) as [s' [E P']]; [lia|assumption|].
    cbn. rewrite E. cbn. apply IH; [lia|lia| |].
    + now rewrite Nat.add_1_r in P'.
    + intros i s0 Hi. apply Hstep. lia.
Qed.

(** the same over the reversed range: from hi-1 down to lo; [P i] holds when positions >= i are done *)
Lemma foldM_rev_range {S} (P : nat -> S -> Prop) (f : S -> nat -> outcome S) lo hi s :
  lo <= hi -> P hi s ->
  (forall i s, lo <= i < hi -> P (i + 1) s -> exists s', f s i = Ok s' /\ P i s') ->
  exists s', foldM f s (rev (range lo hi)) = Ok s' /\ P lo s'.
Proof.
  intros H. remember (hi - lo) as n eqn:En. revert hi H En s.
  induction n as [|n IH]; intros hi H En s H0 Hstep.
  - exists s. rewrite range_nil by lia. split; [reflexivity|]. now replace lo with hi by lia.
  - destruct hi as [|hi]; [lia|].
    rewrite range_snoc by lia. rewrite rev_app_distr. cbn.
    destruct (Hstep hi s) as [s' [E P']]; [lia|now rewrite Nat.add_1_r|].
    rewrite E. cbn. apply IH; [lia|lia|assumption|].
    intros i s0 Hi. apply Hstep. lia.
Qed.

(** partial correctness over any list *)
Lemma foldM_inv {A S} (P : S -> Prop) (f : S -> A -> outcome S) xs s s' :
  P s -> (forall x s s', In x xs -> P s -> f s x = Ok s' -> P s') ->
  foldM f s xs = Ok s' -> P s'.
Proof.
  revert s. induction xs as [|x xs IH]; intros s Hs Hstep; cbn.
  - intros E. now injection E as <-.
  - intros E. obind_inv E. eapply IH; [| |exact E].
    + eapply Hstep; eauto. now left.
    + intros y s1 s2 Hy. apply Hstep. now right.
Qed.
(** total correctness over any list with a plain invariant *)
Lemma foldM_total {A S} (P : S -> Prop) (f : S -> A -> outcome S) xs s :
  P s -> (forall x s, In x xs -> P s -> exists s', f s x = Ok s' /\ P s') ->
  exists s', foldM f s xs = Ok s' /\ P s'.
Proof.
  revert s. induction xs as [|x xs IH]; intros s Hs Hstep; cbn.
  - eauto.
  - destruct (Hstep x s) as [s' [E Hs']]; [now left|assumption|].
    rewrite E. cbn. apply IH; [assumption|]. intros y s0 Hy. apply Hstep. now right.
Qed.
(** partial correctness over lo..hi with an indexed invariant *)
Lemma foldM_range_inv {S} (P : nat -> S -> Prop) (f : S -> nat -> outcome S) lo hi s s' :
  lo <= hi -> P lo s ->
  (forall i s s', lo <= i < hi -> P i s -> f s i = Ok s' -> P (i + 1) s') ->
  foldM f s (range lo hi) = Ok s' -> P hi s'.
Proof.
  intros H. remember (hi - lo) as n eqn:En. revert lo H En s.
  induction n as [|n IH]; intros lo H En s H0 Hstep.
  - rewrite range_nil by lia. cbn. intros E. injection E as <-. now replace hi with lo by lia.
  - rewrite range_cons by lia. cbn. intros E. obind_inv E.
    apply Hstep in E0; [|lia|assumption]. rewrite Nat.add_1_r in E0.
    eapply (IH (Datatypes.S lo)); [lia|lia|exact E0| |exact E].
    intros i s1 s2 Hi. apply Hstep. lia.
Qed.
Lemma foldM_ext {A S} (f g : S -> A -> outcome S) xs s :
  (forall x s, In x xs -> f s x = g s x) -> foldM f s xs = foldM g s xs.
Proof.
  revert s. induction xs as [|x xs IH]; intros s H; cbn; [reflexivity|].
  rewrite H by now left. destruct (g s x); cbn; auto. apply IH. intros; apply H. now right.
Qed.
Lemma foldM_pure {A S} (f : S -> A -> S) xs s : foldM (fun s x => Ok (f s x)) s xs = Ok (fold_left f xs s).
Proof. revert s. induction xs as [|x xs IH]; intros s; cbn; auto. Qed.
Lemma foldM_Ok_pure {A S} (f : S -> A -> outcome S) (g : S -> A -> S) xs s :
  (forall x s, In x xs -> f s x = Ok (g s x)) -> foldM f s xs = Ok (fold_left g xs s).
Proof. intros H. rewrite <- foldM_pure. apply foldM_ext. exact H. Qed.

Lemma mapM_Ok_map {A B} (f : A -> outcome B) (g : A -> B) xs :
  (forall x, In x xs -> f x = Ok (g x)) -> mapM f xs = Ok (map g xs).
Proof.
  induction xs as [|x xs IH]; intros H; cbn; [reflexivity|].
  rewrite H by now left. cbn. rewrite IH by (intros; apply H; now right). reflexivity.
Qed.
Lemma mapM_inv {A B} (f : A -> outcome B) xs ys :
  mapM f xs = Ok ys <-> Forall2 (fun x y => f x = Ok y) xs ys.
Proof.
  revert ys. induction xs as [|x xs IH]; intros ys; cbn; split.
  - intros E. injection E as <-. constructor.
  - intros H. inversion H. reflexivity.
  - intros E. obind_inv E. obind_inv E. injection E as <-. constructor; [assumption|]. now apply IH.
  - intros H. inversion H as [|a b c d E1 E2]; subst. rewrite E1. cbn. apply IH in E2. rewrite E2. reflexivity.
Qed.
Lemma mapM_length {A B} (f : A -> outcome B) xs ys : mapM f xs = Ok ys -> length ys = length xs.
Proof. intros H. apply mapM_inv in H. induction H; cbn; congruence. Qed.
Lemma mapM_nth {A B} (f : A -> outcome B) xs ys i da db :
  mapM f xs = Ok ys -> i < length xs -> f (nth i xs da) = Ok (nth i ys db).
Proof.
  intros H. apply mapM_inv in H. revert i. induction H as [|x y xs ys E _ IH]; intros i Hi; cbn in *; [lia|].
  destruct i; [assumption|]. apply IH. lia.
Qed.
Lemma mapM_app {A B} (f : A -> outcome B) xs ys :
  mapM f (xs ++ ys) = obind (mapM f xs) (fun a => obind (mapM f ys) (fun b => Ok (a ++ b))).
Proof.
  induction xs as [|x xs IH]; cbn.
  - destruct (mapM f ys); reflexivity.
  - destruct (f x); cbn; [|reflexivity|reflexivity]. rewrite IH.
    destruct (mapM f xs); cbn; [|reflexivity|reflexivity].
    destruct (mapM f ys); reflexivity.
Qed.
Lemma mapM_total {A B} (f : A -> outcome B) xs :
  (forall x, In x xs -> exists y, f x = Ok y) -> exists ys, mapM f xs = Ok ys.
Proof.
  induction xs as [|x xs IH]; intros H; cbn; [eauto|].
  destruct (H x) as [y E]; [now left|]. rewrite E. cbn.
  destruct IH as [ys E']; [intros; apply H; now right|]. rewrite E'. cbn. eauto.
Qed.

(** ** pairs, enumerate, chunks3 *)
Lemma pairs_length {A} (l : list A) : length (pairs l) = length l - 1.
Proof.
  induction l as [|a t IH]; [reflexivity|]. destruct t as [|b t]; [reflexivity|].
  cbn [pairs length] in *. lia.
Qed.
Lemma pairs_nth {A} (l : list A) i d : i + 1 < length l -> nth i (pairs l) (d, d) = (nth i l d, nth (i + 1) l d).
Proof.
  revert i. induction l as [|a t IH]; intros i H; cbn in H; [lia|].
  destruct t as [|b t]; cbn in H; [lia|].
  destruct i as [|i]; [reflexivity|].
  change (pairs (a :: b :: t)) with ((a, b) :: pairs (b :: t)).
  cbn [nth]. rewrite IH by (cbn; lia). reflexivity.
Qed.
Lemma enumerate_length {A} (l : list A) : length (enumerate l) = length l.
Proof. unfold enumerate. rewrite combine_length, seq_length. lia. Qed.
Lemma enumerate_nth {A} (l : list A) i d : i < length l -> nth i (enumerate l) (0, d) = (i, nth i l d).
Proof.
  intros H. unfold enumerate. rewrite combine_nth by apply seq_length.
  rewrite seq_nth by assumption. reflexivity.
Qed.
Lemma enumerate_nth_error {A} (l : list A) i : nth_error (enumerate l) i = option_map (fun x => (i, x)) (nth_error l i).
Proof.
  destruct (nth_error l i) as [x|] eqn:E.
  - assert (H : i < length l) by (apply nth_error_Some; congruence).
    rewrite (nth_error_nth' _ (0, x)) by now rewrite enumerate_length.
    rewrite enumerate_nth by assumption. cbn. do 2 f_equal. now apply nth_error_nth.
  - cbn. apply nth_error_None. rewrite enumerate_length. now apply nth_error_None.
Qed.
Lemma combine_seq_snoc {A} (l : list A) s x :
  combine (seq s (length l) ++ [s + length l]) (l ++ [x]) = combine (seq s (length l)) l ++ [(s + length l, x)].
Proof.
  revert s. induction l as [|a t IH]; intros s; cbn [length seq app combine]; [reflexivity|].
  f_equal. replace (s + S (length t)) with (S s + length t) by lia. apply IH.
Qed.
Lemma enumerate_snoc {A} (l : list A) x : enumerate (l ++ [x]) = enumerate l ++ [(length l, x)].
Proof.
  unfold enumerate. rewrite app_length. cbn [length]. rewrite Nat.add_1_r, seq_S.
  apply (combine_seq_snoc l 0).
Qed.
Lemma combine_seq_In {A} (l : list A) s k x : In (k, x) (combine (seq s (length l)) l) <-> s <= k /\ nth_error l (k - s) = Some x.
Proof.
  revert s. induction l as [|a t IH]; intros s; cbn.
  - split; [tauto|]. intros [_ H]. destruct (k - s); discriminate.
  - rewrite IH. split.
    + intros [E|[H1 H2]].
      * injection E as -> ->. rewrite Nat.sub_diag. auto.
      * split; [lia|]. replace (k - s) with (S (k - S s)) by lia. exact H2.
    + intros [H1 H2]. destruct (Nat.eq_dec s k) as [->|NE].
      * rewrite Nat.sub_diag in H2. cbn in H2. injection H2 as ->. now left.
      * right. split; [lia|]. replace (k - s) with (S (k - S s)) in H2 by lia. exact H2.
Qed.
Lemma enumerate_In {A} (l : list A) k x : In (k, x) (enumerate l) <-> nth_error l k = Some x.
Proof.
  unfold enumerate. rewrite combine_seq_In. rewrite Nat.sub_0_r. split; [tauto|]. split; [lia|assumption].
Qed.

Lemma removelast_length {A} (l : list A) : length (removelast l) = length l - 1.
Proof.
  induction l as [|a t IH]; [reflexivity|]. destruct t as [|b t]; [reflexivity|].
  change (removelast (a :: b :: t)) with (a :: removelast (b :: t)). cbn [length] in *. rewrite IH. lia.
Qed.

Lemma rposition_Some {A} (p : A -> bool) (l : list A) i d :
  rposition p l = Some i -> i < length l /\ p (nth i l d) = true /\ forall j, i < j < length l -> p (nth j l d) = false.
Proof.
  revert i. induction l as [|x t IH]; intros i; cbn; [discriminate|].
  destruct (rposition p t) as [k|] eqn:E.
  - intros H. injection H as <-. destruct (IH _ eq_refl) as [H1 [H2 H3]].
    split; [lia|]. split; [assumption|]. intros [|j] Hj; [lia|]. apply H3. lia.
  - destruct (p x) eqn:Px; [|discriminate]. intros H. injection H as <-.
    split; [lia|]. split; [assumption|]. intros [|j] Hj; [lia|].
    clear - E Hj. assert (Hj' : j < length t) by lia. clear Hj. revert j Hj' E.
    induction t as [|y t IH]; intros j Hj; cbn in *; [lia|].
    destruct (rposition p t); [discriminate|]. destruct (p y) eqn:Py; [discriminate|]. intros _.
    destruct j; [assumption|]. apply IH; [lia|reflexivity].
Qed.
Lemma rposition_None {A} (p : A -> bool) (l : list A) :
  rposition p l = None <-> forall x, In x l -> p x = false.
Proof.
  induction l as [|x t IH]; cbn; [split; [tauto|auto]|].
  destruct (rposition p t) as [k|] eqn:E.
  - split; [discriminate|]. intros H. assert (Some k = None) by (apply IH; auto). discriminate.
  - destruct (p x) eqn:Px.
    + split; [discriminate|]. intros H. rewrite H in Px by auto. discriminate.
    + split; [|auto]. intros _ y [<-|Hy]; [assumption|]. now apply IH.
Qed.
Lemma position_Some {A} (p : A -> bool) (l : list A) i :
  position p l = Some i -> exists x, nth_error l i = Some x /\ p x = true.
Proof.
  revert i. induction l as [|x t IH]; intros i; cbn; [discriminate|].
  destruct (p x) eqn:Px.
  - intros H. injection H as <-. cbn. eauto.
  - destruct (position p t) as [k|]; [|discriminate]. intros H. injection H as <-. cbn. auto.
Qed.
Lemma position_None {A} (p : A -> bool) (l : list A) : position p l = None <-> forall x, In x l -> p x = false.
Proof.
  induction l as [|x t IH]; cbn; [split; [tauto|auto]|].
  destruct (p x) eqn:Px.
  - split; [discriminate|]. intros H. rewrite H in Px by auto. discriminate.
  - destruct (position p t) as [k|] eqn:E.
    + split; [discriminate|]. intros H. assert (Some k = None) by (apply IH; auto). discriminate.
    + split; [|auto]. intros _ y [<-|Hy]; [assumption|]. now apply IH.
Qed.

Lemma nth_ext_len {A} (l l' : list A) d : length l = length l' ->
  (forall i, i < length l -> nth i l d = nth i l' d) -> l = l'.
Proof. intros H1 H2. now apply (nth_ext l l' d d). Qed.

(** ** finite sums over R *)
Open Scope R_scope.
Definition sumf (f : nat -> R) (n : nat) : R := fold_right Rplus 0 (map f (seq 0 n)).
Lemma sumf_0 f : sumf f 0 = 0.
Proof. reflexivity. Qed.
Lemma fold_right_Rplus_app l l' : fold_right Rplus 0 (l ++ l') = fold_right Rplus 0 l + fold_right Rplus 0 l'.
Proof. induction l; cbn; [lra|]. rewrite IHl. lra. Qed.
Lemma sumf_S f n : sumf f (S n) = sumf f n + f n.
Proof. unfold sumf. rewrite seq_S, map_app, fold_right_Rplus_app. cbn. lra. Qed.
Lemma sumf_S_first f n : sumf f (S n) = f 0%nat + sumf (fun i => f (S i)) n.
Proof. unfold sumf. cbn [seq map fold_right]. rewrite <- seq_shift, map_map. reflexivity. Qed.
Lemma sumf_ext f g n : (forall i, (i < n)%nat -> f i = g i) -> sumf f n = sumf g n.
Proof. induction n; intros H; [reflexivity|]. rewrite !sumf_S, H by lia. rewrite IHn; [reflexivity|]. intros; apply H; lia. Qed.
Lemma sumf_plus f g n : sumf (fun i => f i + g i) n = sumf f n + sumf g n.
Proof. induction n; [cbn; lra|]. rewrite !sumf_S, IHn. lra. Qed.
Lemma sumf_minus f g n : sumf (fun i => f i - g i) n = sumf f n - sumf g n.
Proof. induction n; [cbn; lra|]. rewrite !sumf_S, IHn. lra. Qed.
Lemma sumf_scal c f n : sumf (fun i => c * f i) n = c * sumf f n.
Proof. induction n; [cbn; lra|]. rewrite !sumf_S, IHn. lra. Qed.
Lemma sumf_scal_r c f n : sumf (fun i => f i * c) n = sumf f n * c.
Proof. induction n; [cbn; lra|]. rewrite !sumf_S, IHn. lra. Qed.
Lemma sumf_zero f n : (forall i, (i < n)%nat -> f i = 0) -> sumf f n = 0.
Proof. induction n; intros H; [reflexivity|]. rewrite sumf_S, IHn, H; [lra|lia|intros; apply H; lia]. Qed.
Lemma sumf_nonneg f n : (forall i, (i < n)%nat -> 0 <= f i) -> 0 <= sumf f n.
Proof. induction n; intros H; [cbn; lra|]. rewrite sumf_S. specialize (IHn (fun i Hi => H i ltac:(lia))). specialize (H n ltac:(lia)). lra. Qed.
Lemma sumf_le f g n : (forall i, (i < n)%nat -> f i <= g i) -> sumf f n <= sumf g n.
Proof. induction n; intros H; [cbn; lra|]. rewrite !sumf_S. specialize (IHn (fun i Hi => H i ltac:(lia))). specialize (H n ltac:(lia)). lra. Qed.
Lemma sumf_single f n k : (k < n)%nat -> (forall i, (i < n)%nat -> i <> k -> f i = 0) -> sumf f n = f k.
Proof.
  induction n; intros Hk H; [lia|]. rewrite sumf_S. destruct (Nat.eq_dec k n) as [->|NE].
  - rewrite sumf_zero; [lra|]. intros; apply H; lia.
  - rewrite IHn; [|lia|intros; apply H; lia]. rewrite (H n); [lra|lia|congruence].
Qed.
Lemma sumf_app f n m : sumf f (n + m) = sumf f n + sumf (fun i => f (n + i)%nat) m.
Proof.
  induction m; [rewrite Nat.add_0_r; cbn; lra|]. rewrite Nat.add_succ_r, !sumf_S, IHm. lra.
Qed.
Lemma sumf_swap (f : nat -> nat -> R) n m :
  sumf (fun i => sumf (fun j => f i j) m) n = sumf (fun j => sumf (fun i => f i j) n) m.
Proof.
  induction n; [cbn; symmetry; apply sumf_zero; auto|].
  rewrite sumf_S, IHn, <- sumf_plus. apply sumf_ext. intros. now rewrite sumf_S.
Qed.
Close Scope R_scope.
