(** Closed chains of vertices: sums of an antisymmetric edge function around a cycle. *)
From Coq Require Import Reals Lra Lia Arith.
From Verif Require Import Prelude L_base.
Open Scope R_scope.

Definition antisym {A} (w : A -> A -> R) : Prop := forall a b, w b a = - w a b.
(** sum of [w] over the consecutive pairs of an open chain *)
Fixpoint chain {A} (w : A -> A -> R) (l : list A) : R :=
  match l with
  | a :: ((b :: _) as t) => w a b + chain w t
  | _ => 0
  end.
(** sum of [w] over the edges of the closed cycle [l] (last vertex joined to the first) *)
Definition cyc {A} (w : A -> A -> R) (l : list A) : R :=
  match l with [] => 0 | a :: _ => chain w (l ++ [a]) end.

Section Cycle.
Context {A : Type} (w : A -> A -> R) (Hw : antisym w).
Lemma w_diag a : w a a = 0.
Proof. pose proof (Hw a a). lra. Qed.
Lemma chain_app l a l' : chain w (l ++ a :: l') = chain w (l ++ [a]) + chain w (a :: l').
Proof.
  induction l as [|x l IH]; [cbn; lra|].
  destruct l as [|y l]; [cbn; lra|]. cbn [app] in *. change (chain w (x :: y :: l ++ a :: l')) with (w x y + chain w (y :: l ++ a :: l')).
  change (chain w (x :: y :: l ++ [a])) with (w x y + chain w (y :: l ++ [a])). rewrite IH. lra.
Qed.
Lemma chain_snoc l a b : chain w ((l ++ [a]) ++ [b]) = chain w (l ++ [a]) + w a b.
Proof. rewrite <- app_assoc. cbn [app]. rewrite chain_app. cbn. lra. Qed.
Lemma cyc_rot l l' : cyc w (l ++ l') = cyc w (l' ++ l).
Proof.
  destruct l as [|a l], l' as [|b l']; cbn [app]; rewrite ?app_nil_r; try reflexivity.
  unfold cyc. cbn [app]. rewrite <- !app_assoc. cbn [app].
  change (a :: l ++ b :: l' ++ [a]) with ((a :: l) ++ b :: l' ++ [a]). change (b :: l' ++ a :: l ++ [b]) with ((b :: l') ++ a :: l ++ [b]).
  rewrite chain_app, (chain_app (b :: l')). cbn [app]. lra.
Qed.
(** a cycle seen from an edge: last vertex [p], first vertex [n] *)
Lemma cyc_ends n l p : cyc w (n :: l ++ [p]) = chain w (n :: l ++ [p]) + w p n.
Proof. unfold cyc. change (n :: l ++ [p]) with ((n :: l) ++ [p]). now rewrite chain_snoc. Qed.
Lemma chain_cons2 a b l : chain w (a :: b :: l) = w a b + chain w (b :: l).
Proof. reflexivity. Qed.
Lemma cyc1 a : cyc w [a] = 0.
Proof. cbn. rewrite w_diag. lra. Qed.
Lemma cyc2 a b : cyc w [a; b] = 0.
Proof. cbn. pose proof (Hw a b). lra. Qed.
Lemma cyc3 a b c : cyc w [a; b; c] = w a b + w b c + w c a.
Proof. cbn. lra. Qed.
Lemma cyc4 a b c d : cyc w [a; b; c; d] = w a b + w b c + w c d + w d a.
Proof. cbn. lra. Qed.
(** removing the corner [c] between [p] and [n] removes the triangle p c n *)
Lemma cyc_clip c n l p : cyc w (c :: n :: l ++ [p]) = cyc w [p; c; n] + cyc w (n :: l ++ [p]).
Proof.
  rewrite cyc3, cyc_ends. change (c :: n :: l ++ [p]) with (c :: (n :: l) ++ [p]). rewrite (cyc_ends c (n :: l) p).
  change (chain w (c :: (n :: l) ++ [p])) with (w c n + chain w (n :: l ++ [p])). pose proof (Hw n p). lra.
Qed.
(** removing an edge p n between pp and nn removes the quadrilateral pp p n nn *)
Lemma cyc_clip2 n l p : l <> [] -> cyc w (n :: l ++ [p]) = cyc w [last l n; p; n; hd n l] + cyc w l.
Proof.
  intros Hl. destruct l as [|x l]; [congruence|]. cbn [hd]. clear Hl.
  destruct (exists_last (l := x :: l) ltac:(discriminate)) as (k & y & E). rewrite E, last_last.
  rewrite cyc4, cyc_ends. change (n :: (k ++ [y]) ++ [p]) with (((n :: k) ++ [y]) ++ [p]). rewrite chain_snoc.
  destruct k as [|x' k]; cbn [app] in E; injection E as <- E.
  - subst l. cbn [app]. rewrite cyc1. cbn. pose proof (w_diag x). lra.
  - cbn [app]. rewrite (cyc_ends x k y). change (chain w (n :: x :: k ++ [y])) with (w n x + chain w (x :: k ++ [y])). pose proof (Hw x y). lra.
Qed.
End Cycle.

(** Positions around a cycle. *)
Lemma mod_small_or a m : (a < 2 * m)%nat -> (m <= a)%nat -> (a mod m = a - m)%nat.
Proof. intros H1 H2. symmetry. apply (Nat.mod_unique _ _ 1); lia. Qed.
Definition prev_pos (m i : nat) : nat := if (i =? 0)%nat then (m - 1)%nat else (i - 1)%nat.
Definition next_pos (m i : nat) : nat := if (i =? m - 1)%nat then 0%nat else (i + 1)%nat.
Lemma prev_pos_mod m i : (i < m)%nat -> ((m + i - 1) mod m = prev_pos m i)%nat.
Proof.
  intros H. unfold prev_pos. destruct (Nat.eqb_spec i 0) as [->|N].
  - rewrite Nat.add_0_r. apply Nat.mod_small. lia.
  - rewrite mod_small_or; lia.
Qed.
Lemma next_pos_mod m i : (i < m)%nat -> ((i + 1) mod m = next_pos m i)%nat.
Proof.
  intros H. unfold next_pos. destruct (Nat.eqb_spec i (m - 1)) as [->|N].
  - replace (m - 1 + 1)%nat with m by lia. apply Nat.mod_same. lia.
  - apply Nat.mod_small. lia.
Qed.
Lemma next2_pos_mod m i : (i < m)%nat -> ((i + 2) mod m = next_pos m (next_pos m i))%nat.
Proof.
  intros H. destruct (Nat.eq_dec m 1) as [->|N1]; [rewrite Nat.mod_1_r; replace i with 0%nat by lia; reflexivity|].
  rewrite <- (next_pos_mod m (next_pos m i)); [|unfold next_pos; destruct (Nat.eqb_spec i (m - 1)); lia].
  rewrite <- next_pos_mod by assumption. rewrite Nat.add_mod_idemp_l by lia. f_equal. lia.
Qed.
Lemma prev2_pos_mod m i : (i < m)%nat -> (2 <= m + i)%nat -> ((m + i - 2) mod m = prev_pos m (prev_pos m i))%nat.
Proof.
  intros H H2. destruct (Nat.eq_dec m 1) as [->|N1]; [rewrite Nat.mod_1_r; replace i with 0%nat by lia; reflexivity|].
  unfold prev_pos. destruct (Nat.eqb_spec i 0) as [->|N].
  - destruct (Nat.eqb_spec (m - 1) 0); [lia|]. rewrite Nat.mod_small; lia.
  - destruct (Nat.eqb_spec (i - 1) 0).
    + rewrite Nat.mod_small; lia.
    + rewrite mod_small_or; lia.
Qed.
(** The cycle turned so that position [i] comes first. *)
Definition turn {A} (l : list A) (i : nat) : list A := skipn i l ++ firstn i l.
Lemma turn_cyc {A} (w : A -> A -> R) l i : cyc w (turn l i) = cyc w l.
Proof. unfold turn. rewrite cyc_rot. now rewrite firstn_skipn. Qed.
Lemma turn_length {A} (l : list A) i : length (turn l i) = length l.
Proof. unfold turn. rewrite app_length, Nat.add_comm, <- app_length. now rewrite firstn_skipn. Qed.
Lemma turn_nth {A} (l : list A) i j d : (i < length l)%nat -> (j < length l)%nat -> nth j (turn l i) d = nth ((i + j) mod length l) l d.
Proof.
  intros Hi Hj. unfold turn. destruct (Nat.lt_ge_cases j (length l - i)) as [H|H].
  - rewrite app_nth1 by (rewrite skipn_length; lia). rewrite nth_skipn. rewrite Nat.mod_small by lia. reflexivity.
  - rewrite app_nth2 by (rewrite skipn_length; lia). rewrite skipn_length, nth_firstn by lia. rewrite mod_small_or by lia. f_equal. lia.
Qed.

Lemma skipn_nth {A} (l : list A) i d : (i < length l)%nat -> skipn i l = nth i l d :: skipn (S i) l.
Proof. revert i. induction l as [|a l IH]; intros i H; [cbn in H; lia|]. destruct i; [reflexivity|]. cbn in H. cbn [skipn nth]. rewrite IH by lia. reflexivity. Qed.
Lemma turn_cons {A} (l : list A) i d : (i < length l)%nat -> turn l i = nth i l d :: skipn (S i) l ++ firstn i l.
Proof. intros H. unfold turn. now rewrite (skipn_nth l i d H). Qed.
Lemma delete_cyc {A} (w : A -> A -> R) l i : cyc w (delete_nth l i) = cyc w (skipn (S i) l ++ firstn i l).
Proof. unfold delete_nth. apply cyc_rot. Qed.
Lemma delete_length {A} (l : list A) i : (i < length l)%nat -> length (delete_nth l i) = (length l - 1)%nat.
Proof. intros H. unfold delete_nth. rewrite app_length, firstn_length, skipn_length. lia. Qed.
Lemma delete_nth_lt {A} (l : list A) i j d : (j < i)%nat -> (i < length l)%nat -> nth j (delete_nth l i) d = nth j l d.
Proof. intros H1 H2. unfold delete_nth. rewrite app_nth1 by (rewrite firstn_length; lia). now rewrite nth_firstn. Qed.
Lemma delete_nth_ge {A} (l : list A) i j d : (i <= j)%nat -> (i < length l)%nat -> nth j (delete_nth l i) d = nth (S j) l d.
Proof.
  intros H1 H2. unfold delete_nth. rewrite app_nth2 by (rewrite firstn_length; lia). rewrite firstn_length, nth_skipn. f_equal. lia.
Qed.
(** [l] with some elements left out, order kept *)
Inductive sublist {A} : list A -> list A -> Prop :=
| sub_nil : sublist [] []
| sub_keep x l l' : sublist l l' -> sublist (x :: l) (x :: l')
| sub_drop x l l' : sublist l l' -> sublist l (x :: l').
Lemma sublist_refl {A} (l : list A) : sublist l l.
Proof. induction l; now constructor. Qed.
Lemma sublist_nil {A} (l : list A) : sublist [] l.
Proof. induction l; now constructor. Qed.
Lemma sublist_trans {A} (l1 l2 l3 : list A) : sublist l1 l2 -> sublist l2 l3 -> sublist l1 l3.
Proof.
  intros H1 H2. revert l1 H1. induction H2 as [|x l l' H2 IH|x l l' H2 IH]; intros l1 H1; [exact H1| |].
  - inversion H1; subst; [apply sub_keep; auto|apply sub_drop; auto].
  - apply sub_drop. auto.
Qed.
Lemma sublist_app {A} (a a' b b' : list A) : sublist a a' -> sublist b b' -> sublist (a ++ b) (a' ++ b').
Proof. intros H1 H2. induction H1; cbn [app]; [exact H2|apply sub_keep; auto|apply sub_drop; auto]. Qed.
Lemma sublist_delete {A} (l : list A) i : sublist (delete_nth l i) l.
Proof.
  destruct (Nat.lt_ge_cases i (length l)) as [H|H].
  - rewrite <- (firstn_skipn i l) at 2. apply sublist_app; [apply sublist_refl|].
    destruct l as [|d l]; [cbn in H; lia|]. rewrite (skipn_nth (d :: l) i d H). apply sub_drop, sublist_refl.
  - unfold delete_nth. rewrite firstn_all2 by lia. rewrite skipn_all2 by lia. rewrite app_nil_r. apply sublist_refl.
Qed.
Lemma sublist_In {A} (l l' : list A) x : sublist l l' -> In x l -> In x l'.
Proof. intros H. induction H; cbn; firstorder. Qed.
Lemma delete_In {A} (l : list A) i x : In x (delete_nth l i) -> In x l.
Proof. apply sublist_In, sublist_delete. Qed.
