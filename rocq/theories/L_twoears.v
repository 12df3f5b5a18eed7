(** Ears of simple polygons: splitting along a chord, and the two ears theorem. *)
From Coq Require Import Reals Lra Psatz Lia Arith Permutation.
From Verif Require Import Prelude Num M_vec M_utils M_polygon L_base L_vec L_geom L_cycle L_polygon Props_polygon Props_ears L_simple L_sides.
Open Scope R_scope.

(** ** Orientation: read off at a lowest vertex *)
Lemma winding_below P q : (forall x, In x P -> y2 q < y2 x) -> winding P q = 0.
Proof.
  intros H. assert (K : forall l, (forall x, In x l -> y2 q < y2 x) -> chain (wind q) l = 0).
  { induction l as [|x l IH]; intros Hl; [reflexivity|]. destruct l as [|y l]; [reflexivity|].
    change (chain (wind q) (x :: y :: l)) with (wind q x y + chain (wind q) (y :: l)). rewrite IH by (intros; apply Hl; now right).
    unfold wind. pose proof (Hl x (or_introl eq_refl)). pose proof (Hl y (or_intror (or_introl eq_refl))).
    rewrite (proj2 (Rleb_false (y2 x) (y2 q))), (proj2 (Rleb_false (y2 y) (y2 q))) by lra. cbn [andb]. lra. }
  destruct P as [|x l]; [reflexivity|]. unfold winding, cyc. apply K. intros y Hy. apply in_app_or in Hy as [Hy|[<-|[]]]; [now apply H|apply H; now left].
Qed.
Lemma lowest (P : list P2) : P <> [] -> exists b, In b P /\ forall x, In x P -> y2 b < y2 x \/ (y2 b = y2 x /\ x2 b <= x2 x).
Proof.
  induction P as [|x l IH]; [congruence|]. intros _. destruct l as [|y l]; [exists x; split; [now left|]; intros z [<-|[]]; lra|].
  destruct IH as (b & Hb & Hm); [discriminate|].
  assert (D : (y2 x < y2 b \/ (y2 x = y2 b /\ x2 x <= x2 b)) \/ (y2 b < y2 x \/ (y2 b = y2 x /\ x2 b <= x2 x))) by (destruct (Rtotal_order (y2 x) (y2 b)) as [?|[?|?]], (Rle_lt_dec (x2 x) (x2 b)); lra).
  destruct D as [D|D].
  - exists x. split; [now left|]. intros z [<-|Hz]; [lra|]. specialize (Hm z Hz). lra.
  - exists b. split; [now right|]. intros z [<-|Hz]; [lra|]. now apply Hm.
Qed.
Definition ccw (P : list P2) : Prop := ev (sides P 0).
Definition cw (P : list P2) : Prop := ev (sides P (- (1))).
Lemma low_corner P : gp P -> simple P -> (3 <= length P)%nat -> exists a b c, corner P a b c /\ T a b c <> 0 /\ (0 < T a b c -> ccw P) /\ (T a b c < 0 -> cw P).
Proof.
  intros G S HL. destruct (lowest P) as (b & Ib & Hl); [intros ->; cbn in HL; lia|]. destruct (In_corner P b HL Ib) as (a & c & HC). exists a, b, c. split; [exact HC|].
  destruct (corner_In _ _ _ _ HC) as (Ia & _ & Ic). pose proof (Hl a Ia) as La. pose proof (Hl c Ic) as Lc.
  assert (HT : T a b c <> 0).
  { intros Z. destruct (corner_straight P a b c G HC Z) as (s & Hs & Ec). destruct (corner_distinct _ _ _ _ (proj1 G) HC) as (Nab & _ & _). apply Nab. subst c. cbn [at_ x2 y2] in Lc.
    assert (Y : y2 a = y2 b).
    { destruct La as [La|[La _]]; [|now symmetry]. pose proof (mul_pp (s - 1) (y2 a - y2 b) ltac:(lra) ltac:(lra)). destruct Lc as [Lc|[Lc _]]; lra. }
    assert (X : x2 a = x2 b).
    { destruct La as [La|[_ La]]; [lra|]. destruct La as [La|La]; [|now symmetry]. pose proof (mul_pp (s - 1) (x2 a - x2 b) ltac:(lra) ltac:(lra)). rewrite Y in Lc. destruct Lc as [Lc|[_ Lc]]; lra. }
    now apply v2_ext. }
  split; [exact HT|]. assert (Hm : forall x, In x P -> y2 b <= y2 x) by (intros x Ix; specialize (Hl x Ix); lra). pose proof (Hm a Ia). pose proof (Hm c Ic).
  assert (Z : forall e, 0 < e -> winding P (sn e a b c) = 0).
  { intros e He. apply winding_below. intros x Hx. specialize (Hm x Hx). unfold sn, mv, dm. cbn [y2].
    assert (0 < (y2 a - y2 b) + 2 * (y2 c - y2 b)).
    { destruct (Req_dec (y2 a) (y2 b)) as [Ea|Na]; [|lra]. destruct (Req_dec (y2 c) (y2 b)) as [Ec|Nc]; [|lra]. exfalso. apply HT. unfold tri_area2. rewrite Ea, Ec. ring. }
    pose proof (mul_pp e _ He H1). lra. }
  split; intros K; (eapply ev_imp; [|exact (two_sides P G S HL)]); intros e He (k & Hk); specialize (Z e He).
  - replace 0 with k; [exact Hk|]. destruct Hk as [_ Hk]. destruct (Hk a b c HC) as [_ E]. unfold rgt in E. destruct (Rlt_dec 0 (T a b c)); [|lra]. lra.
  - replace (- (1)) with k; [exact Hk|]. destruct Hk as [_ Hk]. destruct (Hk a b c HC) as [E _]. unfold lft in E. destruct (Rlt_dec 0 (T a b c)); [lra|]. destruct (Rlt_dec (T a b c) 0); lra.
Qed.
Lemma sides_unique P k k' e : (3 <= length P)%nat -> sides P k e -> sides P k' e -> k = k'.
Proof.
  intros HL [H _] [H' _]. destruct P as [|x [|y l]]; [cbn in HL; lia..|]. assert (He : edge (x :: y :: l) x y) by (left; reflexivity).
  destruct (H x y He) as [_ E]. destruct (H' x y He) as [_ E']. congruence.
Qed.
Lemma orient P : gp P -> simple P -> (3 <= length P)%nat -> ccw P \/ cw P.
Proof.
  intros G S HL. destruct (low_corner P G S HL) as (a & b & c & HC & HT & H1 & H2). destruct (Rdichotomy _ _ HT); auto.
Qed.
Lemma ccw_not_cw P : (3 <= length P)%nat -> ccw P -> cw P -> False.
Proof. intros HL H1 H2. destruct (ev_ex _ (ev_and _ _ H1 H2)) as (e & _ & K1 & K2). pose proof (sides_unique P _ _ e HL K1 K2). lra. Qed.

Record good (P : list P2) : Prop := { good_gp : gp P; good_simple : simple P; good_len : (3 <= length P)%nat; good_ccw : ccw P }.
Lemma convex_corner P : good P -> exists a b c, corner P a b c /\ 0 < T a b c.
Proof.
  intros [G S HL HC]. destruct (low_corner P G S HL) as (a & b & c & Hc & HT & _ & H2). exists a, b, c. split; [exact Hc|].
  destruct (Rdichotomy _ _ HT) as [K|K]; [|lra]. exfalso. exact (ccw_not_cw P HL HC (H2 K)).
Qed.

(** ** Splitting along a chord *)
Lemma rotof_gp P Q : rotof P Q -> gp P -> gp Q.
Proof.
  intros R [ND G]. split; [exact (Permutation_NoDup (rotof_perm _ _ R) ND)|]. intros x y v E Iv. apply G; [now apply (rotof_edge _ _ _ _ R)|now apply (rotof_In _ _ _ R)].
Qed.
Lemma rotof_simple P Q : rotof P Q -> simple P -> simple Q.
Proof. intros R S b c H x y H'. apply (S b c); now apply (rotof_edge _ _ _ _ R). Qed.
Lemma rotof_winding P Q q : rotof P Q -> winding P q = winding Q q.
Proof. intros R. now apply rotof_cyc. Qed.
Lemma rotof_corner {A} (P Q : list A) a b c : rotof P Q -> corner P a b c <-> corner Q a b c.
Proof. intros R. split; intros (l & Hl); exists l; eapply rotof_trans; [apply rotof_sym; exact R|exact Hl|exact R|exact Hl]. Qed.
Lemma rotof_sides P Q k e : rotof P Q -> sides P k e -> sides Q k e.
Proof.
  intros R [H1 H2]. split.
  - intros b c He. rewrite <- !(rotof_winding P Q _ R). apply H1. now apply (rotof_edge _ _ _ _ R).
  - intros a b c HC. rewrite <- !(rotof_winding P Q _ R). apply H2. now apply (rotof_corner _ _ _ _ _ R).
Qed.
Lemma rotof_good P Q : rotof P Q -> good P -> good Q.
Proof.
  intros R [G S HL C]. split; [exact (rotof_gp P Q R G)|exact (rotof_simple P Q R S)| |].
  - rewrite <- (Permutation_length (rotof_perm _ _ R)). exact HL.
  - eapply ev_imp; [|exact C]. intros e _. now apply rotof_sides.
Qed.
Lemma NoDup_left {A} (l l' : list A) : NoDup (l ++ l') -> NoDup l.
Proof.
  induction l as [|x l IH]; intros H; [constructor|]. cbn [app] in H. inversion H; subst. constructor; [|auto].
  intros K. apply H2. apply in_or_app. now left.
Qed.
Section ChordEdges.
Context {X : Type} (s t : X) (A B : list X).
Let P := s :: A ++ t :: B.
Let Q1 := s :: A ++ [t].
Let Q2 := t :: B ++ [s].
Lemma chord_edges x y : edge P x y <-> In (x, y) (links Q1) \/ In (x, y) (links Q2).
Proof.
  unfold edge, edges, P, Q1, Q2. cbn [app]. rewrite <- app_assoc. cbn [app].
  change (s :: A ++ t :: B ++ [s]) with ((s :: A) ++ t :: B ++ [s]). rewrite links_app, in_app_iff. reflexivity.
Qed.
Lemma chord_edges1 x y : edge Q1 x y <-> In (x, y) (links Q1) \/ (x = t /\ y = s).
Proof.
  unfold edge, edges, Q1. cbn [app]. rewrite <- app_assoc. cbn [app].
  change (s :: A ++ [t; s]) with ((s :: A) ++ t :: [s]). rewrite links_app, in_app_iff. cbn [links In]. split; (intros [H|H]; [now left|right]).
  - destruct H as [E|[]]. injection E; auto.
  - destruct H as [-> ->]. now left.
Qed.
Lemma chord_edges2 x y : edge Q2 x y <-> In (x, y) (links Q2) \/ (x = s /\ y = t).
Proof.
  unfold edge, edges, Q2. cbn [app]. rewrite <- app_assoc. cbn [app].
  change (t :: B ++ [s; t]) with ((t :: B) ++ s :: [t]). rewrite links_app, in_app_iff. cbn [links In]. split; (intros [H|H]; [now left|right]).
  - destruct H as [E|[]]. injection E; auto.
  - destruct H as [-> ->]. now left.
Qed.
End ChordEdges.
Section Chord.
Context (s t : P2) (A B : list P2).
Let P := s :: A ++ t :: B.
Let Q1 := s :: A ++ [t].
Let Q2 := t :: B ++ [s].
Lemma chord_winding q : winding P q = winding Q1 q + winding Q2 q.
Proof.
  unfold winding, P, Q1, Q2. rewrite !cyc_ends. unfold cyc. cbn [app]. rewrite <- app_assoc. cbn [app].
  change (s :: A ++ t :: B ++ [s]) with ((s :: A) ++ t :: B ++ [s]). rewrite chain_app. cbn [app]. pose proof (wind_antisym q s t). lra.
Qed.
Lemma chord_gp1 : gp P -> vfree P s t -> gp Q1.
Proof.
  intros [ND G] VF. assert (I : incl Q1 P) by (intros x; unfold P, Q1; cbn [In]; rewrite !in_app_iff; cbn [In]; tauto).
  split; [|intros x y v E Iv N1 N2; apply chord_edges1 in E as [E|[-> ->]]; [apply G; auto; apply chord_edges; now left|intros K; apply (VF v); auto using on_swap]].
  unfold P, Q1 in *. change (s :: A ++ t :: B) with ((s :: A) ++ [t] ++ B) in ND. rewrite app_assoc in ND. exact (NoDup_left _ _ ND).
Qed.
Lemma chord_simple1 : simple P -> xfree P s t -> simple Q1.
Proof.
  intros S F b c Hbc x y Hxy [K1 K2]. apply chord_edges1 in Hbc, Hxy.
  assert (E1 : forall u v, In (u, v) (links Q1) -> edge P u v) by (intros; apply chord_edges; now left).
  destruct Hbc as [Hbc|[-> ->]], Hxy as [Hxy|[-> ->]].
  - apply (S b c (E1 _ _ Hbc) x y (E1 _ _ Hxy)). now split.
  - apply (F b c (E1 _ _ Hbc)). split.
    + rewrite (T_swap s t b), (T_swap s t c) in K2. lra.
    + lra.
  - apply (F x y (E1 _ _ Hxy)). split; [rewrite (T_swap s t x), (T_swap s t y) in K1; lra|lra].
  - replace (T t s t) with 0 in K1 by (unfold tri_area2; ring). lra.
Qed.
End Chord.
Lemma ms_flip k e s t : ms (- k) e t s = ms k e s t.
Proof. unfold ms. rewrite mid_sym. unfold mv, nrm; cbn [x2 y2]. f_equal; ring. Qed.
Lemma free_sym P s t : free P s t -> free P t s.
Proof.
  intros [F V]. split.
  - intros x y He [K1 K2]. apply (F x y He). rewrite (T_swap s t x), (T_swap s t y) in K1. split; lra.
  - intros v Iv N1 N2 K. apply (V v Iv N2 N1). now apply on_swap.
Qed.
Lemma free_rot P Q s t : rotof P Q -> free P s t -> free Q s t.
Proof. intros R [F V]. split; [intros x y He; apply F; now apply (rotof_edge _ _ _ _ R)|intros v Iv; apply V; now apply (rotof_In _ _ _ R)]. Qed.
(** an inner chord splits a good polygon into two good ones *)
Lemma chord_good s t A B : A <> [] -> B <> [] -> good (s :: A ++ t :: B) -> free (s :: A ++ t :: B) s t ->
  ev (fun e => winding (s :: A ++ t :: B) (ms 1 e s t) = 1) -> good (s :: A ++ [t]) /\ good (t :: B ++ [s]).
Proof.
  intros NA NB [G S HL C] F HW.
  assert (R : rotof (s :: A ++ t :: B) (t :: B ++ s :: A)) by (exists (s :: A), (t :: B); auto).
  pose proof (free_sym _ _ _ (free_rot _ _ _ _ R F)) as F'.
  pose proof (chord_gp1 s t A B G (proj2 F)) as G1. pose proof (chord_gp1 t s B A (rotof_gp _ _ R G) (proj2 F')) as G2.
  pose proof (chord_simple1 s t A B S (proj1 F)) as S1. pose proof (chord_simple1 t s B A (rotof_simple _ _ R S) (proj1 F')) as S2.
  assert (L1 : (3 <= length (s :: A ++ [t]))%nat) by (destruct A; [congruence|]; cbn [length]; rewrite app_length; cbn [length]; lia).
  assert (L2 : (3 <= length (t :: B ++ [s]))%nat) by (destruct B; [congruence|]; cbn [length]; rewrite app_length; cbn [length]; lia).
  assert (K : forall k1 k2, ev (sides (s :: A ++ [t]) k1) -> ev (sides (t :: B ++ [s]) k2) -> k1 + k2 = 0).
  { intros k1 k2 H1 H2. destruct (ev_ex _ (ev_and _ _ HW (ev_and _ _ H1 H2))) as (e & He & E & [K1 _] & [K2 _]).
    rewrite chord_winding in E. destruct (K2 s t) as [E2 _]; [apply chord_edges2; right; auto|]. destruct (K1 t s) as [_ E1]; [apply chord_edges1; right; auto|].
    rewrite ms_flip in E1. lra. }
  assert (C1 : ccw (s :: A ++ [t]) /\ ccw (t :: B ++ [s])).
  { destruct (orient _ G1 S1 L1) as [C1|C1], (orient _ G2 S2 L2) as [C2|C2]; [auto|exfalso..].
    - specialize (K _ _ C1 C2). lra.
    - specialize (K _ _ C1 C2). lra.
    - specialize (K _ _ C1 C2). lra. }
  destruct C1. split; constructor; assumption.
Qed.
