(** The closed sequence made by merging polygons: the two copies of a vertex used by a bridge
    are told apart by labels (twice the index, plus 1 for the second copy). *)
From Coq Require Import Reals Lra Lia Arith Permutation.
From Verif Require Import Prelude Num M_vec M_utils M_polygon L_base L_vec L_geom L_cycle L_polygon Props_polygon Props_ears Props_merge L_simple L_sides L_twoears L_earexist L_clip Props_simple L_drop L_weak L_wiggle.
Open Scope nat_scope.

Lemma rotof_unmap {A B} (g : A -> B) l m : rotof (map g l) m -> exists m', rotof l m' /\ map g m' = m.
Proof.
  intros (u & v & E & ->). apply map_eq_app in E as (u' & v' & -> & <- & <-). exists (v' ++ u'). split; [now exists u', v'|apply map_app].
Qed.
Lemma corner_unmap {A B} (g : A -> B) l a b c : corner (map g l) a b c -> exists a' b' c', corner l a' b' c' /\ g a' = a /\ g b' = b /\ g c' = c.
Proof.
  intros (r & H). apply rotof_unmap in H as (m & H & E). destruct m as [|a' [|b' [|c' m]]]; try discriminate E. cbn [map] in E. injection E as <- <- <- _.
  exists a', b', c'. split; [now exists m|auto].
Qed.
Lemma rotof_flat_map {A B} (g : A -> list B) l m : rotof l m -> rotof (flat_map g l) (flat_map g m).
Proof. intros (u & v & -> & ->). rewrite !flat_map_app. now exists (flat_map g u), (flat_map g v). Qed.
Lemma d2_even x : Nat.div2 (2 * x) = x. Proof. apply Nat.div2_double. Qed.
Lemma d2_odd x : Nat.div2 (S (2 * x)) = x. Proof. apply Nat.div2_succ_double. Qed.
Lemma d2_cases y : y = 2 * Nat.div2 y \/ y = S (2 * Nat.div2 y).
Proof.
  pose proof (Nat.div2_odd y) as H. destruct (Nat.odd y); cbn [Nat.b2n] in H; lia.
Qed.

Lemma NoDup_app_mk {A} (l l' : list A) : NoDup l -> NoDup l' -> (forall x, In x l -> In x l' -> False) -> NoDup (l ++ l').
Proof.
  induction l as [|a l IH]; [auto|]. intros N1 N2 D. inversion N1 as [|? ? Na Nl]; subst. cbn [app]. constructor.
  - intros I. apply in_app_iff in I as [I|I]; [now apply Na|]. apply (D a); [now left|exact I].
  - apply IH; auto. intros x I1 I2. apply (D x); [now right|exact I2].
Qed.
Lemma NoDup_app_l {A} (l l' : list A) : NoDup (l ++ l') -> NoDup l.
Proof.
  induction l as [|a l IH]; [constructor|]. cbn [app]. intros N. inversion N as [|? ? Na Nl]; subst. constructor; [|now apply IH]. intros I. apply Na. apply in_app_iff. now left.
Qed.
Lemma cyc_hair {A} (w : A -> A -> R) (Hw : antisym w) a b l : cyc w (a :: b :: l ++ [b]) = cyc w (b :: l).
Proof.
  unfold cyc. cbn [app]. rewrite <- app_assoc. cbn [app]. rewrite chain_cons2. change (b :: l ++ [b; a]) with ((b :: l) ++ b :: [a]). rewrite chain_app. cbn [app].
  rewrite chain_cons2. cbn [chain]. pose proof (Hw a b). lra.
Qed.

Section Labels.
Context (w : nat -> nat -> R) (Hw : antisym w).
Notation dv := Nat.div2.
Definition apair (L : list nat) (a b : nat) : Prop := exists X Y, rotof L (a :: X ++ b :: Y) /\ (cyc w (map dv (a :: X)) < 0)%R.
Definition beside (L : list nat) (a b : nat) : Prop := exists p n p' n', corner L p a n /\ corner L p' b n' /\ (dv n = dv p' \/ dv n' = dv p).
Record labelled (l L : list nat) : Prop := mkLabelled {
  lb_map : map dv L = l;
  lb_nodup : NoDup L;
  lb_first : forall x, In (S (2 * x)) L -> In (2 * x) L;
  lb_pair : forall x, In (S (2 * x)) L -> apair L (2 * x) (S (2 * x)) /\ beside L (2 * x) (S (2 * x)) }.
Lemma labelled_once l : NoDup l -> labelled l (map (Nat.mul 2) l).
Proof.
  intros ND. assert (NO : forall x, ~ In (S (2 * x)) (map (Nat.mul 2) l)) by (intros x H; apply in_map_iff in H as (y & E & _); lia).
  constructor; [| |intros x H; now apply NO in H|intros x H; now apply NO in H].
  - rewrite map_map. rewrite <- (map_id l) at 2. apply map_ext. exact d2_even.
  - apply FinFun.Injective_map_NoDup; [|exact ND]. intros a b E. lia.
Qed.

Section Step.
Context (pre post : list nat) (o s e m : nat) (L : list nat).
Notation hole := (seq m (e - m) ++ seq s (m - s)).
Notation l := (pre ++ o :: post).
Notation l' := (pre ++ o :: hole ++ m :: o :: post).
Context (HM : s <= m < e) (HI : labelled l L) (HO : ~ In o (pre ++ post)) (HH : forall x, In x l -> ~ (s <= x < e)) (HW : (cyc w (seq s (e - s)) < 0)%R).
Notation o0 := (2 * o).
Notation H' := (map (Nat.mul 2) hole).
Definition sub (y : nat) : list nat := if y =? o0 then o0 :: H' ++ [S (2 * m); S o0] else [y].
Lemma sub_o : sub o0 = o0 :: H' ++ [S (2 * m); S o0]. Proof. unfold sub. now rewrite Nat.eqb_refl. Qed.
Lemma sub_other y : y <> o0 -> sub y = [y]. Proof. intros N. unfold sub. now apply Nat.eqb_neq in N as ->. Qed.
Lemma sub_id M : ~ In o0 M -> flat_map sub M = M.
Proof. induction M as [|y M IH]; [reflexivity|]. intros N. cbn [flat_map]. rewrite sub_other by (intros ->; apply N; now left). rewrite IH by (intros K; apply N; now right). reflexivity. Qed.
Lemma in_dv y : In y L -> In (dv y) l. Proof. intros I. rewrite <- (lb_map _ _ HI). now apply in_map. Qed.
Lemma step_split : exists p q, L = p ++ o0 :: q /\ map dv p = pre /\ map dv q = post /\ ~ In o0 p /\ ~ In o0 q /\ ~ In (S o0) L.
Proof.
  pose proof (lb_map _ _ HI) as E. apply map_eq_app in E as (p & q' & EL & Ep & Eq). destruct q' as [|o' q]; [discriminate Eq|]. cbn [map] in Eq. injection Eq as Eo Eq.
  assert (NP : forall y, In y (p ++ q) -> dv y <> o).
  { intros y I Ey. apply HO. rewrite <- Ep, <- Eq, <- map_app, <- Ey. now apply in_map. }
  assert (Eo' : o' = o0).
  { destruct (d2_cases o') as [K|K]; rewrite Eo in K; [exact K|]. exfalso. assert (I : In o0 L) by (apply (lb_first _ _ HI); rewrite EL, <- K; apply in_elt).
    rewrite EL in I. apply in_app_iff in I as [I|[I|I]]; [|lia|]; (apply (NP o0); [apply in_app_iff; tauto|apply d2_even]). }
  subst o'. exists p, q. repeat split; auto.
  - intros I. apply (NP o0); [apply in_app_iff; tauto|apply d2_even].
  - intros I. apply (NP o0); [apply in_app_iff; tauto|apply d2_even].
  - rewrite EL. intros I. apply in_app_iff in I as [I|[I|I]]; [|lia|]; (apply (NP (S o0)); [apply in_app_iff; tauto|apply d2_odd]).
Qed.
Definition L' : list nat := flat_map sub L.
Lemma hole_In x : In x hole <-> s <= x < e.
Proof. rewrite in_app_iff, !in_seq. lia. Qed.
Lemma hole_head : hole = m :: seq (S m) (e - S m) ++ seq s (m - s).
Proof. replace (e - m) with (S (e - S m)) by lia. reflexivity. Qed.
Lemma dv_H : map dv H' = hole.
Proof. rewrite map_map. rewrite <- (map_id hole) at 2. apply map_ext. exact d2_even. Qed.
Lemma L'_In y : In y L' <-> In y L \/ In y H' \/ y = S (2 * m) \/ y = S o0.
Proof.
  destruct step_split as (p & q & EL & _ & _ & Np & Nq & _). unfold L'. rewrite EL, flat_map_app. cbn [flat_map]. rewrite sub_o, !sub_id by assumption.
  rewrite !in_app_iff. cbn [In app]. rewrite !in_app_iff. cbn [In]. intuition.
Qed.
Lemma L'_map : map dv L' = l'.
Proof.
  destruct step_split as (p & q & EL & Ep & Eq & Np & Nq & _). unfold L'. rewrite EL, flat_map_app. cbn [flat_map]. rewrite sub_o, !sub_id by assumption.
  rewrite map_app, Ep. f_equal. cbn [app map]. rewrite d2_even. f_equal. rewrite (map_app _ (H' ++ _) q), (map_app _ H' _), dv_H, Eq, <- (app_assoc hole). f_equal. cbn [map app]. now rewrite !d2_odd.
Qed.
Lemma L'_nodup : NoDup L'.
Proof.
  destruct step_split as (p & q & EL & Ep & Eq & Np & Nq & NS).
  apply (Permutation_NoDup (l := S o0 :: S (2 * m) :: H' ++ L)).
  - unfold L'. rewrite EL at 2. rewrite flat_map_app. cbn [flat_map]. rewrite sub_o, !sub_id by assumption. rewrite EL.
    apply (Permutation_count_occ Nat.eq_dec). intros x. repeat (rewrite ?count_occ_app; progress cbn [count_occ app]). rewrite ?count_occ_app. cbn [count_occ].
    destruct (Nat.eq_dec (S o0) x), (Nat.eq_dec (S (2 * m)) x), (Nat.eq_dec o0 x); lia.
  - assert (HN : forall y, In y H' -> exists x, y = 2 * x /\ s <= x < e) by (intros y I; apply in_map_iff in I as (x & <- & I); exists x; split; [reflexivity|now apply hole_In]).
    assert (HL : forall y, In y L -> ~ (s <= dv y < e)) by (intros y I; apply HH; now apply in_dv).
    constructor; [|constructor; [|apply NoDup_app_mk]].
    + intros [I|I]; [|apply in_app_iff in I as [I|I]; [apply HN in I as (x & E & _); lia|now apply NS]].
      assert (m = o) as -> by lia. apply (HH o); [apply in_elt|lia].
    + intros I. apply in_app_iff in I as [I|I]; [apply HN in I as (x & E & _); lia|]. apply HL in I. rewrite d2_odd in I. lia.
    + apply FinFun.Injective_map_NoDup; [intros a b E; lia|]. apply (Permutation_NoDup (l := seq s (e - s))); [|apply seq_NoDup].
      replace (e - s) with ((m - s) + (e - m)) by lia. rewrite seq_app. replace (s + (m - s)) with m by lia. apply Permutation_app_comm.
    + exact (lb_nodup _ _ HI).
    + intros y I1 I2. apply HN in I1 as (x & -> & Hx). apply HL in I2. rewrite d2_even in I2. lia.
Qed.
Lemma corner_sub p a n : a <> o0 -> corner L p a n -> exists p', corner L' p' a n /\ dv p' = dv p.
Proof.
  intros Na (r & HR). apply (rotof_flat_map sub) in HR. cbn [flat_map] in HR. rewrite (sub_other a Na) in HR.
  assert (Ep : exists P p', sub p = P ++ [p'] /\ dv p' = dv p).
  { destruct (Nat.eq_dec p o0) as [->|N]; [|exists [], p; now rewrite (sub_other p N)]. exists (o0 :: H' ++ [S (2 * m)]), (S o0). rewrite sub_o. split; [|now rewrite d2_odd, d2_even].
    cbn [app]. now rewrite <- app_assoc. }
  assert (En : exists N, sub n = n :: N) by (destruct (Nat.eq_dec n o0) as [->|N]; [rewrite sub_o|rewrite (sub_other n N)]; eauto).
  destruct Ep as (P & p' & Ep & Ed), En as (N & En). rewrite Ep, En in HR. exists p'. split; [|exact Ed]. exists (N ++ flat_map sub r ++ P). eapply rotof_trans; [exact HR|].
  exists P, (p' :: a :: n :: N ++ flat_map sub r). split; [now rewrite <- app_assoc|]. cbn [app]. now rewrite <- app_assoc.
Qed.
Lemma arc_sub a X : NoDup (a :: X) -> a <> o0 -> (cyc w (map dv (a :: X)) < 0)%R -> (cyc w (map dv (a :: flat_map sub X)) < 0)%R.
Proof.
  intros ND Na HC. destruct (in_dec Nat.eq_dec o0 X) as [I|I]; [|now rewrite sub_id]. apply in_split in I as (X1 & X2 & ->).
  apply NoDup_cons_iff in ND as [_ ND]. apply NoDup_remove_2 in ND. rewrite flat_map_app. cbn [flat_map]. rewrite sub_o, !sub_id by (intros K; apply ND; apply in_app_iff; tauto).
  replace (map dv (a :: X1 ++ (o0 :: H' ++ [S (2 * m); S o0]) ++ X2)) with (map dv (a :: X1) ++ o :: hole ++ m :: o :: map dv X2).
  - rewrite cyc_splice by assumption. replace (map dv (a :: X1) ++ o :: map dv X2) with (map dv (a :: X1 ++ o0 :: X2)); [lra|].
    cbn [map app]. rewrite map_app. cbn [map]. now rewrite d2_even.
  - cbn [map app]. rewrite (map_app _ X1). cbn [map]. rewrite (map_app _ (H' ++ _) X2), (map_app _ H' _), dv_H. cbn [map]. rewrite !d2_odd, d2_even. cbn [app]. now rewrite <- (app_assoc hole).
Qed.
Lemma labelled_step : labelled l' L'.
Proof.
  pose proof L'_nodup as ND'. destruct step_split as (p & q & EL & Ep & Eq & Np & Nq & NS).
  assert (HN : forall x, ~ In (S (2 * x)) H') by (intros x I; apply in_map_iff in I as (y & E & _); lia).
  assert (Im : In (2 * m) H') by (apply in_map; apply hole_In; lia). assert (Io : In o0 L) by (rewrite EL; apply in_elt).
  constructor; [exact L'_map|exact ND'| |].
  - intros x I. apply L'_In in I as [I|[I|[I|I]]]; apply L'_In.
    + left. now apply (lb_first _ _ HI).
    + now apply HN in I.
    + assert (x = m) as -> by lia. auto.
    + assert (x = o) as -> by lia. auto.
  - set (A := map (Nat.mul 2) (seq (S m) (e - S m) ++ seq s (m - s))).
    assert (EH : H' = 2 * m :: A) by (rewrite hole_head; reflexivity).
    assert (R0 : rotof L' (o0 :: (2 * m :: A) ++ S (2 * m) :: S o0 :: q ++ p)).
    { unfold L'. rewrite EL, flat_map_app. cbn [flat_map]. rewrite sub_o, !sub_id by assumption. rewrite EH. exists p, (o0 :: (2 * m :: A) ++ S (2 * m) :: S o0 :: q).
      split; [f_equal; cbn [app]; now rewrite <- app_assoc|]. cbn [app]. now rewrite <- app_assoc. }
    assert (AH : Rlt (cyc w (map dv (2 * m :: A))) 0%R).
    { rewrite <- EH, dv_H. rewrite cyc_rot. replace (seq s (m - s) ++ seq m (e - m)) with (seq s (e - s)); [exact HW|].
      replace (e - s) with ((m - s) + (e - m)) by lia. rewrite seq_app. do 2 f_equal. lia. }
    assert (RC : forall a b c u v, o0 :: (2 * m :: A) ++ S (2 * m) :: S o0 :: q ++ p = u ++ a :: b :: c :: v -> corner L' a b c).
    { intros a b c u v E. exists (v ++ u). eapply rotof_trans; [exact R0|]. exists u, (a :: b :: c :: v). split; [exact E|reflexivity]. }
    (* neighbours of the four ends of the bridge *)
    destruct (exists_last (l := S o0 :: q ++ p) ltac:(discriminate)) as (B1 & bl & EB).
    destruct ((q ++ p) ++ [o0]) as [|bf B2] eqn:EB2; [destruct (q ++ p); discriminate EB2|].
    destruct (A ++ [S (2 * m)]) as [|af A1] eqn:EA1; [destruct A; discriminate EA1|].
    destruct (exists_last (l := 2 * m :: A) ltac:(discriminate)) as (A2 & al & EA2).
    assert (C1 : corner L' bl o0 (2 * m)).
    { exists (A ++ S (2 * m) :: B1). eapply rotof_trans; [exact R0|]. rewrite EB. exists (o0 :: (2 * m :: A) ++ S (2 * m) :: B1), [bl]. split; [cbn [app]; rewrite <- app_assoc; reflexivity|]. reflexivity. }
    assert (C2 : corner L' (S (2 * m)) (S o0) bf).
    { exists (B2 ++ 2 * m :: A). eapply rotof_trans; [exact R0|]. exists (o0 :: 2 * m :: A), (S (2 * m) :: S o0 :: q ++ p). split; [reflexivity|]. cbn [app].
      change (bf :: B2 ++ 2 * m :: A) with ((bf :: B2) ++ 2 * m :: A). rewrite <- EB2, <- app_assoc. reflexivity. }
    assert (C3 : corner L' o0 (2 * m) af).
    { exists (A1 ++ S o0 :: q ++ p). replace (o0 :: 2 * m :: af :: A1 ++ S o0 :: q ++ p) with (o0 :: (2 * m :: A) ++ S (2 * m) :: S o0 :: q ++ p); [exact R0|].
      change (af :: A1 ++ S o0 :: q ++ p) with ((af :: A1) ++ S o0 :: q ++ p). rewrite <- EA1, <- app_assoc. reflexivity. }
    assert (C4 : corner L' al (S (2 * m)) (S o0)).
    { apply (RC _ _ _ (o0 :: A2) (q ++ p)). rewrite EA2. cbn [app]. now rewrite <- app_assoc. }
    intros x I. apply L'_In in I as [I|[I|[I|I]]].
    + assert (Nx : x <> o) by (intros ->; now apply NS). destruct (lb_pair _ _ HI x I) as ((X & Y & HR & HC) & (p1 & n1 & p2 & n2 & K1 & K2 & K3)). split.
      * pose proof (Permutation_NoDup (rotof_perm _ _ HR) (lb_nodup _ _ HI)) as ND.
        exists (flat_map sub X), (flat_map sub Y). split.
        -- apply (rotof_flat_map sub) in HR. cbn [flat_map] in HR. rewrite flat_map_app in HR. cbn [flat_map] in HR. rewrite (sub_other (2 * x)), (sub_other (S (2 * x))) in HR by lia. exact HR.
        -- apply arc_sub; [|lia|exact HC]. apply (NoDup_app_l (2 * x :: X) (S (2 * x) :: Y)). exact ND.
      * apply corner_sub in K1 as (p1' & K1 & D1); [|lia]. apply corner_sub in K2 as (p2' & K2 & D2); [|lia]. exists p1', n1, p2', n2. rewrite D1, D2. auto.
    + now apply HN in I.
    + assert (x = m) as -> by lia. split.
      * exists A, (S o0 :: (q ++ p) ++ [o0]). split; [|exact AH]. eapply rotof_trans; [exact R0|]. exists [o0], ((2 * m :: A) ++ S (2 * m) :: S o0 :: q ++ p). split; [reflexivity|].
        cbn [app]. rewrite <- !app_assoc. cbn [app]. now rewrite <- app_assoc.
      * exists o0, af, al, (S o0). split; [exact C3|]. split; [exact C4|]. right. now rewrite d2_odd, d2_even.
    + assert (x = o) as -> by lia. split.
      * exists ((2 * m :: A) ++ [S (2 * m)]), (q ++ p). split.
        -- rewrite <- app_assoc. exact R0.
        -- cbn [app map]. rewrite map_app. cbn [map]. rewrite d2_odd, d2_even, (d2_even m). rewrite cyc_hair by exact Hw. cbn [map] in AH. rewrite d2_even in AH. exact AH.
      * exists bl, (2 * m), (S (2 * m)), bf. split; [exact C1|]. split; [exact C2|]. left. now rewrite d2_odd, d2_even.
Qed.
End Step.
Notation ranges := (flat_map (fun '(s, e) => seq s (e - s))).
Lemma merged_count Q l hs r x : merged Q l hs r -> count_occ Nat.eq_dec l x <= count_occ Nat.eq_dec r x.
Proof.
  intros H. destruct (merged_contents _ _ _ _ H) as (B & _ & P & _). rewrite (Permutation_count_occ Nat.eq_dec) in P. rewrite P, !count_occ_app. lia.
Qed.
(** every result of merging has labels, when no vertex occurs three times and holes are clockwise *)
Lemma merged_labels Q l hs r : merged Q l hs r -> (forall x, count_occ Nat.eq_dec r x <= 2) ->
  (forall x, In x l -> ~ In x (ranges hs)) -> NoDup (ranges hs) -> (forall s e, In (s, e) hs -> (cyc w (seq s (e - s)) < 0)%R) ->
  forall L, labelled l L -> exists L', labelled r L'.
Proof.
  induction 1 as [l|pre o post s e m hs r HM HQ HR IH]; intros HC HD HN HW L HL; [now exists L|].
  cbn [flat_map] in HD, HN. pose proof (NoDup_app_disj _ _ HN) as ND.
  assert (HO : ~ In o (pre ++ post)).
  { intros I. pose proof (merged_count _ _ _ _ o HR) as K. specialize (HC o). apply (count_occ_In Nat.eq_dec) in I. rewrite count_occ_app in I.
    rewrite count_occ_app in K. cbn [count_occ] in K. destruct (Nat.eq_dec o o) as [_|N]; [|now apply N]. rewrite count_occ_app in K. cbn [count_occ] in K.
    destruct (Nat.eq_dec o o) as [_|N]; [|now apply N]. destruct (Nat.eq_dec m o); lia. }
  assert (HH : forall x, In x (pre ++ o :: post) -> ~ s <= x < e).
  { intros x I Hx. apply (HD x I). apply in_app_iff. left. apply in_seq. lia. }
  pose proof (labelled_step pre post o s e m L HM HL HO HH (HW s e (or_introl eq_refl))) as HL'. eapply IH; [exact HC| | | |exact HL'].
  - intros x I I2. assert (K : In x (pre ++ o :: post) \/ s <= x < e).
    { apply in_app_iff in I as [I|[I|I]]; [left; apply in_app_iff; tauto|left; subst x; apply in_elt|].
      apply in_app_iff in I as [I|[I|[I|I]]]; [right; now apply (hole_In s e m)|right; lia|left; subst x; apply in_elt|left; apply in_app_iff; right; now right]. }
    destruct K as [K|K]; [apply (HD x K); apply in_app_iff; now right|]. apply (ND x); [apply in_seq; lia|exact I2].
  - apply (NoDup_app_l _ (seq s (e - s))). apply (Permutation_NoDup (Permutation_app_comm _ _) HN).
  - intros s' e' I. apply HW. now right.
Qed.

(** back to positions *)
Definition pos_at (l : list nat) (i : nat) : nat := nth i l 0.
Section Positions.
Context (l L : list nat) (HL : labelled l L) (H3 : 3 <= length l).
Notation n := (length l).
Notation f := (pos_at l).
Notation g := (pos_at L).
Lemma lab_length : length L = n. Proof. now rewrite <- (lb_map _ _ HL), map_length. Qed.
Lemma map_nth_seq (M : list nat) : map (pos_at M) (seq 0 (length M)) = M.
Proof.
  apply (nth_ext _ _ 0 0); [now rewrite map_length, seq_length|]. intros i Hi. rewrite map_length, seq_length in Hi.
  rewrite (nth_indep _ _ (pos_at M 0)) by now rewrite map_length, seq_length. rewrite map_nth, seq_nth by exact Hi. reflexivity.
Qed.
Lemma g_map : map g (seq 0 n) = L. Proof. rewrite <- lab_length. apply map_nth_seq. Qed.
Lemma fg i : f i = dv (g i). Proof. unfold pos_at. rewrite <- (lb_map _ _ HL). change 0 with (dv 0) at 1. apply map_nth. Qed.
Lemma g_inj i j : i < n -> j < n -> g i = g j -> i = j.
Proof. intros Hi Hj. apply NoDup_nth; [exact (lb_nodup _ _ HL)| |]; now rewrite lab_length. Qed.
Lemma copies i j : i < n -> j < n -> i <> j -> f i = f j -> exists x, (g i = 2 * x /\ g j = S (2 * x)) \/ (g j = 2 * x /\ g i = S (2 * x)).
Proof.
  intros Hi Hj N E. rewrite !fg in E. exists (dv (g i)). pose proof (d2_cases (g i)) as K1. pose proof (d2_cases (g j)) as K2. rewrite <- E in K2.
  assert (g i <> g j) by (intros K; apply N; now apply g_inj). lia.
Qed.
Lemma g_In i : i < n -> In (g i) L. Proof. intros Hi. apply nth_In. now rewrite lab_length. Qed.
Lemma pos_apair i j x : i < n -> j < n -> g i = 2 * x -> g j = S (2 * x) ->
  exists X Y, rotof (seq 0 n) (i :: X ++ j :: Y) /\ (cyc w (map f (i :: X)) < 0)%R.
Proof.
  intros Hi Hj Ei Ej. destruct (lb_pair _ _ HL x) as ((X & Y & HR & HC) & _); [rewrite <- Ej; now apply g_In|].
  rewrite <- g_map in HR. apply rotof_unmap in HR as (M & HR & EM). destruct M as [|i' M]; [discriminate EM|]. cbn [map] in EM. injection EM as Ei' EM.
  apply map_eq_app in EM as (X' & M' & -> & EX & EM). destruct M' as [|j' Y']; [discriminate EM|]. cbn [map] in EM. injection EM as Ej' EY.
  assert (B : forall y, In y (i' :: X' ++ j' :: Y') -> y < n) by (intros y I; apply (rotof_In _ _ y HR) in I; apply in_seq in I; lia).
  assert (i' = i) as -> by (apply g_inj; [apply B; now left|exact Hi|lia]).
  assert (j' = j) as -> by (apply g_inj; [apply B; right; apply in_elt|exact Hj|lia]).
  exists X', Y'. split; [exact HR|]. replace (map f (i :: X')) with (map dv (2 * x :: X)); [exact HC|].
  cbn [map]. rewrite fg, Ei. f_equal. rewrite <- EX, map_map. apply map_ext. intros a. now rewrite fg.
Qed.
Lemma pos_beside i j x : i < n -> j < n -> g i = 2 * x -> g j = S (2 * x) ->
  f (next_pos n i) = f (prev_pos n j) \/ f (next_pos n j) = f (prev_pos n i).
Proof.
  intros Hi Hj Ei Ej. destruct (lb_pair _ _ HL x) as (_ & (p & q & p' & q' & K1 & K2 & K3)); [rewrite <- Ej; now apply g_In|].
  rewrite <- g_map in K1, K2. apply corner_unmap in K1 as (a & b & c & K1 & Ea & Eb & Ec). apply corner_unmap in K2 as (a' & b' & c' & K2 & Ea' & Eb' & Ec').
  assert (BD : forall a b c, corner (seq 0 n) a b c -> b < n) by (intros y1 y2 y3 KC; destruct (corner_In _ _ _ _ KC) as (_ & KI & _); apply in_seq in KI; lia).
  assert (b = i) as -> by (apply g_inj; [now apply (BD a b c)|exact Hi|lia]).
  assert (b' = j) as -> by (apply g_inj; [now apply (BD a' b' c')|exact Hj|lia]).
  assert (L3 : 3 <= length (seq 0 n)) by now rewrite seq_length.
  destruct (corner_uniq _ _ _ _ _ _ (seq_NoDup n 0) L3 K1 (seq_corner_pos n i H3 Hi)) as [-> ->].
  destruct (corner_uniq _ _ _ _ _ _ (seq_NoDup n 0) L3 K2 (seq_corner_pos n j H3 Hj)) as [-> ->].
  rewrite !fg. rewrite Ec, Ea', Ec', Ea. exact K3.
Qed.
End Positions.
End Labels.
