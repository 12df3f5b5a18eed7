(** Dropping straight corners of an index polygon. *)
From Coq Require Import Reals Lra Lia Arith Permutation Sorted.
From Verif Require Import Prelude Num M_vec M_utils M_polygon L_base L_vec L_geom L_cycle L_polygon Props_polygon Props_ears L_simple L_sides L_twoears L_earexist L_clip Props_simple.

Open Scope nat_scope.
(** ** Deleting several positions of a list without repetitions *)
Definition mem (x : nat) (l : list nat) : bool := existsb (Nat.eqb x) l.
Lemma mem_In x l : mem x l = true <-> In x l.
Proof. unfold mem. rewrite existsb_exists. split; [intros (y & I & E); apply Nat.eqb_eq in E; now subst|intros I; exists x; now rewrite Nat.eqb_refl]. Qed.
Lemma mem_false x l : mem x l = false <-> ~ In x l.
Proof. rewrite <- mem_In. destruct (mem x l); split; intros; congruence || auto. Qed.
Definition without (ds l : list nat) : list nat := filter (fun x => negb (mem x ds)) l.
Lemma In_without ds l x : In x (without ds l) <-> In x l /\ ~ In x ds.
Proof. unfold without. rewrite filter_In, Bool.negb_true_iff, mem_false. reflexivity. Qed.
Lemma without_nil l : without [] l = l.
Proof. unfold without. apply filter_all. reflexivity. Qed.
Lemma without_ext ds ds' l : (forall x, In x l -> In x ds <-> In x ds') -> without ds l = without ds' l.
Proof.
  intros H. unfold without. apply filter_ext_in. intros x Ix. f_equal. specialize (H x Ix). destruct (mem x ds) eqn:E, (mem x ds') eqn:E'; try reflexivity.
  - apply mem_In in E. apply mem_false in E'. tauto.
  - apply mem_In in E'. apply mem_false in E. tauto.
Qed.
Lemma without_app ds ds' l : without (ds ++ ds') l = without ds' (without ds l).
Proof.
  unfold without. induction l as [|x l IH]; [reflexivity|]. cbn [filter]. unfold mem at 1. rewrite existsb_app. fold (mem x ds) (mem x ds').
  destruct (mem x ds); cbn [orb negb]; [exact IH|]. cbn [filter]. destruct (mem x ds'); cbn [negb]; [exact IH|now rewrite IH].
Qed.
Lemma delete_without l j d : NoDup l -> j < length l -> delete_nth l j = without [nth j l d] l.
Proof.
  intros ND H. destruct (app_len2 l j ltac:(lia)) as (l1 & l2 & -> & HL). rewrite app_length in H. destruct l2 as [|c l2]; [cbn in H; lia|].
  rewrite delete_at by auto. rewrite app_nth2, HL, Nat.sub_diag by lia. cbn [nth]. unfold without. rewrite filter_app. cbn [filter].
  unfold mem at 2. cbn [existsb]. rewrite Nat.eqb_refl. cbn [orb negb]. apply NoDup_remove_2 in ND.
  rewrite !filter_all; [reflexivity| |]; intros x Ix; apply Bool.negb_true_iff, mem_false; intros [<-|[]]; apply ND, in_or_app; auto.
Qed.
Lemma NoDup_without ds l : NoDup l -> NoDup (without ds l).
Proof. apply NoDup_filter. Qed.
Lemma remove_all_without ps : forall l d, NoDup l -> StronglySorted gt ps -> (forall j, In j ps -> j < length l) -> remove_all l ps = without (map (fun j => nth j l d) ps) l.
Proof.
  induction ps as [|j ps IH]; intros l d ND HS HV; [cbn; now rewrite without_nil|]. inversion HS as [|? ? S1 S2]; subst. rewrite Forall_forall in S2.
  assert (Hj : j < length l) by (apply HV; now left).
  change (remove_all l (j :: ps)) with (remove_all (delete_nth l j) ps). rewrite (IH _ d).
  - cbn [map]. change (nth j l d :: map (fun j => nth j l d) ps) with ([nth j l d] ++ map (fun j => nth j l d) ps). rewrite without_app, <- (delete_without l j d ND Hj).
    f_equal. apply map_ext_in. intros k Ik. apply delete_nth_lt; [exact (S2 k Ik)|exact Hj].
  - now apply NoDup_delete.
  - exact S1.
  - intros k Ik. rewrite delete_length by exact Hj. specialize (S2 k Ik). lia.
Qed.
Lemma sorted_rev ps : NoDup ps -> StronglySorted le ps -> StronglySorted gt (rev ps).
Proof.
  induction ps as [|x ps IH]; intros ND HS; [constructor|]. inversion ND as [|? ? N1 N2]; subst. inversion HS as [|? ? S1 S2]; subst. rewrite Forall_forall in S2. cbn [rev].
  assert (K : forall a, StronglySorted gt a -> (forall y, In y a -> x < y) -> StronglySorted gt (a ++ [x])).
  { induction a as [|y a IHa]; intros Sa Ha; [repeat constructor|]. inversion Sa as [|? ? T1 T2]; subst. cbn [app]. constructor; [apply IHa; [exact T1|intros; apply Ha; now right]|].
    apply Forall_app. split; [exact T2|]. constructor; [apply Ha; now left|constructor]. }
  apply K; [now apply IH|]. intros y Iy. apply in_rev in Iy. pose proof (S2 y Iy). destruct (Nat.eq_dec x y) as [->|]; [contradiction|lia].
Qed.
Lemma remove_sorted l d js : NoDup l -> NoDup js -> (forall j, In j js -> j < length l) -> remove_all l (rev (sort_nat js)) = without (map (fun j => nth j l d) js) l.
Proof.
  intros ND NJ HV. pose proof (isort_perm Nat.ltb js) as P. fold (sort_nat js) in P. rewrite (remove_all_without _ l d ND).
  - apply without_ext. intros x _. rewrite !in_map_iff. split; intros (j & E & I); exists j; (split; [exact E|]); [apply in_rev in I; now apply (Permutation_in _ P)|apply -> in_rev; now apply (Permutation_in _ (Permutation_sym P))].
  - apply sorted_rev; [exact (Permutation_NoDup (Permutation_sym P) NJ)|apply sort_nat_sorted].
  - intros j Ij. apply in_rev in Ij. apply HV. exact (Permutation_in _ P Ij).
Qed.
Lemma rotof_without ds l l' : rotof l l' -> rotof (without ds l) (without ds l').
Proof. intros (u & v & -> & ->). exists (without ds u), (without ds v). unfold without. now rewrite !filter_app. Qed.
Lemma sublist_filter {A} (f : A -> bool) l : sublist (filter f l) l.
Proof. induction l as [|x l IH]; [constructor|]. cbn [filter]. destruct (f x); now constructor. Qed.
Lemma without_length ds l : NoDup l -> NoDup ds -> incl ds l -> length (without ds l) + length ds = length l.
Proof.
  intros ND NS HI. assert (P : Permutation (filter (fun x => mem x ds) l) ds).
  { apply NoDup_Permutation; [now apply NoDup_filter|exact NS|]. intros x. rewrite filter_In, mem_In. split; [tauto|]. intros I. split; [now apply HI|exact I]. }
  rewrite <- (Permutation_length P). clear. unfold without. induction l as [|x l IH]; [reflexivity|]. cbn [filter]. destruct (mem x ds); cbn [negb length]; lia.
Qed.

Section Drop.
Context (points : list (vec2 R)).
Notation t3 a b c := (T (pt points a) (pt points b) (pt points c)).
Open Scope R_scope.
(** weights of edges that add up along a straight line *)
Definition additive (w : vec2 R -> vec2 R -> R) : Prop := antisym w /\ forall a v b, on a b v -> w a v + w v b = w a b.
Definition along (w : vec2 R -> vec2 R -> R) (l : list nat) : R := cyc (fun a b => w (pt points a) (pt points b)) l.
Lemma cross2_additive : additive cross2.
Proof. split; [exact cross2_anti|]. intros a v b (t & _ & ->). unfold cross2, at_. cbn [x2 y2]. ring. Qed.
Lemma wind_additive q : additive (wind q).
Proof.
  split; [apply wind_antisym|]. intros a v b (t & Ht & ->). unfold wind.
  assert (E1 : T a (at_ a b t) q = t * T a b q) by (unfold tri_area2, at_; cbn [x2 y2]; ring).
  assert (E2 : T (at_ a b t) b q = (1 - t) * T a b q) by (unfold tri_area2, at_; cbn [x2 y2]; ring).
  rewrite E1, E2. cbn [at_ y2]. set (ya := y2 a). set (yb := y2 b). set (y := y2 q). set (s := T a b q).
  destruct (Req_dec t 0) as [->|N0].
  { replace (0 * s) with 0 by ring. replace ((1 - 0) * ya + 0 * yb) with ya by ring. replace ((1 - 0) * s) with s by ring.
    replace (Rltb 0 0) with false by (destruct (Rltb_spec 0 0); [lra|reflexivity]). rewrite !Bool.andb_false_r. lra. }
  destruct (Req_dec t 1) as [->|N1].
  { replace ((1 - 1) * ya + 1 * yb) with yb by ring. replace ((1 - 1) * s) with 0 by ring. replace (1 * s) with s by ring.
    replace (Rltb 0 0) with false by (destruct (Rltb_spec 0 0); [lra|reflexivity]). rewrite !Bool.andb_false_r. lra. }
  assert (Hs : (Rltb 0 (t * s) = Rltb 0 s /\ Rltb (t * s) 0 = Rltb s 0) /\ Rltb 0 ((1 - t) * s) = Rltb 0 s /\ Rltb ((1 - t) * s) 0 = Rltb s 0).
  { assert (K : forall k, 0 < k -> Rltb 0 (k * s) = Rltb 0 s /\ Rltb (k * s) 0 = Rltb s 0).
    { intros k Hk. destruct (Rtotal_order s 0) as [L|[L|L]].
      - pose proof (mul_pp k (- s) Hk ltac:(lra)). split; repeat match goal with |- context [Rltb ?x ?y] => destruct (Rltb_spec x y) end; try reflexivity; lra.
      - rewrite L, Rmult_0_r. split; reflexivity.
      - pose proof (mul_pp k s Hk ltac:(lra)). split; repeat match goal with |- context [Rltb ?x ?y] => destruct (Rltb_spec x y) end; try reflexivity; lra. }
    split; apply K; lra. }
  destruct Hs as [[-> ->] [-> ->]].
  assert (O : (ya <= (1 - t) * ya + t * yb <= yb) \/ (yb <= (1 - t) * ya + t * yb <= ya)).
  { destruct (Rle_lt_dec ya yb) as [L|L]; [left|right].
    - pose proof (mul_p t (yb - ya) ltac:(lra) ltac:(lra)). pose proof (mul_p (1 - t) (yb - ya) ltac:(lra) ltac:(lra)). lra.
    - pose proof (mul_p t (ya - yb) ltac:(lra) ltac:(lra)). pose proof (mul_p (1 - t) (ya - yb) ltac:(lra) ltac:(lra)). lra. }
  set (ym := (1 - t) * ya + t * yb) in *. clearbody ym ya yb y s. clear E1 E2 N0 N1 Ht.
  destruct (Rltb_spec 0 s), (Rltb_spec s 0); rewrite ?Bool.andb_false_r, ?Bool.andb_true_r; try lra;
    repeat match goal with |- context [Rleb ?x ?y] => destruct (Rleb_spec x y) | |- context [Rltb ?x ?y] => destruct (Rltb_spec x y) end; cbn [andb]; lra.
Qed.
Definition straight (l : list nat) (v : nat) : Prop := exists a b, corner l a v b /\ t3 a v b = 0.
(** every corner of [l'] turns as the corner of [l] at the same vertex *)
Definition turns_as (l l' : list nat) : Prop := forall a v b, corner l' a v b -> exists a' b' k, 0 < k /\ corner l a' v b' /\ t3 a v b = k * t3 a' v b'.
Lemma poly_NoDup l : good (poly points l) -> NoDup l.
Proof. intros G. exact (NoDup_map_inv _ _ (proj1 (good_gp _ G))). Qed.
Lemma poly_len l : good (poly points l) -> (3 <= length l)%nat.
Proof. intros G. pose proof (good_len _ G) as H. unfold poly in H. now rewrite map_length in H. Qed.
Lemma straight_on l a v b : good (poly points l) -> corner l a v b -> t3 a v b = 0 -> on (pt points a) (pt points b) (pt points v).
Proof.
  intros G HC Z. destruct (corner_straight _ _ _ _ (good_gp _ G) (corner_map (pt points) _ _ _ _ HC) Z) as (s & Hs & Es). exists (/ s). split; [split; [left; apply Rinv_0_lt_compat; lra|rewrite <- Rinv_1; apply Rinv_le_contravar; lra]|].
  rewrite Es. apply v2_ext; cbn [at_ x2 y2]; field; lra.
Qed.
Lemma drop_one l v : good (poly points l) -> straight l v -> let l' := without [v] l in
  good (poly points l') /\ turns_as l l' /\ forall w, additive w -> along w l = along w l'.
Proof.
  intros G (a0 & b0 & HC & Z). cbv zeta. pose proof (poly_NoDup l G) as ND. pose proof (poly_len l G) as H3. destruct (corner_In _ _ _ _ HC) as (_ & Iv & _).
  destruct (In_nth _ _ 0%nat Iv) as (i & Hi & Ei). destruct (pos_rot l i H3 Hi) as (a & v' & b & mid & Ec & Ep & En & R & R').
  rewrite (idx_nth _ i 0%nat Hi), Ei in Ec. apply Ok_inj in Ec. subst v'. rewrite (delete_without l i 0%nat ND Hi), Ei in R'. set (l' := without [v] l) in *.
  pose proof (rot_corner _ _ _ _ _ R) as HC'. destruct (corner_uniq l _ _ _ _ _ ND H3 HC HC') as [-> ->]. clear HC'.
  pose proof (straight_on l a v b G HC Z) as Ov.
  pose proof (rotof_map (pt points) _ _ R) as Rm. cbn [map] in Rm. rewrite map_app in Rm. destruct (drop_good _ _ _ _ _ G Rm Z) as [NM G'].
  assert (GL : good (poly points l')).
  { apply (rotof_good (map (pt points) (b :: mid ++ [a]))); [apply rotof_map; now apply rotof_sym|]. cbn [map]. rewrite map_app. exact G'. }
  split; [exact GL|]. pose proof (poly_NoDup l' GL) as ND'. pose proof (poly_len l' GL) as H3'. split.
  - intros x y z Hxyz. apply (corner_iff _ _ _ _ ND' H3') in Hxyz as [Ea Eb]. apply (rotof_edge _ _ _ _ R') in Ea, Eb.
    assert (RP : rotof l (b :: mid ++ a :: [v])). { eapply rotof_trans; [exact R|]. exists [v], (b :: mid ++ [a]). split; [reflexivity|]. cbn [app]. now rewrite <- app_assoc. }
    assert (EP : forall x y, edge (b :: mid ++ [a]) x y -> edge l x y \/ (x = a /\ y = b)).
    { intros x' y' E. apply (chord_edges1 b a mid) in E. destruct E as [E|E]; [left|now right]. apply (rotof_edge _ _ _ _ RP). apply chord_edges. now left. }
    destruct (corner_edge _ _ _ _ HC) as [Eav Evb]. destruct (corner_distinct _ _ _ _ ND HC) as (D1 & D2 & D3).
    destruct (corner_straight _ _ _ _ (good_gp _ G) (corner_map (pt points) _ _ _ _ HC) Z) as (s & Hs & Es).
    apply EP in Ea, Eb. destruct Ea as [Ea|[-> ->]]; [destruct Eb as [Eb|[-> ->]]|].
    + exists x, z, 1. split; [lra|]. split; [now apply corner_iff|ring].
    + exists x, v, s. split; [lra|]. split; [now apply corner_iff|]. rewrite Es, T_at, T_self2. ring.
    + destruct Eb as [Eb|[-> _]]; [|congruence]. exists v, z, (s / (s - 1)). split; [apply Rdiv_lt_0_compat; lra|]. split; [now apply corner_iff|].
      rewrite Es. unfold tri_area2, at_. cbn [x2 y2]. field. lra.
  - intros w [Aw Lw]. unfold along. set (w' := fun a b => w (pt points a) (pt points b)). assert (Aw' : antisym w') by (intros x y; apply Aw).
    rewrite (rotof_cyc w' _ _ R), (rotof_cyc w' _ _ R'), (cyc_clip w' v b a mid Aw'). rewrite cyc3. unfold w'. specialize (Lw _ _ _ Ov). pose proof (Aw (pt points b) (pt points a)). lra.
Qed.
Lemma turns_trans l1 l2 l3 : turns_as l1 l2 -> turns_as l2 l3 -> turns_as l1 l3.
Proof.
  intros H1 H2 a v b HC. destruct (H2 a v b HC) as (a' & b' & k & Hk & HC' & ->). destruct (H1 a' v b' HC') as (a'' & b'' & k' & Hk' & HC'' & ->).
  exists a'', b'', (k * k'). split; [now apply mul_pp|]. split; [exact HC''|ring].
Qed.
Lemma turns_straight l l' v : good (poly points l) -> (3 <= length l')%nat -> turns_as l l' -> In v l' -> straight l v -> straight l' v.
Proof.
  intros G H3 H Iv (a & b & HC & Z). destruct (In_corner l' v H3 Iv) as (x & y & HC'). destruct (H x v y HC') as (a' & b' & k & _ & HC2 & E).
  destruct (corner_uniq l _ _ _ _ _ (poly_NoDup l G) (poly_len l G) HC HC2) as [<- <-]. exists x, y. split; [exact HC'|]. rewrite E, Z. ring.
Qed.
Lemma drop_many ds : forall l, good (poly points l) -> NoDup ds -> (forall v, In v ds -> straight l v) -> let l' := without ds l in
  good (poly points l') /\ turns_as l l' /\ forall w, additive w -> along w l = along w l'.
Proof.
  induction ds as [|v ds IH]; intros l G ND HS; cbv zeta.
  - rewrite without_nil. split; [exact G|]. split; [|reflexivity]. intros x y z HC. exists x, z, 1. split; [lra|]. split; [exact HC|ring].
  - inversion ND as [|? ? N1 N2]; subst. change (v :: ds) with ([v] ++ ds). rewrite without_app.
    destruct (drop_one l v G (HS v ltac:(now left))) as (G1 & T1 & A1). cbv zeta in *. set (l1 := without [v] l) in *.
    destruct (IH l1 G1 N2) as (G2 & T2 & A2).
    { intros x Ix. apply (turns_straight l l1 x G (poly_len _ G1) T1); [|apply HS; now right]. destruct (HS x ltac:(now right)) as (a & b & HC & _). apply corner_In in HC as (_ & I & _).
      apply In_without. split; [exact I|]. intros [->|[]]. contradiction. }
    split; [exact G2|]. split; [exact (turns_trans _ _ _ T1 T2)|]. intros w Aw. rewrite (A1 w Aw). now apply A2.
Qed.
End Drop.
