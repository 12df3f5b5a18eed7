(** Property C64: ear clipping of simple polygons with vertices on common lines. *)
From Coq Require Import Reals Lra Lia Arith Permutation.
From Verif Require Import Prelude Num M_vec M_utils M_polygon L_base L_vec L_geom L_cycle L_polygon Props_polygon Props_ears L_simple L_sides L_twoears L_earexist L_clip Props_simple L_drop.
Open Scope nat_scope.

Section Clip.
Context (points : list (vec2 R)).
Notation t3 a b c := (T (pt points a) (pt points b) (pt points c)).
Open Scope R_scope.
Context (HRes : forall a b c, (a < length points)%nat -> (b < length points)%nat -> (c < length points)%nat -> t3 a b c = 0 \/ TOL < Rabs (t3 a b c)).
Context (vs0 conc0 : list nat) (HV0 : valid_indices points vs0) (HC0 : valid_indices points conc0).
(** a reflex vertex of the polygon that lies between two others *)
Definition dropped (v : nat) : Prop := In v conc0 /\ exists a b, In a vs0 /\ In b vs0 /\ a <> v /\ b <> v /\ on (pt points a) (pt points b) (pt points v).
Record winv (D : list nat) (st : ear_state) : Prop := {
  w_sub : sublist (e_verts st) vs0;
  w_good : good (poly points (e_verts st));
  w_cnd : NoDup (e_conc st);
  w_incl : incl (e_conc st) conc0;
  w_conc : forall o, In o (e_conc st) -> In o (e_verts st) \/ In o D;
  w_turn : forall a v b, corner (e_verts st) a v b -> t3 a v b <> 0 /\ (In v (e_conc st) <-> t3 a v b < 0) }.
Lemma res_sign a b c : (a < length points)%nat -> (b < length points)%nat -> (c < length points)%nat -> t3 a b c = 0 \/ TOL < t3 a b c \/ t3 a b c < - TOL.
Proof. intros Ha Hb Hc. destruct (HRes a b c Ha Hb Hc) as [|H]; [now left|right]. revert H. unfold Rabs. destruct (Rcase_abs _); lra. Qed.
Lemma wupd_prev verts conc i p n pp conc1 d1 : NoDup conc -> (i < length verts)%nat -> (3 <= length verts)%nat -> idx verts (prev_pos (length verts) (prev_pos (length verts) i)) = Ok pp ->
  t3 pp p n = 0 \/ TOL < t3 pp p n \/ t3 pp p n < - TOL ->
  ear_update_prev points verts conc (length verts) i p n = Ok (conc1, d1) ->
  NoDup conc1 /\ (forall x, In x conc1 <-> In x conc /\ ~ (x = p /\ 0 < t3 pp p n)) /\
  (d1 = [] /\ ~ (In p conc /\ t3 pp p n = 0) \/ d1 = [prev_pos (length verts) i] /\ In p conc /\ t3 pp p n = 0).
Proof.
  intros ND Hi H3 Epp HS. assert (0 < TOL) by (unfold TOL; lra). unfold ear_update_prev. destruct (binary_search conc p) as [j|] eqn:B.
  - intros E. bindas E k Ek. bindas E pp' Epp'. bindas E x EA. bindas E x0 EB. bindas E x1 EC.
    apply usub_inv in Ek as [Hk ->]. rewrite prev2_pos_mod in Epp' by lia. rewrite Epp in Epp'. apply Ok_inj in Epp'. subst pp'.
    apply idx_pt in EA, EB, EC. subst. pose proof (convexity_cases (pt points pp) (pt points p) (pt points n)) as K. cbv zeta in K.
    assert (Ip : In p conc) by (eapply nth_error_In; eapply search_nth; eassumption).
    destruct (compute_convexity _ _ _).
    + bindas E y E3. apply remove_at_inv in E3 as [Hj ->]. apply Ok_inj in E. inversion E; subst. split; [now apply NoDup_delete|]. split.
      * intros y. rewrite (In_delete conc j p) by (auto using search_nth). intuition lra.
      * left. split; [reflexivity|]. intros [_ ?]. lra.
    + assert (Z : t3 pp p n = 0) by (revert K; unfold Rabs; destruct (Rcase_abs _); lra).
      bindas E y E3. apply usub_inv in E3 as [_ ->]. apply Ok_inj in E. inversion E; subst. split; [exact ND|]. split; [intros y; intuition lra|]. right. rewrite prev_pos_mod by lia. auto.
    + apply Ok_inj in E. inversion E; subst. split; [exact ND|]. split; [intros y; intuition lra|]. left. split; [reflexivity|]. intros [_ ?]. lra.
  - intros E. apply Ok_inj in E. inversion E; subst. apply binary_search_None in B. split; [exact ND|]. split.
    + intros y. split; [|tauto]. intros I. split; [exact I|]. intros [-> _]. contradiction.
    + left. split; [reflexivity|]. tauto.
Qed.
Lemma wupd_next verts conc i p n nn conc1 d1 : NoDup conc -> (i < length verts)%nat -> (3 <= length verts)%nat -> idx verts (next_pos (length verts) (next_pos (length verts) i)) = Ok nn ->
  t3 p n nn = 0 \/ TOL < t3 p n nn \/ t3 p n nn < - TOL ->
  ear_update_next points verts conc (length verts) i p n = Ok (conc1, d1) ->
  NoDup conc1 /\ (forall x, In x conc1 <-> In x conc /\ ~ (x = n /\ 0 < t3 p n nn)) /\
  (d1 = [] /\ ~ (In n conc /\ t3 p n nn = 0) \/ d1 = [next_pos (length verts) i] /\ In n conc /\ t3 p n nn = 0).
Proof.
  intros ND Hi H3 Enn HS. assert (0 < TOL) by (unfold TOL; lra). unfold ear_update_next. destruct (binary_search conc n) as [j|] eqn:B.
  - intros E. bindas E nn' Enn'. bindas E x EA. bindas E x0 EB. bindas E x1 EC.
    rewrite next2_pos_mod in Enn' by lia. rewrite Enn in Enn'. apply Ok_inj in Enn'. subst nn'.
    apply idx_pt in EA, EB, EC. subst. pose proof (convexity_cases (pt points p) (pt points n) (pt points nn)) as K. cbv zeta in K.
    assert (In_ : In n conc) by (eapply nth_error_In; eapply search_nth; eassumption).
    destruct (compute_convexity _ _ _).
    + bindas E y E3. apply remove_at_inv in E3 as [Hj ->]. apply Ok_inj in E. inversion E; subst. split; [now apply NoDup_delete|]. split.
      * intros y. rewrite (In_delete conc j n) by (auto using search_nth). intuition lra.
      * left. split; [reflexivity|]. intros [_ ?]. lra.
    + assert (Z : t3 p n nn = 0) by (revert K; unfold Rabs; destruct (Rcase_abs _); lra).
      apply Ok_inj in E. inversion E; subst. split; [exact ND|]. split; [intros y; intuition lra|]. right. rewrite next_pos_mod by lia. auto.
    + apply Ok_inj in E. inversion E; subst. split; [exact ND|]. split; [intros y; intuition lra|]. left. split; [reflexivity|]. intros [_ ?]. lra.
  - intros E. apply Ok_inj in E. inversion E; subst. apply binary_search_None in B. split; [exact ND|]. split.
    + intros y. split; [|tauto]. intros I. split; [exact I|]. intros [-> _]. contradiction.
    + left. split; [reflexivity|]. tauto.
Qed.
Lemma w_nd D st : winv D st -> NoDup (e_verts st).
Proof. intros [? G ? ? ? ?]. exact (poly_NoDup points _ G). Qed.
Lemma w_len D st : winv D st -> (3 <= length (e_verts st))%nat.
Proof. intros [? G ? ? ? ?]. exact (poly_len points _ G). Qed.
Lemma w_valid D st : winv D st -> valid_indices points (e_verts st).
Proof. intros [S ? ? ? ? ?] x Ix. apply HV0. exact (sublist_In _ _ _ S Ix). Qed.
(** the corner test of the code accepts only ears *)
Lemma wcode_ear D st p c n : winv D st -> corner (e_verts st) p c n -> ~ In c (e_conc st) -> is_ear points (e_conc st) p c n = Ok true ->
  ear (poly points (e_verts st)) (pt points p) (pt points c) (pt points n).
Proof.
  intros HI HC Nc E. pose proof HI as [S G CN CI CD CC]. destruct (CC p c n HC) as [Z HZ].
  assert (HT : 0 < t3 p c n) by (destruct (Rdichotomy _ _ Z); [tauto|lra]).
  apply reflex_enough; [exact G|now apply corner_map|exact HT|]. intros x y z HV L N1 N2.
  apply corner_unmap in HV as (a & v & b & HV & <- & <- & <-). destruct (CC a v b HV) as [Z' HZ']. apply (is_ear_true points _ _ _ _ E); [apply HZ'; lra| |]; congruence.
Qed.
Lemma clip_winv D st i p c n mid conc1 conc2 d1 d2 tris : winv D st -> (4 <= length (e_verts st))%nat -> (i < length (e_verts st))%nat ->
  idx (e_verts st) i = Ok c -> idx (e_verts st) (prev_pos (length (e_verts st)) i) = Ok p -> idx (e_verts st) (next_pos (length (e_verts st)) i) = Ok n ->
  rotof (e_verts st) (c :: n :: mid ++ [p]) -> rotof (delete_nth (e_verts st) i) (n :: mid ++ [p]) -> ~ In c (e_conc st) -> is_ear points (e_conc st) p c n = Ok true ->
  ear_update_prev points (e_verts st) (e_conc st) (length (e_verts st)) i p n = Ok (conc1, d1) ->
  ear_update_next points (e_verts st) conc1 (length (e_verts st)) i p n = Ok (conc2, d2) ->
  exists ds, let st' := mkEar tris (remove_all (e_verts st) (rev (sort_nat (i :: d1 ++ d2)))) conc2 in
    winv (D ++ ds) st' /\ Forall dropped ds /\ (length (e_verts st') + 1 + length ds = length (e_verts st))%nat /\
    (forall w, additive w -> along points w (e_verts st) = along points w [p; c; n] + along points w (e_verts st')) /\
    (ds = [] -> forall w, antisym w -> cyc w (e_verts st) = cyc w [p; c; n] + cyc w (e_verts st')).
Proof.
  intros HI H4 Hi Ec Ep En R R' Nc Ee U1 U2. pose proof (w_nd D st HI) as ND. pose proof (w_valid D st HI) as V. pose proof HI as [S G CN CI CD CC].
  pose proof (rot_corner _ _ _ _ _ R) as HC. pose proof (wcode_ear D st p c n HI HC Nc Ee) as HE. set (vs := e_verts st) in *. set (m := length vs) in *.
  assert (HL3 : (3 <= length vs)%nat) by (fold m; lia).
  pose proof (Permutation_length (rotof_perm _ _ R)) as HLm. cbn [length] in HLm. rewrite app_length in HLm. cbn [length] in HLm. fold m in HLm.
  pose proof (Permutation_NoDup (rotof_perm _ _ R) ND) as NDr.
  assert (NM : mid <> []) by (intros ->; cbn in HLm; lia).
  pose proof (prev_lt m i Hi) as Lp. pose proof (next_lt m i Hi) as Ln.
  assert (Epp : exists pp, idx vs (prev_pos m (prev_pos m i)) = Ok pp) by (eexists; apply (idx_nth _ _ 0%nat); apply prev_lt; exact Lp). destruct Epp as (pp & Epp).
  assert (Enn : exists nn, idx vs (next_pos m (next_pos m i)) = Ok nn) by (eexists; apply (idx_nth _ _ 0%nat); apply next_lt; exact Ln). destruct Enn as (nn & Enn).
  assert (HPp : corner vs pp p c) by (apply (pos_corner vs (prev_pos m i)); auto; fold m; rewrite next_prev; auto).
  assert (HNn : corner vs c n nn) by (apply (pos_corner vs (next_pos m i)); auto; fold m; rewrite prev_next; auto).
  assert (Npp : pp <> n).
  { destruct (exists_last NM) as (mid' & z & ->). assert (Z : corner vs z p c).
    { exists (n :: mid'). eapply rotof_trans; [exact R|]. exists (c :: n :: mid'), [z; p]. split; [cbn [app]; now rewrite <- app_assoc|reflexivity]. }
    destruct (corner_uniq vs z pp p c c ND HL3 Z HPp) as [<- _]. intros ->. inversion NDr as [|? ? _ N2]; subst. inversion N2 as [|? ? N3 _]; subst. apply N3. rewrite <- app_assoc. apply in_or_app. right. now left. }
  assert (Nnn : nn <> p).
  { destruct mid as [|z mid']; [congruence|]. assert (Z : corner vs c n z). { exists (mid' ++ [p]). exact R. }
    destruct (corner_uniq vs c c n z nn ND HL3 Z HNn) as [_ <-]. intros ->. inversion NDr as [|? ? _ N2]; subst. inversion N2 as [|? ? _ N3]; subst. inversion N3 as [|? ? N4 _]; subst. apply N4. apply in_or_app. right. now left. }
  destruct (corner_In _ _ _ _ HC) as (Ip & Ic & In_). destruct (corner_In _ _ _ _ HPp) as (Ipp & _ & _). destruct (corner_In _ _ _ _ HNn) as (_ & _ & Inn).
  destruct (corner_distinct _ _ _ _ ND HC) as (D1 & D2 & D3). destruct (corner_distinct _ _ _ _ ND HPp) as (D4 & _ & D6). destruct (corner_distinct _ _ _ _ ND HNn) as (_ & D8 & D9).
  assert (Sp : t3 pp p n = 0 \/ TOL < t3 pp p n \/ t3 pp p n < - TOL) by (apply res_sign; now apply V).
  assert (Sn : t3 p n nn = 0 \/ TOL < t3 p n nn \/ t3 p n nn < - TOL) by (apply res_sign; now apply V).
  destruct (wupd_prev vs (e_conc st) i p n pp conc1 d1 CN Hi HL3 Epp Sp U1) as (CN1 & C1 & E1).
  destruct (wupd_next vs conc1 i p n nn conc2 d2 CN1 Hi HL3 Enn Sn U2) as (CN2 & C2 & E2). fold m in E1, E2.
  assert (C12 : forall x, In x conc2 <-> In x (e_conc st) /\ ~ (x = p /\ 0 < t3 pp p n) /\ ~ (x = n /\ 0 < t3 p n nn)) by (intros x; rewrite C2, C1; tauto).
  assert (In1 : In n conc1 <-> In n (e_conc st)) by (rewrite C1; split; [tauto|]; intros I; split; [exact I|intros [? _]; congruence]). rewrite In1 in E2.
  assert (TT : 0 < TOL) by (unfold TOL; lra).
  assert (Gg : gp (poly points vs)) by apply G. assert (Gs : simple (poly points vs)) by apply G. assert (Gl : (3 <= length (poly points vs))%nat) by apply G.
  assert (PI : forall x y, In x vs -> In y vs -> pt points x = pt points y -> x = y) by (intros x y; apply NoDup_map_inj; exact (proj1 Gg)).
  (* the polygon without the tip *)
  set (l1 := delete_nth vs i) in *.
  assert (El1 : l1 = without [c] vs). { unfold l1. rewrite (delete_without vs i 0%nat ND Hi). rewrite (idx_nth vs i 0%nat Hi) in Ec. apply Ok_inj in Ec. now rewrite Ec. }
  assert (G1 : good (poly points l1)).
  { apply (rotof_good (map (pt points) (n :: mid ++ [p]))); [apply rotof_map; now apply rotof_sym|]. cbn [map]. rewrite map_app. cbn [map].
    apply (clip_good (poly points vs) (pt points p) (pt points c)); [exact G|exact HE| |destruct mid; [congruence|discriminate]].
    pose proof (rotof_map (pt points) _ _ R) as Rm. cbn [map] in Rm. rewrite map_app in Rm. exact Rm. }
  pose proof (poly_NoDup points _ G1) as ND1. pose proof (poly_len points _ G1) as HL1.
  assert (RP : rotof vs (n :: mid ++ p :: [c])). { eapply rotof_trans; [exact R|]. exists [c], (n :: mid ++ [p]). split; [reflexivity|]. cbn [app]. now rewrite <- app_assoc. }
  assert (EP : forall x y, edge l1 x y -> x <> c /\ y <> c /\ (edge vs x y \/ (x = p /\ y = n))).
  { intros x y E. assert (In x l1 /\ In y l1) as [Ix Iy] by now apply edge_In. rewrite El1 in Ix, Iy. apply In_without in Ix, Iy. cbn [In] in *. split; [intuition congruence|]. split; [intuition congruence|].
    apply (rotof_edge _ _ _ _ R') in E. apply (chord_edges1 n p mid) in E. destruct E as [E|E]; [left|now right]. apply (rotof_edge _ _ _ _ RP). apply chord_edges. now left. }
  assert (EL : forall x y, edge vs x y -> x <> c -> y <> c -> edge l1 x y).
  { intros x y E Nx Ny. apply (rotof_edge _ _ _ _ R'). apply (chord_edges1 n p mid). left. apply (rotof_edge _ _ _ _ RP) in E. apply chord_edges in E as [E|E]; [exact E|].
    cbn in E. destruct E as [E|[E|[]]]; injection E as <- <-; congruence. }
  assert (Epn : edge l1 p n) by (apply (rotof_edge _ _ _ _ R'); apply (chord_edges1 n p mid); now right).
  assert (Cp : corner l1 pp p n) by (apply corner_iff; auto; split; [apply EL; auto; apply (corner_edge _ _ _ _ HPp)|exact Epn]).
  assert (Cn : corner l1 p n nn) by (apply corner_iff; auto; split; [exact Epn|apply EL; auto; apply (corner_edge _ _ _ _ HNn)]).
  assert (CL : forall a v b, corner l1 a v b -> (v = p /\ a = pp /\ b = n) \/ (v = n /\ a = p /\ b = nn) \/ (v <> p /\ v <> n /\ corner vs a v b)).
  { intros a v b Hv. destruct (Nat.eq_dec v p) as [->|Nvp]; [left; destruct (corner_uniq _ _ _ _ _ _ ND1 HL1 Hv Cp) as [-> ->]; auto|].
    destruct (Nat.eq_dec v n) as [->|Nvn]; [right; left; destruct (corner_uniq _ _ _ _ _ _ ND1 HL1 Hv Cn) as [-> ->]; auto|]. right; right.
    split; [exact Nvp|]. split; [exact Nvn|]. destruct (corner_edge _ _ _ _ Hv) as [Ea Eb]. apply EP in Ea, Eb. apply corner_iff; auto. intuition congruence. }
  set (ds := (if d1 then [] else [p]) ++ (if d2 then [] else [n])).
  assert (DS : forall x, In x ds <-> (x = p /\ In p (e_conc st) /\ t3 pp p n = 0) \/ (x = n /\ In n (e_conc st) /\ t3 p n nn = 0)).
  { intros x. unfold ds. rewrite in_app_iff. destruct E1 as [[-> K1]|[-> K1]], E2 as [[-> K2]|[-> K2]]; cbn [In]; intuition congruence. }
  assert (NDs : NoDup ds).
  { unfold ds. destruct d1, d2; cbn [app]; repeat constructor; cbn [In]; intuition congruence. }
  assert (EV : remove_all vs (rev (sort_nat (i :: d1 ++ d2))) = without ds l1).
  { assert (VAL : map (fun j => nth j vs 0%nat) (i :: d1 ++ d2) = [c] ++ ds).
    { rewrite (idx_nth vs i 0%nat Hi) in Ec. rewrite (idx_nth vs _ 0%nat Lp) in Ep. rewrite (idx_nth vs _ 0%nat Ln) in En. apply Ok_inj in Ec, Ep, En.
      unfold ds. destruct E1 as [[-> K1]|[-> K1]], E2 as [[-> K2]|[-> K2]]; cbn [map app]; rewrite ?Ec, ?Ep, ?En; reflexivity. }
    rewrite (remove_sorted vs 0%nat _ ND).
    - rewrite VAL, without_app, El1. reflexivity.
    - apply (NoDup_map_inv (fun j => nth j vs 0%nat)). rewrite VAL. cbn [app]. constructor; [rewrite DS; intuition congruence|exact NDs].
    - intros j Ij. fold m. destruct Ij as [<-|Ij]; [exact Hi|]. apply in_app_or in Ij. destruct E1 as [[-> K1]|[-> K1]], E2 as [[-> K2]|[-> K2]]; cbn [In] in Ij; intuition (subst; assumption). }
  assert (ST : forall v, In v ds -> straight points l1 v).
  { intros v Iv. apply DS in Iv as [(-> & _ & Z)|(-> & _ & Z)]; [exists pp, n|exists p, nn]; auto. }
  destruct (drop_many points ds l1 G1 NDs ST) as (G2 & T2 & A2). cbv zeta in G2, T2, A2.
  assert (IL : incl ds l1). { intros v Iv. destruct (ST v Iv) as (a & b & Hc & _). now apply corner_In in Hc. }
  exists ds. cbv zeta. cbn [e_verts e_conc]. rewrite EV. split; [|split; [|split; [|split]]].
  - constructor; cbn [e_verts e_conc].
    + eapply sublist_trans; [apply sublist_filter|]. rewrite El1. eapply sublist_trans; [apply sublist_filter|exact S].
    + exact G2.
    + exact CN2.
    + intros x Ix. apply C12 in Ix as (Ix & _). now apply CI.
    + intros o Io. apply C12 in Io as (Io & _). destruct (CD o Io) as [Iv|Id]; [|right; apply in_or_app; now left].
      destruct (in_dec Nat.eq_dec o ds) as [Id|Nd]; [right; apply in_or_app; now right|left]. apply In_without. split; [|exact Nd]. rewrite El1. apply In_without. split; [exact Iv|]. intros [->|[]]. contradiction.
    + intros a v b Hv. destruct (T2 a v b Hv) as (a' & b' & k & Hk & Hv' & EK). rewrite EK.
      assert (Nv : ~ In v ds). { apply corner_In in Hv as (_ & Iv & _). now apply In_without in Iv. }
      assert (SG : t3 a' v b' <> 0 /\ (In v conc2 <-> t3 a' v b' < 0)).
      { rewrite C12. destruct (CL a' v b' Hv') as [(-> & -> & ->)|[(-> & -> & ->)|(Nvp & Nvn & Hc)]].
        - destruct (CC pp p c HPp) as [Z0 Z1]. assert (KP : 0 < t3 pp p c -> 0 < t3 pp p n).
          { intros L. apply (keep_prev (poly points vs) _ _ (pt points c)); [exact Gg|exact Gs|exact Gl|exact HE|now apply corner_map| |exact L]. intros E. apply Npp. now apply PI. }
          rewrite DS in Nv. destruct (Rtotal_order (t3 pp p c) 0) as [L|[L|L]]; [|contradiction|].
          + assert (t3 pp p n <> 0) by tauto. split; [assumption|]. split; [intros (_ & K & _); destruct (Rdichotomy _ _ H); [assumption|tauto]|]. intros K. split; [tauto|]. split; intros [? ?]; [lra|congruence].
          + specialize (KP L). split; [lra|]. split; [intros (_ & K & _); tauto|lra].
        - destruct (CC c n nn HNn) as [Z0 Z1]. assert (KP : 0 < t3 c n nn -> 0 < t3 p n nn).
          { intros L. apply (keep_next (poly points vs) _ _ (pt points c)); [exact Gg|exact Gs|exact Gl|exact HE|now apply corner_map| |exact L]. intros E. apply Nnn. now apply PI. }
          rewrite DS in Nv. destruct (Rtotal_order (t3 c n nn) 0) as [L|[L|L]]; [|contradiction|].
          + assert (t3 p n nn <> 0) by tauto. split; [assumption|]. split; [intros (_ & _ & K); destruct (Rdichotomy _ _ H); [assumption|tauto]|]. intros K. split; [tauto|]. split; intros [? ?]; [congruence|lra].
          + specialize (KP L). split; [lra|]. split; [intros (_ & _ & K); tauto|lra].
        - destruct (CC a' v b' Hc) as [Z0 Z1]. split; [exact Z0|]. rewrite <- Z1. tauto. }
      destruct SG as [SG1 SG2]. split; [now apply Rmult_integral_contrapositive_currified; [lra|]|]. rewrite SG2.
      split; intros K; [pose proof (mul_pp k (- t3 a' v b') Hk ltac:(lra)); lra|]. destruct (Rlt_le_dec (t3 a' v b') 0) as [|L]; [assumption|]. pose proof (mul_p k _ (Rlt_le _ _ Hk) L). lra.
  - apply Forall_forall. intros v Iv. pose proof (ST v Iv) as (a & b & Hc & Z). pose proof (corner_distinct _ _ _ _ ND1 Hc) as (N1 & N2 & _).
    assert (SV : forall x, In x l1 -> In x vs0) by (intros x Ix; rewrite El1 in Ix; apply In_without in Ix as [Ix _]; exact (sublist_In _ _ _ S Ix)).
    split; [apply CI; apply DS in Iv; intuition congruence|]. exists a, b. destruct (corner_In _ _ _ _ Hc) as (Ia & _ & Ib). repeat split; auto. exact (straight_on points l1 a v b G1 Hc Z).
  - pose proof (without_length ds l1 ND1 NDs IL). assert (length l1 = m - 1)%nat by (unfold l1; apply delete_length; exact Hi). lia.
  - intros w Aw. rewrite <- (A2 w Aw). unfold along. assert (Aw' : antisym (fun a b => w (pt points a) (pt points b))) by (intros x y; apply Aw).
    rewrite (rotof_cyc _ _ _ R), (rotof_cyc _ _ _ R'). now apply cyc_clip.
  - intros Z w Aw. rewrite Z, without_nil, (rotof_cyc _ _ _ R), (rotof_cyc _ _ _ R'). now apply cyc_clip.
Qed.

(** ** The loops *)
Record Q (Tr : list (nat * nat * nat)) (D : list nat) (st : ear_state) : Prop := {
  q_tris : e_tris st = emit Tr;
  q_T : Forall (tri_ok points vs0) Tr;
  q_D : Forall dropped D;
  q_len : winv D st /\ (length Tr + length D + length (e_verts st) = length vs0)%nat \/
          (length (e_verts st) <= 2)%nat /\ (length Tr + length D + 2 = length vs0)%nat;
  q_sum : forall w, additive w -> along points w vs0 = sumw (fun a b => w (pt points a) (pt points b)) (map (fun '(a, b, c) => [a; b; c]) Tr) + along points w (rest_of st);
  q_chain : D = [] -> forall w, antisym w -> cyc w vs0 = sumw w (map (fun '(a, b, c) => [a; b; c]) Tr) + cyc w (rest_of st);
  q_cov : forall q, off_all_lines points Tr q -> covers points Tr q = 0%nat \/ covers points Tr q = 1%nat /\ winding (poly points (rest_of st)) q = 0 }.
Lemma along_wind q l : along points (wind q) l = winding (poly points l) q.
Proof. unfold along, winding, poly. now rewrite cyc_map. Qed.
Lemma step_Q Tr D st i : Q Tr D st -> (3 <= length (e_verts st))%nat -> (i < length (e_verts st))%nat ->
  exists st' m' Tr' D', ear_step points st (length (e_verts st)) i = Ok (st', m') /\ m' = length (e_verts st') /\ Q Tr' D' st' /\
    (st' = st /\ D' = D /\ blocked points st i \/ (m' < length (e_verts st))%nat /\ ((4 <= length (e_verts st))%nat -> (3 <= m')%nat)).
Proof.
  intros HQ H3 Hi. pose proof HQ as [Q1 Q2 QD Q4 Q5 QC Q6]. destruct Q4 as [(HI & QL)|[? _]]; [|lia]. pose proof HI as [S G CN CI CD CC]. pose proof (w_valid D st HI) as V.
  destruct (ear_step_total points st (length (e_verts st)) i eq_refl H3 Hi) as (st' & m' & E).
  { right. split; [exact V|]. intros x Ix. now apply HC0, CI. }
  destruct (ear_step_spec points st _ i st' m' eq_refl ltac:(lia) Hi E) as [Em Hcl]. exists st', m'. rewrite E.
  destruct Hcl as [->|(p & c & n & ds & Ec & Ep & En & Nc & Ee & Et & Sv & Sc & _ & _ & _ & Hn & _)].
  { exists Tr, D. split; [reflexivity|]. split; [exact Em|]. split; [exact HQ|]. left. split; [reflexivity|]. split; [reflexivity|]. apply (ear_step_stuck points st (length (e_verts st))); try lia; try reflexivity. rewrite E. congruence. }
  assert (Lt : (m' < length (e_verts st))%nat) by lia.
  destruct (pos_rot (e_verts st) i H3 Hi) as (p' & c' & n' & mid & Ec' & Ep' & En' & R & R'). rewrite Ec in Ec'. rewrite Ep in Ep'. rewrite En in En'. apply Ok_inj in Ec', Ep', En'. subst p' c' n'.
  pose proof (rot_corner _ _ _ _ _ R) as HC. pose proof (wcode_ear D st p c n HI HC Nc Ee) as HE. pose proof HE as (_ & HT & _).
  (* what is left *)
  assert (K : exists ds', Forall dropped ds' /\ ((4 <= length (e_verts st))%nat -> winv (D ++ ds') st' /\ (length (e_verts st') + 1 + length ds' = length (e_verts st))%nat) /\
    ((length (e_verts st) < 4)%nat -> ds' = []) /\
    (forall w, additive w -> along points w (e_verts st) = along points w [p; c; n] + along points w (rest_of st')) /\
    (ds' = [] -> forall w, antisym w -> cyc w (e_verts st) = cyc w [p; c; n] + cyc w (rest_of st'))).
  { destruct (le_lt_dec 4 (length (e_verts st))) as [H4|H4].
    - unfold ear_step in E. rewrite Ec in E. cbn [obind] in E. rewrite (proj2 (binary_search_None _ _) Nc) in E. rewrite usub_Ok in E by lia. cbn [obind] in E.
      rewrite prev_pos_mod, next_pos_mod in E by assumption. rewrite Ep in E. cbn [obind] in E. rewrite En in E. cbn [obind] in E. rewrite Ee in E. cbn [obind] in E.
      bindas E [conc1 d1] U1. bindas E [conc2 d2] U2. bindas E y Ey.
      destruct (clip_winv D st i p c n mid conc1 conc2 d1 d2 (e_tris st ++ [as_u32 p; as_u32 c; as_u32 n]) HI H4 Hi Ec Ep En R R' Nc Ee U1 U2) as (ds' & HI' & FD & HL & HA & HB). cbv zeta in HI', HL, HA, HB.
      apply Ok_inj in E. apply (f_equal fst) in E. cbn [fst] in E. rewrite E in HI', HL, HA, HB. exists ds'. split; [exact FD|]. split; [auto|]. split; [lia|].
      unfold rest_of. pose proof (w_len _ _ HI'). destruct (Nat.leb_spec 3 (length (e_verts st'))); [|lia]. split; [exact HA|exact HB].
    - exists []. split; [constructor|]. split; [lia|]. split; [reflexivity|]. unfold rest_of. destruct (Nat.leb_spec 3 (length (e_verts st'))); [lia|].
      assert (K : forall w, antisym w -> cyc w (e_verts st) = cyc w [p; c; n] + cyc w []).
      { intros w Aw. rewrite (rotof_cyc _ _ _ R). pose proof (Permutation_length (rotof_perm _ _ R)) as HL. cbn [length] in HL. rewrite app_length in HL. cbn [length] in HL.
        destruct mid; [|cbn [length] in HL; lia]. rewrite (cyc_clip _ c n p [] Aw). cbn [app]. rewrite (cyc2 _ Aw). cbn [cyc]. lra. }
      split; [|intros _; exact K]. intros w Aw. apply K. intros x y. apply Aw. }
  destruct K as (ds' & FD & K1 & K0 & K2 & K3). exists (Tr ++ [(p, c, n)]), (D ++ ds'). split; [reflexivity|]. split; [exact Em|].
  assert (RS : rest_of st = e_verts st) by (unfold rest_of; destruct (Nat.leb_spec 3 (length (e_verts st))); [reflexivity|lia]).
  split; [|right; split; [exact Lt|intros H4; destruct (K1 H4) as [HI' _]; apply w_len in HI'; lia]].
  constructor.
  - rewrite Et, Q1. unfold emit. now rewrite flat_map_app.
  - apply Forall_app. split; [exact Q2|]. constructor; [|constructor]. split; [|exact HT]. eapply cyc_triple_mono; [exact S|]. now apply corner_triple.
  - now apply Forall_app.
  - rewrite !app_length. cbn [length]. destruct (le_lt_dec 4 (length (e_verts st))) as [H4|H4]; [left|right]; [destruct (K1 H4); split; [assumption|lia]|]. rewrite (K0 H4). cbn [length]. split; lia.
  - intros w Aw. rewrite map_app, sumw_app. cbn [map]. rewrite sumw1, (Q5 w Aw), RS, (K2 w Aw). unfold along at 1. lra.
  - intros Z w Aw. apply app_eq_nil in Z as [Z1 Z2]. rewrite map_app, sumw_app. cbn [map]. rewrite sumw1, (QC Z1 w Aw), RS, (K3 Z2 w Aw). lra.
  - intros q Hq. apply Forall_app in Hq as [Hq1 Hq2]. inversion Hq2 as [|? ? HO _]; subst. rewrite covers_app.
    specialize (K2 (wind q) (wind_additive q)). rewrite !along_wind in K2. cbn [poly map] in K2. fold (poly points (e_verts st)) in K2.
    rewrite (tri_one _ _ _ q HT HO) in K2. specialize (Q6 q Hq1). rewrite RS in Q6.
    destruct (strictly_inside (pt points p) (pt points c) (pt points n) q) eqn:Ei.
    + apply inside_pos in Ei as (P1 & P2 & P3). rewrite (ear_winding _ _ _ _ q G HE P1 P2 P3) in K2, Q6. right. destruct Q6 as [->|[_ ?]]; [|lra]. split; [reflexivity|lra].
    + destruct Q6 as [->|[-> W]]; [left; reflexivity|right]. split; [reflexivity|lra].
Qed.
Lemma pass_Q fuel : forall Tr D st i, Q Tr D st -> (length (e_verts st) <= i + fuel)%nat -> (3 <= length (e_verts st) \/ 2 <= i)%nat -> (i = 0 -> 4 <= length (e_verts st))%nat ->
  exists st' Tr' D', ear_pass fuel points st (length (e_verts st)) i = Ok st' /\ Q Tr' D' st' /\
    ((length (e_verts st') < length (e_verts st))%nat \/ st' = st /\ D' = D /\ forall j, (i <= j < length (e_verts st))%nat -> blocked points st j).
Proof.
  induction fuel as [|fuel IH]; intros Tr D st i HQ Hf H3 H0; cbn [ear_pass]; destruct (Nat.ltb_spec i (length (e_verts st))) as [L|L];
    try (exists st, Tr, D; split; [reflexivity|]; split; [exact HQ|]; right; split; [reflexivity|]; split; [reflexivity|]; intros; lia); [lia|].
  assert (H3' : (3 <= length (e_verts st))%nat).
  { destruct H3 as [?|?]; [assumption|]. lia. }
  destruct (step_Q Tr D st i HQ H3' L) as (st1 & m1 & Tr1 & D1 & -> & -> & HQ1 & Hch). cbn [obind].
  destruct (IH Tr1 D1 st1 (S i) HQ1) as (st' & Tr' & D' & E & HQ' & HF).
  - destruct Hch as [[-> _]|[? _]]; lia.
  - destruct Hch as [[-> _]|[? K]]; [left; exact H3'|]. destruct (le_lt_dec 4 (length (e_verts st))) as [H4|H4]; [left; auto|right]. lia.
  - lia.
  - exists st', Tr', D'. split; [exact E|]. split; [exact HQ'|]. destruct Hch as [(-> & -> & B)|[? _]].
    + destruct HF as [?|(-> & -> & HB)]; [now left|right]. split; [reflexivity|]. split; [reflexivity|]. intros j Hj. destruct (Nat.eq_dec j i) as [->|N]; [exact B|]. apply HB. lia.
    + left. destruct HF as [?|(-> & _ & _)]; lia.
Qed.
(** unless a vertex was dropped the clipper is never stuck *)
Lemma wnot_stuck D st : winv D st -> (forall i, (i < length (e_verts st))%nat -> blocked points st i) -> D <> [].
Proof.
  intros HI HB ->. pose proof (w_nd _ st HI) as ND. pose proof (w_len _ st HI) as H3. pose proof HI as [S G CN CI CD CC].
  destruct (convex_corner _ G) as (a0 & b0 & c0 & H0 & _). destruct (corner_edge _ _ _ _ H0) as [E0 _].
  destruct (ear_exists _ _ (le_n _) G a0 b0 E0) as (x & y & z & (HC & HT & HV) & _). apply corner_unmap in HC as (p & c & n & HC & <- & <- & <-).
  destruct (corner_In _ _ _ _ HC) as (Ip & Ic & In_). destruct (In_nth _ _ 0%nat Ic) as (i & Hi & Ei).
  destruct (HB i Hi) as (c' & p' & n' & Ec & Ep & En & HBl). rewrite (idx_nth _ i 0%nat Hi), Ei in Ec. apply Ok_inj in Ec. subst c'.
  assert (Ec : idx (e_verts st) i = Ok c) by (rewrite (idx_nth _ i 0%nat Hi), Ei; reflexivity).
  pose proof (pos_corner _ i p' c n' H3 Hi Ec Ep En) as HC'. destruct (corner_uniq _ _ _ _ _ _ ND H3 HC HC') as [<- <-].
  assert (Nc : ~ In c (e_conc st)) by (intros K; apply (CC p c n HC) in K; lra).
  destruct HBl as [K|(o & A & B & C & O & Io & Np & Nn & EA & EB & EC & EO & K)]; [contradiction|].
  apply idx_Ok, (idx_pt points) in EA. apply idx_Ok, (idx_pt points) in EB. apply idx_Ok, (idx_pt points) in EC. apply idx_Ok, (idx_pt points) in EO. subst. apply inside_in_tri in K.
  assert (PI : forall x y, In x (e_verts st) -> In y (e_verts st) -> x <> y -> pt points x <> pt points y).
  { intros x y Ix Iy N E. apply N. revert E. apply NoDup_map_inj with (l := e_verts st); auto. exact (proj1 (good_gp _ G)). }
  destruct (CD o Io) as [Io'|[]]. apply (HV (pt points o)); auto; [now apply in_map|]. apply PI; auto. intros ->. contradiction.
Qed.
Definition wresult (Tr : list (nat * nat * nat)) (D rest : list nat) : Prop :=
  Forall (tri_ok points vs0) Tr /\ Forall dropped D /\
  (rest = [] /\ (length Tr + length D + 2 = length vs0)%nat \/ good (poly points rest) /\ sublist rest vs0 /\ D <> [] /\ (length Tr + length D + length rest = length vs0)%nat) /\
  (forall w, additive w -> along points w vs0 = sumw (fun a b => w (pt points a) (pt points b)) (map (fun '(a, b, c) => [a; b; c]) Tr) + along points w rest) /\
  (D = [] -> forall w, antisym w -> cyc w vs0 = sumw w (map (fun '(a, b, c) => [a; b; c]) Tr) + cyc w rest) /\
  forall q, off_all_lines points Tr q -> covers points Tr q = 0%nat \/ covers points Tr q = 1%nat /\ winding (poly points rest) q = 0.
Lemma loop_Q fuel : forall Tr D st pm, Q Tr D st -> match pm with None => length (e_verts st) + 2 <= fuel | Some k => S k <= fuel /\ length (e_verts st) <= k /\ (length (e_verts st) = k -> D <> [] /\ winv D st) end%nat ->
  exists st' Tr' D' rest, ear_loop fuel points st pm = Ok st' /\ e_tris st' = emit Tr' /\ wresult Tr' D' rest.
Proof.
  induction fuel as [|fuel IH]; intros Tr D st pm HQ Hf; [destruct pm; lia|]. cbn [ear_loop]. pose proof HQ as [Q1 Q2 QD Q4 Q5 QC Q6].
  destruct (match pm with None => false | Some k => (k <=? length (e_verts st))%nat end) eqn:Epm.
  { destruct pm as [k|]; [|discriminate]. apply Nat.leb_le in Epm. destruct Hf as (_ & Hk & HD). destruct (HD ltac:(lia)) as [ND HI]. exists st, Tr, D, (e_verts st).
    pose proof (w_len _ _ HI) as H3. assert (RS : rest_of st = e_verts st) by (unfold rest_of; destruct (Nat.leb_spec 3 (length (e_verts st))); [reflexivity|lia]). rewrite RS in *.
    split; [reflexivity|]. split; [exact Q1|]. split; [exact Q2|]. split; [exact QD|]. split; [right|auto]. destruct Q4 as [(_ & QL)|[? _]]; [|lia]. split; [apply HI|]. split; [apply HI|]. split; [exact ND|exact QL]. }
  destruct (Nat.ltb_spec (length (e_verts st)) 3) as [L3|L3].
  - exists st, Tr, D, []. split; [reflexivity|]. split; [exact Q1|].
    assert (RS : rest_of st = []) by (unfold rest_of; destruct (Nat.leb_spec 3 (length (e_verts st))); [lia|reflexivity]). rewrite RS in *.
    split; [exact Q2|]. split; [exact QD|]. split; [left|auto]. split; [reflexivity|]. destruct Q4 as [(HI & _)|[_ QL]]; [apply w_len in HI; lia|exact QL].
  - destruct Q4 as [(HI & QL)|[? _]]; [|lia].
    assert (RS : rest_of st = e_verts st) by (unfold rest_of; destruct (Nat.leb_spec 3 (length (e_verts st))); [reflexivity|lia]). rewrite RS in *.
    destruct (Nat.eqb_spec (length (e_verts st)) 3) as [E3|N3].
    + pose proof (w_good _ _ HI) as G. pose proof (w_sub _ _ HI) as S. destruct (e_verts st) as [|a [|b [|c [|]]]] eqn:Ev; cbn in E3; try lia. cbn [idx nth_error obind]. eexists. exists (Tr ++ [(a, b, c)]), D, []. split; [reflexivity|]. cbn [e_tris].
      pose proof (good_area _ _ (le_n _) G) as HA. cbn [poly map] in HA. rewrite area2_tri in HA.
      split; [rewrite Q1; unfold emit; now rewrite flat_map_app|]. split.
      { apply Forall_app. split; [exact Q2|]. constructor; [|constructor]. split; [left; exact S|exact HA]. }
      split; [exact QD|]. split; [left; split; [reflexivity|]; rewrite app_length; cbn [length] in *; lia|].
      split; [intros w Aw; rewrite map_app, sumw_app; cbn [map]; rewrite sumw1, (Q5 w Aw); unfold along; cbn [cyc]; lra|].
      split; [intros Z w Aw; rewrite map_app, sumw_app; cbn [map]; rewrite sumw1, (QC Z w Aw); cbn [cyc]; lra|].
      intros q Hq. apply Forall_app in Hq as [Hq1 Hq2]. inversion Hq2 as [|? ? HO _]; subst. rewrite covers_app. specialize (Q6 q Hq1).
      cbn [poly map] in Q6. rewrite (tri_one _ _ _ q HA HO) in Q6. assert (W0 : winding (poly points []) q = 0) by reflexivity. rewrite W0.
      destruct (strictly_inside _ _ _ q); destruct Q6 as [->|[-> ?]]; try lra; [right|left|right]; auto.
    + destruct (pass_Q (length (e_verts st)) Tr D st 0 HQ) as (st1 & Tr1 & D1 & -> & HQ1 & HF); [lia|lia|lia|]. cbn [obind].
      apply (IH Tr1 D1 st1 (Some (length (e_verts st))) HQ1).
      assert (FL : (S (length (e_verts st)) <= fuel)%nat) by (destruct pm; [apply Nat.leb_gt in Epm; lia|lia]). split; [exact FL|]. destruct HF as [HF|(-> & -> & HB)].
      * split; [lia|]. intros. lia.
      * split; [lia|]. intros _. split; [|exact HI]. apply (wnot_stuck D st HI). intros j Hj. apply HB. lia.
Qed.
End Clip.

(** ** Simple polygons, vertices on common lines allowed *)
Open Scope R_scope.
Definition on_segment (a b z : vec2 R) : Prop := exists t, 0 <= t <= 1 /\ x2 z = (1 - t) * x2 a + t * x2 b /\ y2 z = (1 - t) * y2 a + t * y2 b.
(** the vertices differ, and two sides share at most the vertex they have in common *)
Definition proper_polygon (ps : list (vec2 R)) : Prop := let n := length ps in
  NoDup ps /\ forall i j z, (i < n)%nat -> (j < n)%nat -> i <> j -> on_segment (pt ps i) (pt ps ((i + 1) mod n)) z -> on_segment (pt ps j) (pt ps ((j + 1) mod n)) z ->
    j = ((i + 1) mod n)%nat /\ z = pt ps j \/ i = ((j + 1) mod n)%nat /\ z = pt ps i.
(** three vertices are on a line or clear of one by more than the tolerance *)
Definition resolved (ps : list (vec2 R)) : Prop := let n := length ps in
  forall i j k, (i < n)%nat -> (j < n)%nat -> (k < n)%nat -> tri_area2 (pt ps i) (pt ps j) (pt ps k) = 0 \/ TOL < Rabs (tri_area2 (pt ps i) (pt ps j) (pt ps k)).
(** the turn of the polygon at a vertex *)
Definition turn (ps : list (vec2 R)) (i : nat) : R := let n := length ps in tri_area2 (pt ps ((i + n - 1) mod n)) (pt ps i) (pt ps ((i + 1) mod n)).
(** an inward vertex between two other vertices *)
Definition reflex_between (ps : list (vec2 R)) (v : nat) : Prop := let n := length ps in
  (v < n)%nat /\ turn ps v < 0 /\ exists a b, (a < n)%nat /\ (b < n)%nat /\ a <> v /\ b <> v /\ on_segment (pt ps a) (pt ps b) (pt ps v).
Lemma on_segment_on a b z : on_segment a b z <-> on a b z.
Proof. split; intros (t & Ht & H); exists t; (split; [exact Ht|]); [apply v2_ext; cbn [at_ x2 y2]; tauto|rewrite H; split; reflexivity]. Qed.
Lemma next_neq n i : (2 <= n)%nat -> (i < n)%nat -> i <> ((i + 1) mod n)%nat.
Proof. intros H2 Hi. rewrite next_pos_mod by lia. unfold next_pos. destruct (Nat.eqb_spec i (n - 1)); lia. Qed.
Lemma proper_good ps : (3 <= length ps)%nat -> proper_polygon ps -> 0 < area2 ps -> good ps.
Proof.
  intros H3 [ND HP] HA.
  assert (ML : forall i, ((i + 1) mod length ps < length ps)%nat) by (intros; apply Nat.mod_upper_bound; lia).
  assert (IJ : forall i j, (i < length ps)%nat -> (j < length ps)%nat -> pt ps i = pt ps j -> i = j) by (intros i j Hi Hj; now apply NoDup_nth).
  apply simple_good; auto.
  - split; [exact ND|]. intros x y v E Iv N1 N2 O. destruct (edge_pos ps x y E) as (i & Hi & -> & ->). destruct (In_nth _ _ (V2 0 0) Iv) as (k & Hk & <-). change (nth k ps (V2 0 0)) with (pt ps k) in *.
    destruct (HP i k (pt ps k) Hi Hk) as [[-> _]|[_ K]]; try congruence.
    + now apply on_segment_on.
    + apply on_segment_on, on_l.
  - intros x y E x' y' E' [K1 K2]. destruct (edge_pos ps x y E) as (i & Hi & -> & ->). destruct (edge_pos ps x' y' E') as (j & Hj & -> & ->).
    destruct (cross_meet _ _ _ _ K1 K2) as (z & O1 & O2). destruct (Nat.eq_dec i j) as [->|N]; [rewrite T_self1 in K1; lra|].
    apply on_segment_on in O1, O2. destruct (HP i j z Hi Hj N O1 O2) as [[-> _]|[-> _]]; rewrite ?T_self1, ?T_self2 in K1; lra.
Qed.
Lemma turn_corner ps i : (i < length ps)%nat -> corner_at ps (seq 0 (length ps)) i = turn ps i.
Proof. intros Hi. unfold corner_at, turn. rewrite seq_length. rewrite !seq_nth by (auto; apply Nat.mod_upper_bound; lia). reflexivity. Qed.
Lemma seq_corner_ex n v : (3 <= n)%nat -> (v < n)%nat -> corner (seq 0 n) ((v + n - 1) mod n)%nat v ((v + 1) mod n)%nat.
Proof.
  intros H3 Hv. destruct (In_corner (seq 0 n) v ltac:(rewrite seq_length; lia)) as (a & b & HC); [apply in_seq; lia|]. destruct (seq_corner n a v b H3 HC) as (_ & -> & ->). exact HC.
Qed.
(** C64: whatever simple counter-clockwise polygon is given, the triangles are counter-clockwise, do not overlap and stay inside; what they
    leave uncovered is the inside of a polygon [rest] on some of the vertices.  It is empty unless the clipper dropped an inward vertex
    that lies between two others. *)
Theorem C64_sound (ps : list (vec2 R)) : let n := length ps in (3 <= n)%nat -> proper_polygon ps -> resolved ps -> 0 < area2 ps ->
  exists vs conc T D rest, compute_vertex_convexity ps = Ok (vs, conc) /\ trianglate_polygon ps vs conc = Ok (emit T) /\
    (forall i, In i vs <-> (i < n)%nat /\ turn ps i <> 0) /\ (forall i, In i conc <-> (i < n)%nat /\ turn ps i < 0) /\
    Forall (fun '(a, b, c) => cyc_triple vs a b c /\ 0 < tri_area2 (pt ps a) (pt ps b) (pt ps c)) T /\
    Forall (reflex_between ps) D /\
    (rest = [] /\ (length T + length D + 2 = length vs)%nat \/ D <> [] /\ sublist rest vs /\ (length T + length D + length rest = length vs)%nat /\ 0 < area2 (poly ps rest)) /\
    area2 ps = total_area2 ps T + area2 (poly ps rest) /\
    (D = [] -> forall w, antisym w -> cyc w vs = sumw w (map (fun '(a, b, c) => [a; b; c]) T)) /\
    forall q, off_all_lines ps T q -> (covers ps T q <= 1)%nat /\ winding ps q = INR (covers ps T q) + winding (poly ps rest) q /\ (covers ps T q = 1%nat -> winding ps q = 1).
Proof.
  cbv zeta. intros H3 HP HR HA. set (n := length ps) in *. assert (T0 : 0 < TOL) by (unfold TOL; lra). pose proof (proper_good ps H3 HP HA) as G.
  set (vs := filter (bent ps (seq 0 n)) (seq 0 n)). set (conc := filter (right_turn ps (seq 0 n)) (seq 0 n)). set (ds := filter (fun i => negb (bent ps (seq 0 n) i)) (seq 0 n)).
  assert (SG : forall i, (i < n)%nat -> turn ps i = 0 \/ TOL < turn ps i \/ turn ps i < - TOL).
  { intros i Hi. assert (L1 : ((i + n - 1) mod n < n)%nat) by (apply Nat.mod_upper_bound; lia). assert (L2 : ((i + 1) mod n < n)%nat) by (apply Nat.mod_upper_bound; lia).
    destruct (HR _ _ _ L1 Hi L2) as [K|K]; fold n in K; [left; exact K|right]. change (tri_area2 (pt ps ((i + n - 1) mod n)) (pt ps i) (pt ps ((i + 1) mod n))) with (turn ps i) in K. unfold Rabs in K. destruct (Rcase_abs _) in K; [right|left]; lra. }
  assert (BE : forall i, (i < n)%nat -> (bent ps (seq 0 n) i = true <-> turn ps i <> 0) /\ (right_turn ps (seq 0 n) i = true <-> turn ps i < 0)).
  { intros i Hi. unfold bent, right_turn. rewrite !Rltb_true. pose proof (turn_corner ps i Hi) as E. fold n in E. rewrite E. destruct (SG i Hi) as [Z|[Z|Z]].
    - rewrite Z, Rabs_R0. split; split; intros; lra.
    - rewrite Rabs_right by lra. split; split; intros; lra.
    - rewrite Rabs_left by lra. split; split; intros; lra. }
  assert (IV : forall i, In i vs <-> (i < n)%nat /\ turn ps i <> 0).
  { intros i. unfold vs. rewrite filter_In, in_seq. split; [intros [Hi K]; split; [lia|]; apply BE; [lia|exact K]|]. intros [Hi K]. split; [lia|]. now apply BE. }
  assert (ICn : forall i, In i conc <-> (i < n)%nat /\ turn ps i < 0).
  { intros i. unfold conc. rewrite filter_In, in_seq. split; [intros [Hi K]; split; [lia|]; apply BE; [lia|exact K]|]. intros [Hi K]. split; [lia|]. now apply BE. }
  assert (EW : vs = without ds (seq 0 n)).
  { unfold vs, without. apply filter_ext_in. intros i Ii. destruct (bent ps (seq 0 n) i) eqn:B.
    - symmetry. apply Bool.negb_true_iff, mem_false. unfold ds. rewrite filter_In, B. cbn. intuition congruence.
    - symmetry. apply Bool.negb_false_iff, mem_In. unfold ds. rewrite filter_In, B. auto. }
  assert (PS : poly ps (seq 0 n) = ps) by apply poly_seq.
  destruct (drop_many ps ds (seq 0 n)) as (GV & TA & AL).
  { rewrite PS. exact G. }
  { apply NoDup_filter, seq_NoDup. }
  { intros v Iv. unfold ds in Iv. apply filter_In in Iv as [Iv B]. apply in_seq in Iv. exists ((v + n - 1) mod n)%nat, ((v + 1) mod n)%nat. split; [apply seq_corner_ex; lia|].
    change (turn ps v = 0). destruct (Req_dec (turn ps v) 0) as [|N]; [assumption|]. apply BE in N; [|lia]. rewrite N in B. discriminate. }
  cbv zeta in GV, TA, AL. rewrite <- EW in GV, TA, AL.
  assert (VV : valid_indices ps vs) by (intros x Ix; apply IV in Ix; fold n; tauto). assert (VC : valid_indices ps conc) by (intros x Ix; apply ICn in Ix; fold n; tauto).
  assert (HI : winv ps vs conc [] (mkEar [] vs conc)).
  { constructor; cbn [e_verts e_conc].
    - apply sublist_refl.
    - exact GV.
    - apply NoDup_filter, seq_NoDup.
    - intros x Ix. exact Ix.
    - intros o Io. left. apply ICn in Io. apply IV. split; [tauto|lra].
    - intros a v b HC. destruct (TA a v b HC) as (a' & b' & k & Hk & HC' & E). destruct (seq_corner n a' v b' H3 HC') as (Hv & -> & ->).
      change (T (pt ps ((v + n - 1) mod n)) (pt ps v) (pt ps ((v + 1) mod n))) with (turn ps v) in E. rewrite E.
      assert (Iv : In v vs) by now apply corner_In in HC. apply IV in Iv as [_ NZ]. split; [apply Rmult_integral_contrapositive_currified; [lra|exact NZ]|].
      rewrite ICn. split; [intros [_ K]; pose proof (mul_pp k (- turn ps v) Hk ltac:(lra)); lra|]. intros K. split; [exact Hv|].
      destruct (Rlt_le_dec (turn ps v) 0) as [|L]; [assumption|]. pose proof (mul_p k _ (Rlt_le _ _ Hk) L). lra. }
  pose proof (w_len ps vs conc _ _ HI) as H3v. cbn [e_verts] in H3v.
  assert (HQ : Q ps vs conc [] [] (mkEar [] vs conc)).
  { constructor; cbn [e_tris e_verts]; try apply Forall_nil; try reflexivity.
    - left. split; [exact HI|reflexivity].
    - intros w Aw. unfold rest_of. cbn [e_verts]. destruct (Nat.leb_spec 3 (length vs)); [|lia]. unfold sumw. cbn. lra.
    - intros _ w Aw. unfold rest_of. cbn [e_verts]. destruct (Nat.leb_spec 3 (length vs)); [|lia]. unfold sumw. cbn. lra.
    - intros q _. left. reflexivity. }
  destruct (loop_Q ps HR vs conc VV VC (length vs + 2) [] [] _ None HQ) as (st' & T & D & rest & E & ET & FT & FD & HL & HW & HX & HC); [cbn [e_verts]; lia|].
  exists vs, conc, T, D, rest. split; [apply C38_vertex_convexity|].
  split. { unfold trianglate_polygon. rewrite usub_Ok by lia. cbn [obind]. rewrite E. cbn [obind]. now rewrite ET. }
  split; [exact IV|]. split; [exact ICn|]. split; [exact FT|].
  split. { eapply Forall_impl; [|exact FD]. intros v (Iv & a & b & Ia & Ib & Na & Nb & O). apply ICn in Iv as [Hv L]. apply IV in Ia, Ib. split; [exact Hv|]. split; [exact L|]. exists a, b. repeat split; try tauto. now apply on_segment_on. }
  assert (HP' : Forall (fun '(a, b, c) => 0 < tri_area2 (pt ps a) (pt ps b) (pt ps c)) T) by (eapply Forall_impl; [|exact FT]; intros [[a b] c] [_ ?]; assumption).
  split. { destruct HL as [HL|(GR & SR & ND & HL)]; [left; exact HL|right]. split; [exact ND|]. split; [exact SR|]. split; [exact HL|]. exact (good_area _ _ (le_n _) GR). }
  assert (AE : forall w, along ps w (seq 0 n) = cyc w ps) by (intros w; unfold along; rewrite <- (cyc_map (pt ps)); fold (poly ps (seq 0 n)); now rewrite PS).
  split.
  - rewrite <- sumw_tri. unfold area2. rewrite <- (AE cross2), (AL cross2 cross2_additive), (HW cross2 cross2_additive). unfold along. now rewrite <- (cyc_map (pt ps)).
  - split. { intros Z w Aw. rewrite (HX Z w Aw). destruct HL as [[-> _]|(_ & _ & K & _)]; [cbn [cyc]; lra|contradiction]. }
    intros q Hq. assert (W : winding ps q = INR (covers ps T q) + winding (poly ps rest) q).
    { rewrite <- (covers_sum ps q T HP' Hq). unfold winding at 1. rewrite <- (AE (wind q)), (AL _ (wind_additive q)), (HW _ (wind_additive q)), along_wind. reflexivity. }
    split; [destruct (HC q Hq) as [->|[-> _]]; lia|]. split; [exact W|]. intros E1. rewrite W. destruct (HC q Hq) as [E0|[_ ->]]; [lia|]. rewrite E1. cbn [INR]. lra.
Qed.
(** C64: a simple counter-clockwise polygon is tiled completely if no inward vertex lies between two other vertices. *)
Theorem C64_complete (ps : list (vec2 R)) : let n := length ps in (3 <= n)%nat -> proper_polygon ps -> resolved ps -> 0 < area2 ps -> (forall v, ~ reflex_between ps v) ->
  exists vs conc T, compute_vertex_convexity ps = Ok (vs, conc) /\ trianglate_polygon ps vs conc = Ok (emit T) /\ (forall i, In i vs <-> (i < n)%nat /\ turn ps i <> 0) /\
    (length T + 2 = length vs)%nat /\
    Forall (fun '(a, b, c) => cyc_triple vs a b c /\ 0 < tri_area2 (pt ps a) (pt ps b) (pt ps c)) T /\
    area2 ps = total_area2 ps T /\ (forall w, antisym w -> cyc w vs = sumw w (map (fun '(a, b, c) => [a; b; c]) T)) /\
    forall q, off_all_lines ps T q -> winding ps q = INR (covers ps T q) /\ (covers ps T q <= 1)%nat.
Proof.
  cbv zeta. intros H3 HP HR HA HN. destruct (C64_sound ps H3 HP HR HA) as (vs & conc & T & D & rest & E1 & E2 & IV & _ & FT & FD & HL & A & X & W).
  assert (D = []) as ->. { destruct D as [|v D]; [reflexivity|]. inversion FD; subst. exfalso. exact (HN v H1). }
  exists vs, conc, T. destruct HL as [[-> HL]|[K _]]; [|congruence]. cbn [length poly map] in *. assert (AZ : area2 [] = 0) by reflexivity. rewrite AZ in A.
  assert (WZ : forall q, winding [] q = 0) by reflexivity.
  split; [exact E1|]. split; [exact E2|]. split; [exact IV|]. split; [lia|]. split; [exact FT|]. split; [lra|]. split; [now apply X|].
  intros q H. destruct (W q H) as (L & K & _). rewrite WZ in K. split; [lra|exact L].
Qed.
