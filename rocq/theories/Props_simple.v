(** Properties C39, C40: ear clipping of simple polygons. *)
From Coq Require Import Reals Lra Lia Arith Permutation.
From Verif Require Import Prelude Num M_vec M_utils M_polygon L_base L_vec L_geom L_cycle L_polygon Props_polygon Props_ears L_simple L_sides L_twoears L_earexist L_clip.
Open Scope nat_scope.

(** ** Positions of a cycle *)
Lemma pos_rot {A} (l : list A) i : 3 <= length l -> i < length l -> exists p c n mid,
  idx l i = Ok c /\ idx l (prev_pos (length l) i) = Ok p /\ idx l (next_pos (length l) i) = Ok n /\
  rotof l (c :: n :: mid ++ [p]) /\ rotof (delete_nth l i) (n :: mid ++ [p]).
Proof.
  intros H3 Hi. destruct (app_len2 l i) as (l1 & l2 & -> & HL); [lia|]. rewrite app_length in *. destruct l2 as [|c l2]; [cbn in Hi; lia|]. cbn [length] in *.
  unfold prev_pos, next_pos. rewrite (delete_at l1 l2 c i) by lia.
  destruct l1 as [|x l1].
  - cbn [length app] in *. subst i. destruct l2 as [|n l2]; [cbn in H3; lia|]. destruct (exists_last (l := l2)) as (mid & p & ->); [intros ->; cbn in H3; lia|].
    exists p, c, n, mid. cbn [length] in *. rewrite app_length in *. cbn [length] in *. split; [reflexivity|]. split; [|split; [|split; apply rotof_refl]].
    + cbn [Nat.eqb]. apply (idx_at (c :: n :: mid) []). cbn [length]. lia.
    + destruct (Nat.eqb_spec 0 (0 + S (S (length mid + 1)) - 1)); [lia|]. reflexivity.
  - destruct (exists_last (l := x :: l1)) as (l0 & p & E); [discriminate|]. rewrite E in *. rewrite app_length in *. cbn [length] in *.
    destruct (Nat.eqb_spec i 0) as [?|Hz]; [lia|]. destruct l2 as [|n l2].
    + cbn [length] in *. destruct l0 as [|n mid]; [cbn in H3; lia|]. cbn [length] in *. exists p, c, n, mid.
      split; [apply idx_at; cbn [app length]; rewrite app_length; cbn [length]; lia|]. split; [|split; [|split]].
      * rewrite <- app_assoc. apply (idx_at (n :: mid) [c] p). cbn [length]. lia.
      * match goal with |- context [if ?b then _ else _] => destruct b eqn:Eb end; [reflexivity|]. apply Nat.eqb_neq in Eb. lia.
      * exists ((n :: mid) ++ [p]), [c]. split; [now rewrite <- app_assoc|reflexivity].
      * rewrite app_nil_r. apply rotof_refl.
    + cbn [length] in *. exists p, c, n, (l2 ++ l0). split; [apply idx_at; rewrite app_length; cbn [length]; lia|]. split; [|split; [|split]].
      * rewrite <- app_assoc. apply (idx_at l0). lia.
      * match goal with |- context [if ?b then _ else _] => destruct b eqn:Eb end; [apply Nat.eqb_eq in Eb; lia|].
        change ((l0 ++ [p]) ++ c :: n :: l2) with ((l0 ++ [p]) ++ [c] ++ n :: l2). rewrite app_assoc. apply idx_at. rewrite !app_length. cbn [length]. lia.
      * exists (l0 ++ [p]), (c :: n :: l2). split; [reflexivity|]. cbn [app]. now rewrite <- app_assoc.
      * exists (l0 ++ [p]), (n :: l2). split; [reflexivity|]. cbn [app]. now rewrite <- app_assoc.
Qed.
Lemma rot_corner {A} (l : list A) c n mid p : rotof l (c :: n :: mid ++ [p]) -> corner l p c n.
Proof. intros R. exists mid. eapply rotof_trans; [exact R|]. exists (c :: n :: mid), [p]. auto. Qed.
Lemma pos_corner {A} (l : list A) i p c n : 3 <= length l -> i < length l -> idx l i = Ok c -> idx l (prev_pos (length l) i) = Ok p -> idx l (next_pos (length l) i) = Ok n -> corner l p c n.
Proof.
  intros H3 Hi Ec Ep En. destruct (pos_rot l i H3 Hi) as (p' & c' & n' & mid & Ec' & Ep' & En' & R & _). rewrite Ec in Ec'. rewrite Ep in Ep'. rewrite En in En'.
  apply Ok_inj in Ec', Ep', En'. subst. eapply rot_corner; exact R.
Qed.
Lemma corner_uniq {A} (l : list A) a a' b c c' : NoDup l -> 3 <= length l -> corner l a b c -> corner l a' b c' -> a = a' /\ c = c'.
Proof.
  intros ND HL H H'. destruct (corner_edge _ _ _ _ H') as [E1 E2]. destruct (corner_distinct _ _ _ _ ND H') as (D1 & D2 & D3).
  destruct (corner_edges l a b c a' b ND H E1) as [[? _]|[[? _]|[_ ?]]]; destruct (corner_edges l a b c b c' ND H E2) as [[_ ?]|[[_ ?]|[? _]]]; subst; auto; congruence.
Qed.
Lemma corner_map {A B} (f : A -> B) l a b c : corner l a b c -> corner (map f l) (f a) (f b) (f c).
Proof. intros (r & u & v & -> & E). exists (map f r), (map f u), (map f v). rewrite map_app. split; [reflexivity|]. rewrite <- map_app, <- E. reflexivity. Qed.
Lemma rotof_map {A B} (f : A -> B) l l' : rotof l l' -> rotof (map f l) (map f l').
Proof. intros (u & v & -> & ->). exists (map f u), (map f v). now rewrite !map_app. Qed.
Lemma corner_unmap {A B} (f : A -> B) l x y z : corner (map f l) x y z -> exists a b c, corner l a b c /\ f a = x /\ f b = y /\ f c = z.
Proof.
  intros (r & u & v & E & E'). apply map_eq_app in E as (u' & v' & -> & <- & <-). rewrite <- map_app in E'. destruct (v' ++ u') as [|a [|b [|c r']]] eqn:E2; cbn in E'; try discriminate.
  injection E' as -> -> -> _. exists a, b, c. split; [|auto]. exists r'. exists u', v'. auto.
Qed.
Lemma NoDup_map_inj {A B} (f : A -> B) l a b : NoDup (map f l) -> In a l -> In b l -> f a = f b -> a = b.
Proof.
  induction l as [|x l IH]; [intros _ []|]. cbn [map]. intros N Ia Ib E. inversion N as [|? ? N1 N2]; subst. destruct Ia as [->|Ia], Ib as [->|Ib]; auto.
  - exfalso. apply N1. rewrite E. now apply in_map.
  - exfalso. apply N1. rewrite <- E. now apply in_map.
Qed.

Section Clip.
Context (points : list (vec2 R)).
Notation t3 a b c := (T (pt points a) (pt points b) (pt points c)).
Open Scope R_scope.
(** every three vertices are clear of a line by more than the tolerance *)
Definition sep (l : list nat) : Prop := forall a b c, In a l -> In b l -> In c l -> a <> b -> b <> c -> a <> c -> TOL < Rabs (t3 a b c).
Lemma sep_sign l a b c : sep l -> In a l -> In b l -> In c l -> a <> b -> b <> c -> a <> c -> TOL < t3 a b c \/ t3 a b c < - TOL.
Proof. intros S Ia Ib Ic N1 N2 N3. specialize (S a b c Ia Ib Ic N1 N2 N3). revert S. unfold Rabs. destruct (Rcase_abs _); lra. Qed.
Record inv (st : ear_state) : Prop := {
  inv_nd : NoDup (e_verts st);
  inv_valid : valid_indices points (e_verts st);
  inv_sep : sep (e_verts st);
  inv_good : good (poly points (e_verts st));
  inv_cnd : NoDup (e_conc st);
  inv_incl : incl (e_conc st) (e_verts st);
  inv_conc : forall a v b, corner (e_verts st) a v b -> (In v (e_conc st) <-> t3 a v b < 0) }.
Lemma idx_pt a A : idx points a = Ok A -> A = pt points a.
Proof. intros E. apply (idx_Ok_nth _ _ _ (V2 0 0)) in E as [_ E]. unfold pt. now symmetry. Qed.
Lemma In_delete {A} (l : list A) j x y : NoDup l -> nth_error l j = Some x -> (In y (delete_nth l j) <-> In y l /\ y <> x).
Proof.
  intros ND E. apply nth_error_split in E as (l1 & l2 & -> & HL). rewrite delete_at by now symmetry. apply NoDup_remove in ND as [_ N].
  rewrite !in_app_iff in *. cbn [In]. split; [intros H; split; [tauto|intros ->; contradiction]|intros [[H|[H|H]] N']; [tauto|congruence|tauto]].
Qed.
Lemma NoDup_delete {A} (l : list A) j : NoDup l -> NoDup (delete_nth l j).
Proof. apply sublist_NoDup, sublist_delete. Qed.
Lemma search_nth l x j : binary_search l x = Some j -> nth_error l j = Some x.
Proof. intros E. unfold binary_search in E. apply position_Some in E as (y & Ey & H). apply Nat.eqb_eq in H. now subst. Qed.
(** the code's update of the concave list *)
Lemma upd_prev verts conc i p n pp conc1 d1 : NoDup conc -> (i < length verts)%nat -> (3 <= length verts)%nat -> idx verts (prev_pos (length verts) (prev_pos (length verts) i)) = Ok pp ->
  TOL < t3 pp p n \/ t3 pp p n < - TOL ->
  ear_update_prev points verts conc (length verts) i p n = Ok (conc1, d1) ->
  d1 = [] /\ NoDup conc1 /\ forall x, In x conc1 <-> In x conc /\ ~ (x = p /\ 0 < t3 pp p n).
Proof.
  intros ND Hi H3 Epp HS. assert (0 < TOL) by (unfold TOL; lra). unfold ear_update_prev. destruct (binary_search conc p) as [j|] eqn:B.
  - intros E. bindas E k Ek. bindas E pp' Epp'. bindas E x EA. bindas E x0 EB. bindas E x1 EC.
    apply usub_inv in Ek as [Hk ->]. rewrite prev2_pos_mod in Epp' by lia. rewrite Epp in Epp'. apply Ok_inj in Epp'. subst pp'.
    apply idx_pt in EA, EB, EC. subst. pose proof (convexity_cases (pt points pp) (pt points p) (pt points n)) as K. cbv zeta in K.
    destruct (compute_convexity _ _ _).
    + bindas E y E3. apply remove_at_inv in E3 as [Hj ->]. apply Ok_inj in E. inversion E; subst. split; [reflexivity|]. split; [now apply NoDup_delete|].
      intros y. rewrite (In_delete conc j p) by (auto using search_nth). intuition lra.
    + bindas E y E3. revert K. unfold Rabs. destruct (Rcase_abs _); lra.
    + apply Ok_inj in E. inversion E; subst. split; [reflexivity|]. split; [exact ND|]. intros y. intuition lra.
  - intros E. apply Ok_inj in E. inversion E; subst. split; [reflexivity|]. split; [exact ND|]. intros y. apply binary_search_None in B. split; [|tauto].
    intros I. split; [exact I|]. intros [-> _]. contradiction.
Qed.
Lemma upd_next verts conc i p n nn conc1 d1 : NoDup conc -> (i < length verts)%nat -> (3 <= length verts)%nat -> idx verts (next_pos (length verts) (next_pos (length verts) i)) = Ok nn ->
  TOL < t3 p n nn \/ t3 p n nn < - TOL ->
  ear_update_next points verts conc (length verts) i p n = Ok (conc1, d1) ->
  d1 = [] /\ NoDup conc1 /\ forall x, In x conc1 <-> In x conc /\ ~ (x = n /\ 0 < t3 p n nn).
Proof.
  intros ND Hi H3 Enn HS. assert (0 < TOL) by (unfold TOL; lra). unfold ear_update_next. destruct (binary_search conc n) as [j|] eqn:B.
  - intros E. bindas E nn' Enn'. bindas E x EA. bindas E x0 EB. bindas E x1 EC.
    rewrite next2_pos_mod in Enn' by lia. rewrite Enn in Enn'. apply Ok_inj in Enn'. subst nn'.
    apply idx_pt in EA, EB, EC. subst. pose proof (convexity_cases (pt points p) (pt points n) (pt points nn)) as K. cbv zeta in K.
    destruct (compute_convexity _ _ _).
    + bindas E y E3. apply remove_at_inv in E3 as [Hj ->]. apply Ok_inj in E. inversion E; subst. split; [reflexivity|]. split; [now apply NoDup_delete|].
      intros y. rewrite (In_delete conc j n) by (auto using search_nth). intuition lra.
    + revert K. unfold Rabs. destruct (Rcase_abs _); lra.
    + apply Ok_inj in E. inversion E; subst. split; [reflexivity|]. split; [exact ND|]. intros y. intuition lra.
  - intros E. apply Ok_inj in E. inversion E; subst. split; [reflexivity|]. split; [exact ND|]. intros y. apply binary_search_None in B. split; [|tauto].
    intros I. split; [exact I|]. intros [-> _]. contradiction.
Qed.
Lemma inside_in_tri a b c o : is_inside_triangle a b c o = true <-> in_tri a b c o.
Proof.
  unfold is_inside_triangle, in_tri. rewrite !perp_tri. rnum.
  repeat match goal with |- context [Rleb ?x ?y] => destruct (Rleb_spec x y) end; cbn [andb]; split; intros; try discriminate; try reflexivity; try lra; repeat split; lra.
Qed.
Lemma is_ear_true conc p c n : is_ear points conc p c n = Ok true -> forall o, In o conc -> o <> p -> o <> n -> ~ in_tri (pt points p) (pt points c) (pt points n) (pt points o).
Proof.
  induction conc as [|o conc IH]; cbn [is_ear]; intros E x Ix Np Nn; [destruct Ix|].
  destruct (negb (o =? p)%nat && negb (o =? n)%nat) eqn:B.
  - bindas E a Ea. bindas E b Eb. bindas E d Ed. bindas E z Ez. apply idx_pt in Ea, Eb, Ed, Ez. subst.
    destruct (is_inside_triangle _ _ _ _) eqn:I; [discriminate|]. destruct Ix as [<-|Ix]; [|now apply IH].
    intros K. apply inside_in_tri in K. congruence.
  - destruct Ix as [<-|Ix]; [|now apply IH]. apply andb_false_iff in B as [B|B]; apply negb_false_iff, Nat.eqb_eq in B; congruence.
Qed.
(** the corner test of the code accepts exactly ears *)
Lemma corner_sign st a v b : inv st -> corner (e_verts st) a v b -> t3 a v b <> 0.
Proof.
  intros [ND V S G CN CI CC] H. destruct (corner_In _ _ _ _ H) as (I1 & I2 & I3). destruct (corner_distinct _ _ _ _ ND H) as (D1 & D2 & D3).
  destruct (sep_sign _ a v b S I1 I2 I3 D1 D2 D3); unfold TOL in *; lra.
Qed.
Lemma code_ear st p c n : inv st -> corner (e_verts st) p c n -> ~ In c (e_conc st) -> is_ear points (e_conc st) p c n = Ok true ->
  ear (poly points (e_verts st)) (pt points p) (pt points c) (pt points n).
Proof.
  intros HI HC Nc E. pose proof (corner_sign st p c n HI HC) as Z. pose proof HI as [ND V S G CN CI CC].
  assert (HT : 0 < t3 p c n) by (destruct (Rdichotomy _ _ Z); [exfalso; apply Nc; now apply (CC p c n)|lra]).
  apply reflex_enough; [exact G|now apply corner_map|exact HT|]. intros x y z HV L N1 N2.
  apply corner_unmap in HV as (a & v & b & HV & <- & <- & <-). apply (is_ear_true _ _ _ _ E); [apply (CC a v b HV); pose proof (corner_sign st a v b HI HV); lra| |]; congruence.
Qed.
Lemma next_prev m i : (i < m)%nat -> next_pos m (prev_pos m i) = i.
Proof. intros H. unfold next_pos, prev_pos. destruct (Nat.eqb_spec i 0) as [->|N]; [rewrite Nat.eqb_refl; reflexivity|]. destruct (Nat.eqb_spec (i - 1) (m - 1)); lia. Qed.
Lemma prev_next m i : (i < m)%nat -> prev_pos m (next_pos m i) = i.
Proof. intros H. unfold next_pos, prev_pos. destruct (Nat.eqb_spec i (m - 1)) as [->|N]; [cbn [Nat.eqb]; lia|]. destruct (Nat.eqb_spec (i + 1) 0); lia. Qed.
Lemma prev_lt m i : (i < m)%nat -> (prev_pos m i < m)%nat.
Proof. intros. unfold prev_pos. destruct (Nat.eqb_spec i 0); lia. Qed.
Lemma next_lt m i : (i < m)%nat -> (next_pos m i < m)%nat.
Proof. intros. unfold next_pos. destruct (Nat.eqb_spec i (m - 1)); lia. Qed.
Lemma clip_inv st i p c n mid conc1 conc2 d1 d2 tris : inv st -> (4 <= length (e_verts st))%nat -> (i < length (e_verts st))%nat ->
  idx (e_verts st) i = Ok c -> idx (e_verts st) (prev_pos (length (e_verts st)) i) = Ok p -> idx (e_verts st) (next_pos (length (e_verts st)) i) = Ok n ->
  rotof (e_verts st) (c :: n :: mid ++ [p]) -> rotof (delete_nth (e_verts st) i) (n :: mid ++ [p]) -> ~ In c (e_conc st) -> is_ear points (e_conc st) p c n = Ok true ->
  ear_update_prev points (e_verts st) (e_conc st) (length (e_verts st)) i p n = Ok (conc1, d1) ->
  ear_update_next points (e_verts st) conc1 (length (e_verts st)) i p n = Ok (conc2, d2) ->
  d1 = [] /\ d2 = [] /\ inv (mkEar tris (delete_nth (e_verts st) i) conc2).
Proof.
  intros HI H4 Hi Ec Ep En R R' Nc Ee U1 U2. pose proof HI as [ND V S G CN CI CC]. set (vs := e_verts st) in *. set (m := length vs) in *.
  assert (HL3 : (3 <= length vs)%nat) by (fold m; lia).
  pose proof (rot_corner _ _ _ _ _ R) as HC. pose proof (code_ear st p c n HI HC Nc Ee) as HE. fold vs in HE.
  pose proof (Permutation_length (rotof_perm _ _ R)) as HLm. cbn [length] in HLm. rewrite app_length in HLm. cbn [length] in HLm. fold m in HLm.
  pose proof (Permutation_NoDup (rotof_perm _ _ R) ND) as NDr.
  assert (NM : mid <> []) by (intros ->; cbn in HLm; lia).
  pose proof (prev_lt m i Hi) as Lp. pose proof (next_lt m i Hi) as Ln.
  assert (Epp : exists pp, idx vs (prev_pos m (prev_pos m i)) = Ok pp) by (eexists; apply (idx_nth _ _ 0%nat); apply prev_lt; exact Lp). destruct Epp as (pp & Epp).
  assert (Enn : exists nn, idx vs (next_pos m (next_pos m i)) = Ok nn) by (eexists; apply (idx_nth _ _ 0%nat); apply next_lt; exact Ln). destruct Enn as (nn & Enn).
  assert (HPp : corner vs pp p c) by (apply (pos_corner vs (prev_pos m i)); auto; fold m; rewrite next_prev; auto).
  assert (HNn : corner vs c n nn) by (apply (pos_corner vs (next_pos m i)); auto; fold m; rewrite prev_next; auto).
  assert (Npp : pp <> n).
  { destruct (exists_last NM) as (mid' & z & ->). assert (Z : corner vs z p c).
    { exists (n :: mid'). eapply rotof_trans; [exact R|]. exists (c :: n :: mid'), [z; p]. split; [cbn [app]; now rewrite <- app_assoc|reflexivity]. }
    destruct (corner_uniq vs z pp p c c ND HL3 Z HPp) as [<- _]. intros ->. inversion NDr as [|? ? _ N2]; subst. inversion N2 as [|? ? N3 _]; subst. apply N3. rewrite <- app_assoc. apply in_or_app. right. now left. }
  assert (Nnn : nn <> p).
  { destruct mid as [|z mid']; [congruence|]. assert (Z : corner vs c n z). { exists (mid' ++ [p]). exact R. }
    destruct (corner_uniq vs c c n z nn ND HL3 Z HNn) as [_ <-]. intros ->. inversion NDr as [|? ? _ N2]; subst. inversion N2 as [|? ? _ N3]; subst. inversion N3 as [|? ? N4 _]; subst. apply N4. apply in_or_app. right. now left. }
  destruct (corner_In _ _ _ _ HC) as (Ip & Ic & In_). destruct (corner_In _ _ _ _ HPp) as (Ipp & _ & _). destruct (corner_In _ _ _ _ HNn) as (_ & _ & Inn).
  destruct (corner_distinct _ _ _ _ ND HC) as (D1 & D2 & D3). destruct (corner_distinct _ _ _ _ ND HPp) as (D4 & _ & D6). destruct (corner_distinct _ _ _ _ ND HNn) as (_ & D8 & D9).
  assert (Sp : TOL < t3 pp p n \/ t3 pp p n < - TOL) by (apply (sep_sign vs); auto).
  assert (Sn : TOL < t3 p n nn \/ t3 p n nn < - TOL) by (apply (sep_sign vs); auto).
  destruct (upd_prev vs (e_conc st) i p n pp conc1 d1 CN Hi HL3 Epp Sp U1) as (E1 & CN1 & C1).
  destruct (upd_next vs conc1 i p n nn conc2 d2 CN1 Hi HL3 Enn Sn U2) as (E2 & CN2 & C2).
  split; [exact E1|]. split; [exact E2|].
  assert (C12 : forall x, In x conc2 <-> In x (e_conc st) /\ ~ (x = p /\ 0 < t3 pp p n) /\ ~ (x = n /\ 0 < t3 p n nn)) by (intros x; rewrite C2, C1; tauto).
  assert (Id : forall x, In x (delete_nth vs i) <-> In x vs /\ x <> c) by (intros x; apply In_delete; [exact ND|now apply idx_Ok]).
  assert (NDd : NoDup (delete_nth vs i)) by now apply NoDup_delete.
  assert (HLd : (3 <= length (delete_nth vs i))%nat) by (rewrite (Permutation_length (rotof_perm _ _ R')); cbn [length]; rewrite app_length; cbn [length]; lia).
  assert (TT : 0 < TOL) by (unfold TOL; lra).
  assert (Gg : gp (poly points vs)) by apply G. assert (Gs : simple (poly points vs)) by apply G. assert (Gl : (3 <= length (poly points vs))%nat) by apply G.
  assert (PI : forall x y, In x vs -> In y vs -> pt points x = pt points y -> x = y) by (intros x y; apply NoDup_map_inj; exact (proj1 Gg)).
  constructor; cbn [e_verts e_conc].
  - exact NDd.
  - intros x Ix. apply V. now apply Id.
  - intros a b d Ia Ib Id'. apply S; now apply Id.
  - apply (rotof_good (map (pt points) (n :: mid ++ [p]))); [apply rotof_map; now apply rotof_sym|]. cbn [map]. rewrite map_app. cbn [map].
    apply (clip_good (poly points vs) (pt points p) (pt points c)); [exact G|exact HE| |destruct mid; [congruence|discriminate]].
    pose proof (rotof_map (pt points) _ _ R) as Rm. cbn [map] in Rm. rewrite map_app in Rm. exact Rm.
  - exact CN2.
  - intros x Ix. apply C12 in Ix as (Ix & _). apply Id. split; [now apply CI|]. intros ->. contradiction.
  - intros a v b Hv. apply (corner_iff _ _ _ _ NDd HLd) in Hv as [Ea Eb]. apply (rotof_edge _ _ _ _ R') in Ea, Eb.
    assert (RP : rotof vs (n :: mid ++ p :: [c])). { eapply rotof_trans; [exact R|]. exists [c], (n :: mid ++ [p]). split; [reflexivity|]. cbn [app]. now rewrite <- app_assoc. }
    assert (EP : forall x y, edge (n :: mid ++ [p]) x y -> edge vs x y \/ (x = p /\ y = n)).
    { intros x y E. apply (chord_edges1 n p mid) in E. destruct E as [E|E]; [left|now right]. apply (rotof_edge _ _ _ _ RP). apply chord_edges. now left. }
    assert (Na : a <> c /\ b <> c).
    { apply edge_In in Ea as [Ia _]. apply edge_In in Eb as [_ Ib]. apply (rotof_In _ _ _ R'), Id in Ia. apply (rotof_In _ _ _ R'), Id in Ib. tauto. }
    apply EP in Ea, Eb. destruct (corner_edge _ _ _ _ HC) as [Epc Ecn].
    destruct Ea as [Ea|[-> ->]]; [destruct Eb as [Eb|[-> ->]]|].
    + assert (Hv : corner vs a v b) by (apply corner_iff; auto). rewrite <- (CC a v b Hv), C12. split; [tauto|]. intros I. split; [exact I|].
      split; intros [-> _].
      * destruct (corner_uniq vs a pp p b c ND HL3 Hv HPp). tauto.
      * destruct (corner_uniq vs a c n b nn ND HL3 Hv HNn). tauto.
    + assert (Hv : corner vs a p c) by (apply corner_iff; auto). destruct (corner_uniq vs a pp p c c ND HL3 Hv HPp) as [-> _].
      rewrite C12, (CC pp p c HPp). split.
      * intros (_ & K & _). destruct Sp; [exfalso; apply K; split; [reflexivity|lra]|lra].
      * intros K. split; [|split; [intros [_ ?]; lra|intros [? _]; congruence]].
        pose proof (corner_sign st pp p c HI HPp) as Z. destruct (Rdichotomy _ _ Z) as [L|L]; [exact L|exfalso].
        assert (0 < t3 pp p n); [|lra]. apply (keep_prev (poly points vs) _ _ (pt points c)); [exact Gg|exact Gs|exact Gl|exact HE|now apply corner_map| |exact L].
        intros E. apply Npp. now apply PI.
    + destruct Eb as [Eb|[-> _]]; [|congruence].
      assert (Hv : corner vs c n b) by (apply corner_iff; auto). destruct (corner_uniq vs c c n b nn ND HL3 Hv HNn) as [_ ->].
      rewrite C12, (CC c n nn HNn). split.
      * intros (_ & _ & K). destruct Sn; [exfalso; apply K; split; [reflexivity|lra]|lra].
      * intros K. split; [|split; [intros [? _]; congruence|intros [_ ?]; lra]].
        pose proof (corner_sign st c n nn HI HNn) as Z. destruct (Rdichotomy _ _ Z) as [L|L]; [exact L|exfalso].
        assert (0 < t3 p n nn); [|lra]. apply (keep_next (poly points vs) _ _ (pt points c)); [exact Gg|exact Gs|exact Gl|exact HE|now apply corner_map| |exact L].
        intros E. apply Nnn. now apply PI.
Qed.

(** ** The loops *)
Context (vs0 : list nat).
Definition rest_of (st : ear_state) : list nat := if (3 <=? length (e_verts st))%nat then e_verts st else [].
(** number of triangles that hold the point *)
Definition covers (T : list (nat * nat * nat)) (q : vec2 R) : nat :=
  length (filter (fun '(a, b, c) => strictly_inside (pt points a) (pt points b) (pt points c) q) T).
Definition tri_ok (t : nat * nat * nat) : Prop := let '(a, b, c) := t in cyc_triple vs0 a b c /\ 0 < t3 a b c.
Record Q (T : list (nat * nat * nat)) (st : ear_state) : Prop := {
  q_tris : e_tris st = emit T;
  q_T : Forall tri_ok T;
  q_sub : sublist (e_verts st) vs0;
  q_len : (3 <= length (e_verts st))%nat /\ inv st /\ (length T + length (e_verts st) = length vs0)%nat \/
          (length (e_verts st) <= 2)%nat /\ (length T + 2 = length vs0)%nat;
  q_sum : forall w, antisym w -> cyc w vs0 = sumw w (map (fun '(a, b, c) => [a; b; c]) T) + cyc w (rest_of st);
  q_cov : forall q, off_all_lines points T q -> covers T q = 0%nat \/ covers T q = 1%nat /\ winding (poly points (rest_of st)) q = 0 }.
Lemma tri_one a b c q : 0 < T a b c -> off_lines a b c q -> winding [a; b; c] q = if strictly_inside a b c q then 1 else 0.
Proof.
  intros HT HO. unfold winding. rewrite (wind_tri q a b c HO).
  replace (strictly_inside c b a q) with false; [lra|]. symmetry. unfold strictly_inside.
  pose proof (tri_split c b a q). assert (T c b a = - T a b c) by (unfold tri_area2; ring).
  repeat match goal with |- context [Rltb ?x ?y] => destruct (Rltb_spec x y) end; cbn [andb]; try reflexivity. lra.
Qed.
Lemma inside_pos a b c q : strictly_inside a b c q = true -> 0 < T a b q /\ 0 < T b c q /\ 0 < T c a q.
Proof. unfold strictly_inside. intros H. apply andb_prop in H as [H H3]. apply andb_prop in H as [H1 H2]. rewrite !Rltb_true in *. auto. Qed.
Lemma corner_triple l a b c : corner l a b c -> @cyc_triple nat l a b c.
Proof.
  intros (r & u & v & -> & E). destruct v as [|x [|y [|z v]]]; cbn [app] in E.
  - subst u. left. apply sub_keep, sub_keep, sub_keep, sublist_nil.
  - destruct u as [|y [|z u]]; try discriminate. injection E as -> -> -> _. right. left. cbn [app]. apply sub_keep, sub_keep, sublist_one, sub_nil.
  - destruct u as [|z u]; try discriminate. injection E as -> -> -> _. right. right. cbn [app]. apply sub_keep, sublist_one, sub_keep, sub_nil.
  - injection E as -> -> -> _. left. apply sublist_one, sub_keep, sub_keep, sublist_nil.
Qed.
Lemma cyc_clip w c n p (mid : list nat) : antisym w -> cyc w (c :: n :: mid ++ [p]) = cyc w [p; c; n] + cyc w (n :: mid ++ [p]).
Proof.
  intros Aw. rewrite cyc3. change (c :: n :: mid ++ [p]) with (c :: (n :: mid) ++ [p]). rewrite !cyc_ends.
  cbn [app]. change (chain w (c :: n :: mid ++ [p])) with (w c n + chain w (n :: mid ++ [p])). pose proof (Aw n p). lra.
Qed.
Lemma covers_app T a b c q : covers (T ++ [(a, b, c)]) q = (covers T q + if strictly_inside (pt points a) (pt points b) (pt points c) q then 1 else 0)%nat.
Proof. unfold covers. rewrite filter_app, app_length. cbn [filter]. destruct (strictly_inside _ _ _ q); reflexivity. Qed.
Lemma step_Q Tr st i : Q Tr st -> (3 <= length (e_verts st))%nat -> (i < length (e_verts st))%nat ->
  exists st' m' Tr', ear_step points st (length (e_verts st)) i = Ok (st', m') /\ m' = length (e_verts st') /\ Q Tr' st' /\
    (st' = st /\ blocked points st i \/ (m' < length (e_verts st))%nat /\ ((4 <= length (e_verts st))%nat -> (3 <= m')%nat)).
Proof.
  intros HQ H3 Hi. pose proof HQ as [Q1 Q2 Q3 Q4 Q5 Q6]. destruct Q4 as [(_ & HI & QL)|[? _]]; [|lia]. pose proof HI as [ND V S G CN CI CC].
  destruct (ear_step_total points st (length (e_verts st)) i eq_refl H3 Hi) as (st' & m' & E).
  { right. split; [exact V|]. intros x Ix. now apply V, CI. }
  destruct (ear_step_spec points st _ i st' m' eq_refl ltac:(lia) Hi E) as [Em Hcl]. exists st', m'. rewrite E.
  assert (Keep : st' = st -> exists Tr', Ok (st', m') = Ok (st', m') /\ m' = length (e_verts st') /\ Q Tr' st' /\
    (st' = st /\ blocked points st i \/ (m' < length (e_verts st))%nat /\ ((4 <= length (e_verts st))%nat -> (3 <= m')%nat))).
  { intros ->. exists Tr. split; [reflexivity|]. split; [exact Em|]. split; [exact HQ|]. left. split; [reflexivity|]. apply (ear_step_stuck points st (length (e_verts st))); try lia; try reflexivity. rewrite E. congruence. }
  destruct Hcl as [->|(p & c & n & ds & Ec & Ep & En & Nc & Ee & Et & Sv & Sc & _ & _ & _ & Hn & _)]; [now apply Keep|].
  exists (Tr ++ [(p, c, n)]). split; [reflexivity|]. split; [exact Em|].
  assert (Lt : (m' < length (e_verts st))%nat) by lia.
  destruct (pos_rot (e_verts st) i H3 Hi) as (p' & c' & n' & mid & Ec' & Ep' & En' & R & R'). rewrite Ec in Ec'. rewrite Ep in Ep'. rewrite En in En'. apply Ok_inj in Ec', Ep', En'. subst p' c' n'.
  pose proof (rot_corner _ _ _ _ _ R) as HC. pose proof (code_ear st p c n HI HC Nc Ee) as HE. pose proof HE as (_ & HT & _).
  (* what is left *)
  assert (K : ((4 <= length (e_verts st))%nat -> inv st' /\ (length (e_verts st') + 1 = length (e_verts st))%nat) /\ forall w, antisym w -> cyc w (e_verts st) = cyc w [p; c; n] + cyc w (rest_of st')).
  { destruct (le_lt_dec 4 (length (e_verts st))) as [H4|H4].
    - unfold ear_step in E. rewrite Ec in E. cbn [obind] in E. rewrite (proj2 (binary_search_None _ _) Nc) in E. rewrite usub_Ok in E by lia. cbn [obind] in E.
      rewrite prev_pos_mod, next_pos_mod in E by assumption. rewrite Ep in E. cbn [obind] in E. rewrite En in E. cbn [obind] in E. rewrite Ee in E. cbn [obind] in E.
      bindas E [conc1 d1] U1. bindas E [conc2 d2] U2. bindas E y Ey.
      destruct (clip_inv st i p c n mid conc1 conc2 d1 d2 (e_tris st ++ [as_u32 p; as_u32 c; as_u32 n]) HI H4 Hi Ec Ep En R R' Nc Ee U1 U2) as (-> & -> & HI').
      apply Ok_inj in E. apply (f_equal fst) in E. cbn [fst app] in E. change (remove_all (e_verts st) (rev (sort_nat [i]))) with (delete_nth (e_verts st) i) in E. rewrite <- E.
      assert (HL : (length (delete_nth (e_verts st) i) + 1 = length (e_verts st))%nat).
      { rewrite (Permutation_length (rotof_perm _ _ R')), (Permutation_length (rotof_perm _ _ R)). cbn [length]. lia. }
      split; [intros _; split; [exact HI'|exact HL]|]. intros w Aw. unfold rest_of. cbn [e_verts].
      destruct (Nat.leb_spec 3 (length (delete_nth (e_verts st) i))); [|lia].
      rewrite (rotof_cyc w _ _ R), (rotof_cyc w _ _ R'). now apply cyc_clip.
    - split; [lia|]. intros w Aw. unfold rest_of. destruct (Nat.leb_spec 3 (length (e_verts st'))); [lia|].
      rewrite (rotof_cyc w _ _ R). pose proof (Permutation_length (rotof_perm _ _ R)) as HL. cbn [length] in HL. rewrite app_length in HL. cbn [length] in HL.
      destruct mid; [|cbn [length] in HL; lia]. rewrite (cyc_clip w c n p [] Aw). cbn [app]. rewrite (cyc2 w Aw). cbn [cyc]. lra. }
  destruct K as [K1 K2].
  assert (RS : rest_of st = e_verts st) by (unfold rest_of; destruct (Nat.leb_spec 3 (length (e_verts st))); [reflexivity|lia]).
  split; [|right; split; [exact Lt|intros H4; destruct (K1 H4); lia]].
  constructor.
  - rewrite Et, Q1. unfold emit. now rewrite flat_map_app.
  - apply Forall_app. split; [exact Q2|]. constructor; [|constructor]. split; [|exact HT]. eapply cyc_triple_mono; [exact Q3|]. now apply corner_triple.
  - eapply sublist_trans; eassumption.
  - rewrite app_length. cbn [length]. destruct (le_lt_dec 4 (length (e_verts st))) as [H4|H4]; [left|right]; [destruct (K1 H4); split; [lia|]; split; [assumption|lia]|]. split; lia.
  - intros w Aw. rewrite map_app, sumw_app. cbn [map]. rewrite sumw1, (Q5 w Aw), RS, (K2 w Aw). lra.
  - intros q Hq. apply Forall_app in Hq as [Hq1 Hq2]. inversion Hq2 as [|? ? HO _]; subst. rewrite covers_app.
    specialize (K2 (fun a b => wind q (pt points a) (pt points b)) (fun a b => wind_antisym q (pt points a) (pt points b))).
    rewrite <- !(cyc_map (pt points) (wind q)) in K2. cbn [map] in K2. fold (winding (map (pt points) (e_verts st)) q) in K2. fold (poly points (e_verts st)) in K2.
    fold (winding [pt points p; pt points c; pt points n] q) in K2. fold (winding (map (pt points) (rest_of st')) q) in K2. fold (poly points (rest_of st')) in K2.
    rewrite (tri_one _ _ _ q HT HO) in K2. specialize (Q6 q Hq1). rewrite RS in Q6.
    destruct (strictly_inside (pt points p) (pt points c) (pt points n) q) eqn:Ei.
    + apply inside_pos in Ei as (P1 & P2 & P3). rewrite (ear_winding _ _ _ _ q G HE P1 P2 P3) in K2, Q6. right. destruct Q6 as [->|[_ ?]]; [|lra]. split; [reflexivity|lra].
    + destruct Q6 as [->|[-> W]]; [left; reflexivity|right]. split; [reflexivity|lra].
Qed.
Lemma pass_Q fuel : forall Tr st i, Q Tr st -> (length (e_verts st) <= i + fuel)%nat -> (3 <= length (e_verts st) \/ 2 <= i)%nat -> (i = 0 -> 4 <= length (e_verts st))%nat ->
  exists st' Tr', ear_pass fuel points st (length (e_verts st)) i = Ok st' /\ Q Tr' st' /\
    ((length (e_verts st') < length (e_verts st))%nat \/ st' = st /\ forall j, (i <= j < length (e_verts st))%nat -> blocked points st j).
Proof.
  induction fuel as [|fuel IH]; intros Tr st i HQ Hf H3 H0; cbn [ear_pass]; destruct (Nat.ltb_spec i (length (e_verts st))) as [L|L];
    try (exists st, Tr; split; [reflexivity|]; split; [exact HQ|]; right; split; [reflexivity|]; intros; lia); [lia|].
  assert (H3' : (3 <= length (e_verts st))%nat).
  { destruct H3 as [?|?]; [assumption|]. lia. }
  destruct (step_Q Tr st i HQ H3' L) as (st1 & m1 & Tr1 & -> & -> & HQ1 & Hch). cbn [obind].
  destruct (IH Tr1 st1 (S i) HQ1) as (st' & Tr' & E & HQ' & HF).
  - destruct Hch as [[-> _]|[? _]]; lia.
  - destruct Hch as [[-> _]|[? K]]; [left; exact H3'|]. destruct (le_lt_dec 4 (length (e_verts st))) as [H4|H4]; [left; auto|right]. lia.
  - lia.
  - exists st', Tr'. split; [exact E|]. split; [exact HQ'|]. destruct Hch as [[-> B]|[? _]].
    + destruct HF as [?|[-> HB]]; [now left|right]. split; [reflexivity|]. intros j Hj. destruct (Nat.eq_dec j i) as [->|N]; [exact B|]. apply HB. lia.
    + left. destruct HF as [?|[-> _]]; lia.
Qed.
(** a good polygon is never stuck *)
Lemma not_stuck st : inv st -> (3 <= length (e_verts st))%nat -> (forall i, (i < length (e_verts st))%nat -> blocked points st i) -> False.
Proof.
  intros HI H3 HB. pose proof HI as [ND V S G CN CI CC].
  destruct (convex_corner _ G) as (a0 & b0 & c0 & H0 & _). destruct (corner_edge _ _ _ _ H0) as [E0 _].
  destruct (ear_exists _ _ (le_n _) G a0 b0 E0) as (x & y & z & (HC & HT & HV) & _). apply corner_unmap in HC as (p & c & n & HC & <- & <- & <-).
  destruct (corner_In _ _ _ _ HC) as (Ip & Ic & In_). destruct (In_nth _ _ 0%nat Ic) as (i & Hi & Ei).
  destruct (HB i Hi) as (c' & p' & n' & Ec & Ep & En & HBl). rewrite (idx_nth _ i 0%nat Hi), Ei in Ec. apply Ok_inj in Ec. subst c'.
  assert (Ec : idx (e_verts st) i = Ok c) by (rewrite (idx_nth _ i 0%nat Hi), Ei; reflexivity).
  pose proof (pos_corner _ i p' c n' H3 Hi Ec Ep En) as HC'. destruct (corner_uniq _ _ _ _ _ _ ND H3 HC HC') as [<- <-].
  assert (Nc : ~ In c (e_conc st)) by (intros K; apply (CC p c n HC) in K; lra).
  destruct HBl as [K|(o & A & B & C & O & Io & Np & Nn & EA & EB & EC & EO & K)]; [contradiction|].
  apply idx_Ok, idx_pt in EA. apply idx_Ok, idx_pt in EB. apply idx_Ok, idx_pt in EC. apply idx_Ok, idx_pt in EO. subst. apply inside_in_tri in K.
  assert (PI : forall x y, In x (e_verts st) -> In y (e_verts st) -> x <> y -> pt points x <> pt points y).
  { intros x y Ix Iy N E. apply N. revert E. apply NoDup_map_inj with (l := e_verts st); auto. exact (proj1 (good_gp _ G)). }
  apply CI in Io as Io'. apply (HV (pt points o)); auto; [now apply in_map|]. apply PI; auto. intros ->. contradiction.
Qed.
Definition result (Tr : list (nat * nat * nat)) : Prop :=
  (length Tr + 2 = length vs0)%nat /\ Forall tri_ok Tr /\
  (forall w, antisym w -> cyc w vs0 = sumw w (map (fun '(a, b, c) => [a; b; c]) Tr)) /\
  forall q, off_all_lines points Tr q -> (covers Tr q <= 1)%nat.
Lemma loop_Q fuel : forall Tr st pm, Q Tr st -> match pm with None => length (e_verts st) + 2 <= fuel | Some k => S k <= fuel /\ length (e_verts st) < k end%nat ->
  exists st' Tr', ear_loop fuel points st pm = Ok st' /\ e_tris st' = emit Tr' /\ result Tr'.
Proof.
  induction fuel as [|fuel IH]; intros Tr st pm HQ Hf; [destruct pm; lia|]. cbn [ear_loop].
  assert (Epm : match pm with None => false | Some k => (k <=? length (e_verts st))%nat end = false) by (destruct pm; [apply Nat.leb_gt; lia|reflexivity]). rewrite Epm.
  pose proof HQ as [Q1 Q2 Q3 Q4 Q5 Q6].
  destruct (Nat.ltb_spec (length (e_verts st)) 3) as [L3|L3].
  - exists st, Tr. split; [reflexivity|]. split; [exact Q1|]. destruct Q4 as [[? _]|[_ QL]]; [lia|].
    assert (RS : rest_of st = []) by (unfold rest_of; destruct (Nat.leb_spec 3 (length (e_verts st))); [lia|reflexivity]). rewrite RS in *.
    split; [exact QL|]. split; [exact Q2|]. split; [intros w Aw; rewrite (Q5 w Aw); cbn [cyc]; lra|]. intros q Hq. destruct (Q6 q Hq) as [->|[-> _]]; lia.
  - destruct Q4 as [(_ & HI & QL)|[? _]]; [|lia].
    assert (RS : rest_of st = e_verts st) by (unfold rest_of; destruct (Nat.leb_spec 3 (length (e_verts st))); [reflexivity|lia]). rewrite RS in *.
    destruct (Nat.eqb_spec (length (e_verts st)) 3) as [E3|N3].
    + destruct (e_verts st) as [|a [|b [|c [|]]]] eqn:Ev; cbn in E3; try lia. cbn [idx nth_error obind]. eexists. exists (Tr ++ [(a, b, c)]). split; [reflexivity|]. cbn [e_tris].
      pose proof (inv_good _ HI) as G. rewrite Ev in G. pose proof (good_area _ _ (le_n _) G) as HA. cbn [poly map] in HA. rewrite area2_tri in HA.
      split; [rewrite Q1; unfold emit; now rewrite flat_map_app|]. split; [rewrite app_length; cbn [length] in *; lia|]. split.
      { apply Forall_app. split; [exact Q2|]. constructor; [|constructor]. split; [left; exact Q3|exact HA]. }
      split; [intros w Aw; rewrite map_app, sumw_app; cbn [map]; rewrite sumw1, (Q5 w Aw); lra|].
      intros q Hq. apply Forall_app in Hq as [Hq1 Hq2]. inversion Hq2 as [|? ? HO _]; subst. rewrite covers_app. specialize (Q6 q Hq1).
      cbn [poly map] in Q6. rewrite (tri_one _ _ _ q HA HO) in Q6. destruct (strictly_inside _ _ _ q); destruct Q6 as [->|[-> ?]]; lia || lra.
    + destruct (pass_Q (length (e_verts st)) Tr st 0 HQ) as (st1 & Tr1 & -> & HQ1 & HF); [lia|lia|lia|]. cbn [obind].
      destruct HF as [HF|[-> HB]]; [|exfalso; apply (not_stuck st HI L3); intros i Hi; apply HB; lia].
      apply (IH Tr1 st1 (Some (length (e_verts st))) HQ1). destruct pm; lia.
Qed.
End Clip.

(** ** Simple polygons
    A polygon whose edges do not cross and whose vertices are in general position (every three of them span more than the
    tolerance), run through counter-clockwise: the two functions the planes call one after the other tile it. *)
Open Scope R_scope.
(** the open segments ab and cd cross *)
Definition segments_cross (a b c d : vec2 R) : Prop :=
  tri_area2 a b c * tri_area2 a b d < 0 /\ tri_area2 c d a * tri_area2 c d b < 0.
Definition simple_polygon (ps : list (vec2 R)) : Prop := let n := length ps in
  forall i j, (i < n)%nat -> (j < n)%nat -> ~ segments_cross (pt ps i) (pt ps ((i + 1) mod n)) (pt ps j) (pt ps ((j + 1) mod n)).
Definition general_position (ps : list (vec2 R)) : Prop := let n := length ps in
  forall i j k, (i < n)%nat -> (j < n)%nat -> (k < n)%nat -> i <> j -> j <> k -> i <> k -> TOL < Rabs (tri_area2 (pt ps i) (pt ps j) (pt ps k)).
Lemma links_nth {A} (d : A) l a b : In (a, b) (links l) -> exists i, (S i < length l)%nat /\ nth i l d = a /\ nth (S i) l d = b.
Proof.
  induction l as [|x [|y l] IH]; [intros []|intros []|]. change (links (x :: y :: l)) with ((x, y) :: links (y :: l)).
  intros [E|H]; [injection E as <- <-; exists 0%nat; cbn [length nth]; repeat split; lia|]. destruct (IH H) as (i & L & E1 & E2). exists (S i). cbn [length] in *. repeat split; [lia|exact E1|exact E2].
Qed.
Lemma edge_pos ps a b : edge ps a b -> exists i, (i < length ps)%nat /\ a = pt ps i /\ b = pt ps ((i + 1) mod length ps).
Proof.
  unfold edge, edges. destruct ps as [|x ps]; [intros []|]. intros H. destruct (links_nth (V2 0 0) _ _ _ H) as (i & L & <- & <-).
  rewrite app_length in L. cbn [length] in L. exists i. cbn [length]. split; [lia|]. unfold pt. split; [now rewrite app_nth1 by (cbn [length]; lia)|].
  destruct (Nat.eq_dec i (length ps)) as [->|N].
  - replace (length ps + 1)%nat with (S (length ps)) by lia. rewrite Nat.mod_same by lia. rewrite app_nth2 by (cbn [length]; lia). cbn [length]. now rewrite Nat.sub_diag.
  - rewrite Nat.mod_small by lia. rewrite app_nth1 by (cbn [length]; lia). f_equal. lia.
Qed.
Lemma simple_polygon_simple ps : simple_polygon ps -> simple ps.
Proof. intros H b c E x y E' K. apply edge_pos in E as (i & Hi & -> & ->). apply edge_pos in E' as (j & Hj & -> & ->). exact (H i j Hi Hj K). Qed.
Lemma gp_pos ps : (3 <= length ps)%nat -> general_position ps -> gp ps.
Proof.
  intros H3 H. assert (0 < TOL) by (unfold TOL; lra).
  assert (Z : forall i j k, (i < length ps)%nat -> (j < length ps)%nat -> (k < length ps)%nat -> i <> j -> j <> k -> i <> k -> T (pt ps i) (pt ps j) (pt ps k) <> 0).
  { intros i j k Hi Hj Hk N1 N2 N3 E. specialize (H i j k Hi Hj Hk N1 N2 N3). rewrite E, Rabs_R0 in H. lra. }
  split.
  - apply (NoDup_nth ps (V2 0 0)). intros i j Hi Hj E. destruct (Nat.eq_dec i j) as [|N]; [assumption|exfalso].
    assert (exists k, (k < length ps)%nat /\ k <> i /\ k <> j) as (k & Hk & N1 & N2).
    { destruct (Nat.eq_dec i 0), (Nat.eq_dec j 0), (Nat.eq_dec i 1), (Nat.eq_dec j 1); try lia; solve [exists 0%nat; lia|exists 1%nat; lia|exists 2%nat; lia]. }
    apply (Z i j k); auto. unfold pt. rewrite E. unfold tri_area2. ring.
  - intros a b c E Ic N1 N2 O. apply on_T in O. revert O. destruct (edge_pos ps a b E) as (i & Hi & -> & ->). destruct (In_nth _ _ (V2 0 0) Ic) as (k & Hk & <-).
    fold (pt ps k) in *. assert ((i + 1) mod length ps < length ps)%nat by (apply Nat.mod_upper_bound; lia).
    apply Z; auto; try congruence. intros E'. rewrite next_pos_mod in E' by lia. unfold next_pos in E'. destruct (Nat.eqb_spec i (length ps - 1)); lia.
Qed.
Lemma seq_corner n a v b : (3 <= n)%nat -> corner (seq 0 n) a v b -> (v < n)%nat /\ a = ((v + n - 1) mod n)%nat /\ b = ((v + 1) mod n)%nat.
Proof.
  intros H3 H. destruct (corner_In _ _ _ _ H) as (_ & I2 & _). apply in_seq in I2. assert (Hv : (v < n)%nat) by lia. split; [exact Hv|].
  assert (ND : NoDup (seq 0 n)) by apply seq_NoDup.
  assert (Lp : (prev_pos n v < n)%nat) by (apply prev_lt; lia). assert (Ln : (next_pos n v < n)%nat) by (apply next_lt; lia).
  assert (C : corner (seq 0 n) (prev_pos n v) v (next_pos n v)).
  { apply (pos_corner (seq 0 n) v); rewrite ?seq_length; try lia; rewrite idx_nth with (d := 0%nat), seq_nth; rewrite ?seq_length; auto. }
  destruct (corner_uniq _ _ _ _ _ _ ND ltac:(rewrite seq_length; lia) H C) as [-> ->].
  rewrite (Nat.add_comm v n), prev_pos_mod, next_pos_mod by lia. split; reflexivity.
Qed.
Lemma covers_sum points q T : Forall (fun '(a, b, c) => 0 < tri_area2 (pt points a) (pt points b) (pt points c)) T -> off_all_lines points T q ->
  sumw (fun a b => wind q (pt points a) (pt points b)) (map (fun '(a, b, c) => [a; b; c]) T) = INR (covers points T q).
Proof.
  induction T as [|[[a b] c] T IH]; intros HP HO; [reflexivity|]. inversion HP as [|? ? P1 P2]; subst. inversion HO as [|? ? O1 O2]; subst. cbn [map sumw fold_right] in *.
  unfold covers in *. cbn [filter]. unfold sumw in *. cbn [map fold_right]. rewrite (IH P2 O2). pose proof (tri_one _ _ _ q P1 O1) as K. unfold winding in K.
  change [pt points a; pt points b; pt points c] with (map (pt points) [a; b; c]) in K. rewrite cyc_map in K. rewrite K.
  destruct (strictly_inside _ _ _ q); [cbn [length]; rewrite S_INR; lra|lra].
Qed.
Theorem C40_simple (ps : list (vec2 R)) : let n := length ps in (3 <= n)%nat -> simple_polygon ps -> general_position ps -> 0 < area2 ps ->
  exists conc T, compute_vertex_convexity ps = Ok (seq 0 n, conc) /\ trianglate_polygon ps (seq 0 n) conc = Ok (emit T) /\ length T = (n - 2)%nat /\
    Forall (fun '(a, b, c) => cyc_triple (seq 0 n) a b c /\ 0 < tri_area2 (pt ps a) (pt ps b) (pt ps c)) T /\
    area2 ps = total_area2 ps T /\
    forall q, off_all_lines ps T q -> winding ps q = INR (covers ps T q) /\ (covers ps T q <= 1)%nat.
Proof.
  cbv zeta. intros H3 HS HG HA. set (n := length ps) in *. assert (T0 : 0 < TOL) by (unfold TOL; lra).
  assert (G : good ps) by (apply simple_good; auto using simple_polygon_simple, gp_pos).
  assert (Cor : forall i, (i < n)%nat -> TOL < Rabs (corner_at ps (seq 0 n) i)).
  { intros i Hi. unfold corner_at. rewrite seq_length. rewrite !seq_nth by (auto; apply Nat.mod_upper_bound; lia). cbn [Nat.add].
    assert (L1 : ((i + n - 1) mod n < n)%nat) by (apply Nat.mod_upper_bound; lia). assert (L2 : ((i + 1) mod n < n)%nat) by (apply Nat.mod_upper_bound; lia).
    rewrite (Nat.add_comm i n), prev_pos_mod, next_pos_mod in * by lia. apply HG; auto; unfold prev_pos, next_pos; destruct (Nat.eqb_spec i 0), (Nat.eqb_spec i (n - 1)); lia. }
  exists (filter (right_turn ps (seq 0 n)) (seq 0 n)).
  set (conc := filter (right_turn ps (seq 0 n)) (seq 0 n)).
  assert (HQ : Q ps (seq 0 n) [] (mkEar [] (seq 0 n) conc)).
  { constructor; cbn [e_tris e_verts].
    - reflexivity.
    - constructor.
    - apply sublist_refl.
    - left. rewrite seq_length. split; [exact H3|]. split; [|reflexivity]. constructor; cbn [e_verts e_conc].
      + apply seq_NoDup.
      + intros x Ix. apply in_seq in Ix. fold n. lia.
      + intros a b c Ia Ib Ic. apply in_seq in Ia, Ib, Ic. apply HG; lia.
      + rewrite (poly_seq ps : poly ps (seq 0 n) = ps). exact G.
      + apply NoDup_filter, seq_NoDup.
      + intros x Ix. now apply filter_In in Ix.
      + intros a v b HC. destruct (seq_corner n a v b H3 HC) as (Hv & -> & ->). unfold conc. rewrite filter_In. unfold right_turn. rewrite Rltb_true.
        specialize (Cor v Hv). unfold corner_at in *. rewrite seq_length in *. rewrite !seq_nth in * by (auto; apply Nat.mod_upper_bound; lia). cbn [Nat.add] in *.
        revert Cor. unfold Rabs. destruct (Rcase_abs _) as [N|N]; intros K; split; [lra| |lra|lra]. intros _. split; [apply in_seq; lia|lra].
    - intros w Aw. unfold rest_of. cbn [e_verts]. rewrite seq_length. destruct (Nat.leb_spec 3 n); [|lia]. unfold sumw. cbn. lra.
    - intros q _. left. reflexivity. }
  destruct (loop_Q ps (seq 0 n) (n + 2) [] _ None HQ) as (st' & T & E & ET & HL & HT & HW & HC); [cbn [e_verts]; rewrite seq_length; lia|].
  exists T. split.
  { rewrite C38_vertex_convexity. fold n. f_equal. f_equal. apply filter_all. intros i Hi. apply in_seq in Hi. apply Rltb_true, Cor. lia. }
  split. { unfold trianglate_polygon. rewrite seq_length, usub_Ok by lia. cbn [obind]. rewrite E. cbn [obind]. now rewrite ET. }
  rewrite seq_length in HL. split; [lia|]. split; [exact HT|].
  assert (HP : Forall (fun '(a, b, c) => 0 < tri_area2 (pt ps a) (pt ps b) (pt ps c)) T) by (eapply Forall_impl; [|exact HT]; intros [[a b] c] [_ ?]; assumption).
  split.
  - rewrite <- sumw_tri, <- HW by apply cross2_antisym. unfold area2. rewrite <- (poly_seq ps) at 1. apply cyc_map.
  - intros q Hq. split; [|now apply HC]. rewrite <- (covers_sum ps q T HP Hq), <- HW by (intros a b; apply wind_antisym).
    unfold winding. rewrite <- (poly_seq ps) at 1. apply cyc_map.
Qed.
(** a quadrilateral with an inward corner (vertex 2) *)
Definition dart : list (vec2 R) := [V2 0 0; V2 4 0; V2 1 1; V2 0 4].
Lemma dart_simple : simple_polygon dart.
Proof.
  unfold simple_polygon, segments_cross. cbn [dart length]. intros i j Hi Hj [K1 K2]. unfold pt, dart in K1, K2.
  destruct i as [|[|[|[|]]]]; [| | | |lia]; (destruct j as [|[|[|[|]]]]; [| | | |lia]); cbn in K1, K2; unfold tri_area2 in *; cbn [x2 y2] in *; lra.
Qed.
Lemma dart_general : general_position dart.
Proof.
  unfold general_position. cbn [dart length]. intros i j k Hi Hj Hk N1 N2 N3. unfold pt, dart.
  destruct i as [|[|[|[|]]]]; [| | | |lia]; (destruct j as [|[|[|[|]]]]; [| | | |lia]); try (exfalso; lia); (destruct k as [|[|[|[|]]]]; [| | | |lia]); try (exfalso; lia);
    cbn; unfold tri_area2, TOL; cbn [x2 y2]; unfold Rabs; destruct (Rcase_abs _); lra.
Qed.
Example C40_simple_nonvacuous : exists T, trianglate_polygon dart [0; 1; 2; 3]%nat [2]%nat = Ok (emit T) /\ length T = 2%nat /\ area2 dart = 8.
Proof.
  assert (HA : area2 dart = 8) by (unfold area2, dart, cyc, chain, cross2; cbn; lra).
  destruct (C40_simple dart) as (conc & T & EC & E & L & _); [cbn; lia|apply dart_simple|apply dart_general|lra|].
  assert (conc = [2]%nat) as ->.
  { rewrite C38_vertex_convexity in EC. apply Ok_inj in EC. apply (f_equal snd) in EC. cbn [snd] in EC. rewrite <- EC. cbn [dart length seq filter].
    assert (K : forall i, (i < 4)%nat -> right_turn dart [0; 1; 2; 3]%nat i = (i =? 2)%nat).
    { intros i Hi. unfold right_turn, corner_at, pt, dart, TOL. destruct i as [|[|[|[|]]]]; [| | | |lia]; cbn; unfold tri_area2; cbn [x2 y2];
        match goal with |- Rltb ?a ?b = _ => destruct (Rltb_spec a b) end; try reflexivity; lra. }
    rewrite !K by lia. reflexivity. }
  exists T. split; [exact E|]. split; [exact L|exact HA].
Qed.
