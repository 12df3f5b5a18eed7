(** Ear clipping of an index polygon in which points occur more than once (bridges to holes):
    the positions of the polygon are told apart, and the polygon is compared with nearby
    simple polygons. *)
From Coq Require Import Reals Lra Lia Arith Permutation.
From Verif Require Import Prelude Num M_vec M_utils M_polygon L_base L_vec L_geom L_cycle L_polygon Props_polygon Props_ears L_simple L_sides L_twoears L_earexist L_clip Props_simple L_drop.
Open Scope nat_scope.

(** ** Rotations of lists without repetitions *)
Lemma app_unique {A} (x : A) u v u' v' : ~ In x u -> ~ In x u' -> u ++ x :: v = u' ++ x :: v' -> u = u' /\ v = v'.
Proof.
  revert u'. induction u as [|a u IH]; intros [|b u'] H H' E; cbn [app] in E.
  - injection E as <-. auto.
  - injection E as <- _. exfalso. apply H'. now left.
  - injection E as -> _. exfalso. apply H. now left.
  - injection E as <- E. destruct (IH u') as [-> ->]; auto; intros K; [apply H|apply H']; now right.
Qed.
Lemma rot_start {A} (l : list A) x B C : NoDup l -> rotof l (x :: B) -> rotof l (x :: C) -> B = C.
Proof.
  intros ND R1 R2. pose proof (rotof_trans _ _ _ (rotof_sym _ _ R1) R2) as (u & v & E1 & E2).
  apply (Permutation_NoDup (rotof_perm _ _ R1)) in ND. destruct u as [|a u]; [cbn [app] in E1; rewrite app_nil_r in E2; subst v; now injection E2|].
  cbn [app] in E1. injection E1 as <- ->. destruct v as [|b v]; [cbn [app] in E2; injection E2 as ->; now rewrite app_nil_r|].
  cbn [app] in E2. injection E2 as <- _. exfalso. inversion ND as [|? ? N1 _]; subst. apply N1. apply in_or_app. right. now left.
Qed.
(** the corner at a vertex strictly between i and j stays between them *)
Lemma corner_between {A} (l : list A) i j X Y p c n : NoDup l -> rotof l (i :: X ++ j :: Y) -> corner l p c n -> In c X -> In p (i :: X) /\ In n (X ++ [j]).
Proof.
  intros ND R HC Ic. assert (L3 : 3 <= length l).
  { destruct HC as (r & HR). rewrite (Permutation_length (rotof_perm _ _ HR)). cbn [length]. lia. }
  apply in_split in Ic as (X1 & X2 & ->).
  destruct (exists_last (l := i :: X1) ltac:(discriminate)) as (X1' & p' & E1). destruct (X2 ++ [j]) as [|n' X2'] eqn:E2; [destruct X2; discriminate|].
  assert (Z : corner l p' c n').
  { exists (X2' ++ Y ++ X1'). eapply rotof_trans; [exact R|]. exists X1', (p' :: c :: n' :: X2' ++ Y). split.
    - change (i :: (X1 ++ c :: X2) ++ j :: Y) with ((i :: X1 ++ c :: X2) ++ [j] ++ Y). rewrite app_assoc.
      replace ((i :: X1 ++ c :: X2) ++ [j]) with ((i :: X1) ++ c :: (X2 ++ [j])) by (cbn [app]; now rewrite <- app_assoc). rewrite E1, E2. rewrite <- !app_assoc. reflexivity.
    - cbn [app]. now rewrite <- app_assoc. }
  destruct (corner_uniq l p p' c n n' ND L3 HC Z) as [-> ->]. split.
  - change (i :: X1 ++ c :: X2) with ((i :: X1) ++ c :: X2). rewrite E1. rewrite !in_app_iff. left. right. now left.
  - rewrite <- app_assoc. cbn [app]. rewrite E2. apply in_or_app. right. right. now left.
Qed.

(** ** Sums around cycles with a repeated point *)
Open Scope R_scope.
Lemma chain_const {A B} (w : B -> B -> R) (x : B) (l : list A) : antisym w -> chain w (map (fun _ => x) l) = 0.
Proof.
  intros Hw. induction l as [|a [|b l] IH]; [reflexivity|reflexivity|]. cbn [map] in *. rewrite chain_cons2, IH, (w_diag w Hw). lra.
Qed.
Lemma cyc_bulge {A B} (w : B -> B -> R) (x : B) (P : list B) (l : list A) : antisym w -> cyc w (x :: P ++ x :: map (fun _ => x) l) = cyc w (x :: P).
Proof.
  intros Hw. unfold cyc. cbn [app]. rewrite <- app_assoc. cbn [app].
  change (x :: P ++ x :: map (fun _ => x) l ++ [x]) with ((x :: P) ++ x :: map (fun _ => x) l ++ [x]). rewrite chain_app.
  replace (x :: map (fun _ : A => x) l ++ [x]) with (map (fun _ : option A => x) (None :: map Some l ++ [None])) by (cbn [map]; rewrite map_app, map_map; reflexivity).
  rewrite chain_const by exact Hw. cbn [app]. lra.
Qed.
Lemma cyc_pinch {B} (w : B -> B -> R) (x : B) (P Q : list B) : cyc w (x :: P ++ x :: Q) = cyc w (x :: P) + cyc w (x :: Q).
Proof. unfold cyc. cbn [app]. rewrite <- app_assoc. cbn [app]. change (x :: P ++ x :: Q ++ [x]) with ((x :: P) ++ x :: Q ++ [x]). rewrite chain_app. reflexivity. Qed.
Lemma cross_antisym (g : nat -> vec2 R) : antisym (fun a b => cross2 (g a) (g b)).
Proof. intros a b. unfold cross2. ring. Qed.
Lemma cross_anti : antisym cross2.
Proof. intros a b. unfold cross2. ring. Qed.
Lemma area2_short (P : list (vec2 R)) : (length P <= 2)%nat -> area2 P = 0.
Proof.
  intros H. unfold area2. destruct P as [|a [|b [|]]]; cbn [length] in H; try lia; [reflexivity|apply cyc1|apply cyc2]; exact cross_anti.
Qed.

(** ** An arc between two occurrences of a point keeps losing area *)
Section Arc.
Context (g : nat -> vec2 R) (vs0 D : list nat) (Tr : list (nat * nat * nat)).
Notation G3 a b c := (T (g a) (g b) (g c)).
Context (ND0 : NoDup vs0).
Context (HP : Forall (fun '(a, b, c) => 0 < G3 a b c) Tr).
Context (HS : forall w, antisym w -> cyc w vs0 = sumw w (map (fun '(a, b, c) => [a; b; c]) Tr) + cyc w (without D vs0)).
Lemma arc_loss i j X Y : rotof vs0 (i :: X ++ j :: Y) -> ~ In i D -> ~ In j D -> g i = g j ->
  (forall a b c, In (a, b, c) Tr -> incl [a; b; c] (i :: X ++ [j]) \/ incl [a; b; c] (j :: Y ++ [i])) ->
  area2 (map g (i :: without D X)) <= area2 (map g (i :: X)).
Proof.
  intros Rt Ni Nj Eg HN. set (h := fun x => if mem x X then g x else g i).
  pose proof (Permutation_NoDup (rotof_perm _ _ Rt) ND0) as ND.
  assert (Ix : ~ In i X /\ ~ In j X /\ forall y, In y Y -> ~ In y X).
  { inversion ND as [|? ? N1 N2]; subst. split; [intros K; apply N1; apply in_or_app; now left|]. pose proof (NoDup_app_disj _ _ N2) as K. split.
    - intros Kj. apply (K j Kj). now left.
    - intros y Iy Iy'. apply (K y Iy'). now right. }
  destruct Ix as (NiX & NjX & NYX).
  assert (Hh : forall l, incl l X -> map h l = map g l).
  { intros l Hl. apply map_ext_in. intros x Hx. unfold h. rewrite (proj2 (mem_In x X)) by auto. reflexivity. }
  assert (Hc : forall x, ~ In x X -> h x = g i) by (intros x Nx; unfold h; rewrite (proj2 (mem_false x X) Nx); reflexivity).
  assert (F : forall X' Y', incl X' X -> (forall y, In y Y' -> In y Y) -> cyc (fun a b => cross2 (h a) (h b)) (i :: X' ++ j :: Y') = area2 (map g (i :: X'))).
  { intros X' Y' HX HY. rewrite <- (cyc_map h cross2). cbn [map]. rewrite map_app. cbn [map]. rewrite (Hc i NiX), (Hc j NjX), (Hh X' HX).
    rewrite (map_ext_in h (fun _ => g i) Y') by (intros y Iy; apply Hc; auto). rewrite cyc_bulge by exact cross_anti. reflexivity. }
  specialize (HS (fun a b => cross2 (h a) (h b)) (cross_antisym h)).
  rewrite (rotof_cyc _ _ _ Rt), (F X Y (incl_refl _) (fun y H => H)) in HS.
  pose proof (rotof_without D _ _ Rt) as Rd. assert (Ew : without D (i :: X ++ j :: Y) = i :: without D X ++ j :: without D Y).
  { unfold without. cbn [filter]. rewrite (proj2 (mem_false i D) Ni). cbn [negb]. rewrite filter_app. cbn [filter]. now rewrite (proj2 (mem_false j D) Nj). }
  rewrite Ew in Rd. rewrite (rotof_cyc _ _ _ Rd), F in HS; [|intros x Hx; now apply In_without in Hx|intros x Hx; now apply In_without in Hx].
  assert (K : 0 <= sumw (fun a b => cross2 (h a) (h b)) (map (fun '(a, b, c) => [a; b; c]) Tr)); [|lra].
  clear HS. revert HP HN. induction Tr as [|[[a b] c] Ts IH]; intros HP' HN; [cbn; lra|]. inversion HP' as [|? ? P1 P2]; subst.
  cbn [map]; unfold sumw in *; cbn [map fold_right] in *.
  specialize (IH P2 (fun a b c H => HN a b c (or_intror H))).
  assert (0 <= cyc (fun a b => cross2 (h a) (h b)) [a; b; c]); [|lra]. rewrite <- (cyc_map h cross2). change (0 <= area2 [h a; h b; h c]). rewrite area2_tri.
  destruct (HN a b c (or_introl eq_refl)) as [HI|HI].
  - assert (Z : forall x, In x (i :: X ++ [j]) -> h x = g x).
    { intros x [<-|Hx]; [now apply Hc|]. apply in_app_or in Hx as [Hx|[<-|[]]]; [unfold h; now rewrite (proj2 (mem_In x X) Hx)|]. rewrite Hc by assumption. exact Eg. }
    rewrite !Z by (apply HI; cbn; auto). lra.
  - assert (Z : forall x, In x (j :: Y ++ [i]) -> h x = g i).
    { intros x [<-|Hx]; [now apply Hc|]. apply in_app_or in Hx as [Hx|[<-|[]]]; apply Hc; auto. }
    rewrite !Z by (apply HI; cbn; auto). unfold tri_area2. lra.
Qed.
End Arc.

(** ** Ear clipping with repeated points
    Positions i of the polygon stand for the vertex index f i; pe e i is a place near the vertex. *)
Section Weak.
Context (points : list (vec2 R)) (f : nat -> nat) (vs0 : list nat) (pe : R -> nat -> vec2 R).
Notation tt a b c := (T (pt points a) (pt points b) (pt points c)).
Notation t3 a b c := (tt (f a) (f b) (f c)).
Notation p0 i := (pt points (f i)).
Notation tris T := (map (fun '(a, b, c) => [a; b; c]) T).
Definition f3 (t : nat * nat * nat) : nat * nat * nat := let '(a, b, c) := t in (f a, f b, f c).
Definition doubled (v : nat) : Prop := exists v', In v' vs0 /\ v' <> v /\ f v' = f v.
Definition dpair (i j : nat) : Prop := exists X Y, rotof vs0 (i :: X ++ j :: Y) /\ area2 (map (fun x => p0 x) (i :: X)) < 0.
Context (ND0 : NoDup vs0) (HV : forall v, In v vs0 -> (f v < length points)%nat).
Context (HSep : forall a b c, In a vs0 -> In b vs0 -> In c vs0 -> f a <> f b -> f b <> f c -> f a <> f c -> TOL < Rabs (t3 a b c)).
Context (HLim : forall i, In i vs0 -> limp (fun e => pe e i) (p0 i)).
Context (HG : ev (fun e => good (map (pe e) vs0))).
Context (HA : forall i j, In i vs0 -> In j vs0 -> i <> j -> f i = f j -> dpair i j \/ dpair j i).

(** sides of lines are the same nearby *)
Definition same_signs (e : R) : Prop := forall a b c, In a vs0 -> In b vs0 -> In c vs0 -> f a <> f b -> f b <> f c -> f a <> f c ->
  (0 < t3 a b c /\ 0 < T (pe e a) (pe e b) (pe e c)) \/ (t3 a b c < 0 /\ T (pe e a) (pe e b) (pe e c) < 0).
Lemma sep_cases a b c : In a vs0 -> In b vs0 -> In c vs0 -> f a <> f b -> f b <> f c -> f a <> f c -> TOL < t3 a b c \/ t3 a b c < - TOL.
Proof. intros Ia Ib Ic N1 N2 N3. specialize (HSep a b c Ia Ib Ic N1 N2 N3). revert HSep. unfold Rabs. destruct (Rcase_abs _); lra. Qed.
Lemma ev_signs : ev same_signs.
Proof.
  assert (T0 : 0 < TOL) by (unfold TOL; lra).
  assert (K : ev (fun e => forall x, In x (list_prod (list_prod vs0 vs0) vs0) -> let '(a, b, c) := x in f a <> f b -> f b <> f c -> f a <> f c ->
    (0 < t3 a b c /\ 0 < T (pe e a) (pe e b) (pe e c)) \/ (t3 a b c < 0 /\ T (pe e a) (pe e b) (pe e c) < 0))).
  { apply ev_list. intros [[a b] c] Ix. apply in_prod_iff in Ix as [Ix Ic]. apply in_prod_iff in Ix as [Ia Ib].
    pose proof (lim_T _ _ _ _ _ _ (HLim a Ia) (HLim b Ib) (HLim c Ic)) as L.
    destruct (Nat.eq_dec (f a) (f b)) as [E|N1]; [apply ev_all; intros; contradiction|]. destruct (Nat.eq_dec (f b) (f c)) as [E|N2]; [apply ev_all; intros; contradiction|].
    destruct (Nat.eq_dec (f a) (f c)) as [E|N3]; [apply ev_all; intros; contradiction|].
    destruct (sep_cases a b c Ia Ib Ic N1 N2 N3) as [H|H].
    - eapply ev_imp; [|apply (lim_pos _ _ L); lra]. intros e _ He _ _ _. left. split; [lra|exact He].
    - eapply ev_imp; [|apply (lim_neg _ _ L); lra]. intros e _ He _ _ _. right. split; [lra|exact He]. }
  eapply ev_imp; [|exact K]. intros e _ H a b c Ia Ib Ic. apply (H (a, b, c)). apply in_prod_iff. split; [apply in_prod_iff; auto|auto].
Qed.
Lemma lim_chain (w : R -> nat -> nat -> R) l : (forall x y, In x l -> In y l -> lim0 (fun e => w e x y) (w 0 x y)) -> lim0 (fun e => chain (w e) l) (chain (w 0) l).
Proof.
  induction l as [|x [|y l] IH]; intros H; [exact (lim_const 0)|exact (lim_const 0)|]. eapply lim_eq; [symmetry; apply chain_cons2|].
  assert (K : lim0 (fun e => w e x y + chain (w e) (y :: l)) (w 0 x y + chain (w 0) (y :: l))).
  { apply lim_add; [apply H; cbn; auto|]. apply IH. intros a b Ia Ib. apply H; now right. }
  intros d Hd. eapply ev_imp; [|exact (K d Hd)]. intros e _ He. cbv beta in *. rewrite chain_cons2. exact He.
Qed.
Lemma lim_area l : incl l vs0 -> lim0 (fun e => area2 (map (pe e) l)) (area2 (map (fun x => p0 x) l)).
Proof.
  intros Hl. set (w := fun e a b => if Req_EM_T e 0 then cross2 (p0 a) (p0 b) else cross2 (pe e a) (pe e b)).
  assert (E0 : area2 (map (fun x => p0 x) l) = cyc (w 0) l).
  { unfold area2. rewrite (cyc_map (fun x => p0 x)). unfold w. destruct (Req_EM_T 0 0); [reflexivity|lra]. }
  assert (L : lim0 (fun e => cyc (w e) l) (cyc (w 0) l)).
  { unfold cyc. destruct l as [|a l']; [exact (lim_const 0)|]. apply lim_chain. intros x y Ix Iy.
    assert (Jx : In x vs0) by (apply Hl; apply in_app_or in Ix as [?|[<-|[]]]; [assumption|now left]).
    assert (Jy : In y vs0) by (apply Hl; apply in_app_or in Iy as [?|[<-|[]]]; [assumption|now left]).
    unfold w. destruct (Req_EM_T 0 0) as [_|]; [|lra]. destruct (HLim x Jx) as [X1 X2], (HLim y Jy) as [Y1 Y2].
    pose proof (lim_sub _ _ _ _ (lim_mul _ _ _ _ X1 Y2) (lim_mul _ _ _ _ X2 Y1)) as K. unfold cross2. intros d Hd. eapply ev_imp; [|exact (K d Hd)].
    intros e He K'. cbv beta in *. destruct (Req_EM_T e 0); [lra|]. revert K'. rewrite (Rmult_comm (x2 (pe e y))), (Rmult_comm (x2 (p0 y))). auto. }
  rewrite E0. intros d Hd. eapply ev_imp; [|exact (L d Hd)]. intros e He K. cbv beta in *. unfold area2. rewrite (cyc_map (pe e)). revert K. unfold w.
  destruct (Req_EM_T e 0); [lra|auto].
Qed.
Lemma area_limit l : incl l vs0 -> ev (fun e => good (map (pe e) l)) -> 0 <= area2 (map (fun x => p0 x) l).
Proof.
  intros Hl G. destruct (Rle_lt_dec 0 (area2 (map (fun x => p0 x) l))) as [|L]; [assumption|exfalso].
  destruct (ev_ex _ (ev_and _ _ G (lim_neg _ _ (lim_area l Hl) L))) as (e & _ & Ge & Ne). pose proof (good_area _ _ (le_n _) Ge). lra.
Qed.

(** ** No vertex lies between two occurrences of a point *)
Definition apart3 (a b c : nat) : Prop := f a <> f b /\ f b <> f c /\ f a <> f c.
Definition within (Tr : list (nat * nat * nat)) (l : list nat) : Prop := forall i j X Y, In i l -> In j l -> rotof vs0 (i :: X ++ j :: Y) ->
  forall a b c, In (a, b, c) Tr -> incl [a; b; c] (i :: X ++ [j]) \/ incl [a; b; c] (j :: Y ++ [i]).
Lemma pair_far Tr D i j : Forall (fun '(a, b, c) => 0 < t3 a b c) Tr -> (forall w, antisym w -> cyc w vs0 = sumw w (tris Tr) + cyc w (without D vs0)) ->
  within Tr (without D vs0) -> 0 <= area2 (map (fun x => p0 x) (without D vs0)) -> In i (without D vs0) -> In j (without D vs0) -> f i = f j -> dpair i j ->
  exists X Y, rotof (without D vs0) (i :: X ++ j :: Y) /\ (2 <= length X)%nat /\ (2 <= length Y)%nat.
Proof.
  intros HP HS HW HAr Ii Ij Ef (X & Y & Rt & HN). pose proof (proj1 (In_without _ _ _) Ii) as [_ Ni]. pose proof (proj1 (In_without _ _ _) Ij) as [_ Nj].
  pose proof (arc_loss (fun x => p0 x) vs0 D Tr ND0 HP HS i j X Y Rt Ni Nj (f_equal (pt points) Ef) (HW i j X Y Ii Ij Rt)) as K.
  pose proof (rotof_without D _ _ Rt) as Rd. assert (Ew : without D (i :: X ++ j :: Y) = i :: without D X ++ j :: without D Y).
  { unfold without. cbn [filter]. rewrite (proj2 (mem_false i D) Ni). cbn [negb]. rewrite filter_app. cbn [filter]. now rewrite (proj2 (mem_false j D) Nj). }
  rewrite Ew in Rd. exists (without D X), (without D Y). split; [exact Rd|].
  assert (AR : area2 (map (fun x => p0 x) (without D vs0)) = area2 (map (fun x => p0 x) (i :: without D X)) + area2 (map (fun x => p0 x) (j :: without D Y))).
  { unfold area2 at 1. rewrite (cyc_map (fun x => p0 x)), (rotof_cyc _ _ _ Rd), <- (cyc_map (fun x => p0 x)). cbn [map]. rewrite map_app. cbn [map].
    rewrite Ef. apply cyc_pinch. }
  split; match goal with |- (2 <= length ?L)%nat => destruct (le_lt_dec 2 (length L)) as [|L2]; [assumption|exfalso] end.
  - rewrite (area2_short (map (fun x => p0 x) (i :: without D X))) in K; [lra|]. rewrite map_length. cbn [length]. lia.
  - rewrite (area2_short (map (fun x => p0 x) (j :: without D Y))) in AR; [lra|]. rewrite map_length. cbn [length]. lia.
Qed.
Lemma far_corner (l : list nat) i j X Y v : NoDup l -> rotof l (i :: X ++ j :: Y) -> (2 <= length X)%nat -> (2 <= length Y)%nat ->
  ~ edge l i j /\ ~ edge l j i /\ ~ corner l i v j /\ ~ corner l j v i.
Proof.
  intros ND Rt LX LY. destruct X as [|x1 [|x2 X]]; cbn [length] in LX; [lia|lia|]. destruct Y as [|y1 [|y2 Y]]; cbn [length] in LY; [lia|lia|].
  assert (L3 : (3 <= length l)%nat) by (rewrite (Permutation_length (rotof_perm _ _ Rt)); cbn [length app]; lia).
  pose proof (Permutation_NoDup (rotof_perm _ _ Rt) ND) as NDr.
  destruct (exists_last (l := i :: x1 :: x2 :: X) ltac:(discriminate)) as (U & z & EU).
  assert (C1 : exists r, rotof l (i :: x1 :: x2 :: r)) by (exists (X ++ j :: y1 :: y2 :: Y); exact Rt).
  assert (C2 : exists r, rotof l (j :: y1 :: y2 :: r)).
  { exists (Y ++ i :: x1 :: x2 :: X). eapply rotof_trans; [exact Rt|]. exists (i :: x1 :: x2 :: X), (j :: y1 :: y2 :: Y). split; reflexivity. }
  assert (Dj : ~ In j (x1 :: x2 :: X)). { inversion NDr as [|? ? _ N]; subst. intros K. apply (NoDup_app_disj (x1 :: x2 :: X) (j :: y1 :: y2 :: Y) N j K). now left. }
  assert (Di : ~ In i (y1 :: y2 :: Y)). { inversion NDr as [|? ? N _]; subst. intros K. apply N. apply (in_or_app (x1 :: x2 :: X)). right. now right. }
  assert (Nx : x1 <> j /\ x2 <> j) by (split; intros ->; apply Dj; cbn; auto). assert (Ny : y1 <> i /\ y2 <> i) by (split; intros ->; apply Di; cbn; auto).
  destruct C1 as (r1 & C1), C2 as (r2 & C2).
  assert (E1 : forall b, edge l i b -> b = x1).
  { intros b E. apply (rotof_edge _ _ _ _ C1) in E. assert (NDc := Permutation_NoDup (rotof_perm _ _ C1) ND).
    assert (L3c : (3 <= length (i :: x1 :: x2 :: r1))%nat) by (cbn; lia).
    destruct (corner_edge _ _ _ _ (ex_intro _ r1 (rotof_refl (i :: x1 :: x2 :: r1)) : corner (i :: x1 :: x2 :: r1) i x1 x2)) as [E2 _].
    assert (exists a, edge (i :: x1 :: x2 :: r1) a i) as (a & Ea).
    { destruct (exists_last (l := x2 :: r1) ltac:(discriminate)) as (r & a & Er). exists a. rewrite Er.
      apply (rotof_edge (a :: i :: x1 :: r)); [|left; reflexivity]. apply rotof_sym. exists (i :: x1 :: r), [a]. split; reflexivity. }
    pose proof (proj2 (corner_iff _ a i b NDc L3c) (conj Ea E)) as K1. pose proof (proj2 (corner_iff _ a i x1 NDc L3c) (conj Ea E2)) as K2.
    now destruct (corner_uniq _ _ _ _ _ _ NDc L3c K1 K2). }
  assert (E2 : forall b, edge l j b -> b = y1).
  { intros b E. apply (rotof_edge _ _ _ _ C2) in E. assert (NDc := Permutation_NoDup (rotof_perm _ _ C2) ND).
    assert (L3c : (3 <= length (j :: y1 :: y2 :: r2))%nat) by (cbn; lia).
    destruct (corner_edge _ _ _ _ (ex_intro _ r2 (rotof_refl (j :: y1 :: y2 :: r2)) : corner (j :: y1 :: y2 :: r2) j y1 y2)) as [E3 _].
    assert (exists a, edge (j :: y1 :: y2 :: r2) a j) as (a & Ea).
    { destruct (exists_last (l := y2 :: r2) ltac:(discriminate)) as (r & a & Er). exists a. rewrite Er.
      apply (rotof_edge (a :: j :: y1 :: r)); [|left; reflexivity]. apply rotof_sym. exists (j :: y1 :: r), [a]. split; reflexivity. }
    pose proof (proj2 (corner_iff _ a j b NDc L3c) (conj Ea E)) as K1. pose proof (proj2 (corner_iff _ a j y1 NDc L3c) (conj Ea E3)) as K2.
    now destruct (corner_uniq _ _ _ _ _ _ NDc L3c K1 K2). }
  split; [intros E; apply E1 in E; destruct Nx; congruence|]. split; [intros E; apply E2 in E; destruct Ny; congruence|].
  assert (X1 : corner l i x1 x2) by (exists r1; exact C1). assert (Y1 : corner l j y1 y2) by (exists r2; exact C2).
  split; intros HC; destruct (corner_edge _ _ _ _ HC) as [Ea _].
  - apply E1 in Ea. subst v. destruct (corner_uniq l i i x1 j x2 ND L3 HC X1) as [_ <-]. tauto.
  - apply E2 in Ea. subst v. destruct (corner_uniq l j j y1 i y2 ND L3 HC Y1) as [_ <-]. tauto.
Qed.
Lemma no_spike Tr D a v b : Forall (fun '(a, b, c) => 0 < t3 a b c) Tr -> (forall w, antisym w -> cyc w vs0 = sumw w (tris Tr) + cyc w (without D vs0)) ->
  within Tr (without D vs0) -> ev (fun e => good (map (pe e) (without D vs0))) -> corner (without D vs0) a v b -> apart3 a v b.
Proof.
  intros HP HS HW HGd HC. set (l := without D vs0) in *. assert (ND : NoDup l) by (now apply NoDup_without).
  assert (Hl : incl l vs0) by (intros x Ix; now apply In_without in Ix). pose proof (area_limit l Hl HGd) as AR.
  destruct (corner_In _ _ _ _ HC) as (Ia & Iv & Ib). destruct (corner_distinct _ _ _ _ ND HC) as (D1 & D2 & D3). destruct (corner_edge _ _ _ _ HC) as [E1 E2].
  assert (K : forall i j, In i l -> In j l -> i <> j -> f i = f j -> forall u, ~ edge l i j /\ ~ edge l j i /\ ~ corner l i u j /\ ~ corner l j u i).
  { intros i j Ii Ij N E u. destruct (HA i j (Hl i Ii) (Hl j Ij) N E) as [Hp|Hp].
    - destruct (pair_far Tr D i j HP HS HW AR Ii Ij E Hp) as (X & Y & R1 & LX & LY). exact (far_corner l i j X Y u ND R1 LX LY).
    - destruct (pair_far Tr D j i HP HS HW AR Ij Ii (eq_sym E) Hp) as (X & Y & R1 & LX & LY). destruct (far_corner l j i X Y u ND R1 LX LY) as (K1 & K2 & K3 & K4). auto. }
  split; [intros E; now destruct (K a v Ia Iv D1 E v)|]. split; [intros E; now destruct (K v b Iv Ib D2 E v)|]. intros E; now destruct (K a b Ia Ib D3 E v) as (_ & _ & ? & _).
Qed.

(** ** The state of the loop *)
Record winv (st : ear_state) (l : list nat) : Prop := {
  w_verts : e_verts st = map f l;
  w_len : (3 <= length l)%nat;
  w_nd : NoDup l;
  w_in : incl l vs0;
  w_good : ev (fun e => good (map (pe e) l));
  w_cnd : NoDup (e_conc st);
  w_cin : forall x, In x (e_conc st) -> exists v, In v l /\ x = f v /\ ~ doubled v;
  w_conc : forall a v b, corner l a v b -> (In (f v) (e_conc st) <-> t3 a v b < 0);
  w_apart : forall a v b, corner l a v b -> apart3 a v b }.
Lemma single v v' : ~ doubled v -> In v' vs0 -> f v' = f v -> v' = v.
Proof. intros N I E. destruct (Nat.eq_dec v' v) as [|K]; [assumption|]. exfalso. apply N. exists v'. auto. Qed.
Lemma conc_single st l v : winv st l -> In v vs0 -> In (f v) (e_conc st) -> In v l /\ ~ doubled v.
Proof. intros W Iv H. destruct (w_cin _ _ W _ H) as (v' & Iv' & E & N). pose proof (single v' v N Iv E) as ->. auto. Qed.
Lemma corner_nz st l a v b : winv st l -> corner l a v b -> t3 a v b <> 0.
Proof.
  intros W H. destruct (w_apart _ _ W _ _ _ H) as (A1 & A2 & A3). destruct (corner_In _ _ _ _ H) as (I1 & I2 & I3).
  assert (0 < TOL) by (unfold TOL; lra). destruct (sep_cases a v b) as [K|K]; auto using (w_in _ _ W); lra.
Qed.
Lemma weak_ear st l p c n : winv st l -> corner l p c n -> ~ In (f c) (e_conc st) -> is_ear points (e_conc st) (f p) (f c) (f n) = Ok true ->
  0 < t3 p c n /\ ev (fun e => ear (map (pe e) l) (pe e p) (pe e c) (pe e n)).
Proof.
  intros W HC Nc E. pose proof (corner_nz st l p c n W HC) as Z. assert (HT : 0 < t3 p c n) by (destruct (Rdichotomy _ _ Z); [exfalso; apply Nc; now apply (w_conc _ _ W p c n)|lra]).
  split; [exact HT|]. pose proof (w_in _ _ W) as Hl. destruct (corner_In _ _ _ _ HC) as (Ip & Ic & In_). destruct (w_apart _ _ W _ _ _ HC) as (A1 & A2 & A3).
  eapply ev_imp; [|exact (ev_and _ _ (w_good _ _ W) ev_signs)]. intros e _ [Ge Se].
  apply reflex_enough; [exact Ge|now apply corner_map| |].
  { destruct (Se p c n) as [[_ ?]|[? _]]; auto; lra. }
  intros x y z HK L N1 N2. apply corner_unmap in HK as (a & v & b & HK & <- & <- & <-). destruct (corner_In _ _ _ _ HK) as (Ia & Iv & Ib).
  destruct (w_apart _ _ W _ _ _ HK) as (B1 & B2 & B3).
  assert (Kc : In (f v) (e_conc st)). { apply (w_conc _ _ W a v b HK). destruct (Se a v b) as [[_ ?]|[? _]]; auto; lra. }
  destruct (conc_single st l v W (Hl v Iv) Kc) as [_ Nd].
  assert (Np : f v <> f p) by (intros K; apply N1; f_equal; symmetry; apply (single v p Nd); auto).
  assert (Nn : f v <> f n) by (intros K; apply N2; f_equal; symmetry; apply (single v n Nd); auto).
  assert (Nv : f v <> f c) by (intros K; apply Nc; now rewrite <- K).
  pose proof (is_ear_true _ _ _ _ _ E (f v) Kc Np Nn) as NI. intros (J1 & J2 & J3). apply NI. unfold in_tri.
  destruct (Se p c v) as [[? _]|[_ ?]]; auto; [|lra]. destruct (Se c n v) as [[? _]|[_ ?]]; auto; [|lra]. destruct (Se n p v) as [[? _]|[_ ?]]; auto; lra.
Qed.
Lemma delete_map {A B} (g : A -> B) l i : delete_nth (map g l) i = map g (delete_nth l i).
Proof.
  destruct (le_lt_dec (length l) i) as [L|L].
  - unfold delete_nth. rewrite !firstn_all2, !skipn_all2 by (rewrite ?map_length; lia). now rewrite !app_nil_r.
  - destruct (app_len2 l i ltac:(lia)) as (l1 & l2 & -> & HL). rewrite app_length in L. destruct l2 as [|c l2]; [cbn in L; lia|].
    rewrite delete_at by auto. rewrite map_app. cbn [map]. rewrite delete_at by (rewrite map_length; auto). now rewrite map_app.
Qed.
Lemma idx_map {A B} (g : A -> B) l i (d : A) x : (i < length l)%nat -> idx (map g l) i = Ok x -> x = g (nth i l d).
Proof. intros H E. rewrite (idx_nth _ i (g d)) in E by (rewrite map_length; exact H). apply Ok_inj in E. rewrite <- E. apply map_nth. Qed.
Lemma clip_weak st l i p c n mid conc1 conc2 d1 d2 ts : winv st l -> (4 <= length l)%nat -> (i < length l)%nat ->
  idx l i = Ok c -> idx l (prev_pos (length l) i) = Ok p -> idx l (next_pos (length l) i) = Ok n ->
  rotof l (c :: n :: mid ++ [p]) -> rotof (delete_nth l i) (n :: mid ++ [p]) -> ~ In (f c) (e_conc st) -> is_ear points (e_conc st) (f p) (f c) (f n) = Ok true ->
  ev (fun e => good (map (pe e) (delete_nth l i))) -> (forall a v b, corner (delete_nth l i) a v b -> apart3 a v b) ->
  ear_update_prev points (map f l) (e_conc st) (length l) i (f p) (f n) = Ok (conc1, d1) ->
  ear_update_next points (map f l) conc1 (length l) i (f p) (f n) = Ok (conc2, d2) ->
  d1 = [] /\ d2 = [] /\ winv (mkEar ts (delete_nth (map f l) i) conc2) (delete_nth l i).
Proof.
  intros W H4 Hi Ec Ep En Rt R' Nc Ee Gd Ad U1 U2. set (m := length l) in *. assert (Hm : length (map f l) = m) by apply map_length.
  pose proof W as [WV WL ND WI WG CN CI CC WA]. destruct (weak_ear st l p c n W (rot_corner _ _ _ _ _ Rt) Nc Ee) as [HT HE].
  assert (HL3 : (3 <= length l)%nat) by (fold m; lia). pose proof (rot_corner _ _ _ _ _ Rt) as HC.
  pose proof (Permutation_length (rotof_perm _ _ Rt)) as HLm. cbn [length] in HLm. rewrite app_length in HLm. cbn [length] in HLm. fold m in HLm.
  pose proof (Permutation_NoDup (rotof_perm _ _ Rt) ND) as NDr.
  assert (NM : mid <> []) by (intros ->; cbn in HLm; lia).
  pose proof (prev_lt m i Hi) as Lp. pose proof (next_lt m i Hi) as Ln.
  assert (Epp : exists pp, idx l (prev_pos m (prev_pos m i)) = Ok pp) by (eexists; apply (idx_nth _ _ 0%nat); apply prev_lt; exact Lp). destruct Epp as (pp & Epp).
  assert (Enn : exists nn, idx l (next_pos m (next_pos m i)) = Ok nn) by (eexists; apply (idx_nth _ _ 0%nat); apply next_lt; exact Ln). destruct Enn as (nn & Enn).
  assert (HPp : corner l pp p c) by (apply (pos_corner l (prev_pos m i)); auto; fold m; rewrite next_prev; auto).
  assert (HNn : corner l c n nn) by (apply (pos_corner l (next_pos m i)); auto; fold m; rewrite prev_next; auto).
  destruct (corner_In _ _ _ _ HC) as (Ip & Ic & In_). destruct (corner_In _ _ _ _ HPp) as (Ipp & _ & _). destruct (corner_In _ _ _ _ HNn) as (_ & _ & Inn).
  assert (NDd : NoDup (delete_nth l i)) by now apply NoDup_delete.
  assert (HLd : (3 <= length (delete_nth l i))%nat) by (rewrite (Permutation_length (rotof_perm _ _ R')); cbn [length]; rewrite app_length; cbn [length]; lia).
  (* the corners of the rest at p and n *)
  assert (HP' : corner (delete_nth l i) pp p n).
  { destruct (exists_last NM) as (mid' & z & ->). assert (Z : corner l z p c).
    { exists (n :: mid'). eapply rotof_trans; [exact Rt|]. exists (c :: n :: mid'), [z; p]. split; [cbn [app]; now rewrite <- app_assoc|reflexivity]. }
    destruct (corner_uniq l z pp p c c ND HL3 Z HPp) as [<- _]. exists mid'. eapply rotof_trans; [exact R'|]. exists (n :: mid'), [z; p]. split; [cbn [app]; now rewrite <- app_assoc|reflexivity]. }
  assert (HN' : corner (delete_nth l i) p n nn).
  { destruct mid as [|z mid']; [congruence|]. assert (Z : corner l c n z) by (exists (mid' ++ [p]); exact Rt).
    destruct (corner_uniq l c c n z nn ND HL3 Z HNn) as [_ <-]. exists mid'. eapply rotof_trans; [exact R'|]. exists (n :: z :: mid'), [p]. split; reflexivity. }
  destruct (corner_distinct _ _ _ _ ND HC) as (D1 & D2 & D3). destruct (corner_distinct _ _ _ _ NDd HP') as (_ & _ & Npp). destruct (corner_distinct _ _ _ _ NDd HN') as (_ & _ & Nnn).
  destruct (Ad _ _ _ HP') as (P1 & P2 & P3). destruct (Ad _ _ _ HN') as (N1 & N2 & N3).
  assert (Sp : TOL < t3 pp p n \/ t3 pp p n < - TOL) by (apply sep_cases; auto).
  assert (Sn : TOL < t3 p n nn \/ t3 p n nn < - TOL) by (apply sep_cases; auto).
  assert (IM : forall k x, idx l k = Ok x -> idx (map f l) k = Ok (f x)).
  { intros k x Hk. apply idx_Ok in Hk. apply idx_Ok. now rewrite nth_error_map, Hk. }
  rewrite <- Hm in U1, U2.
  destruct (upd_prev points (map f l) (e_conc st) i (f p) (f n) (f pp) conc1 d1 CN ltac:(lia) ltac:(lia) ltac:(rewrite Hm; auto) Sp U1) as (E1 & CN1 & C1).
  destruct (upd_next points (map f l) conc1 i (f p) (f n) (f nn) conc2 d2 CN1 ltac:(lia) ltac:(lia) ltac:(rewrite Hm; auto) Sn U2) as (E2 & CN2 & C2).
  split; [exact E1|]. split; [exact E2|].
  assert (C12 : forall x, In x conc2 <-> In x (e_conc st) /\ ~ (x = f p /\ 0 < t3 pp p n) /\ ~ (x = f n /\ 0 < t3 p n nn)) by (intros x; rewrite C2, C1; tauto).
  assert (Id : forall x, In x (delete_nth l i) <-> In x l /\ x <> c) by (intros x; apply In_delete; [exact ND|now apply idx_Ok]).
  assert (TT : 0 < TOL) by (unfold TOL; lra).
  assert (VE : forall x y, In x vs0 -> In y vs0 -> f x = f y -> In (f x) (e_conc st) -> x = y).
  { intros x y Ix Iy E K. destruct (conc_single st l x W Ix K) as [_ Nd]. symmetry. now apply single. }
  constructor; cbn [e_verts e_conc].
  - apply delete_map.
  - exact HLd.
  - exact NDd.
  - intros x Ix. apply WI. now apply Id.
  - exact Gd.
  - exact CN2.
  - intros x Ix. apply C12 in Ix as (Ix & _). destruct (CI x Ix) as (v & Iv & -> & Nv). exists v. split; [|auto]. apply Id. split; [exact Iv|]. intros ->. contradiction.
  - intros a v b Hv. pose proof Hv as Hv0. apply (corner_iff _ _ _ _ NDd HLd) in Hv as [Ea Eb]. apply (rotof_edge _ _ _ _ R') in Ea, Eb.
    assert (RP : rotof l (n :: mid ++ p :: [c])). { eapply rotof_trans; [exact Rt|]. exists [c], (n :: mid ++ [p]). split; [reflexivity|]. cbn [app]. now rewrite <- app_assoc. }
    assert (EP : forall x y, edge (n :: mid ++ [p]) x y -> edge l x y \/ (x = p /\ y = n)).
    { intros x y E. apply (chord_edges1 n p mid) in E. destruct E as [E|E]; [left|now right]. apply (rotof_edge _ _ _ _ RP). apply chord_edges. now left. }
    assert (Na : a <> c /\ b <> c).
    { apply edge_In in Ea as [Ia _]. apply edge_In in Eb as [_ Ib]. apply (rotof_In _ _ _ R'), Id in Ia. apply (rotof_In _ _ _ R'), Id in Ib. tauto. }
    assert (Iv0 : In v vs0) by (destruct (corner_In _ _ _ _ Hv0) as (_ & K & _); apply WI; now apply Id).
    apply EP in Ea, Eb. destruct (corner_edge _ _ _ _ HC) as [Epc Ecn].
    destruct Ea as [Ea|[-> ->]]; [destruct Eb as [Eb|[-> ->]]|].
    + assert (Hv : corner l a v b) by (apply corner_iff; auto). rewrite <- (CC a v b Hv), C12. split; [tauto|]. intros I. split; [exact I|].
      split; intros [Ev _].
      * pose proof (VE v p Iv0 (WI p Ip) Ev I) as ->. destruct (corner_uniq l a pp p b c ND HL3 Hv HPp). tauto.
      * pose proof (VE v n Iv0 (WI n In_) Ev I) as ->. destruct (corner_uniq l a c n b nn ND HL3 Hv HNn). tauto.
    + assert (Hv : corner l a p c) by (apply corner_iff; auto). destruct (corner_uniq l a pp p c c ND HL3 Hv HPp) as [-> _].
      rewrite C12, (CC pp p c HPp). split.
      * intros (_ & K & _). destruct Sp; [exfalso; apply K; split; [reflexivity|lra]|lra].
      * intros K. split; [|split; [intros [_ ?]; lra|intros [? _]; congruence]].
        pose proof (corner_nz st l pp p c W HPp) as Z. destruct (Rdichotomy _ _ Z) as [L|L]; [exact L|exfalso].
        destruct (ev_ex _ (ev_and _ _ (ev_and _ _ WG ev_signs) HE)) as (e & _ & [Ge Se] & Eae). destruct (WA _ _ _ HPp) as (B1 & B2 & B3).
        assert (0 < T (pe e pp) (pe e p) (pe e n)).
        { apply (keep_prev (map (pe e) l) _ _ (pe e c)); [apply Ge|apply Ge|apply Ge|exact Eae|now apply corner_map| |].
          - intros E. apply Npp. revert E. apply NoDup_map_inj with (l := l); auto. exact (proj1 (good_gp _ Ge)).
          - destruct (Se pp p c) as [[_ ?]|[? _]]; auto; lra. }
        destruct (Se pp p n) as [[? _]|[_ ?]]; auto; lra.
    + destruct Eb as [Eb|[-> _]]; [|congruence].
      assert (Hv : corner l c n b) by (apply corner_iff; auto). destruct (corner_uniq l c c n b nn ND HL3 Hv HNn) as [_ ->].
      rewrite C12, (CC c n nn HNn). split.
      * intros (_ & _ & K). destruct Sn; [exfalso; apply K; split; [reflexivity|lra]|lra].
      * intros K. split; [|split; [intros [? _]; congruence|intros [_ ?]; lra]].
        pose proof (corner_nz st l c n nn W HNn) as Z. destruct (Rdichotomy _ _ Z) as [L|L]; [exact L|exfalso].
        destruct (ev_ex _ (ev_and _ _ (ev_and _ _ WG ev_signs) HE)) as (e & _ & [Ge Se] & Eae). destruct (WA _ _ _ HNn) as (B1 & B2 & B3).
        assert (0 < T (pe e p) (pe e n) (pe e nn)).
        { apply (keep_next (map (pe e) l) _ _ (pe e c)); [apply Ge|apply Ge|apply Ge|exact Eae|now apply corner_map| |].
          - intros E. apply Nnn. symmetry. revert E. apply NoDup_map_inj with (l := l); auto. exact (proj1 (good_gp _ Ge)).
          - destruct (Se c n nn) as [[_ ?]|[? _]]; auto; lra. }
        destruct (Se p n nn) as [[? _]|[_ ?]]; auto; lra.
  - exact Ad.
Qed.

(** ** The loops *)
Definition off_near (g : nat -> vec2 R) (Tr : list (nat * nat * nat)) (q : vec2 R) : Prop := Forall (fun '(a, b, c) => off_lines (g a) (g b) (g c) q) Tr.
Definition covers_near (g : nat -> vec2 R) (Tr : list (nat * nat * nat)) (q : vec2 R) : nat := length (filter (fun '(a, b, c) => strictly_inside (g a) (g b) (g c) q) Tr).
Lemma covers_near_app g Tr a b c q : covers_near g (Tr ++ [(a, b, c)]) q = (covers_near g Tr q + if strictly_inside (g a) (g b) (g c) q then 1 else 0)%nat.
Proof. unfold covers_near. rewrite filter_app, app_length. cbn [filter]. destruct (strictly_inside _ _ _ q); reflexivity. Qed.
Record WQ (Tr : list (nat * nat * nat)) (st : ear_state) (l : list nat) : Prop := {
  wq_tris : e_tris st = emit (map f3 Tr);
  wq_T : Forall (fun '(a, b, c) => cyc_triple vs0 a b c /\ 0 < t3 a b c) Tr;
  wq_len : (exists D, l = without D vs0 /\ winv st l /\ within Tr l /\ (length Tr + length l = length vs0)%nat) \/
           (l = [] /\ (length (e_verts st) <= 2)%nat /\ (length Tr + 2 = length vs0)%nat);
  wq_sum : forall w, antisym w -> cyc w vs0 = sumw w (tris Tr) + cyc w l;
  wq_cov : ev (fun e => forall q, off_near (pe e) Tr q -> covers_near (pe e) Tr q = 0%nat \/ covers_near (pe e) Tr q = 1%nat /\ winding (map (pe e) l) q = 0) }.
Lemma pos_part Tr : Forall (fun '(a, b, c) => cyc_triple vs0 a b c /\ 0 < t3 a b c) Tr -> Forall (fun '(a, b, c) => 0 < t3 a b c) Tr.
Proof. intros H. eapply Forall_impl; [|exact H]. intros [[a b] c] [_ K]. exact K. Qed.
(** what clipping the corner p c n does to the geometry *)
Lemma clip_data Tr l D i p c n mid : l = without D vs0 -> NoDup l -> within Tr l -> Forall (fun '(a, b, c) => 0 < t3 a b c) Tr ->
  (forall w, antisym w -> cyc w vs0 = sumw w (tris Tr) + cyc w l) -> ev (fun e => good (map (pe e) l)) ->
  (4 <= length l)%nat -> (i < length l)%nat -> idx l i = Ok c -> rotof l (c :: n :: mid ++ [p]) -> rotof (delete_nth l i) (n :: mid ++ [p]) ->
  0 < t3 p c n -> ev (fun e => ear (map (pe e) l) (pe e p) (pe e c) (pe e n)) ->
  delete_nth l i = without (D ++ [c]) vs0 /\ within (Tr ++ [(p, c, n)]) (delete_nth l i) /\
  (forall w, antisym w -> cyc w vs0 = sumw w (tris (Tr ++ [(p, c, n)])) + cyc w (delete_nth l i)) /\
  ev (fun e => good (map (pe e) (delete_nth l i))) /\ (forall a v b, corner (delete_nth l i) a v b -> apart3 a v b).
Proof.
  intros El ND HW HP HS WG H4 Hi Ec Rt R' HT HE.
  assert (Ed : delete_nth l i = without (D ++ [c]) vs0).
  { rewrite without_app, <- El. rewrite (delete_without l i 0%nat ND Hi). do 2 f_equal. rewrite (idx_nth _ i 0%nat Hi) in Ec. now apply Ok_inj in Ec. }
  assert (Id : forall x, In x (delete_nth l i) <-> In x l /\ x <> c) by (intros x; apply In_delete; [exact ND|now apply idx_Ok]).
  pose proof (rot_corner _ _ _ _ _ Rt) as HC.
  assert (HW' : within (Tr ++ [(p, c, n)]) (delete_nth l i)).
  { intros x y X Y Ix Iy Rxy a b d It. apply Id in Ix as [Ix Nx]. apply Id in Iy as [Iy Ny]. apply in_app_or in It as [It|[It|[]]]; [now apply (HW x y X Y)|].
    injection It as <- <- <-.
    pose proof (rotof_without D _ _ Rxy) as Rd. rewrite <- El in Rd.
    assert (Ix' := Ix). assert (Iy' := Iy). rewrite El in Ix', Iy'. apply In_without in Ix' as [_ Kx]. apply In_without in Iy' as [_ Ky].
    assert (Ew : without D (x :: X ++ y :: Y) = x :: without D X ++ y :: without D Y).
    { unfold without. cbn [filter]. rewrite (proj2 (mem_false x D) Kx). cbn [negb]. rewrite filter_app. cbn [filter]. now rewrite (proj2 (mem_false y D) Ky). }
    rewrite Ew in Rd. destruct (corner_In _ _ _ _ HC) as (Ip & Ic & In_).
    assert (Rd2 : rotof l (y :: without D Y ++ x :: without D X)).
    { eapply rotof_trans; [exact Rd|]. exists (x :: without D X), (y :: without D Y). split; reflexivity. }
    assert (S1 : forall X Z : list nat, incl (without D X) X /\ True) by (intros X1 _; split; [intros z Hz; now apply In_without in Hz|exact I]).
    pose proof (proj1 (rotof_In _ _ c Rd) Ic) as Kc. destruct Kc as [->|Kc]; [congruence|]. apply in_app_or in Kc as [Kc|[->|Kc]]; [|congruence|].
    - left. destruct (corner_between l x y _ _ p c n ND Rd HC Kc) as [Q1 Q2]. intros z [<-|[<-|[<-|[]]]].
      + destruct Q1 as [<-|Q1]; [now left|right]. apply in_or_app. left. now apply In_without in Q1.
      + right. apply in_or_app. left. now apply In_without in Kc.
      + right. apply in_app_or in Q2 as [Q2|Q2]; apply in_or_app; [left; now apply In_without in Q2|now right].
    - right. destruct (corner_between l y x _ _ p c n ND Rd2 HC Kc) as [Q1 Q2]. intros z [<-|[<-|[<-|[]]]].
      + destruct Q1 as [<-|Q1]; [now left|right]. apply in_or_app. left. now apply In_without in Q1.
      + right. apply in_or_app. left. now apply In_without in Kc.
      + right. apply in_app_or in Q2 as [Q2|Q2]; apply in_or_app; [left; now apply In_without in Q2|now right]. }
  assert (HS' : forall w, antisym w -> cyc w vs0 = sumw w (tris (Tr ++ [(p, c, n)])) + cyc w (delete_nth l i)).
  { intros w Aw. rewrite map_app, sumw_app. cbn [map]. rewrite sumw1, (HS w Aw), (rotof_cyc w _ _ Rt), (rotof_cyc w _ _ R'), (cyc_clip w c n p mid Aw). lra. }
  assert (Gd : ev (fun e => good (map (pe e) (delete_nth l i)))).
  { eapply ev_imp; [|exact (ev_and _ _ WG HE)]. intros e _ [Ge Ee].
    apply (rotof_good (map (pe e) (n :: mid ++ [p]))); [apply rotof_map; now apply rotof_sym|]. cbn [map]. rewrite map_app. cbn [map].
    apply (clip_good (map (pe e) l) (pe e p) (pe e c)); [exact Ge|exact Ee| |].
    - pose proof (rotof_map (pe e) _ _ Rt) as Rm. cbn [map] in Rm. rewrite map_app in Rm. exact Rm.
    - destruct mid; [|discriminate]. exfalso. pose proof (Permutation_length (rotof_perm _ _ Rt)) as K. cbn in K. lia. }
  split; [exact Ed|]. split; [exact HW'|]. split; [exact HS'|]. split; [exact Gd|]. intros a v b Hv.
  rewrite Ed in *. apply (no_spike (Tr ++ [(p, c, n)]) (D ++ [c])); auto. apply Forall_app. split; [exact HP|]. constructor; [exact HT|constructor].
Qed.
Lemma weak_step Tr st l i : WQ Tr st l -> (3 <= length (e_verts st))%nat -> (i < length (e_verts st))%nat ->
  exists st' m' Tr' l', ear_step points st (length (e_verts st)) i = Ok (st', m') /\ m' = length (e_verts st') /\ WQ Tr' st' l' /\
    (st' = st /\ blocked points st i \/ (m' < length (e_verts st))%nat /\ ((4 <= length (e_verts st))%nat -> (3 <= m')%nat)).
Proof.
  intros HQ H3 Hi. pose proof HQ as [Q1 Q2 Q4 Q5 Q6]. destruct Q4 as [(D & El & W & HW & QL)|[_ [? _]]]; [|lia]. pose proof W as [WV WL ND WI WG CN CI CC WA].
  assert (Hm : length (e_verts st) = length l) by (rewrite WV; apply map_length).
  destruct (ear_step_total points st (length (e_verts st)) i eq_refl H3 Hi) as (st' & m' & E).
  { right. split; [rewrite WV; intros x Ix; apply in_map_iff in Ix as (v & <- & Iv); apply HV, WI, Iv|]. intros x Ix. destruct (CI x Ix) as (v & Iv & -> & _). apply HV, WI, Iv. }
  destruct (ear_step_spec points st _ i st' m' eq_refl ltac:(lia) Hi E) as [Em Hcl]. exists st', m'. rewrite E.
  destruct Hcl as [->|(p' & c' & n' & ds & Ec' & Ep' & En' & Nc & Ee & Et & Sv & Sc & _ & _ & _ & Hn & _)].
  { exists Tr, l. split; [reflexivity|]. split; [exact Em|]. split; [exact HQ|]. left. split; [reflexivity|]. apply (ear_step_stuck points st (length (e_verts st))); try lia; try reflexivity. rewrite E. congruence. }
  rewrite Hm in Hi, H3. destruct (pos_rot l i H3 Hi) as (p & c & n & mid & Ec & Ep & En & Rt & R').
  assert (IM : forall k x, idx l k = Ok x -> idx (e_verts st) k = Ok (f x)).
  { intros k x Hk. rewrite WV. apply idx_Ok in Hk. apply idx_Ok. now rewrite nth_error_map, Hk. }
  rewrite (IM _ _ Ec) in Ec'. rewrite Hm, (IM _ _ Ep) in Ep'. rewrite Hm, (IM _ _ En) in En'. apply Ok_inj in Ec', Ep', En'. subst p' c' n'.
  pose proof (rot_corner _ _ _ _ _ Rt) as HC. destruct (weak_ear st l p c n W HC Nc Ee) as [HT HE]. pose proof (pos_part _ Q2) as HP.
  assert (Lt : (m' < length (e_verts st))%nat) by lia.
  assert (K : exists l', ((4 <= length l)%nat -> (exists D', l' = without D' vs0) /\ winv st' l' /\ within (Tr ++ [(p, c, n)]) l' /\ (length l' + 1 = length l)%nat) /\
    ((length l < 4)%nat -> l' = []) /\ forall w, antisym w -> cyc w l = cyc w [p; c; n] + cyc w l').
  { destruct (le_lt_dec 4 (length l)) as [H4|H4].
    - exists (delete_nth l i). destruct (clip_data Tr l D i p c n mid El ND HW HP Q5 WG H4 Hi Ec Rt R' HT HE) as (Ed & HW' & HS' & Gd & Ad).
      unfold ear_step in E. rewrite (IM _ _ Ec) in E. cbn [obind] in E. rewrite (proj2 (binary_search_None _ _) Nc) in E. rewrite usub_Ok in E by lia. cbn [obind] in E.
      rewrite prev_pos_mod, next_pos_mod in E by lia. rewrite Hm in E. rewrite (IM _ _ Ep) in E. cbn [obind] in E. rewrite (IM _ _ En) in E. cbn [obind] in E. rewrite Ee in E. cbn [obind] in E.
      rewrite WV in E. bindas E [conc1 d1] U1. bindas E [conc2 d2] U2. bindas E y Ey.
      destruct (clip_weak st l i p c n mid conc1 conc2 d1 d2 (e_tris st ++ [as_u32 (f p); as_u32 (f c); as_u32 (f n)]) W H4 Hi Ec Ep En Rt R' Nc Ee Gd Ad U1 U2) as (-> & -> & HI').
      apply Ok_inj in E. apply (f_equal fst) in E. cbn [fst app] in E. change (remove_all (map f l) (rev (sort_nat [i]))) with (delete_nth (map f l) i) in E. rewrite <- E.
      assert (HL : (length (delete_nth l i) + 1 = length l)%nat).
      { rewrite (Permutation_length (rotof_perm _ _ R')), (Permutation_length (rotof_perm _ _ Rt)). cbn [length]. lia. }
      split; [intros _|split; [lia|]].
      + split; [eexists; exact Ed|]. split; [exact HI'|]. split; [exact HW'|exact HL].
      + intros w Aw. rewrite (rotof_cyc w _ _ Rt), (rotof_cyc w _ _ R'). now apply cyc_clip.
    - exists []. split; [lia|]. split; [reflexivity|]. intros w Aw.
      rewrite (rotof_cyc w _ _ Rt). pose proof (Permutation_length (rotof_perm _ _ Rt)) as HL. cbn [length] in HL. rewrite app_length in HL. cbn [length] in HL.
      destruct mid; [|cbn [length] in HL; lia]. rewrite (cyc_clip w c n p [] Aw). cbn [app]. rewrite (cyc2 w Aw). cbn [cyc]. lra. }
  destruct K as (l' & K1 & K0 & K2). exists (Tr ++ [(p, c, n)]), l'. split; [reflexivity|]. split; [exact Em|].
  assert (Lm : (4 <= length l)%nat -> m' = length l') by (intros H4; destruct (K1 H4) as (_ & W' & _ & _); rewrite Em, (w_verts _ _ W'); apply map_length).
  split; [|right; split; [exact Lt|intros H4; rewrite Hm in H4; destruct (K1 H4) as (_ & _ & _ & ?); rewrite (Lm H4); lia]].
  constructor.
  - rewrite Et, Q1, map_app. unfold emit. now rewrite flat_map_app.
  - apply Forall_app. split; [exact Q2|]. constructor; [|constructor]. split; [|exact HT]. eapply cyc_triple_mono; [|apply corner_triple; exact HC]. rewrite El. apply sublist_filter.
  - rewrite app_length. cbn [length]. destruct (le_lt_dec 4 (length l)) as [H4|H4]; [left|right].
    + destruct (K1 H4) as ((D' & Ed) & W' & HW' & HL'). exists D'. split; [exact Ed|]. split; [exact W'|]. split; [exact HW'|lia].
    + split; [now apply K0|]. split; lia.
  - intros w Aw. rewrite map_app, sumw_app. cbn [map]. rewrite sumw1, (Q5 w Aw), (K2 w Aw). lra.
  - eapply ev_imp; [|exact (ev_and _ _ Q6 (ev_and _ _ WG HE))]. intros e _ (Q6e & Ge & Eae) q Hq. pose proof Eae as (_ & HTe & _).
    apply Forall_app in Hq as [Hq1 Hq2]. inversion Hq2 as [|? ? HO _]; subst. rewrite covers_near_app.
    specialize (K2 (fun a b => wind q (pe e a) (pe e b)) (fun a b => wind_antisym q (pe e a) (pe e b))).
    rewrite <- !(cyc_map (pe e) (wind q)) in K2. cbn [map] in K2. set (l0 := without D vs0) in *. fold (winding (map (pe e) l0) q) in K2.
    fold (winding [pe e p; pe e c; pe e n] q) in K2. fold (winding (map (pe e) l') q) in K2.
    rewrite (tri_one _ _ _ q HTe HO) in K2. specialize (Q6e q Hq1).
    destruct (strictly_inside (pe e p) (pe e c) (pe e n) q) eqn:Ei.
    + apply inside_pos in Ei as (P1 & P2 & P3). rewrite (ear_winding _ _ _ _ q Ge Eae P1 P2 P3) in K2, Q6e. right. destruct Q6e as [->|[_ ?]]; [|lra]. split; [reflexivity|lra].
    + destruct Q6e as [->|[-> Wq]]; [left; reflexivity|right]. split; [reflexivity|lra].
Qed.
Lemma weak_pass fuel : forall Tr st l i, WQ Tr st l -> (length (e_verts st) <= i + fuel)%nat -> (3 <= length (e_verts st) \/ 2 <= i)%nat -> (i = 0 -> 4 <= length (e_verts st))%nat ->
  exists st' Tr' l', ear_pass fuel points st (length (e_verts st)) i = Ok st' /\ WQ Tr' st' l' /\
    ((length (e_verts st') < length (e_verts st))%nat \/ st' = st /\ forall j, (i <= j < length (e_verts st))%nat -> blocked points st j).
Proof.
  induction fuel as [|fuel IH]; intros Tr st l i HQ Hf H3 H0; cbn [ear_pass]; destruct (Nat.ltb_spec i (length (e_verts st))) as [L|L];
    try (exists st, Tr, l; split; [reflexivity|]; split; [exact HQ|]; right; split; [reflexivity|]; intros; lia); [lia|].
  assert (H3' : (3 <= length (e_verts st))%nat).
  { destruct H3 as [?|?]; [assumption|]. lia. }
  destruct (weak_step Tr st l i HQ H3' L) as (st1 & m1 & Tr1 & l1 & -> & -> & HQ1 & Hch). cbn [obind].
  destruct (IH Tr1 st1 l1 (S i) HQ1) as (st' & Tr' & l' & E & HQ' & HF).
  - destruct Hch as [[-> _]|[? _]]; lia.
  - destruct Hch as [[-> _]|[? K]]; [left; exact H3'|]. destruct (le_lt_dec 4 (length (e_verts st))) as [H4|H4]; [left; auto|right]. lia.
  - lia.
  - exists st', Tr', l'. split; [exact E|]. split; [exact HQ'|]. destruct Hch as [[-> B]|[? _]].
    + destruct HF as [?|[-> HB]]; [now left|right]. split; [reflexivity|]. intros j Hj. destruct (Nat.eq_dec j i) as [->|N]; [exact B|]. apply HB. lia.
    + left. destruct HF as [?|[-> _]]; lia.
Qed.
Lemma weak_not_stuck st l : winv st l -> (forall i, (i < length (e_verts st))%nat -> blocked points st i) -> False.
Proof.
  intros W HB. pose proof W as [WV WL ND WI WG CN CI CC WA]. destruct (ev_ex _ (ev_and _ _ WG ev_signs)) as (e & _ & G & Se).
  destruct (convex_corner _ G) as (a0 & b0 & c0 & H0 & _). destruct (corner_edge _ _ _ _ H0) as [E0 _].
  destruct (ear_exists _ _ (le_n _) G a0 b0 E0) as (x & y & z & (HC & HT & HVt) & _). apply corner_unmap in HC as (p & c & n & HC & <- & <- & <-).
  destruct (corner_In _ _ _ _ HC) as (Ip & Ic & In_). destruct (WA _ _ _ HC) as (A1 & A2 & A3). destruct (In_nth _ _ 0%nat Ic) as (i & Hi & Ei).
  assert (Hm : length (e_verts st) = length l) by (rewrite WV; apply map_length).
  destruct (HB i ltac:(lia)) as (c' & p' & n' & Ec & Ep & En & HBl).
  destruct (pos_rot l i WL Hi) as (p1 & c1 & n1 & mid & Fc & Fp & Fn & Rt & _).
  assert (IM : forall k x, idx l k = Ok x -> idx (e_verts st) k = Ok (f x)).
  { intros k x Hk. rewrite WV. apply idx_Ok in Hk. apply idx_Ok. now rewrite nth_error_map, Hk. }
  assert (Ec1 : c = c1) by (rewrite (idx_nth _ i 0%nat Hi), Ei in Fc; now apply Ok_inj in Fc). subst c1.
  destruct (corner_uniq _ _ _ _ _ _ ND WL HC (rot_corner _ _ _ _ _ Rt)) as [<- <-].
  rewrite (IM _ _ Fc) in Ec. rewrite Hm, (IM _ _ Fp) in Ep. rewrite Hm, (IM _ _ Fn) in En. apply Ok_inj in Ec, Ep, En. subst c' p' n'.
  assert (Nc : ~ In (f c) (e_conc st)). { intros K. apply (CC p c n HC) in K. destruct (Se p c n) as [[? _]|[_ ?]]; auto; lra. }
  destruct HBl as [K|(o & A & B & C & O & Io & Np & Nn & EA & EB & EC & EO & K)]; [contradiction|].
  apply idx_Ok, idx_pt in EA. apply idx_Ok, idx_pt in EB. apply idx_Ok, idx_pt in EC. apply idx_Ok, idx_pt in EO. subst A B C O. apply inside_in_tri in K.
  destruct (CI o Io) as (v & Iv & -> & Nd). assert (Nv : f v <> f c) by (intros Z; apply Nc; now rewrite <- Z).
  assert (PI : forall x y, In x l -> In y l -> x <> y -> pe e x <> pe e y).
  { intros x y Ix Iy N E. apply N. revert E. apply NoDup_map_inj with (l := l); auto. exact (proj1 (good_gp _ G)). }
  apply (HVt (pe e v)); [now apply in_map|apply PI; auto; congruence..|]. destruct K as (K1 & K2 & K3).
  destruct (Se p c v) as [[_ ?]|[? _]]; auto; [|lra]. destruct (Se c n v) as [[_ ?]|[? _]]; auto; [|lra]. destruct (Se n p v) as [[_ ?]|[? _]]; auto; [|lra].
  unfold in_tri. lra.
Qed.
Definition weak_result (Tr : list (nat * nat * nat)) : Prop :=
  (length Tr + 2 = length vs0)%nat /\ Forall (fun '(a, b, c) => cyc_triple vs0 a b c /\ 0 < t3 a b c) Tr /\
  (forall w, antisym w -> cyc w vs0 = sumw w (tris Tr)) /\
  ev (fun e => forall q, off_near (pe e) Tr q -> (covers_near (pe e) Tr q <= 1)%nat).
Lemma weak_loop fuel : forall Tr st l pm, WQ Tr st l -> match pm with None => length (e_verts st) + 2 <= fuel | Some k => S k <= fuel /\ length (e_verts st) < k end%nat ->
  exists st' Tr', ear_loop fuel points st pm = Ok st' /\ e_tris st' = emit (map f3 Tr') /\ weak_result Tr'.
Proof.
  induction fuel as [|fuel IH]; intros Tr st l pm HQ Hf; [destruct pm; lia|]. cbn [ear_loop].
  assert (Epm : match pm with None => false | Some k => (k <=? length (e_verts st))%nat end = false) by (destruct pm; [apply Nat.leb_gt; lia|reflexivity]). rewrite Epm.
  pose proof HQ as [Q1 Q2 Q4 Q5 Q6].
  destruct (Nat.ltb_spec (length (e_verts st)) 3) as [L3|L3].
  - exists st, Tr. split; [reflexivity|]. split; [exact Q1|]. destruct Q4 as [(D & El & W & _)|[-> [_ QL]]].
    { exfalso. pose proof (w_len _ _ W). rewrite (w_verts _ _ W), map_length in L3. lia. }
    split; [exact QL|]. split; [exact Q2|]. split; [intros w Aw; rewrite (Q5 w Aw); cbn [cyc]; lra|].
    eapply ev_imp; [|exact Q6]. intros e _ H q Hq. destruct (H q Hq) as [->|[-> _]]; lia.
  - pose proof Q4 as Q4'. destruct Q4 as [(D & El & W & HW & QL)|[_ [? _]]]; [|lia]. pose proof W as [WV WL ND WI WG CN CI CC WA].
    destruct (Nat.eqb_spec (length (e_verts st)) 3) as [E3|N3].
    + assert (Hm : length l = 3%nat) by (rewrite <- E3, WV; symmetry; apply map_length).
      destruct l as [|a [|b [|c [|]]]] eqn:Ev; cbn in Hm; try lia. rewrite WV. cbn [map idx nth_error obind]. eexists. exists (Tr ++ [(a, b, c)]). split; [reflexivity|]. cbn [e_tris].
      assert (HC : corner [a; b; c] a b c) by (exists []; apply rotof_refl).
      assert (HTe : ev (fun e => 0 < T (pe e a) (pe e b) (pe e c))).
      { eapply ev_imp; [|exact WG]. intros e _ Ge. pose proof (good_area _ _ (le_n _) Ge) as K. cbn [map] in K. rewrite area2_tri in K. exact K. }
      assert (HT : 0 < t3 a b c).
      { destruct (WA _ _ _ HC) as (A1 & A2 & A3). destruct (ev_ex _ (ev_and _ _ HTe ev_signs)) as (e & _ & He & Se). destruct (Se a b c) as [[? _]|[_ ?]]; auto; try (apply WI; cbn; auto); lra. }
      split; [rewrite Q1, map_app; unfold emit; now rewrite flat_map_app|]. split; [rewrite app_length; cbn [length] in *; lia|]. split.
      { apply Forall_app. split; [exact Q2|]. constructor; [|constructor]. split; [left; rewrite El; apply sublist_filter|exact HT]. }
      split; [intros w Aw; rewrite map_app, sumw_app; cbn [map]; rewrite sumw1, (Q5 w Aw); lra|].
      eapply ev_imp; [|exact (ev_and _ _ Q6 HTe)]. intros e _ [Q6e He] q Hq.
      apply Forall_app in Hq as [Hq1 Hq2]. inversion Hq2 as [|? ? HO _]; subst. rewrite covers_near_app. specialize (Q6e q Hq1).
      cbn [map] in Q6e. rewrite (tri_one _ _ _ q He HO) in Q6e. destruct (strictly_inside _ _ _ q); destruct Q6e as [->|[-> ?]]; lia || lra.
    + destruct (weak_pass (length (e_verts st)) Tr st l 0 HQ) as (st1 & Tr1 & l1 & -> & HQ1 & HF); [lia|lia|lia|]. cbn [obind].
      destruct HF as [HF|[-> HB]]; [|exfalso; apply (weak_not_stuck st l W); intros i Hi; apply HB; lia].
      apply (IH Tr1 st1 l1 (Some (length (e_verts st))) HQ1). destruct pm; lia.
Qed.
(** the polygon as a whole *)
Lemma weak_apart a v b : corner vs0 a v b -> apart3 a v b.
Proof.
  intros HC. apply (no_spike [] []).
  - constructor.
  - intros w _. rewrite without_nil. cbn. lra.
  - intros i j X Y _ _ _ x y z [].
  - now rewrite without_nil.
  - now rewrite without_nil.
Qed.
Context (HD : forall a v b, corner vs0 a v b -> doubled v -> 0 < t3 a v b).
Theorem weak_tiling conc : (3 <= length vs0)%nat -> NoDup conc -> (forall x, In x conc <-> exists a v b, corner vs0 a v b /\ x = f v /\ t3 a v b < 0) ->
  exists Tr, trianglate_polygon points (map f vs0) conc = Ok (emit (map f3 Tr)) /\ weak_result Tr.
Proof.
  intros L3 CN CC. pose proof weak_apart as Ap.
  assert (CO : forall a v b, corner vs0 a v b -> In v vs0) by (intros a v b HC; now destruct (corner_In _ _ _ _ HC)).
  assert (ND' : forall a v b, corner vs0 a v b -> t3 a v b < 0 -> ~ doubled v) by (intros a v b HC L Dv; pose proof (HD a v b HC Dv); lra).
  destruct (weak_loop (length (map f vs0) + 2) [] (mkEar [] (map f vs0) conc) vs0 None) as (st' & Tr & E & ET & HR).
  - constructor; cbn [e_tris e_verts].
    + reflexivity.
    + constructor.
    + left. exists []. split; [now rewrite without_nil|]. split; [|split; [intros i j X Y _ _ _ x y z []|reflexivity]].
      constructor; cbn [e_verts e_conc]; auto.
      * apply incl_refl.
      * intros x Ix. apply CC in Ix as (a & v & b & HC & -> & L). exists v. split; [now apply (CO a v b)|]. split; [reflexivity|now apply (ND' a v b)].
      * intros a v b HC. rewrite CC. split; [|intros L; exists a, v, b; auto]. intros (a' & v' & b' & HC' & Ef & L).
        pose proof (single v' v (ND' _ _ _ HC' L) (CO _ _ _ HC) Ef) as ->. destruct (corner_uniq _ _ _ _ _ _ ND0 L3 HC HC') as [-> ->]. exact L.
    + intros w _. cbn. lra.
    + apply ev_all. intros e _ q _. left. reflexivity.
  - cbn [e_verts]. lia.
  - exists Tr. split; [|exact HR]. unfold trianglate_polygon. rewrite usub_Ok by (rewrite map_length; lia). cbn [obind]. rewrite E. cbn [obind]. now rewrite ET.
Qed.
(** points off the lines of the triangles are covered once at most *)
Lemma weak_covers Tr q : weak_result Tr -> off_all_lines points (map f3 Tr) q -> (covers points (map f3 Tr) q <= 1)%nat.
Proof.
  intros (_ & HT & _ & HC) HO.
  assert (K : ev (fun e => forall t, In t Tr -> let '(a, b, c) := t in off_lines (pe e a) (pe e b) (pe e c) q /\ strictly_inside (pe e a) (pe e b) (pe e c) q = strictly_inside (p0 a) (p0 b) (p0 c) q)).
  { apply ev_list. intros [[a b] c] It. unfold off_all_lines in HO. rewrite Forall_forall in HO, HT. pose proof (HO _ (in_map f3 _ _ It)) as (O1 & O2 & O3).
    destruct (HT _ It) as [Hc _]. assert (In a vs0 /\ In b vs0 /\ In c vs0) as (Ia & Ib & Ic).
    { destruct Hc as [Hc|[Hc|Hc]]; repeat split; apply (sublist_In _ _ _ Hc); cbn; auto. }
    assert (Sg : forall x y, In x vs0 -> In y vs0 -> T (p0 x) (p0 y) q <> 0 -> ev (fun e => T (pe e x) (pe e y) q <> 0 /\ Rltb 0 (T (pe e x) (pe e y) q) = Rltb 0 (T (p0 x) (p0 y) q))).
    { intros x y Ix Iy N. pose proof (lim_T _ _ _ _ _ _ (HLim x Ix) (HLim y Iy) (limp_const q)) as L. destruct (Rdichotomy _ _ N) as [L0|L0].
      - eapply ev_imp; [|exact (lim_neg _ _ L L0)]. intros e _ He. split; [lra|]. rewrite !(proj2 (Rltb_false _ _)) by lra. reflexivity.
      - eapply ev_imp; [|exact (lim_pos _ _ L L0)]. intros e _ He. split; [lra|]. rewrite !(proj2 (Rltb_true _ _)) by lra. reflexivity. }
    eapply ev_imp; [|exact (ev_and _ _ (Sg a b Ia Ib O1) (ev_and _ _ (Sg b c Ib Ic O2) (Sg c a Ic Ia O3)))]. intros e _ ([S1 S2] & [S3 S4] & [S5 S6]).
    split; [repeat split; assumption|]. unfold strictly_inside. rewrite S2, S4, S6. reflexivity. }
  destruct (ev_ex _ (ev_and _ _ HC K)) as (e & _ & Ce & Ke).
  assert (EQ : covers_near (pe e) Tr q = covers points (map f3 Tr) q).
  { unfold covers, covers_near. clear - Ke. induction Tr as [|[[a b] c] Ts IH]; [reflexivity|]. cbn [map filter f3].
    destruct (Ke _ (or_introl eq_refl)) as [_ ->]. destruct (strictly_inside (p0 a) (p0 b) (p0 c) q); cbn [length]; [f_equal|]; apply IH; intros t It; apply Ke; now right. }
  rewrite <- EQ. apply Ce. apply Forall_forall. intros [[a b] c] It. now destruct (Ke _ It).
Qed.
End Weak.
