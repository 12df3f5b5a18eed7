(** Properties C39, C40: triangulation by ear clipping. *)
From Coq Require Import Reals Lra Lia Arith Permutation Floats.SpecFloat.
From Verif Require Import Prelude Num M_vec M_utils M_polygon L_base L_vec L_geom L_cycle L_polygon L_f64 Props_polygon.
Open Scope nat_scope.

Section Run.
Context {F : Type} {NF : Num F} (points : list (vec2 F)) (vertices conc0 : list nat).
(** vertices removed without a triangle *)
Definition extra (ds : list (list nat)) : nat := fold_right (fun d k => length d - 2 + k) 0 ds.
(** no drop of a corner of three different vertices happens *)
Definition no_drop : Prop := conc0 = [] \/
  NoDup vertices /\ forall a b c, In a vertices -> In b vertices -> In c vertices -> a <> b -> b <> c -> a <> c -> In b conc0 -> ~ flat3 points a b c.
Record run (T : list (nat * nat * nat)) (ds : list (list nat)) (st : ear_state) : Prop := {
  run_tris : e_tris st = emit T;
  run_T : Forall (fun '(a, b, c) => In a vertices /\ In b vertices /\ In c vertices /\ (cyc_triple vertices a b c \/ a = c /\ ~ no_drop)) T;
  run_verts : sublist (e_verts st) vertices;
  run_conc : sublist (e_conc st) conc0;
  run_ds : Forall (droppable points conc0) ds;
  run_count : length vertices = length (e_verts st) + length T + extra ds;
  run_chain : forall w, antisym w -> cyc w vertices = (sumw w (map (fun '(a, b, c) => [a; b; c]) T) + sumw w ds + cyc w (e_verts st))%R }.
Lemma sumw_app w a b : sumw w (a ++ b) = (sumw w a + sumw w b)%R.
Proof. unfold sumw. rewrite map_app, fold_right_Rplus_app. reflexivity. Qed.
Lemma extra_app a b : extra (a ++ b) = extra a + extra b.
Proof. induction a as [|d a IH]; [reflexivity|]. change (extra ((d :: a) ++ b)) with (length d - 2 + extra (a ++ b)). change (extra (d :: a)) with (length d - 2 + extra a). lia. Qed.
Lemma droppable_mono conc conc' d : sublist conc conc' -> droppable points conc d -> droppable points conc' d.
Proof.
  intros S. destruct d as [|a [|b [|c [|e [|]]]]]; cbn; auto.
  - intros [H1 H2]. split; [exact (sublist_In _ _ _ S H1)|exact H2].
  - intros (H1 & H2 & H3). split; [exact (sublist_In _ _ _ S H1)|]. split; [exact (sublist_In _ _ _ S H2)|exact H3].
Qed.
Lemma run_clipped T ds st i st' p c n ds' : run T ds st -> (no_drop -> 3 <= length (e_verts st)) -> clipped points st i st' p c n ds' ->
  run (T ++ [(p, c, n)]) (ds ++ ds') st'.
Proof.
  intros [R1 R2 R3 R4 R5 R6 R7] HN3 (Ec & Ep & En & Hc & He & Ht & Sv & Sc & Dd & _ & _ & Hn & _ & _ & Hct & Hw).
  split.
  - rewrite Ht, R1. unfold emit. now rewrite flat_map_app.
  - apply Forall_app. split; [exact R2|]. constructor; [|constructor]. apply idx_In in Ec, Ep, En. split; [eapply sublist_In; eassumption|]. split; [eapply sublist_In; eassumption|]. split; [eapply sublist_In; eassumption|].
    destruct Hct as [[_ Hct]|[M2 E]]; [left; eapply cyc_triple_mono; eassumption|right]. split; [exact E|]. intros HN. specialize (HN3 HN). lia.
  - eapply sublist_trans; eassumption.
  - eapply sublist_trans; eassumption.
  - apply Forall_app. split; [assumption|]. eapply Forall_impl; [|exact Dd]. intros d. now apply droppable_mono.
  - rewrite app_length, extra_app. cbn [length]. fold (extra ds') in Hn. lia.
  - intros w Aw. rewrite map_app, !sumw_app. cbn [map]. rewrite sumw1, (R7 w Aw), (Hw w Aw). lra.
Qed.

Lemma sublist_NoDup {A} (l l' : list A) : sublist l l' -> NoDup l' -> NoDup l.
Proof.
  intros H. induction H as [|x l l' H IH|x l l' H IH]; intros N; [constructor| |]; inversion N; subst; [|auto].
  constructor; [|auto]. intros I. apply H2. exact (sublist_In _ _ _ H I).
Qed.
Lemma no_drop_clip T ds st i st' p c n ds' : run T ds st -> no_drop -> 4 <= length (e_verts st) \/ conc0 = [] -> clipped points st i st' p c n ds' -> ds' = [].
Proof.
  intros [R1 R2 R3 R4 R5 R6 R7] HN H4 (Ec & Ep & En & Hc & He & Ht & Sv & Sc & Dd & _ & D34 & Hn & Hnd & Hin & _ & Hw).
  destruct ds' as [|d ds']; [reflexivity|exfalso]. inversion Dd as [|? ? D1 _]; subst. apply (droppable_mono _ _ _ R4) in D1.
  destruct HN as [E|[ND HN]].
  - rewrite E in D1. destruct d as [|a [|b [|e [|f [|]]]]]; cbn in D1; tauto.
  - assert (Hb : forall b, In b conc0 -> 4 <= length (e_verts st)) by (intros b I; destruct H4 as [H4|H4]; [exact H4|rewrite H4 in I; destruct I]).
    inversion Hin as [|? ? I1 _]; subst. assert (Inc : forall x, In x d -> In x vertices) by (intros x I; apply (sublist_In _ _ _ R3); apply I1; exact I).
    destruct d as [|a [|b [|e [|f [|]]]]]; cbn in D1; try tauto.
    + destruct D1 as [Ib D1]. specialize (Hnd (Hb b Ib) (sublist_NoDup _ _ R3 ND)). inversion Hnd as [|? ? N1 _]; subst. cbn [firstn] in N1.
      inversion N1 as [|? ? Na N2]; subst. inversion N2 as [|? ? Nb N3]; subst. cbn [In] in Na, Nb.
      apply (HN a b e); try (apply Inc; cbn [In]; auto); try (intros ->; apply Na || apply Nb; auto; fail); auto.
    + destruct D1 as (Ib & _ & D1 & _). specialize (Hnd (Hb b Ib) (sublist_NoDup _ _ R3 ND)). inversion Hnd as [|? ? N1 _]; subst. cbn [firstn] in N1.
      inversion N1 as [|? ? Na N2]; subst. inversion N2 as [|? ? Nb N3]; subst. cbn [In] in Na, Nb.
      apply (HN a b e); try (apply Inc; cbn [In]; auto); try (intros ->; apply Na || apply Nb; auto; fail); auto.
Qed.

(** state of a pass at position i: enough vertices for the count; and, when nothing is dropped, exact counts *)
Definition done (ds : list (list nat)) (verts : list nat) : Prop :=
  length verts <= 2 /\ length verts + extra ds = 2 /\ forall w, antisym w -> (sumw w ds + cyc w verts = 0)%R.
Definition pass_inv (ds : list (list nat)) (verts : list nat) (i : nat) : Prop :=
  let m := length verts in
  (i = 0 -> 4 <= m) /\ (i = 1 -> 3 <= m + extra ds) /\ 2 <= m + extra ds /\
  (no_drop -> 3 <= m /\ ds = [] \/ 2 <= i /\ done ds verts).
Lemma clip_last T ds st i st' p c n ds' : run T ds st -> length (e_verts st) = 3 -> i < 3 -> clipped points st i st' p c n ds' ->
  forall w, antisym w -> (sumw w ds' + cyc w (e_verts st') = 0)%R.
Proof.
  intros _ H3 Hi (Ec & Ep & En & _ & _ & _ & _ & _ & _ & _ & _ & _ & _ & _ & _ & Hw) w Aw. specialize (Hw w Aw). rewrite H3 in *.
  destruct (e_verts st) as [|a [|b [|d [|]]]]; cbn in H3; try lia.
  rewrite !cyc3 in Hw. destruct i as [|[|[|]]]; [| | |lia]; cbn in Ec, Ep, En; apply Ok_inj in Ec, Ep, En; subst; lra.
Qed.
Lemma pass_step T ds st m i st' m' : run T ds st -> m = length (e_verts st) -> i < m -> pass_inv ds (e_verts st) i ->
  ear_step points st m i = Ok (st', m') ->
  exists T' ds', run T' ds' st' /\ m' = length (e_verts st') /\ pass_inv ds' (e_verts st') (S i) /\ (st' = st \/ m' < m).
Proof.
  intros HR Hm Hi (I0 & I1 & I2 & I3) E. rewrite <- Hm in I0, I1, I2, I3.
  assert (H2 : 2 <= m) by lia.
  destruct (ear_step_spec points st m i st' m' Hm H2 Hi E) as [Hm' [->|(p & c & n & ds' & HC)]].
  - exists T, ds. split; [exact HR|]. split; [lia|]. split; [|now left].
    unfold pass_inv. rewrite <- Hm. split; [lia|]. split; [intros; lia|]. split; [lia|]. intros HN. destruct (I3 HN) as [?|[? ?]]; [now left|right; split; [lia|assumption]].
  - exists (T ++ [(p, c, n)]), (ds ++ ds'). split; [eapply run_clipped; [exact HR| |exact HC]; intros HN; destruct (I3 HN) as [[? _]|[? [? _]]]; lia|]. split; [exact Hm'|].
    pose proof HC as (_ & _ & _ & _ & _ & _ & _ & _ & _ & _ & _ & Hn & _). fold (extra ds') in Hn.
    split; [|right; lia]. unfold pass_inv. rewrite extra_app.
    split; [lia|]. split; [intros; lia|]. split; [lia|]. intros HN. destruct (I3 HN) as [[H3 X0]|(? & D & _)]; [|lia]. subst ds.
    destruct (Nat.eq_dec m 3) as [M3|M3].
    + right. split; [lia|]. cbn [app]. cbn [extra fold_right] in I1. split; [lia|]. split; [lia|].
      eapply clip_last; [exact HR|lia| |exact HC]. lia.
    + left. assert (ds' = []) by (eapply no_drop_clip; [exact HR|exact HN|left; lia|exact HC]). subst ds'. cbn [extra fold_right app] in *. split; [lia|reflexivity].
Qed.

(** the vertex at position i cannot be clipped *)
Definition blocked (st : ear_state) (i : nat) : Prop :=
  let m := length (e_verts st) in
  exists c p n, idx (e_verts st) i = Ok c /\ idx (e_verts st) (prev_pos m i) = Ok p /\ idx (e_verts st) (next_pos m i) = Ok n /\
  (In c (e_conc st) \/ exists o A B C O, In o (e_conc st) /\ o <> p /\ o <> n /\
     nth_error points p = Some A /\ nth_error points c = Some B /\ nth_error points n = Some C /\ nth_error points o = Some O /\
     is_inside_triangle A B C O = true).
Lemma is_ear_false conc p c n : is_ear points conc p c n = Ok false ->
  exists o A B C O, In o conc /\ o <> p /\ o <> n /\
     nth_error points p = Some A /\ nth_error points c = Some B /\ nth_error points n = Some C /\ nth_error points o = Some O /\
     is_inside_triangle A B C O = true.
Proof.
  induction conc as [|o conc IH]; cbn [is_ear]; [discriminate|]. intros E.
  destruct (negb (o =? p) && negb (o =? n)) eqn:B.
  - bindas E A EA. bindas E B' EB. bindas E C EC. bindas E O EO. apply andb_prop in B as [B1 B2]. apply negb_true_iff, Nat.eqb_neq in B1, B2.
    destruct (is_inside_triangle A B' C O) eqn:Ein.
    + exists o, A, B', C, O. apply idx_Ok in EA, EB, EC, EO. repeat split; auto. now left.
    + destruct (IH E) as (o' & A' & B'' & C' & O' & I & R). exists o', A', B'', C', O'. split; [now right|exact R].
  - destruct (IH E) as (o' & A' & B'' & C' & O' & I & R). exists o', A', B'', C', O'. split; [now right|exact R].
Qed.
Lemma ear_step_stuck st m i : m = length (e_verts st) -> 2 <= m -> i < m -> ear_step points st m i = Ok (st, m) -> blocked st i.
Proof.
  intros Hm H2 Hi E. unfold ear_step in E. bindas E c Ec.
  assert (Lp : prev_pos m i < m) by (unfold prev_pos; destruct (Nat.eqb_spec i 0); lia).
  assert (Ln : next_pos m i < m) by (unfold next_pos; destruct (Nat.eqb_spec i (m - 1)); lia).
  unfold blocked. rewrite <- Hm. exists c.
  destruct (binary_search (e_conc st) c) eqn:Bc.
  - exists (nth (prev_pos m i) (e_verts st) 0), (nth (next_pos m i) (e_verts st) 0).
    split; [exact Ec|]. split; [apply idx_nth; lia|]. split; [apply idx_nth; lia|]. left. eapply binary_search_Some; eassumption.
  - rewrite usub_Ok in E by lia. cbn [obind] in E. rewrite prev_pos_mod, next_pos_mod in E by assumption.
    bindas E p Ep. bindas E n En. bindas E ear Eear. exists p, n. split; [exact Ec|]. split; [exact Ep|]. split; [exact En|]. right.
    destruct ear; [exfalso|now apply is_ear_false].
    bindas E [conc1 del1] U1. bindas E [conc2 del2] U2. bindas E m' Em. apply usub_inv in Em as [HL ->].
    apply Ok_inj in E. apply (f_equal snd) in E. cbn [snd] in E. 
    assert (SI : forall x l, length (isort_insert Nat.ltb x l) = S (length l)) by (intros x l; induction l as [|y l IH]; [reflexivity|cbn [isort_insert]; destruct (y <? x); cbn [length]; rewrite ?IH; reflexivity]).
    rewrite rev_length in E, HL. change (sort_nat (i :: del1 ++ del2)) with (isort_insert Nat.ltb i (sort_nat (del1 ++ del2))) in E, HL. rewrite SI in E, HL. lia.
Qed.
Lemma pass_spec fuel : forall T ds st m i st', run T ds st -> m = length (e_verts st) -> pass_inv ds (e_verts st) i ->
  ear_pass fuel points st m i = Ok st' ->
  exists T' ds' j, run T' ds' st' /\ length (e_verts st') <= j /\ i <= j /\ pass_inv ds' (e_verts st') j /\
    (length (e_verts st') < m \/ st' = st /\ forall j, i <= j < m -> blocked st j).
Proof.
  induction fuel as [|fuel IH]; intros T ds st m i st' HR Hm HI E; cbn [ear_pass] in E; destruct (Nat.ltb_spec i m) as [L|L]; try discriminate.
  - apply Ok_inj in E. subst st'. exists T, ds, i. rewrite <- Hm. split; [exact HR|]. split; [lia|]. split; [lia|]. split; [exact HI|]. right. split; [reflexivity|]. intros; lia.
  - bindas E [st1 m1] E1.
    destruct (pass_step _ _ _ _ _ _ _ HR Hm L HI E1) as (T1 & ds1 & HR1 & Hm1 & HI1 & Hch).
    destruct (IH _ _ _ _ _ _ HR1 Hm1 HI1 E) as (T' & ds' & j & HR' & Hj & Hij & HI' & Hd). exists T', ds', j.
    split; [exact HR'|]. split; [exact Hj|]. split; [lia|]. split; [exact HI'|].
    destruct Hch as [->|Hch]; [|left; destruct Hd as [Hd|[-> _]]; lia].
    replace m1 with m in * by lia. destruct Hd as [Hd|[-> Hd]]; [now left|right]. split; [reflexivity|].
    intros k Hk. destruct (Nat.eq_dec k i) as [->|N]; [|apply Hd; lia]. eapply ear_step_stuck; [exact Hm| |exact L|exact E1].
    destruct HI as (I0 & I1 & I2 & I3). lia.
  - apply Ok_inj in E. subst st'. exists T, ds, i. rewrite <- Hm. split; [exact HR|]. split; [lia|]. split; [lia|]. split; [exact HI|]. right. split; [reflexivity|]. intros; lia.
Qed.
(** final state: at most two vertices are left over, or at least four and none of them can be clipped *)
Definition finished (st : ear_state) (ds : list (list nat)) : Prop :=
  length (e_verts st) <= 2 /\ 2 <= length (e_verts st) + extra ds /\ (no_drop -> done ds (e_verts st)).
Definition stuck (st : ear_state) : Prop := 4 <= length (e_verts st) /\ forall i, i < length (e_verts st) -> blocked st i.
Lemma loop_spec fuel : forall T ds st pm st', run T ds st -> (no_drop -> 3 <= length (e_verts st) /\ ds = [] \/ done ds (e_verts st)) ->
  2 <= length (e_verts st) + extra ds ->
  match pm with None => True | Some k => length (e_verts st) < k \/ 4 <= length (e_verts st) /\ forall j, j < length (e_verts st) -> blocked st j end ->
  ear_loop fuel points st pm = Ok st' ->
  exists T' ds' rest, run T' ds' (mkEar (e_tris st') rest (e_conc st')) /\
   (finished (mkEar (e_tris st') rest (e_conc st')) ds' \/ stuck (mkEar (e_tris st') rest (e_conc st')) /\ (no_drop -> ds' = [])).
Proof.
  induction fuel as [|fuel IH]; intros T ds st pm st' HR HG H2 Hpm E; cbn [ear_loop] in E; [discriminate|].
  assert (Est : forall s, mkEar (e_tris s) (e_verts s) (e_conc s) = s) by (intros []; reflexivity).
  destruct (match pm with None => false | Some k => (k <=? length (e_verts st)) end) eqn:Epm.
  - apply Ok_inj in E. subst st'. exists T, ds, (e_verts st). rewrite Est. split; [exact HR|].
    destruct pm as [k|]; [|discriminate]. apply Nat.leb_le in Epm. destruct Hpm as [Hpm|[H4 Hpm]]; [lia|].
    right. split; [split; assumption|]. intros HN. destruct (HG HN) as [[_ ?]|[? _]]; [assumption|lia].
  - destruct (Nat.ltb_spec (length (e_verts st)) 3) as [L3|L3].
    + apply Ok_inj in E. subst st'. exists T, ds, (e_verts st). rewrite Est. split; [exact HR|]. left. unfold finished.
      split; [lia|]. split; [lia|]. intros HN. destruct (HG HN) as [[? _]|?]; [lia|assumption].
    + destruct (Nat.eqb_spec (length (e_verts st)) 3) as [E3|N3].
      * bindas E a Ea. bindas E b Eb. bindas E c Ec. apply Ok_inj in E. subst st'. cbn [e_tris e_conc].
        destruct (e_verts st) as [|a' [|b' [|c' [|]]]] eqn:Ev; cbn in E3; try lia. cbn in Ea, Eb, Ec.
        apply Ok_inj in Ea, Eb, Ec. subst a' b' c'.
        exists (T ++ [(a, b, c)]), ds, [a; c]. split.
        -- destruct HR as [R1 R2 R3 R4 R5 R6 R7]. rewrite Ev in *. 
           assert (Iv : forall x, In x [a; b; c] -> In x vertices) by (intros x; apply sublist_In; exact R3).
           split; cbn [e_tris e_verts e_conc].
           ++ rewrite R1. unfold emit. rewrite flat_map_app. reflexivity.
           ++ apply Forall_app. split; [exact R2|]. constructor; [|constructor]. split; [apply Iv; cbn; auto|]. split; [apply Iv; cbn; auto|]. split; [apply Iv; cbn; auto|]. left. left. exact R3.
           ++ eapply sublist_trans; [|exact R3]. apply sub_keep, sub_drop, sub_keep, sub_nil.
           ++ exact R4.
           ++ exact R5.
           ++ rewrite app_length. cbn [length] in *. lia.
           ++ intros w Hw. rewrite map_app, sumw_app, (R7 w Hw). cbn [map]. rewrite sumw1. rewrite (cyc2 w Hw). lra.
        -- left. unfold finished. cbn [e_verts length] in *. split; [lia|]. split; [lia|]. intros HN. destruct (HG HN) as [[_ ->]|[? _]]; [|cbn [length] in *; lia].
           split; [cbn; lia|]. split; [reflexivity|]. intros w Hw. rewrite (cyc2 w Hw). unfold sumw. cbn [map fold_right]. lra.
      * bindas E st1 E1.
        assert (HI : pass_inv ds (e_verts st) 0).
        { split; [lia|]. split; [lia|]. split; [lia|]. intros HN. destruct (HG HN) as [?|[? _]]; [now left|lia]. }
        destruct (pass_spec _ _ _ _ _ _ _ HR eq_refl HI E1) as (T1 & ds1 & j & HR1 & _ & _ & (J0 & J1 & J2 & J3) & Hd).
        apply (IH T1 ds1 st1 (Some (length (e_verts st))) st' HR1); [| |destruct Hd as [Hd|[-> Hd]]; [now left|right; split; [lia|intros k Hk; apply Hd; lia]]|exact E].
        -- intros HN. destruct (J3 HN) as [?|[_ ?]]; [now left|now right].
        -- exact J2.
Qed.

(** ** Fuel *)
Lemma ear_step_no_fuel st m i : ear_step points st m i <> OutOfFuel.
Proof.
  assert (IE : forall conc p c n, is_ear points conc p c n <> OutOfFuel).
  { induction conc as [|o conc IH]; intros p c n; cbn [is_ear]; [discriminate|]. destruct (_ && _); [|apply IH].
    unfold idx. destruct (nth_error points p), (nth_error points c), (nth_error points n), (nth_error points o); cbn [obind]; try discriminate.
    destruct (is_inside_triangle _ _ _ _); [discriminate|apply IH]. }
  assert (UP : forall vs conc p n, ear_update_prev points vs conc m i p n <> OutOfFuel).
  { intros. unfold ear_update_prev. destruct (binary_search conc p); [|discriminate]. unfold usub, idx, remove_at.
    repeat (match goal with |- context [obind ?x _] => match x with context [if ?b then _ else _] => destruct b | context [match ?b with Some _ => _ | None => _ end] => destruct b end | |- context [match compute_convexity ?a ?b ?c with _ => _ end] => destruct (compute_convexity a b c) end; cbn [obind]); discriminate. }
  assert (UN : forall vs conc p n, ear_update_next points vs conc m i p n <> OutOfFuel).
  { intros. unfold ear_update_next. destruct (binary_search conc n); [|discriminate]. unfold usub, idx, remove_at.
    repeat (match goal with |- context [obind ?x _] => match x with context [if ?b then _ else _] => destruct b | context [match ?b with Some _ => _ | None => _ end] => destruct b end | |- context [match compute_convexity ?a ?b ?c with _ => _ end] => destruct (compute_convexity a b c) end; cbn [obind]); discriminate. }
  unfold ear_step. destruct (idx (e_verts st) i) as [c| |] eqn:E; cbn [obind]; [|discriminate|now apply idx_not_fuel in E].
  destruct (binary_search _ _); [discriminate|]. unfold usub. destruct (1 <=? m + i); cbn [obind]; [|discriminate].
  destruct (idx (e_verts st) ((m + i - 1) mod m)) as [p| |] eqn:Ep; cbn [obind]; [|discriminate|now apply idx_not_fuel in Ep].
  destruct (idx (e_verts st) ((i + 1) mod m)) as [n| |] eqn:En; cbn [obind]; [|discriminate|now apply idx_not_fuel in En].
  destruct (is_ear points (e_conc st) p c n) as [[|]| |] eqn:Ee; cbn [obind]; [|discriminate|discriminate|now apply IE in Ee].
  destruct (ear_update_prev points (e_verts st) (e_conc st) m i p n) as [[c1 d1]| |] eqn:U1; cbn [obind]; [|discriminate|now apply UP in U1].
  destruct (ear_update_next points (e_verts st) c1 m i p n) as [[c2 d2]| |] eqn:U2; cbn [obind]; [|discriminate|now apply UN in U2].
  destruct (_ <=? m); cbn [obind]; discriminate.
Qed.
Lemma ear_step_le st m i st' m' : ear_step points st m i = Ok (st', m') -> m' <= m.
Proof.
  unfold ear_step. intros E. bindas E c Ec. destruct (binary_search _ _); [apply Ok_inj in E; inversion E; lia|].
  bindas E pp Epp. bindas E p Ep. bindas E n En. bindas E ear Eear. destruct ear; [|apply Ok_inj in E; inversion E; lia].
  bindas E [conc1 del1] U1. bindas E [conc2 del2] U2. bindas E m1 Em. apply usub_inv in Em as [HL ->]. apply Ok_inj in E. inversion E. lia.
Qed.
Lemma pass_no_fuel fuel : forall st m i, m <= i + fuel -> ear_pass fuel points st m i <> OutOfFuel.
Proof.
  induction fuel as [|fuel IH]; intros st m i H; cbn [ear_pass]; destruct (Nat.ltb_spec i m); try discriminate; [lia|].
  destruct (ear_step points st m i) as [[st1 m1]| |] eqn:E; cbn [obind]; [|discriminate|now apply ear_step_no_fuel in E].
  apply IH. apply ear_step_le in E. lia.
Qed.
Lemma loop_no_fuel fuel : forall st pm, match pm with None => length (e_verts st) + 2 | Some k => S k end <= fuel -> ear_loop fuel points st pm <> OutOfFuel.
Proof.
  induction fuel as [|fuel IH]; intros st pm H; [destruct pm; lia|]. cbn [ear_loop].
  destruct (match pm with None => false | Some k => (k <=? length (e_verts st)) end) eqn:Epm; [discriminate|].
  destruct (Nat.ltb_spec (length (e_verts st)) 3); [discriminate|]. destruct (Nat.eqb_spec (length (e_verts st)) 3) as [E3|N3].
  - rewrite !(idx_nth _ _ 0) by lia. discriminate.
  - destruct (ear_pass _ points st _ 0) as [st1| |] eqn:E; cbn [obind]; [|discriminate|apply pass_no_fuel in E; [destruct E|lia]].
    apply IH. destruct pm as [k|]; [apply Nat.leb_gt in Epm|]; lia.
Qed.
End Run.

(** ** C39 *)
Section C39.
Context {F : Type} {NF : Num F}.
(** The two loops always end (whatever the arithmetic does). *)
Theorem C39_terminates (points : list (vec2 F)) vertices conc : trianglate_polygon points vertices conc <> OutOfFuel.
Proof.
  unfold trianglate_polygon. unfold usub. destruct (2 <=? length vertices); cbn [obind]; [|discriminate].
  destruct (ear_loop _ points _ None) as [st| |] eqn:E; cbn [obind]; try discriminate.
  now apply loop_no_fuel in E.
Qed.
Theorem C39_too_small (points : list (vec2 F)) vertices conc : length vertices < 2 -> trianglate_polygon points vertices conc = Panic.
Proof. intros H. unfold trianglate_polygon. now rewrite usub_Panic. Qed.

(** The full accounting of a run: triangles [T], dropped corners [ds], leftover polygon [rest]. *)
Theorem ear_accounting (points : list (vec2 F)) vertices conc out : trianglate_polygon points vertices conc = Ok out ->
  exists T ds st, e_tris st = out /\ run points vertices conc T ds st /\
   (finished points vertices conc st ds \/ stuck points st /\ (no_drop points vertices conc -> ds = [])).
Proof.
  unfold trianglate_polygon. intros E. bindas E k Ek. apply usub_inv in Ek as [H2 _]. bindas E st Est. apply Ok_inj in E. subst out.
  assert (HR : run points vertices conc [] [] (mkEar [] vertices conc)).
  { split; cbn [e_tris e_verts e_conc]; try constructor; try apply sublist_refl; [cbn; lia|]. intros w Hw. unfold sumw. cbn [map fold_right]. lra. }
  destruct (loop_spec points vertices conc (length vertices + 2) [] [] _ None st HR) as (T & ds & rest & HR' & HF); [| |exact I|exact Est|].
  - intros HN. cbn [e_verts]. destruct (Nat.eq_dec (length vertices) 2) as [E2|E2]; [right|left; split; [lia|reflexivity]].
    split; [lia|]. split; [cbn; lia|]. intros w Hw. destruct vertices as [|a [|b [|]]]; cbn in E2; try lia. rewrite (cyc2 w Hw). unfold sumw. cbn [map fold_right]. lra.
  - cbn. lia.
  - exists T, ds, (mkEar (e_tris st) rest (e_conc st)). split; [reflexivity|]. split; [exact HR'|exact HF].
Qed.
Theorem C39_indices_and_count (points : list (vec2 F)) vertices conc out : trianglate_polygon points vertices conc = Ok out ->
  exists T, out = emit T /\ length T <= length vertices - 2 /\
    Forall (fun '(a, b, c) => In a vertices /\ In b vertices /\ In c vertices /\ (cyc_triple vertices a b c \/ a = c)) T.
Proof.
  intros E. assert (H2 : 2 <= length vertices) by (destruct (Nat.lt_ge_cases (length vertices) 2) as [H|H]; [rewrite C39_too_small in E by exact H; discriminate|exact H]).
  destruct (ear_accounting _ _ _ _ E) as (T & ds & st & Et & [R1 R2 R3 R4 R5 R6 R7] & HF). exists T. split; [congruence|]. split; [|eapply Forall_impl; [|exact R2]; intros [[a b] c]; tauto].
  destruct HF as [(F1 & F2 & _)|[[F1 _] _]]; lia.
Qed.

(** No panic, when no corner of three different vertices is flat: *)
Definition valid_indices (points : list (vec2 F)) (l : list nat) : Prop := forall x, In x l -> x < length points.
Lemma pair_Ok {A B} (o : outcome (A * B)) r : o = Ok r -> exists a b, o = Ok (a, b).
Proof. destruct r as [a b]. eauto. Qed.
Lemma ear_step_total (points : list (vec2 F)) st m i : m = length (e_verts st) -> 3 <= m -> i < m ->
  e_conc st = [] \/ valid_indices points (e_verts st) /\ valid_indices points (e_conc st) ->
  exists st' m', ear_step points st m i = Ok (st', m').
Proof.
  intros Hm H3 Hi HV. unfold ear_step.
  assert (Lp : prev_pos m i < m) by (unfold prev_pos; destruct (Nat.eqb_spec i 0); lia).
  assert (Ln : next_pos m i < m) by (unfold next_pos; destruct (Nat.eqb_spec i (m - 1)); lia).
  rewrite (idx_nth _ i 0) by lia. cbn [obind]. set (c := nth i (e_verts st) 0).
  destruct (binary_search (e_conc st) c); [eauto|]. rewrite usub_Ok by lia. cbn [obind]. rewrite prev_pos_mod, next_pos_mod by assumption.
  rewrite (idx_nth _ (prev_pos m i) 0), (idx_nth _ (next_pos m i) 0) by lia. cbn [obind].
  set (p := nth (prev_pos m i) (e_verts st) 0). set (n := nth (next_pos m i) (e_verts st) 0).
  assert (Ic : In c (e_verts st)) by (apply nth_In; lia). assert (Ip : In p (e_verts st)) by (apply nth_In; lia). assert (In' : In n (e_verts st)) by (apply nth_In; lia).
  assert (IP : forall q conc', sublist conc' (e_conc st) -> In q conc' -> q < length points).
  { intros q conc' S I. apply (sublist_In _ _ _ S) in I. destruct HV as [E|[_ V]]; [rewrite E in I; destruct I|auto]. }
  assert (IV : forall q x, In x (e_conc st) -> In q (e_verts st) -> q < length points).
  { intros q x Ix Iq. destruct HV as [E|[V _]]; [rewrite E in Ix; destruct Ix|auto]. }
  assert (EI : forall l, sublist l (e_conc st) -> exists b, is_ear points l p c n = Ok b).
  { induction l as [|o l IH]; intros S; [cbn; eauto|]. assert (S' : sublist l (e_conc st)) by (eapply sublist_trans; [|exact S]; apply sub_drop, sublist_refl).
    assert (Io : In o (e_conc st)) by (apply (sublist_In _ _ _ S); now left).
    cbn [is_ear]. destruct (_ && _); [|auto]. rewrite !(idx_nth points _ vzero) by eauto using sublist_refl. cbn [obind].
    destruct (is_inside_triangle _ _ _ _); [eauto|auto]. }
  destruct (EI (e_conc st) (sublist_refl _)) as [ear ->]. cbn [obind]. destruct ear; [|eauto].
  assert (BS : forall l x j, binary_search l x = Some j -> j < length l).
  { intros l x j E. unfold binary_search in E. apply position_Some in E. destruct E as (y & Ey & _). apply nth_error_Some. congruence. }
  assert (U1 : exists c1 d1, ear_update_prev points (e_verts st) (e_conc st) m i p n = Ok (c1, d1)).
  { unfold ear_update_prev. destruct (binary_search (e_conc st) p) as [j|] eqn:B; [|eauto]. pose proof (binary_search_Some _ _ _ B) as Ij. apply BS in B.
    rewrite usub_Ok by lia. cbn [obind].
    rewrite (idx_nth (e_verts st) _ 0) by (rewrite <- Hm; apply Nat.mod_upper_bound; lia). cbn [obind].
    rewrite !(idx_nth points _ vzero) by (try (eapply IV; [exact Ij|]; try assumption; apply nth_In; rewrite <- Hm; apply Nat.mod_upper_bound; lia)). cbn [obind].
    destruct (compute_convexity _ _ _); [|rewrite usub_Ok by lia; cbn [obind]; eauto|eauto].
    unfold remove_at. destruct (Nat.ltb_spec j (length (e_conc st))); [cbn [obind]; eauto|lia]. }
  destruct U1 as (c1 & d1 & U1). rewrite U1. cbn [obind]. destruct (update_prev_spec _ _ _ _ _ _ _ _ _ Hi Hm U1) as [S1 D1].
  assert (U2 : exists c2 d2, ear_update_next points (e_verts st) c1 m i p n = Ok (c2, d2)).
  { unfold ear_update_next. destruct (binary_search c1 n) as [j|] eqn:B; [|eauto]. pose proof (binary_search_Some _ _ _ B) as Ij. apply (sublist_In _ _ _ S1) in Ij. apply BS in B.
    rewrite (idx_nth (e_verts st) _ 0) by (rewrite <- Hm; apply Nat.mod_upper_bound; lia). cbn [obind].
    rewrite !(idx_nth points _ vzero) by (try (eapply IV; [exact Ij|]; try assumption; apply nth_In; rewrite <- Hm; apply Nat.mod_upper_bound; lia)). cbn [obind].
    destruct (compute_convexity _ _ _); [|eauto|eauto].
    unfold remove_at. destruct (Nat.ltb_spec j (length c1)); [cbn [obind]; eauto|lia]. }
  destruct U2 as (c2 & d2 & U2). rewrite U2. cbn [obind]. destruct (update_next_spec _ _ _ _ _ _ _ _ _ Hi Hm U2) as [S2 D2].
  rewrite usub_Ok; [cbn [obind]; eauto|].
  assert (SI : forall x l, length (isort_insert Nat.ltb x l) = S (length l)) by (intros x l; induction l as [|y l IH]; [reflexivity|cbn [isort_insert]; destruct (y <? x); cbn [length]; rewrite ?IH; reflexivity]).
  assert (SL : forall l, length (sort_nat l) = length l).
  { induction l as [|y l IH]; [reflexivity|]. change (sort_nat (y :: l)) with (isort_insert Nat.ltb y (sort_nat l)). rewrite SI, IH. reflexivity. }
  rewrite rev_length, SL. cbn [length]. rewrite app_length. destruct D1 as [->|[-> _]], D2 as [->|[-> _]]; cbn [length]; lia.
Qed.
Lemma pass_total (points : list (vec2 F)) vertices conc (HN : no_drop points vertices conc)
  (HV : conc = [] \/ valid_indices points vertices /\ valid_indices points conc) fuel :
  forall T ds st m i, run points vertices conc T ds st -> m = length (e_verts st) -> pass_inv points vertices conc ds (e_verts st) i -> m <= i + fuel ->
  exists st', ear_pass fuel points st m i = Ok st'.
Proof.
  induction fuel as [|fuel IH]; intros T ds st m i HR Hm HI Hf; cbn [ear_pass]; destruct (Nat.ltb_spec i m) as [L|L]; eauto; [lia|].
  pose proof HI as (I0 & I1 & I2 & I3).
  destruct (ear_step_total points st m i Hm) as (st1 & m1 & E1); [destruct (I3 HN) as [[? _]|[? [? _]]]; lia|exact L| |].
  - pose proof (run_conc _ _ _ _ _ _ HR) as RC. pose proof (run_verts _ _ _ _ _ _ HR) as RV. destruct HV as [->|[V1 V2]].
    + left. inversion RC. reflexivity.
    + right. split; intros x Ix; [apply V1; exact (sublist_In _ _ _ RV Ix)|apply V2; exact (sublist_In _ _ _ RC Ix)].
  - rewrite E1. cbn [obind]. destruct (pass_step _ _ _ _ _ _ _ _ _ _ HR Hm L HI E1) as (T1 & ds1 & HR1 & Hm1 & HI1 & Hle).
    eapply IH; [exact HR1|exact Hm1|exact HI1|]. apply ear_step_le in E1. lia.
Qed.
Theorem C39_general_position (points : list (vec2 F)) vertices conc : 2 <= length vertices -> no_drop points vertices conc ->
  conc = [] \/ valid_indices points vertices /\ valid_indices points conc ->
  exists T, trianglate_polygon points vertices conc = Ok (emit T) /\ Forall (fun '(a, b, c) => cyc_triple vertices a b c) T /\
    (* everything clipped: n-2 triangles whose boundaries add up to the polygon *)
    (length T = length vertices - 2 /\ (forall w, antisym w -> cyc w vertices = sumw w (map (fun '(a, b, c) => [a; b; c]) T)) \/
    (* or stuck with four or more vertices, none of which is an ear *)
     exists rest conc', length vertices = length T + length rest /\ sublist rest vertices /\ sublist conc' conc /\ stuck points (mkEar (emit T) rest conc') /\
       forall w, antisym w -> cyc w vertices = (sumw w (map (fun '(a, b, c) => [a; b; c]) T) + cyc w rest)%R).
Proof.
  intros H2 HN HV.
  assert (LT : forall fuel T ds st pm, run points vertices conc T ds st -> (3 <= length (e_verts st) /\ ds = [] \/ done ds (e_verts st)) ->
    match pm with None => length (e_verts st) + 2 | Some k => S k end <= fuel -> exists st', ear_loop fuel points st pm = Ok st').
  { induction fuel as [|fuel IH]; intros T ds st pm HR HG Hf; [destruct pm; lia|]. cbn [ear_loop].
    destruct (match pm with None => false | Some k => (k <=? length (e_verts st)) end) eqn:Epm; [eauto|].
    destruct (Nat.ltb_spec (length (e_verts st)) 3); [eauto|]. destruct (Nat.eqb_spec (length (e_verts st)) 3) as [E3|N3].
    - rewrite !(idx_nth _ _ 0) by lia. cbn [obind]. eauto.
    - assert (HI : pass_inv points vertices conc ds (e_verts st) 0).
      { split; [lia|]. split; [lia|]. split; [lia|]. intros _. destruct HG as [?|[? _]]; [now left|lia]. }
      destruct (pass_total points vertices conc HN HV (length (e_verts st)) _ _ _ _ _ HR eq_refl HI) as [st1 E1]; [lia|]. rewrite E1. cbn [obind].
      destruct (pass_spec points vertices conc _ _ _ _ _ _ _ HR eq_refl HI E1) as (T1 & ds1 & j & HR1 & _ & _ & (J0 & J1 & J2 & J3) & Hd).
      eapply IH; [exact HR1| |].
      + destruct (J3 HN) as [?|[_ ?]]; [now left|now right].
      + destruct pm as [k|]; [apply Nat.leb_gt in Epm|]; lia. }
  assert (HR : run points vertices conc [] [] (mkEar [] vertices conc)).
  { split; cbn [e_tris e_verts e_conc]; try constructor; try apply sublist_refl; [cbn; lia|]. intros w Hw. unfold sumw. cbn [map fold_right]. lra. }
  destruct (LT (length vertices + 2) _ _ _ None HR) as [st0 E]; [|cbn; lia|].
  { cbn [e_verts]. destruct (Nat.eq_dec (length vertices) 2) as [E2|E2]; [right|left; split; [lia|reflexivity]].
    split; [lia|]. split; [cbn; lia|]. intros w Hw. destruct vertices as [|a [|b [|]]]; cbn in E2; try lia. rewrite (cyc2 w Hw). unfold sumw. cbn [map fold_right]. lra. }
  assert (E' : trianglate_polygon points vertices conc = Ok (e_tris st0)) by (unfold trianglate_polygon; rewrite usub_Ok by lia; cbn [obind]; now rewrite E).
  destruct (ear_accounting _ _ _ _ E') as (T & ds & st & Et & [R1 R2 R3 R4 R5 R6 R7] & HF).
  exists T. rewrite Et in R1. rewrite <- R1. split; [exact E'|]. split; [eapply Forall_impl; [|exact R2]; intros [[a b] c]; tauto|].
  destruct HF as [(F1 & F2 & F3)|[[F1 F2] F3]]; specialize (F3 HN).
  - left. destruct F3 as (_ & D1 & D2). split; [lia|]. intros w Hw. rewrite (R7 w Hw). specialize (D2 w Hw). lra.
  - right. subst ds. exists (e_verts st), (e_conc st). cbn [extra fold_right] in R6. split; [lia|]. split; [exact R3|]. split; [exact R4|].
    split; [|intros w Hw; rewrite (R7 w Hw); unfold sumw at 2; cbn [map fold_right]; lra]. rewrite <- Et. destruct st. split; [exact F1|exact F2].
Qed.
End C39.

(** A simple counter-clockwise polygon (all coordinates multiples of 2^-13, so the arithmetic is exact) on which the call panics:
    an ear whose two neighbours are both reflex and become straight leaves the loop with [m = 1] and [m - 2] underflows. *)
Definition w64 (x y : Z) : vec2 spec_float := V2 (SFdiv p64 e64 (f64_of_Z x) (f64_of_Z 8192)) (SFdiv p64 e64 (f64_of_Z y) (f64_of_Z 8192)).
Theorem C39_panic_refuted : let ps := [w64 4 (-2); w64 1 (-1); w64 1 2; w64 0 (-1); w64 (-3) (-2)] in
  (v <- compute_vertex_convexity ps ;; trianglate_polygon (NF := F64Num) ps (fst v) (snd v)) = Panic.
Proof. vm_compute. reflexivity. Qed.
(** an L-shaped hexagon: four triangles *)
Example C39_nonvacuous : let ps := [q64 0 0; q64 4 0; q64 4 2; q64 2 2; q64 2 4; q64 0 4] in
  compute_vertex_convexity ps = Ok ([0; 1; 2; 3; 4; 5], [3]) /\
  trianglate_polygon (NF := F64Num) ps [0; 1; 2; 3; 4; 5] [3] = Ok [0; 1; 2; 3; 4; 5; 0; 2; 3; 3; 5; 0]%N.
Proof. split; vm_compute; reflexivity. Qed.

(** ** C40: area *)
Open Scope R_scope.
Definition total_area2 (points : list (vec2 R)) (T : list (nat * nat * nat)) : R :=
  fold_right Rplus 0 (map (fun '(a, b, c) => tri_area2 (pt points a) (pt points b) (pt points c)) T).
Lemma sumw_tri points T : sumw (fun a b => cross2 (pt points a) (pt points b)) (map (fun '(a, b, c) => [a; b; c]) T) = total_area2 points T.
Proof.
  unfold sumw, total_area2. induction T as [|[[a b] c] T IH]; [reflexivity|]. cbn [map fold_right]. rewrite IH. f_equal.
  rewrite <- area2_poly. apply area2_tri.
Qed.
Lemma flat3_area (points : list (vec2 R)) a b c : flat3 points a b c -> Rabs (tri_area2 (pt points a) (pt points b) (pt points c)) <= TOL.
Proof.
  intros (A & B & C & EA & EB & EC & H). unfold pt. rewrite !(nth_error_nth _ _ _ EA), !(nth_error_nth _ _ _ EB), !(nth_error_nth _ _ _ EC).
  pose proof (convexity_cases A B C) as K. cbv zeta in K. unfold compute_convexity in K. now rewrite H in K.
Qed.
(** what is lost at a dropped corner: twice its area is at most the tolerance.  (When both ends of the cut become straight at once the
    quadrilateral a b c e is lost, whose corners b and c are straight.) *)
Definition small_loss (points : list (vec2 R)) (d : list nat) : Prop :=
  match d with
  | [a; b; c] => Rabs (tri_area2 (pt points a) (pt points b) (pt points c)) <= TOL
  | [a; b; c; e] => Rabs (tri_area2 (pt points a) (pt points b) (pt points c)) <= TOL /\ Rabs (tri_area2 (pt points b) (pt points c) (pt points e)) <= TOL
  | _ => False
  end.
Theorem C40_area_balance (points : list (vec2 R)) vertices conc out : trianglate_polygon points vertices conc = Ok out ->
  exists T lost rest, out = emit T /\ Forall (small_loss points) lost /\ sublist rest vertices /\
    length vertices = (length T + extra lost + length rest)%nat /\
    area2 (poly points vertices) = total_area2 points T + fold_right Rplus 0 (map (fun d => area2 (poly points d)) lost) + area2 (poly points rest) /\
    Forall (fun '(a, b, c) => In a vertices /\ In b vertices /\ In c vertices) T.
Proof.
  intros E. destruct (ear_accounting _ _ _ _ E) as (T & ds & st & Et & [R1 R2 R3 R4 R5 R6 R7] & HF).
  exists T, ds, (e_verts st). split; [congruence|]. split.
  { eapply Forall_impl; [|exact R5]. intros d Hd. destruct d as [|a [|b [|c [|e [|]]]]]; cbn in *; try tauto.
    - now apply flat3_area.
    - split; apply flat3_area; tauto. }
  split; [exact R3|]. split; [lia|]. split; [|eapply Forall_impl; [|exact R2]; intros [[a b] c]; tauto].
  set (w := fun a b => cross2 (pt points a) (pt points b)).
  assert (Aw : antisym w) by (intros a b; apply cross2_anti).
  specialize (R7 w Aw). unfold w in R7. rewrite sumw_tri in R7. rewrite !area2_poly, R7. f_equal. f_equal.
  unfold sumw. clear. induction ds as [|d ds IH]; [reflexivity|]. cbn [map fold_right]. rewrite IH, area2_poly. reflexivity.
Qed.

(** *** Covering: winding numbers
    [wind q a b] is the signed crossing of the edge a b with the horizontal ray going right from [q] (half-open in y), so that
    [winding ps q] is the winding number of the closed polygon around [q]. *)
Definition wind (q a b : vec2 R) : R :=
  if Rleb (y2 a) (y2 q) && Rltb (y2 q) (y2 b) && Rltb 0 (tri_area2 a b q) then 1
  else if Rleb (y2 b) (y2 q) && Rltb (y2 q) (y2 a) && Rltb (tri_area2 a b q) 0 then - (1)
  else 0.
Definition winding (ps : list (vec2 R)) (q : vec2 R) : R := cyc (wind q) ps.
Lemma wind_antisym q : antisym (wind q).
Proof.
  intros a b. unfold wind. replace (tri_area2 b a q) with (- tri_area2 a b q) by (unfold tri_area2; ring).
  repeat match goal with |- context [Rltb ?x ?y] => destruct (Rltb_spec x y) | |- context [Rleb ?x ?y] => destruct (Rleb_spec x y) end; cbn [andb]; lra.
Qed.
Definition strictly_inside (a b c q : vec2 R) : bool := Rltb 0 (tri_area2 a b q) && Rltb 0 (tri_area2 b c q) && Rltb 0 (tri_area2 c a q).
Definition off_lines (a b c q : vec2 R) : Prop := tri_area2 a b q <> 0 /\ tri_area2 b c q <> 0 /\ tri_area2 c a q <> 0.
(** the winding number of a triangle: 1 inside a counter-clockwise one, -1 inside a clockwise one, 0 outside *)
Lemma wind_tri q a b c : off_lines a b c q ->
  cyc (wind q) [a; b; c] = (if strictly_inside a b c q then 1 else 0) - (if strictly_inside c b a q then 1 else 0).
Proof.
  intros (N1 & N2 & N3). rewrite cyc3. unfold strictly_inside.
  replace (tri_area2 c b q) with (- tri_area2 b c q) by (unfold tri_area2; ring).
  replace (tri_area2 b a q) with (- tri_area2 a b q) by (unfold tri_area2; ring).
  replace (tri_area2 a c q) with (- tri_area2 c a q) by (unfold tri_area2; ring).
  assert (H : tri_area2 b c q * (y2 a - y2 q) + tri_area2 c a q * (y2 b - y2 q) + tri_area2 a b q * (y2 c - y2 q) = 0) by (unfold tri_area2; ring).
  assert (Z : ~ (y2 a - y2 q = 0 /\ y2 b - y2 q = 0)) by (intros [E1 E2]; apply N1; unfold tri_area2; replace (y2 a) with (y2 q) by lra; replace (y2 b) with (y2 q) by lra; ring).
  unfold wind. revert N1 N2 N3 H. generalize (tri_area2 a b q) (tri_area2 b c q) (tri_area2 c a q). intros s1 s2 s3 N1 N2 N3.
  intros H.
  assert (L : forall x y, Rltb x y = negb (Rleb y x)) by (intros x y; destruct (Rltb_spec x y), (Rleb_spec y x); cbn; auto; lra).
  rewrite !(L (y2 q)).
  assert (T1 : forall x, 0 < x -> Rltb 0 x = true) by (intros x; apply Rltb_true).
  assert (T2 : forall x, x < 0 -> Rltb 0 x = false) by (intros x ?; destruct (Rltb_spec 0 x); [lra|reflexivity]).
  assert (T3 : forall x, x < 0 -> Rltb 0 (- x) = true) by (intros; apply T1; lra).
  assert (T4 : forall x, 0 < x -> Rltb 0 (- x) = false) by (intros; apply T2; lra).
  assert (T5 : forall x, x < 0 -> Rltb x 0 = true) by (intros x; apply Rltb_true).
  assert (T6 : forall x, 0 < x -> Rltb x 0 = false) by (intros x ?; destruct (Rltb_spec x 0); [lra|reflexivity]).
  assert (Sg : forall s u, (0 < s -> 0 < u -> 0 < s * u) /\ (0 < s -> u <= 0 -> s * u <= 0) /\ (s < 0 -> 0 < u -> s * u < 0) /\ (s < 0 -> u <= 0 -> 0 <= s * u)) by (intros; repeat split; intros; nra).
  assert (U : forall y, Rleb y (y2 q) = true /\ y - y2 q <= 0 \/ Rleb y (y2 q) = false /\ 0 < y - y2 q) by (intros y; destruct (Rleb_spec y (y2 q)); [left|right]; split; auto; lra).
  destruct (U (y2 a)) as [[-> Ua]|[-> Ua]], (U (y2 b)) as [[-> Ub]|[-> Ub]], (U (y2 c)) as [[-> Uc]|[-> Uc]]; clear U L;
  destruct (Rdichotomy _ _ N1) as [S1|S1], (Rdichotomy _ _ N2) as [S2|S2], (Rdichotomy _ _ N3) as [S3|S3];
  rewrite ?(T1 _ S1), ?(T2 _ S1), ?(T3 _ S1), ?(T4 _ S1), ?(T5 _ S1), ?(T6 _ S1), ?(T1 _ S2), ?(T2 _ S2), ?(T3 _ S2), ?(T4 _ S2), ?(T5 _ S2), ?(T6 _ S2), ?(T1 _ S3), ?(T2 _ S3), ?(T3 _ S3), ?(T4 _ S3), ?(T5 _ S3), ?(T6 _ S3);
  cbn [andb negb]; clear T1 T2 T3 T4 T5 T6; first [clear; lra|exfalso].
  all: pose proof (Sg s2 (y2 a - y2 q)) as (A1 & A2 & A3 & A4); pose proof (Sg s3 (y2 b - y2 q)) as (B1 & B2 & B3 & B4); pose proof (Sg s1 (y2 c - y2 q)) as (C1 & C2 & C3 & C4); clear Sg.
  all: repeat match goal with K : ?P -> ?Q -> ?R, H1 : ?P, H2 : ?Q |- _ => specialize (K H1 H2) end.
  all: repeat match goal with K : ?P -> ?Q -> ?R |- _ => clear K end; try (clear Z; lra).
  all: apply Z; split; [apply (Rmult_eq_reg_l s2)|apply (Rmult_eq_reg_l s3)]; lra.
Qed.
Definition signed_cover (points : list (vec2 R)) (T : list (nat * nat * nat)) (q : vec2 R) : R :=
  fold_right Rplus 0 (map (fun '(a, b, c) => (if strictly_inside (pt points a) (pt points b) (pt points c) q then 1 else 0)
    - (if strictly_inside (pt points c) (pt points b) (pt points a) q then 1 else 0)) T).
Definition off_all_lines points (T : list (nat * nat * nat)) q : Prop := Forall (fun '(a, b, c) => off_lines (pt points a) (pt points b) (pt points c) q) T.
Lemma sumw_wind points T q : off_all_lines points T q ->
  sumw (fun a b => wind q (pt points a) (pt points b)) (map (fun '(a, b, c) => [a; b; c]) T) = signed_cover points T q.
Proof.
  unfold sumw, signed_cover. induction 1 as [|[[a b] c] T H _ IH]; [reflexivity|]. cbn [map fold_right]. rewrite IH. f_equal.
  rewrite <- wind_tri by exact H. rewrite <- (cyc_map (pt points) (wind q)). reflexivity.
Qed.
(** In general position (three different vertices with a reflex one in the middle are never straight): no panic; the triangles have three
    different corners in cyclic order; and unless the clipper gets stuck there are n-2 of them, their signed areas add up to that of
    the polygon, and around every point off the triangles' lines the polygon winds as often as the triangles cover the point. *)
Theorem C40_general_position (points : list (vec2 R)) vertices conc : (2 <= length vertices)%nat -> no_drop points vertices conc ->
  conc = [] \/ valid_indices points vertices /\ valid_indices points conc ->
  exists T, trianglate_polygon points vertices conc = Ok (emit T) /\ Forall (fun '(a, b, c) => cyc_triple vertices a b c) T /\
    exists rest conc', length vertices = (length T + length rest)%nat /\ (length rest = 2%nat \/ stuck points (mkEar (emit T) rest conc')) /\
      sublist rest vertices /\ sublist conc' conc /\
      area2 (poly points vertices) = total_area2 points T + area2 (poly points rest) /\
      (length rest = 2%nat -> area2 (poly points rest) = 0) /\
      (forall q, off_all_lines points T q -> winding (poly points vertices) q = signed_cover points T q + winding (poly points rest) q /\
        (length rest = 2%nat -> winding (poly points rest) q = 0)).
Proof.
  intros H2 HN HV. destruct (C39_general_position points vertices conc H2 HN HV) as (T & E & HT & HC). exists T. split; [exact E|]. split; [exact HT|].
  assert (AW : forall q, antisym (fun a b => wind q (pt points a) (pt points b))) by (intros q a b; apply wind_antisym).
  assert (R2 : forall l, length l = 2%nat -> area2 (poly points l) = 0 /\ forall q, winding (poly points l) q = 0).
  { intros l E2. destruct l as [|a [|b [|]]]; cbn in E2; try lia. split; [rewrite area2_poly; apply cyc2, cross2_antisym|].
    intros q. unfold winding. apply cyc2, wind_antisym. }
  assert (Z2 : exists rest, length rest = 2%nat /\ sublist rest vertices).
  { destruct vertices as [|a [|b l]]; cbn in H2; try lia. exists [a; b]. split; [reflexivity|]. repeat constructor. apply sublist_nil. }
  destruct HC as [(HL & HW)|(rest & conc' & HL & S1 & S2 & S3 & HW)].
  - destruct Z2 as (rest & L2 & S2). exists rest, []. destruct (R2 rest L2) as [RA RW]. split; [lia|]. split; [now left|]. split; [exact S2|]. split; [apply sublist_nil|].
    split; [rewrite RA, area2_poly, (HW _ (cross2_antisym points)), sumw_tri; ring|]. split; [now intros|].
    intros q Hq. split; [|intros; apply RW]. rewrite RW, Rplus_0_r. unfold winding, poly. rewrite cyc_map. rewrite (HW _ (AW q)). now apply sumw_wind.
  - exists rest, conc'. split; [lia|]. split; [now right|]. split; [exact S1|]. split; [exact S2|].
    split; [rewrite !area2_poly, (HW _ (cross2_antisym points)), sumw_tri; reflexivity|]. split; [apply R2|].
    intros q Hq. split; [|intros; now apply R2]. unfold winding, poly. rewrite !cyc_map. rewrite (HW _ (AW q)). f_equal. now apply sumw_wind.
Qed.

(** Strictly convex polygons: the whole pipeline succeeds with n-2 counter-clockwise triangles that tile the polygon. *)
Definition strictly_convex (ps : list (vec2 R)) : Prop :=
  let n := length ps in
  (forall i j k, (i < j < k)%nat -> (k < n)%nat -> 0 < tri_area2 (pt ps i) (pt ps j) (pt ps k)) /\
  (forall i, (i < n)%nat -> TOL < corner_at ps (seq 0 n) i).
Lemma poly_seq ps : poly ps (seq 0 (length ps)) = ps.
Proof.
  unfold poly. apply (nth_ext _ _ (V2 0 0) (V2 0 0)); [now rewrite map_length, seq_length|]. intros i Hi. rewrite map_length, seq_length in Hi.
  rewrite (nth_indep _ _ (pt ps 0)) by now rewrite map_length, seq_length. rewrite map_nth, seq_nth by exact Hi. reflexivity.
Qed.
Lemma sublist3_seq a b c : forall n s, sublist [a; b; c] (seq s n) -> (a < b < c)%nat /\ (s <= a)%nat /\ (c < s + n)%nat.
Proof.
  assert (S1 : forall x n s, sublist [x] (seq s n) -> (s <= x < s + n)%nat).
  { intros x n s H. assert (I : In x (seq s n)) by (eapply sublist_In; [exact H|now left]). apply in_seq in I. lia. }
  assert (S2 : forall x y n s, sublist [x; y] (seq s n) -> (x < y)%nat /\ (s <= x)%nat /\ (y < s + n)%nat).
  { induction n as [|n IH]; intros s H; cbn [seq] in H; inversion H as [|? ? ? H'|? ? ? H']; subst; [apply S1 in H'; lia|apply IH in H'; lia]. }
  induction n as [|n IH]; intros s H; cbn [seq] in H; inversion H as [|? ? ? H'|? ? ? H']; subst; [apply S2 in H'; lia|apply IH in H'; lia].
Qed.
Lemma filter_all {A} (f : A -> bool) l : (forall x, In x l -> f x = true) -> filter f l = l.
Proof. induction l as [|x l IH]; intros H; [reflexivity|]. cbn [filter]. rewrite (H x (or_introl eq_refl)), IH; [reflexivity|]. intros; apply H; now right. Qed.
Lemma filter_none {A} (f : A -> bool) l : (forall x, In x l -> f x = false) -> filter f l = [].
Proof. induction l as [|x l IH]; intros H; [reflexivity|]. cbn [filter]. rewrite (H x (or_introl eq_refl)). apply IH. intros; apply H; now right. Qed.
Theorem C40_convex (ps : list (vec2 R)) : let n := length ps in (3 <= n)%nat -> strictly_convex ps ->
  exists T, compute_vertex_convexity ps = Ok (seq 0 n, []) /\ trianglate_polygon ps (seq 0 n) [] = Ok (emit T) /\ length T = (n - 2)%nat /\
    Forall (fun '(a, b, c) => (a < n)%nat /\ (b < n)%nat /\ (c < n)%nat /\ 0 < tri_area2 (pt ps a) (pt ps b) (pt ps c)) T /\
    area2 ps = total_area2 ps T /\
    forall q, off_all_lines ps T q -> winding ps q = fold_right Rplus 0 (map (fun '(a, b, c) => if strictly_inside (pt ps a) (pt ps b) (pt ps c) q then 1 else 0) T).
Proof.
  cbv zeta. intros H3 [HC HT]. set (n := length ps) in *. assert (0 < TOL) by (unfold TOL; lra).
  destruct (C40_general_position ps (seq 0 n) []) as (T & E & HTr & rest & conc' & HL & HS & S1 & S2 & HA & HA2 & HW); [rewrite seq_length; lia|now left|now left|].
  exists T. split; [|split; [exact E|]].
  - rewrite C38_vertex_convexity. fold n. f_equal. f_equal.
    + apply filter_all. intros i Hi. apply in_seq in Hi. unfold bent. apply Rltb_true. specialize (HT i ltac:(lia)). rewrite Rabs_right; lra.
    + apply filter_none. intros i Hi. apply in_seq in Hi. unfold right_turn. specialize (HT i ltac:(lia)). destruct (Rltb_spec (corner_at ps (seq 0 n) i) (- TOL)); [lra|reflexivity].
  - rewrite seq_length in HL.
    assert (L2 : length rest = 2%nat).
    { destruct HS as [HS|[HS1 HS2]]; [exact HS|exfalso]. cbn [e_verts] in HS1. destruct (HS2 0%nat) as (c & p & m & _ & _ & _ & HB); [cbn [e_verts]; lia|]. cbn [e_conc] in HB.
      inversion S2; subst. destruct HB as [[]|(o & ? & ? & ? & ? & [] & _)]. }
    assert (HP : Forall (fun '(a, b, c) => (a < n)%nat /\ (b < n)%nat /\ (c < n)%nat /\ 0 < tri_area2 (pt ps a) (pt ps b) (pt ps c)) T).
    { eapply Forall_impl; [|exact HTr]. intros [[a b] c] Hct.
      assert (Rt : forall A B C, tri_area2 B C A = tri_area2 A B C) by (intros; unfold tri_area2; ring).
      destruct Hct as [H'|[H'|H']]; apply sublist3_seq in H'; repeat split; try lia; [apply HC; lia|rewrite <- Rt; apply HC; lia|rewrite Rt; apply HC; lia]. }
    split; [lia|]. split; [exact HP|]. rewrite (poly_seq ps : poly ps (seq 0 n) = ps) in *.
    split; [rewrite HA, (HA2 L2); ring|].
    intros q Hq. destruct (HW q Hq) as [-> R0]. rewrite (R0 L2), Rplus_0_r. unfold signed_cover. f_equal. apply map_ext_in. intros [[a b] c] Hi.
    rewrite Forall_forall in HP. specialize (HP _ Hi). cbn beta iota in HP. destruct HP as (_ & _ & _ & HP).
    replace (strictly_inside (pt ps c) (pt ps b) (pt ps a) q) with false; [lra|]. symmetry. unfold strictly_inside.
    pose proof (tri_split (pt ps c) (pt ps b) (pt ps a) q). assert (tri_area2 (pt ps c) (pt ps b) (pt ps a) = - tri_area2 (pt ps a) (pt ps b) (pt ps c)) by (unfold tri_area2; ring).
    repeat match goal with |- context [Rltb ?x ?y] => destruct (Rltb_spec x y) end; cbn [andb]; try reflexivity. lra.
Qed.
Lemma convex_square : strictly_convex [V2 0 0; V2 1 0; V2 1 1; V2 0 1].
Proof.
  split.
  - cbn [length]. intros i j k H1 H2. assert (C : (i = 0 /\ j = 1 /\ k = 2 \/ i = 0 /\ j = 1 /\ k = 3 \/ i = 0 /\ j = 2 /\ k = 3 \/ i = 1 /\ j = 2 /\ k = 3)%nat) by lia.
    destruct C as [(-> & -> & ->)|[(-> & -> & ->)|[(-> & -> & ->)|(-> & -> & ->)]]]; unfold pt, tri_area2; cbn; lra.
  - cbn [length]. intros i Hi. assert (C : (i = 0 \/ i = 1 \/ i = 2 \/ i = 3)%nat) by lia.
    destruct C as [->|[->|[->| ->]]]; unfold corner_at, pt, tri_area2, TOL; cbn; lra.
Qed.
Example C40_nonvacuous : exists T, trianglate_polygon [V2 0 0; V2 1 0; V2 1 1; V2 0 1] [0; 1; 2; 3]%nat [] = Ok (emit T) /\ length T = 2%nat.
Proof. destruct (C40_convex [V2 0 0; V2 1 0; V2 1 1; V2 0 1]) as (T & _ & E & L & _); [cbn; lia|apply convex_square|]. exists T. split; [exact E|exact L]. Qed.

(** Outside general position a simple counter-clockwise polygon can even yield a "triangle" with a repeated corner (2, 3, 2). *)
Definition d64 (x y : Z) : vec2 spec_float := V2 (SFdiv p64 e64 (f64_of_Z x) (f64_of_Z 16384)) (SFdiv p64 e64 (f64_of_Z y) (f64_of_Z 16384)).
Theorem C40_distinct_corners_refuted : let ps := [d64 1 (-16384); d64 2 0; d64 16384 2; d64 (-16384) 2; d64 0 0] in
  compute_vertex_convexity ps = Ok ([0; 1; 2; 3; 4]%nat, [1; 4]%nat) /\
  trianglate_polygon (NF := F64Num) ps [0; 1; 2; 3; 4]%nat [1; 4]%nat = Ok [4; 0; 1; 2; 3; 2]%N.
Proof. split; vm_compute; reflexivity. Qed.
