(** Property C42: the advancing front mesher. *)
From Coq Require Import Reals Lra Psatz Lia Arith ZArith Permutation Floats.SpecFloat.
From Verif Require Import Prelude Num M_vec M_utils M_curve M_polygon M_meshgen L_base L_vec L_geom L_cycle L_polygon L_f64 Props_polygon Props_ears Props_merge Props_segments.
Open Scope nat_scope.

(** ** The run as a sequence of steps (any arithmetic) *)
Section Steps.
Context {F : Type} {NF : Num F}.
(** sum of [w] over a list of directed edges *)
Definition esum (w : nat -> nat -> R) (E : list (nat * nat)) : R := fold_right Rplus 0%R (map (fun e => w (fst e) (snd e)) E).
Lemma esum_cons w e E : esum w (e :: E) = (w (fst e) (snd e) + esum w E)%R.
Proof. reflexivity. Qed.
Lemma esum_nil w : esum w [] = 0%R.
Proof. reflexivity. Qed.
Lemma esum_app w E E' : esum w (E ++ E') = (esum w E + esum w E')%R.
Proof. unfold esum. rewrite map_app. induction (map (fun e => w (fst e) (snd e)) E) as [|x l IH]; cbn; lra. Qed.
Lemma esum_perm w E E' : Permutation E E' -> esum w E = esum w E'.
Proof. unfold esum. induction 1; cbn [map fold_right]; lra. Qed.

Lemma set_nth_perm {A} (t : list A) j h x : nth_error t j = Some x -> Permutation (h :: t) (x :: set_nth t j h).
Proof.
  revert j. induction t as [|y t IH]; intros [|j] E; cbn in *; try discriminate; [inversion E; subst; apply perm_swap|].
  rewrite perm_swap, (IH j E). apply perm_swap.
Qed.
Lemma swap_remove_perm {A} (l : list A) i x : nth_error l i = Some x -> Permutation l (x :: swap_remove_front l i).
Proof. destruct l as [|h t]; [destruct i; discriminate|]. destruct i as [|j]; cbn; intros E; [inversion E; reflexivity|now apply set_nth_perm]. Qed.
Lemma close_edge_cases front x y : close_edge front x y = (x, y) :: front \/ Permutation front ((y, x) :: close_edge front x y).
Proof.
  unfold close_edge. destruct (position _ front) as [i|] eqn:E; [right|now left]. apply position_Some in E as ([p q] & Ee & H). cbn [fst snd] in H.
  apply andb_true_iff in H as [H1 H2]. apply Nat.eqb_eq in H1, H2. subst. now apply swap_remove_perm.
Qed.
Lemma close_edge_sum w front x y : antisym w -> esum w (close_edge front x y) = (esum w front + w x y)%R.
Proof.
  intros Hw. destruct (close_edge_cases front x y) as [->|P]; [rewrite esum_cons; cbn; lra|]. rewrite (esum_perm w _ _ P), esum_cons. cbn [fst snd]. pose proof (Hw x y). lra.
Qed.
Lemma close_edge_In front x y e : In e (close_edge front x y) -> e = (x, y) \/ In e front.
Proof. destruct (close_edge_cases front x y) as [->|P]; [intros [<-|H]; auto|]. intros H. right. apply (Permutation_in _ (Permutation_sym P)). now right. Qed.
Lemma close_edge_keep front x y e : In e front -> e = (y, x) \/ In e (close_edge front x y).
Proof. intros H. destruct (close_edge_cases front x y) as [->|P]; [right; now right|]. apply (Permutation_in _ P) in H. destruct H; auto. Qed.
Lemma pop_back_app {A} (l : list A) x t : pop_back l = Some (x, t) -> l = t ++ [x].
Proof. unfold pop_back. intros E. destruct (rev l) as [|y r] eqn:Er; [discriminate|]. inversion E; subst. apply (f_equal (@rev A)) in Er. rewrite rev_involutive in Er. exact Er. Qed.

Inductive steps : mesh_state -> list (nat * nat * nat) -> mesh_state -> Prop :=
| steps_done st : ms_front st = [] -> steps st [] st
| steps_old V tris front u v n T st' fuel : select_node fuel (u, v) None front V = Ok (Some n) -> u < length V -> v < length V ->
    steps (mkMesh V (tris ++ emit [(u, v, n)]) (close_edge (close_edge front u n) n v)) T st' ->
    steps (mkMesh V tris (front ++ [(u, v)])) ((u, v, n) :: T) st'
| steps_new V tris front u v T st' fuel a b : select_node fuel (u, v) None front V = Ok None -> nth_error V u = Some a -> nth_error V v = Some b ->
    steps (mkMesh (V ++ [point_on_normal_bisector a b half_sqrt_3]) (tris ++ emit [(u, v, length V)]) ((length V, v) :: (u, length V) :: front)) T st' ->
    steps (mkMesh V tris (front ++ [(u, v)])) ((u, v, length V) :: T) st'.
Lemma idx_some {A} (l : list A) i x : idx l i = Ok x -> nth_error l i = Some x.
Proof. unfold idx. destruct (nth_error l i); intros E; inversion E; reflexivity. Qed.
Lemma loop_steps fuel : forall st st', advance_loop fuel st = Ok st' -> exists T, steps st T st'.
Proof.
  induction fuel as [|fuel IH]; intros [V tris F0] st' E; [discriminate|]. cbn [advance_loop ms_front] in E.
  destruct (pop_back F0) as [[[u v] front]|] eqn:Ep.
  - apply pop_back_app in Ep. subst F0. bindas E st1 E1. unfold advance in E1. cbn [ms_verts fst snd ms_tris] in E1. bindas E1 a Ea. bindas E1 b Eb. bindas E1 sel Es.
    destruct sel as [n|]; apply Ok_inj in E1; subst st1; destruct (IH _ _ E) as [T HT].
    + exists ((u, v, n) :: T). eapply steps_old; [exact Es| | |exact HT]; apply idx_some in Ea, Eb; apply nth_error_Some; congruence.
    + exists ((u, v, length V) :: T). eapply steps_new; [exact Es|apply idx_some; exact Ea|apply idx_some; exact Eb|exact HT].
  - apply Ok_inj in E. subst st'. exists []. constructor. cbn. unfold pop_back in Ep. destruct (rev F0) eqn:Er; [|discriminate]. apply (f_equal (@rev _)) in Er. now rewrite rev_involutive in Er.
Qed.

(** undirected edges of a list of triangles *)
Definition tri_edge (t : nat * nat * nat) (i j : nat) : Prop :=
  let '(a, b, c) := t in (i, j) = (a, b) \/ (i, j) = (b, c) \/ (i, j) = (c, a) \/ (j, i) = (a, b) \/ (j, i) = (b, c) \/ (j, i) = (c, a).
Definition mesh_edge (T : list (nat * nat * nat)) (i j : nat) : Prop := exists t, In t T /\ tri_edge t i j.
(** every front edge ends up in a triangle *)
Lemma steps_front st T st' : steps st T st' -> forall e, In e (ms_front st) -> mesh_edge T (fst e) (snd e).
Proof.
  induction 1 as [st Hf|V tris front u v n T st' fuel Hs Hu Hv H IH|V tris front u v T st' fuel a b Hs Ha Hb H IH]; intros [i j] He.
  - rewrite Hf in He. destruct He.
  - cbn [ms_front fst snd] in *. apply in_app_iff in He as [He|[He|[]]].
    + destruct (close_edge_keep front u n (i, j) He) as [K|K]; [inversion K; subst; exists (u, v, n); split; [now left|cbn; tauto]|].
      destruct (close_edge_keep _ n v _ K) as [K2|K2]; [inversion K2; subst; exists (u, v, n); split; [now left|cbn; tauto]|].
      destruct (IH _ K2) as (t & Ht & Hi). exists t. split; [now right|exact Hi].
    + inversion He; subst. exists (i, j, n). split; [now left|cbn; tauto].
  - cbn [ms_front fst snd] in *. apply in_app_iff in He as [He|[He|[]]].
    + destruct (IH (i, j)) as (t & Ht & Hi); [now right; right|]. exists t. split; [now right|exact Hi].
    + inversion He; subst. exists (i, j, length V). split; [now left|cbn; tauto].
Qed.
Lemma steps_verts st T st' : steps st T st' -> exists new, ms_verts st' = ms_verts st ++ new.
Proof.
  induction 1 as [st Hf|V tris front u v n T st' fuel Hs Hu Hv H IH|V tris front u v T st' fuel a b Hs Ha Hb H IH].
  - exists []. now rewrite app_nil_r.
  - exact IH.
  - destruct IH as [new E]. cbn [ms_verts] in *. exists (point_on_normal_bisector a b half_sqrt_3 :: new). rewrite E, <- app_assoc. reflexivity.
Qed.
Lemma steps_tris st T st' : steps st T st' -> ms_tris st' = ms_tris st ++ emit T.
Proof.
  induction 1 as [st Hf|V tris front u v n T st' fuel Hs Hu Hv H IH|V tris front u v T st' fuel a b Hs Ha Hb H IH]; [cbn; now rewrite app_nil_r| |];
    rewrite IH; cbn [ms_tris]; rewrite <- app_assoc; reflexivity.
Qed.
Lemma steps_sum st T st' w : antisym w -> steps st T st' -> sumw w (map (fun '(a, b, c) => [a; b; c]) T) = esum w (ms_front st).
Proof.
  intros Hw. unfold sumw. induction 1 as [st Hf|V tris front u v n T st' fuel Hs Hu Hv H IH|V tris front u v T st' fuel a b Hs Ha Hb H IH].
  - now rewrite Hf.
  - cbn [map fold_right ms_front] in *. rewrite IH, !close_edge_sum, esum_app, esum_cons, esum_nil, cyc3 by exact Hw. cbn [fst snd]. pose proof (Hw u n). pose proof (Hw v n). lra.
  - cbn [map fold_right ms_front] in *. rewrite IH, !esum_cons, esum_app, esum_cons, esum_nil, cyc3. cbn [fst snd]. pose proof (Hw u (length V)). pose proof (Hw v (length V)). lra.
Qed.

(** ** selection: the node found comes from the front *)
Lemma keep_some_In {A} (l : list (option A)) x : In x (keep_some l) -> In (Some x) l.
Proof. unfold keep_some. intros H. apply in_flat_map in H as ([y|] & Hy & Hx); [|destruct Hx]. destruct Hx as [->|[]]. exact Hy. Qed.
Lemma dedup_from_In {A} (same : A -> A -> bool) l : forall k x, In x (dedup_by_from same k l) -> In x l.
Proof. induction l as [|a l IH]; intros k x H; [destruct H|]. cbn in H. destruct (same a k); [right; eauto|]. destruct H as [->|H]; [now left|right; eauto]. Qed.
Lemma dedup_In {A} (same : A -> A -> bool) l x : In x (dedup_by same l) -> In x l.
Proof. destruct l as [|a l]; [auto|]. cbn. intros [->|H]; [now left|right; eapply dedup_from_In; exact H]. Qed.
Lemma find_In start en sel front (V : list (vec2 F)) n : find_intersection_with_front start en sel front V = Ok (Some n) ->
  exists a b np e f, nth_error V start = Some a /\ nth_error V en = Some b /\
    match sel with Some k => nth_error V k = Some np | None => np = point_on_normal_bisector a b f1 end /\
    In e front /\ nearby_node start en sel V a b np e = Ok (Some (n, f)).
Proof.
  unfold find_intersection_with_front. intros E. bindas E a Ea. bindas E b Eb. bindas E np Enp. bindas E found Ef. apply Ok_inj in E.
  exists a, b, np.
  assert (HI : exists f, In (Some (n, f)) found).
  { match type of E with match rev ?l with _ => _ end = _ => destruct (rev l) as [|[k f] r] eqn:Er end; [discriminate|]. apply (f_equal (fun o => match o with Some z => z | None => 0 end)) in E. subst k. exists f.
    apply keep_some_In. assert (I1 : In (n, f) (rev ((n, f) :: r))) by (rewrite <- in_rev; now left). rewrite <- Er, rev_involutive in I1. clear Er.
    match type of I1 with In _ (if ?c then _ else _) => destruct c end; [apply (Permutation_in _ (isort_perm _ _)) in I1|]; apply dedup_In in I1; now apply (Permutation_in _ (isort_perm _ _)) in I1. }
  destruct HI as [f Hf]. apply mapM_inv in Ef. apply In_nth_error in Hf as [i Hi].
  assert (K : exists e, nth_error front i = Some e /\ nearby_node start en sel V a b np e = Ok (Some (n, f))).
  { clear -Ef Hi. revert i Hi. induction Ef as [|e r front found Her Hfr IH]; intros [|i] Hi; cbn in Hi; try discriminate; [inversion Hi; subst; exists e; auto|]. destruct (IH i Hi) as (e' & ? & ?). now exists e'. }
  destruct K as (e & He & Hn). exists e, f. split; [now apply idx_some|]. split; [now apply idx_some|]. split; [destruct sel; [now apply idx_some|now apply Ok_inj in Enp]|].
  split; [eapply nth_error_In; exact He|exact Hn].
Qed.
Lemma find_None_valid start en sel front (V : list (vec2 F)) r : find_intersection_with_front start en sel front V = Ok r ->
  match sel with Some k => k < length V | None => True end.
Proof. unfold find_intersection_with_front. intros E. bindas E a Ea. bindas E b Eb. bindas E np Enp. destruct sel as [k|]; [|exact I]. apply idx_some in Enp. apply nth_error_Some. congruence. Qed.
Lemma select_valid fuel : forall e sel front (V : list (vec2 F)) n, select_node fuel e sel front V = Ok (Some n) -> n < length V.
Proof.
  induction fuel as [|fuel IH]; intros e sel front V n E; [discriminate|]. cbn [select_node] in E. bindas E r Er. destruct r as [k|]; [eapply IH; exact E|].
  apply Ok_inj in E. subst sel. now apply find_None_valid in Er.
Qed.
Lemma steps_valid st T st' : steps st T st' -> Forall (fun '(a, b, c) => a < length (ms_verts st') /\ b < length (ms_verts st') /\ c < length (ms_verts st')) T.
Proof.
  induction 1 as [st Hf|V tris front u v n T st' fuel Hs Hu Hv H IH|V tris front u v T st' fuel a b Hs Ha Hb H IH]; [constructor| |]; constructor; auto.
  - destruct (steps_verts _ _ _ H) as [new E]. rewrite E, app_length. cbn [ms_verts]. apply select_valid in Hs. lia.
  - destruct (steps_verts _ _ _ H) as [new E]. rewrite E, !app_length. cbn [ms_verts length].
    assert (u < length V) by (apply nth_error_Some; congruence). assert (v < length V) by (apply nth_error_Some; congruence). rewrite app_length. cbn [length]. lia.
Qed.

(** the initial front: the edges of the loops *)
Definition loop_edges (l : nat * nat) : list (nat * nat) := map (fun i => (i, i + 1)) (seq (fst l) (snd l - 1 - fst l)) ++ [(snd l - 1, fst l)].
Lemma initial_front_spec offsets : Forall (fun '(s, e) => s < e) (pairs offsets) -> initial_front offsets = Ok (flat_map loop_edges (pairs offsets)).
Proof.
  unfold initial_front. generalize (pairs offsets). intros L HL.
  assert (G : forall acc, foldM (fun front '(start, en) => e1 <- usub en 1 ;; Ok (front ++ map (fun i => (i, i + 1)) (Prelude.range start e1) ++ [(e1, start)])) acc L = Ok (acc ++ flat_map loop_edges L)).
  { induction HL as [|[s e] L Hs HL IH]; intros acc; [cbn; now rewrite app_nil_r|]. cbn [foldM]. rewrite usub_Ok by lia. cbn [obind]. rewrite IH. cbn [flat_map]. unfold loop_edges at 2, Prelude.range. cbn [fst snd]. f_equal. rewrite <- !app_assoc. reflexivity. }
  apply G.
Qed.
Lemma chain_seq w n : forall s, esum w (map (fun i => (i, i + 1)) (seq s n)) = chain w (seq s (S n)).
Proof. induction n as [|n IH]; intros s; [reflexivity|]. cbn [seq map]. rewrite esum_cons, IH. cbn [seq]. rewrite chain_cons2. cbn [fst snd]. rewrite Nat.add_1_r. reflexivity. Qed.
Lemma loop_edges_sum w s e : s < e -> esum w (loop_edges (s, e)) = cyc w (seq s (e - s)).
Proof.
  intros H. unfold loop_edges. cbn [fst snd]. rewrite esum_app, chain_seq. replace (S (e - 1 - s)) with (e - s) by lia. rewrite esum_cons. cbn [fst snd esum map fold_right].
  destruct (e - s) as [|k] eqn:Ek; [lia|]. cbn [seq]. unfold cyc. change (s :: seq (S s) k) with (seq s (S k)). rewrite seq_S, chain_snoc.
  replace (s + k) with (e - 1) by lia. unfold esum. cbn [map fold_right]. lra.
Qed.
(** C42, any arithmetic: whenever the mesher returns, the input points are kept as a prefix, all indices are valid, and the boundaries of
    the triangles add up to the loops (every other edge is traversed equally often in both directions). *)
Theorem C42_structure fuel (points : list (vec2 F)) offsets V out : Forall (fun '(s, e) => s < e) (pairs offsets) ->
  generate_triangular_mesh fuel points offsets = Ok (V, out) ->
  exists T new, out = emit T /\ V = points ++ new /\
    Forall (fun '(a, b, c) => a < length V /\ b < length V /\ c < length V) T /\
    forall w, antisym w -> sumw w (map (fun '(a, b, c) => [a; b; c]) T) = sumR (fun l => cyc w (seq (fst l) (snd l - fst l))) (pairs offsets).
Proof.
  intros HL E. unfold generate_triangular_mesh in E. rewrite (initial_front_spec _ HL) in E. cbn [obind] in E. bindas E st' Est. apply Ok_inj in E.
  destruct (loop_steps _ _ _ Est) as [T HT]. destruct (steps_verts _ _ _ HT) as [new Ev]. pose proof (f_equal fst E) as E1. pose proof (f_equal snd E) as E2. cbn [fst snd ms_verts] in *.
  exists T, new. split; [rewrite <- E2, (steps_tris _ _ _ HT); reflexivity|]. split; [congruence|]. split; [rewrite <- E1; now apply (steps_valid _ _ _ HT)|].
  intros w Hw. rewrite (steps_sum _ _ _ w Hw HT). cbn [ms_front]. clear -HL. unfold sumR. induction HL as [|[s e] L Hs HL IH]; [reflexivity|]. cbn [flat_map map fold_right]. rewrite esum_app, IH, loop_edges_sum by exact Hs. reflexivity.
Qed.

(** edge by edge: i -> j minus j -> i in the triangles is i -> j minus j -> i in the loops *)
Definition tri_edges (T : list (nat * nat * nat)) : list (nat * nat) := flat_map (fun '(a, b, c) => [(a, b); (b, c); (c, a)]) T.
Definition edge_dec : forall e e' : nat * nat, {e = e'} + {e <> e'} := ltac:(decide equality; apply Nat.eq_dec).
Definition ecount (E : list (nat * nat)) (i j : nat) : Z := Z.of_nat (count_occ edge_dec E (i, j)).
Definition wij (i j x y : nat) : R := ((if edge_dec (x, y) (i, j) then 1 else 0) - (if edge_dec (x, y) (j, i) then 1 else 0))%R.
Lemma wij_antisym i j : antisym (wij i j).
Proof. intros x y. unfold wij. repeat match goal with |- context [edge_dec ?u ?v] => destruct (edge_dec u v) end; try lra; exfalso; congruence. Qed.
Lemma esum_wij i j E : esum (wij i j) E = IZR (ecount E i j - ecount E j i).
Proof.
  induction E as [|[x y] E IH]; [reflexivity|]. rewrite esum_cons, IH. unfold ecount, wij. cbn [count_occ fst snd].
  destruct (edge_dec (x, y) (i, j)), (edge_dec (x, y) (j, i)); rewrite ?Nat2Z.inj_succ, !minus_IZR, ?succ_IZR; lra.
Qed.
Lemma esum_tri_edges w T : esum w (tri_edges T) = sumw w (map (fun '(a, b, c) => [a; b; c]) T).
Proof. unfold sumw. induction T as [|[[a b] c] T IH]; [reflexivity|]. cbn [tri_edges flat_map]. fold (tri_edges T). rewrite esum_app, IH. cbn [map fold_right]. rewrite cyc3. unfold esum. cbn. lra. Qed.
Theorem C42_edges_match fuel (points : list (vec2 F)) offsets V out : Forall (fun '(s, e) => s < e) (pairs offsets) ->
  generate_triangular_mesh fuel points offsets = Ok (V, out) ->
  exists T, out = emit T /\ forall i j,
    (ecount (tri_edges T) i j - ecount (tri_edges T) j i = ecount (flat_map loop_edges (pairs offsets)) i j - ecount (flat_map loop_edges (pairs offsets)) j i)%Z.
Proof.
  intros HL E. destruct (C42_structure _ _ _ _ _ HL E) as (T & new & Eo & _ & _ & Hw). exists T. split; [exact Eo|]. intros i j.
  apply eq_IZR. rewrite <- !esum_wij, esum_tri_edges, Hw by apply wij_antisym. clear -HL.
  unfold sumR. induction HL as [|[s e] L Hs HL IH]; [reflexivity|]. cbn [flat_map map fold_right]. rewrite esum_app, <- IH, loop_edges_sum by exact Hs. reflexivity.
Qed.
End Steps.

(** ** Exact arithmetic: a conforming result is a tiling *)
Open Scope R_scope.
Definition len2 (a b : vec2 R) : R := (x2 b - x2 a) * (x2 b - x2 a) + (y2 b - y2 a) * (y2 b - y2 a).
(** c lies on the line of a b, past b, clear of b by more than the tolerance *)
Definition past (mu : R) (a b c : vec2 R) : Prop :=
  exists t, x2 c = x2 b + t * (x2 b - x2 a) /\ y2 c = y2 b + t * (y2 b - y2 a) /\ TOL <= t * mu /\ TOL < t * len2 a b.
Definition clear (mu : R) (a b c : vec2 R) : Prop := mu < Rabs (tri_area2 a b c) \/ past mu a b c \/ past mu b a c.
(** no vertex on (or, with respect to the tolerance, near) an edge of the mesh that it is not an end of *)
Definition conforming (mu : R) (V : list (vec2 R)) (T : list (nat * nat * nat)) : Prop :=
  TOL <= mu /\ forall i j k, mesh_edge T i j -> (k < length V)%nat -> k <> i -> k <> j -> clear mu (pt V i) (pt V j) (pt V k).

Lemma TOL_pos : 0 < TOL.
Proof. unfold TOL. lra. Qed.
Lemma past_area mu a b c : past mu a b c -> tri_area2 a b c = 0.
Proof. intros (t & E1 & E2 & _). unfold tri_area2. rewrite E1, E2. ring. Qed.
Lemma area_swap a b c : tri_area2 b a c = - tri_area2 a b c.
Proof. unfold tri_area2. ring. Qed.
Lemma len2_swap a b : len2 b a = len2 a b.
Proof. unfold len2. ring. Qed.
Lemma len2_zero a b : len2 a b = 0 -> x2 a = x2 b /\ y2 a = y2 b.
Proof.
  unfold len2. intros H. pose proof (Rplus_sqr_eq_0 (x2 b - x2 a) (y2 b - y2 a) H) as [H1 H2]. split; lra.
Qed.
Lemma clear_ne mu a b c : TOL <= mu -> clear mu a b c -> 0 < len2 a b.
Proof.
  intros Hmu H. pose proof TOL_pos. destruct (Rle_lt_dec (len2 a b) 0) as [L|L]; [exfalso|exact L].
  assert (E : len2 a b = 0) by (revert L; unfold len2; pose proof (Rle_0_sqr (x2 b - x2 a)); pose proof (Rle_0_sqr (y2 b - y2 a)); unfold Rsqr in *; lra). destruct (len2_zero a b E) as [E1 E2].
  destruct H as [K0|[(t & _ & _ & _ & Ht)|(t & _ & _ & _ & Ht)]].
  - revert K0. unfold tri_area2. rewrite E1, E2. replace ((x2 b - x2 b) * (y2 c - y2 b) - (x2 c - x2 b) * (y2 b - y2 b)) with 0 by ring. rewrite Rabs_R0. lra.
  - rewrite E in Ht. lra.
  - rewrite len2_swap, E in Ht. lra.
Qed.
Lemma past_t mu t : TOL <= mu -> TOL <= t * mu -> 0 < t.
Proof. intros H1 H2. pose proof TOL_pos. destruct (Rle_lt_dec t 0); [nra|exact r]. Qed.
Lemma past_not_on mu a b c : TOL <= mu -> past mu a b c -> on_seg a b c -> False.
Proof.
  intros Hmu (t & E1 & E2 & Ht & Ht') (s & Hs & F1 & F2). pose proof (past_t mu t Hmu Ht). pose proof TOL_pos.
  assert (Z1 : (1 + t - s) * (x2 b - x2 a) = 0) by lra. assert (Z2 : (1 + t - s) * (y2 b - y2 a) = 0) by lra.
  apply Rmult_integral in Z1 as [Z1|Z1]; [lra|]. apply Rmult_integral in Z2 as [Z2|Z2]; [lra|].
  unfold len2 in Ht'. rewrite Z1, Z2 in Ht'. lra.
Qed.
Lemma on_seg_swap a b q : on_seg a b q -> on_seg b a q.
Proof. intros (s & Hs & E1 & E2). exists (1 - s). split; [lra|]. rewrite E1, E2. split; ring. Qed.
Lemma on_seg_area a b q : on_seg a b q -> tri_area2 a b q = 0.
Proof. intros (s & _ & E1 & E2). unfold tri_area2. rewrite E1, E2. ring. Qed.
Lemma clear_not_on mu a b c : TOL <= mu -> clear mu a b c -> ~ on_seg a b c.
Proof.
  intros Hmu [H|[H|H]] Ho.
  - apply on_seg_area in Ho. rewrite Ho, Rabs_R0 in H. pose proof TOL_pos. lra.
  - eapply past_not_on; eassumption.
  - apply on_seg_swap in Ho. eapply past_not_on; eassumption.
Qed.
(** the area form along a segment *)
Lemma area_on_seg a b c d q : on_seg c d q -> exists t, 0 <= t <= 1 /\ tri_area2 a b q = (1 - t) * tri_area2 a b c + t * tri_area2 a b d.
Proof. intros (t & Ht & E1 & E2). exists t. split; [exact Ht|]. unfold tri_area2. rewrite E1, E2. ring. Qed.
(** a segment from a into the open left side of a b meeting c d: one of c, d is on the open left side, or a is on c d *)
Lemma left_end a b np c d : 0 < tri_area2 a b np -> segments_meet a np c d -> 0 < tri_area2 a b c \/ 0 < tri_area2 a b d \/ on_seg c d a.
Proof.
  intros Hnp (q & Q1 & Q2). destruct (Rlt_dec 0 (tri_area2 a b c)) as [|Nc]; [now left|]. destruct (Rlt_dec 0 (tri_area2 a b d)) as [|Nd]; [now right; left|]. right. right.
  destruct (area_on_seg a b c d q Q2) as (t & Ht & Et). pose proof Q1 as (s & Hs & E1 & E2).
  assert (Es : tri_area2 a b q = s * tri_area2 a b np) by (unfold tri_area2; rewrite E1, E2; ring).
  assert (s = 0) by nra. subst s. destruct Q2 as (t2 & Ht2 & F1 & F2). exists t2. split; [exact Ht2|]. lra.
Qed.
Lemma left_end' a b np c d : 0 < tri_area2 a b np -> segments_meet b np c d -> 0 < tri_area2 a b c \/ 0 < tri_area2 a b d \/ on_seg c d b.
Proof.
  intros Hnp (q & Q1 & Q2). destruct (Rlt_dec 0 (tri_area2 a b c)) as [|Nc]; [now left|]. destruct (Rlt_dec 0 (tri_area2 a b d)) as [|Nd]; [now right; left|]. right. right.
  destruct (area_on_seg a b c d q Q2) as (t & Ht & Et). pose proof Q1 as (s & Hs & E1 & E2).
  assert (Es : tri_area2 a b q = s * tri_area2 a b np) by (unfold tri_area2; rewrite E1, E2; ring).
  assert (s = 0) by nra. subst s. destruct Q2 as (t2 & Ht2 & F1 & F2). exists t2. split; [exact Ht2|]. lra.
Qed.
(** the sign of the shape factor is the sign of the area *)
Lemma shape_factor_sign a b c : 0 < len2 a b ->
  (0 < shape_factor a b c <-> 0 < tri_area2 a b c) /\ (tri_area2 a b c = 0 -> shape_factor a b c = 0).
Proof.
  intros H. unfold shape_factor. cbv zeta.
  replace (perp_dot (vsub b a) (vsub c a)) with (tri_area2 a b c) by (unfold tri_area2, perp_dot; vsimp; rnum; ring).
  set (D := (length_squared2 (vsub b a) + length_squared2 (vsub c a) + length_squared2 (vsub c b))%num).
  assert (HD : 0 < D).
  { unfold D, length_squared2, dot2. vsimp. rnum. unfold len2 in H. pose proof (Rle_0_sqr (x2 c - x2 a)). pose proof (Rle_0_sqr (y2 c - y2 a)). pose proof (Rle_0_sqr (x2 c - x2 b)). pose proof (Rle_0_sqr (y2 c - y2 b)). unfold Rsqr in *. lra. }
  clearbody D. rnum. split; [split|].
  - intros K. apply (Rmult_lt_compat_r D) in K; [|exact HD]. unfold Rdiv in K. rewrite Rmult_assoc, Rinv_l in K by lra. lra.
  - intros K. now apply Rdiv_lt_0_compat.
  - intros ->. unfold Rdiv. ring.
Qed.
(** the point on the normal bisector *)
Lemma bisector_area a b r : 0 < len2 a b -> 0 < r -> exists k, 1 <= k /\ tri_area2 a b (point_on_normal_bisector a b r) = k * r * len2 a b /\
  x2 (point_on_normal_bisector a b r) = (x2 a + x2 b) / 2 - k * r * (y2 b - y2 a) /\ y2 (point_on_normal_bisector a b r) = (y2 a + y2 b) / 2 + k * r * (x2 b - x2 a).
Proof.
  intros HL Hr.
  assert (G : exists k, 1 <= k /\ x2 (point_on_normal_bisector a b r) = (x2 a + x2 b) / 2 - k * r * (y2 b - y2 a) /\ y2 (point_on_normal_bisector a b r) = (y2 a + y2 b) / 2 + k * r * (x2 b - x2 a)).
  { unfold point_on_normal_bisector. cbv zeta. set (d := perp (vsub b a)).
    assert (Ed : d = V2 (- (y2 b - y2 a)) (x2 b - x2 a)) by (unfold d, perp; vsimp; rnum; reflexivity).
    assert (EL : length2 d = sqrt (len2 a b)) by (unfold length2, dot2; rewrite Ed; unfold len2; cbn [x2 y2]; rnum; f_equal; ring).
    rewrite EL. destruct (sqrt (len2 a b) <? min_grid_size)%num eqn:Q.
    - exists (1 / 100 / sqrt (len2 a b)). assert (0 < sqrt (len2 a b)) by now apply sqrt_lt_R0. unfold min_grid_size in Q. revert Q. rnum. rewrite Rltb_true. intros Q.
      split; [|split].
      + apply (Rmult_le_reg_r (sqrt (len2 a b))); [lra|]. unfold Rdiv. rewrite Rmult_assoc, Rinv_l by lra. lra.
      + unfold normalize2. rewrite EL. vsimp. rewrite Ed. cbn [x2 y2]. unfold f2. rnum. field. lra.
      + unfold normalize2. rewrite EL. vsimp. rewrite Ed. cbn [x2 y2]. unfold f2. rnum. field. lra.
    - exists 1. split; [lra|]. rewrite Ed. split; vsimp; unfold f2; rnum; cbn [x2 y2]; field. }
  destruct G as (k & Hk & E1 & E2). exists k. split; [exact Hk|]. split; [|auto]. unfold tri_area2, len2. rewrite E1, E2. field.
Qed.

Lemma gtb_R (x y : R) : (x >? y)%num = true <-> y < x.
Proof. rnum. apply Rltb_true. Qed.
(** The point that the search proposes is on the open left side of the edge, clear of it. *)
Lemma nearby_left mu V s en sel a b np e n f : TOL <= mu -> 0 < len2 a b -> nth_error V s = Some a -> nth_error V en = Some b -> fst e <> snd e ->
  (forall k c, nth_error V k = Some c -> k <> s -> k <> en -> clear mu a b c) ->
  (forall c d, nth_error V (fst e) = Some c -> nth_error V (snd e) = Some d -> (fst e <> s -> snd e <> s -> ~ on_seg c d a) /\ (fst e <> en -> snd e <> en -> ~ on_seg c d b)) ->
  mu < tri_area2 a b np \/ len2 a b <= tri_area2 a b np ->
  nearby_node s en sel V a b np e = Ok (Some (n, f)) ->
  n <> s /\ n <> en /\ exists c, nth_error V n = Some c /\ mu < tri_area2 a b c.
Proof.
  intros Hmu HL Ea Eb Hxy Hc He Hnp E. pose proof TOL_pos as HT. destruct e as [x y]. cbn [fst snd] in *.
  assert (Znp : 0 < tri_area2 a b np) by (destruct Hnp; lra).
  assert (Pos : forall k c, nth_error V k = Some c -> k <> s -> k <> en -> 0 < tri_area2 a b c -> mu < tri_area2 a b c).
  { intros k c Ek Ks Ke Hk. destruct (Hc k c Ek Ks Ke) as [K|[K|K]]; [rewrite Rabs_right in K by lra; exact K|apply past_area in K; lra|apply past_area in K; rewrite area_swap in K; lra]. }
  assert (Zs : tri_area2 a b a = 0) by (unfold tri_area2; ring). assert (Ze : tri_area2 a b b = 0) by (unfold tri_area2; ring).
  unfold nearby_node in E. cbv zeta in E. cbn [fst snd] in E.
  match type of E with (if ?t then _ else _) = _ => destruct t end; [discriminate|]. bindas E c Ec. apply idx_some in Ec.
  destruct ((negb (x =? s) && negb (x =? en))%nat && point_is_inside_triangle c a b np) eqn:Ein.
  { apply Ok_inj in E. assert (n = x) by congruence. subst n. apply andb_true_iff in Ein as [Ein Ein3]. apply andb_true_iff in Ein as [Ein1 Ein2].
    apply negb_true_iff, Nat.eqb_neq in Ein1, Ein2. split; [exact Ein1|]. split; [exact Ein2|]. exists c. split; [exact Ec|].
    apply C44_mesher_test in Ein3; [|exact Znp]. apply in_triangle_areas in Ein3; [|exact Znp].
    replace (TOL / tri_area2 a b np * tri_area2 a b np) with TOL in Ein3 by (field; lra). destruct Ein3 as (I1 & I2 & I3).
    destruct (Hc x c Ec Ein1 Ein2) as [K|[K|K]].
    - unfold Rabs in K. destruct (Rcase_abs (tri_area2 a b c)); lra.
    - exfalso. destruct K as (t & F1 & F2 & T1 & T2). pose proof (past_t mu t Hmu T1).
      assert (K : tri_area2 b np c = - (t * tri_area2 a b np)) by (unfold tri_area2; rewrite F1, F2; ring). destruct Hnp; nra.
    - exfalso. destruct K as (t & F1 & F2 & T1 & T2). pose proof (past_t mu t Hmu T1). rewrite len2_swap in T2.
      assert (K : tri_area2 np a c = - (t * tri_area2 a b np)) by (unfold tri_area2; rewrite F1, F2; ring). destruct Hnp; nra. }
  clear Ein. match type of E with (if ?t then _ else _) = _ => destruct t end; [discriminate|]. bindas E d Ed. apply idx_some in Ed.
  destruct (He c d Ec Ed) as [Ha Hb]. destruct (shape_factor_sign a b c HL) as [Fc Fc0]. destruct (shape_factor_sign a b d HL) as [Fd Fd0].
  assert (Same : forall k z, nth_error V k = Some z -> (k = s -> z = a) /\ (k = en -> z = b)) by (intros; split; intros; subst; congruence).
  destruct ((negb (x =? s) && negb (y =? s))%nat && is_segments_intersect a np c d) eqn:E2.
  { apply andb_true_iff in E2 as [E2 E23]. apply andb_true_iff in E2 as [E21 E22]. apply negb_true_iff, Nat.eqb_neq in E21, E22. apply C43_segments_intersect in E23.
    assert (D : 0 < tri_area2 a b c \/ 0 < tri_area2 a b d) by (destruct (left_end _ _ _ _ _ Znp E23) as [?|[?|K]]; auto; now destruct (Ha E21 E22)).
    apply Ok_inj in E. destruct (x =? en)%nat eqn:Ex.
    - apply Nat.eqb_eq in Ex. destruct (Same x c Ec) as [_ S2]. specialize (S2 Ex). subst c. assert (n = y) by congruence. subst n.
      split; [exact E22|]. split; [congruence|]. exists d. split; [exact Ed|]. apply (Pos y); auto; [congruence|]. destruct D; lra.
    - apply Nat.eqb_neq in Ex. destruct (shape_factor a b c >? shape_factor a b d)%num eqn:G.
      + apply gtb_R in G. assert (n = x) by congruence. subst n. split; [exact E21|]. split; [exact Ex|]. exists c. split; [exact Ec|]. apply (Pos x); auto.
        destruct D as [D|D]; [exact D|]. apply Fc. apply Fd in D. lra.
      + assert (G' : shape_factor a b c <= shape_factor a b d) by (apply Rnot_lt_le; intros K; apply gtb_R in K; congruence). assert (n = y) by congruence. subst n.
        assert (D' : 0 < tri_area2 a b d) by (destruct D as [D|D]; [apply Fd; apply Fc in D; lra|exact D]).
        assert (Ye : y <> en) by (intros Ye; destruct (Same y d Ed) as [_ S2]; rewrite (S2 Ye) in D'; lra).
        split; [exact E22|]. split; [exact Ye|]. exists d. split; [exact Ed|]. now apply (Pos y). }
  clear E2. destruct ((negb (x =? en) && negb (y =? en))%nat && is_segments_intersect b np c d) eqn:E3; [|discriminate].
  apply andb_true_iff in E3 as [E2 E23]. apply andb_true_iff in E2 as [E21 E22]. apply negb_true_iff, Nat.eqb_neq in E21, E22. apply C43_segments_intersect in E23.
  assert (D : 0 < tri_area2 a b c \/ 0 < tri_area2 a b d) by (destruct (left_end' _ _ _ _ _ Znp E23) as [?|[?|K]]; auto; now destruct (Hb E21 E22)).
  apply Ok_inj in E. destruct (y =? s)%nat eqn:Ey.
  - apply Nat.eqb_eq in Ey. destruct (Same y d Ed) as [S1 _]. specialize (S1 Ey). subst d. assert (n = x) by congruence. subst n.
    assert (x <> s) by congruence. split; [assumption|]. split; [exact E21|]. exists c. split; [exact Ec|]. apply (Pos x); auto. destruct D; lra.
  - apply Nat.eqb_neq in Ey. destruct (shape_factor a b c >? shape_factor a b d)%num eqn:G.
    + apply gtb_R in G. assert (n = x) by congruence. subst n.
      assert (D' : 0 < tri_area2 a b c) by (destruct D as [D|D]; [exact D|apply Fc; apply Fd in D; lra]).
      assert (Xs : x <> s) by (intros Xs; destruct (Same x c Ec) as [S1 _]; rewrite (S1 Xs) in D'; lra).
      split; [exact Xs|]. split; [exact E21|]. exists c. split; [exact Ec|]. now apply (Pos x).
    + assert (G' : shape_factor a b c <= shape_factor a b d) by (apply Rnot_lt_le; intros K; apply gtb_R in K; congruence). assert (n = y) by congruence. subst n.
      split; [exact Ey|]. split; [exact E22|]. exists d. split; [exact Ed|]. apply (Pos y); auto. destruct D as [D|D]; [apply Fd; apply Fc in D; lra|exact D].
Qed.
Lemma f1_R : @f1 R RNum = 1.
Proof. reflexivity. Qed.
Lemma select_left mu V s en a b front : TOL <= mu -> 0 < len2 a b -> nth_error V s = Some a -> nth_error V en = Some b ->
  (forall e, In e front -> fst e <> snd e) ->
  (forall k c, nth_error V k = Some c -> k <> s -> k <> en -> clear mu a b c) ->
  (forall e c d, In e front -> nth_error V (fst e) = Some c -> nth_error V (snd e) = Some d -> (fst e <> s -> snd e <> s -> ~ on_seg c d a) /\ (fst e <> en -> snd e <> en -> ~ on_seg c d b)) ->
  forall fuel sel n, match sel with Some k => k <> s /\ k <> en /\ exists c, nth_error V k = Some c /\ mu < tri_area2 a b c | None => True end ->
  select_node fuel (s, en) sel front V = Ok (Some n) -> n <> s /\ n <> en /\ exists c, nth_error V n = Some c /\ mu < tri_area2 a b c.
Proof.
  intros Hmu HL Ea Eb Hxy Hc He. induction fuel as [|fuel IH]; intros sel n Hsel E; [discriminate|]. cbn [select_node fst snd] in E. bindas E r Er. destruct r as [k|].
  - apply (IH (Some k)); [|exact E]. apply find_In in Er as (a' & b' & np & e & f & Ea' & Eb' & Hnp & Hin & Hn). assert (a' = a) by congruence. assert (b' = b) by congruence. subst a' b'.
    eapply nearby_left; try eassumption; eauto.
    destruct sel as [k'|].
    + destruct Hsel as (_ & _ & c & Ec & Hk). left. congruence.
    + right. subst np. rewrite f1_R. destruct (bisector_area a b 1 HL ltac:(lra)) as (k1 & Hk1 & -> & _). nra.
  - apply Ok_inj in E. subst sel. exact Hsel.
Qed.
Lemma half_sqrt_3_pos : 0 < @half_sqrt_3 R RNum.
Proof. unfold half_sqrt_3, f2. rnum. lra. Qed.
Definition positive mu (V : list (vec2 R)) (t : nat * nat * nat) : Prop :=
  let '(a, b, c) := t in a <> b /\ b <> c /\ c <> a /\ mu < tri_area2 (pt V a) (pt V b) (pt V c).
Lemma pt_some V k (c : vec2 R) : nth_error V k = Some c -> pt V k = c.
Proof. unfold pt. intros E. now apply nth_error_nth with (d := V2 0 0) in E. Qed.
Lemma mesh_edge_sym T i j : mesh_edge T i j -> mesh_edge T j i.
Proof. intros (((a & b) & c) & Ht & H). exists (a, b, c). split; [exact Ht|]. cbn in *. tauto. Qed.
Lemma mesh_edge_tail t T i j : mesh_edge T i j -> mesh_edge (t :: T) i j.
Proof. intros (t' & Ht & H). exists t'. split; [now right|exact H]. Qed.
Lemma conforming_tail mu V t T : conforming mu V (t :: T) -> conforming mu V T.
Proof. intros [H1 H2]. split; [exact H1|]. intros i j k H. apply H2. now apply mesh_edge_tail. Qed.
(** a state reached by the loop, its popped edge, and the vertices of the final mesh *)
Lemma step_ctx mu V V' tris front u v T st' : steps (mkMesh V tris (front ++ [(u, v)])) T st' -> (exists new, V' = V ++ new) -> conforming mu V' T ->
  (forall e, In e (front ++ [(u, v)]) -> fst e <> snd e) ->
  forall a b, nth_error V u = Some a -> nth_error V v = Some b ->
  (forall k c, nth_error V' k = Some c -> k <> u -> k <> v -> clear mu a b c) /\
  (forall e c d, In e front -> nth_error V (fst e) = Some c -> nth_error V (snd e) = Some d -> (fst e <> u -> snd e <> u -> ~ on_seg c d a) /\ (fst e <> v -> snd e <> v -> ~ on_seg c d b)).
Proof.
  intros HS [new EV] [Hmu HC] Hne a b Ea Eb. pose proof (steps_front _ _ _ HS) as HF. cbn [ms_front] in HF.
  assert (Up : forall k c, nth_error V k = Some c -> nth_error V' k = Some c) by (intros k c Ek; rewrite EV, nth_error_app1; [exact Ek|apply nth_error_Some; congruence]).
  assert (Lt : forall k c, nth_error V' k = Some c -> (k < length V')%nat) by (intros k c Ek; apply nth_error_Some; congruence).
  split.
  - intros k c Ek Ku Kv. specialize (HC u v k (HF (u, v) ltac:(apply in_app_iff; right; now left)) (Lt _ _ Ek) Ku Kv).
    now rewrite (pt_some _ _ _ (Up _ _ Ea)), (pt_some _ _ _ (Up _ _ Eb)), (pt_some _ _ _ Ek) in HC.
  - intros e c d He Ec Ed. pose proof (HF e ltac:(apply in_app_iff; now left)) as Hm. split; intros N1 N2.
    + specialize (HC _ _ u Hm (Lt _ _ (Up _ _ Ea)) ltac:(congruence) ltac:(congruence)). rewrite (pt_some _ _ _ (Up _ _ Ea)), (pt_some _ _ _ (Up _ _ Ec)), (pt_some _ _ _ (Up _ _ Ed)) in HC. now apply (clear_not_on mu).
    + specialize (HC _ _ v Hm (Lt _ _ (Up _ _ Eb)) ltac:(congruence) ltac:(congruence)). rewrite (pt_some _ _ _ (Up _ _ Eb)), (pt_some _ _ _ (Up _ _ Ec)), (pt_some _ _ _ (Up _ _ Ed)) in HC. now apply (clear_not_on mu).
Qed.

Lemma third_index u v n : (3 <= n)%nat -> exists k, (k < n)%nat /\ k <> u /\ k <> v.
Proof.
  intros H. destruct (Nat.eq_dec u 0), (Nat.eq_dec v 0), (Nat.eq_dec u 1), (Nat.eq_dec v 1); first [exists 0%nat; lia|exists 1%nat; lia|exists 2%nat; lia].
Qed.
Lemma steps_positive mu V' st T st' : steps st T st' -> V' = ms_verts st' -> (3 <= length V')%nat -> conforming mu V' T -> (forall e, In e (ms_front st) -> fst e <> snd e) -> Forall (positive mu V') T.
Proof.
  induction 1 as [st Hf|V tris front u v n T st' fuel Hs Hu Hv H IH|V tris front u v T st' fuel a b Hs Ha Hb H IH]; intros EV H3 HC Hne; [constructor| |].
  - assert (HS : steps (mkMesh V tris (front ++ [(u, v)])) ((u, v, n) :: T) st') by (eapply steps_old; eassumption).
    destruct (steps_verts _ _ _ HS) as [new Env]. cbn [ms_verts ms_front] in *.
    destruct (nth_error V u) as [a|] eqn:Ea; [|apply nth_error_None in Ea; lia]. destruct (nth_error V v) as [b|] eqn:Eb; [|apply nth_error_None in Eb; lia].
    assert (Up : forall k c, nth_error V k = Some c -> nth_error V' k = Some c) by (intros k c Ek; rewrite EV, Env, nth_error_app1; [exact Ek|apply nth_error_Some; congruence]).
    destruct (step_ctx mu V V' tris front u v _ st' HS ltac:(exists new; congruence) HC Hne a b Ea Eb) as [C1 C2].
    assert (Huv : u <> v) by (apply (Hne (u, v)); apply in_app_iff; right; now left).
    assert (L0 : 0 < len2 a b).
    { destruct (third_index u v _ H3) as (k & Hk & K1 & K2). destruct (nth_error V' k) as [c|] eqn:Ec; [|apply nth_error_None in Ec; lia]. apply (clear_ne mu a b c); [apply HC|]. now apply (C1 k). }
    destruct (select_left mu V u v a b front (proj1 HC) L0 Ea Eb) with (fuel := fuel) (sel := @None nat) (n := n) as (N1 & N2 & c & Ec & Hc); auto.
    { intros e He. apply Hne. apply in_app_iff. now left. }
    { intros k c Ek. apply C1. now apply Up. }
    constructor; [|apply IH; auto; [eapply conforming_tail; eassumption|]].
    + cbn. split; [exact Huv|]. split; [congruence|]. split; [exact N1|]. now rewrite (pt_some _ _ _ (Up _ _ Ea)), (pt_some _ _ _ (Up _ _ Eb)), (pt_some _ _ _ (Up _ _ Ec)).
    + intros e He. cbn [ms_front] in He. apply close_edge_In in He as [->|He]; [cbn; congruence|]. apply close_edge_In in He as [->|He]; [cbn; congruence|]. apply Hne. apply in_app_iff. now left.
  - assert (HS : steps (mkMesh V tris (front ++ [(u, v)])) ((u, v, length V) :: T) st') by (eapply steps_new; eassumption).
    destruct (steps_verts _ _ _ HS) as [new Env]. destruct (steps_verts _ _ _ H) as [new' Env']. cbn [ms_verts ms_front] in *.
    assert (Up : forall k c, nth_error V k = Some c -> nth_error V' k = Some c) by (intros k c Ek; rewrite EV, Env, nth_error_app1; [exact Ek|apply nth_error_Some; congruence]).
    destruct (step_ctx mu V V' tris front u v _ st' HS ltac:(exists new; congruence) HC Hne a b Ha Hb) as [C1 C2].
    assert (Hu : (u < length V)%nat) by (apply nth_error_Some; congruence). assert (Hv : (v < length V)%nat) by (apply nth_error_Some; congruence).
    assert (Huv : u <> v) by (apply (Hne (u, v)); apply in_app_iff; right; now left).
    assert (En : nth_error V' (length V) = Some (point_on_normal_bisector a b half_sqrt_3)).
    { rewrite EV, Env', <- app_assoc, nth_error_app2, Nat.sub_diag by lia. reflexivity. }
    pose proof (C1 _ _ En ltac:(lia) ltac:(lia)) as Cn. pose proof (clear_ne mu a b _ (proj1 HC) Cn) as L0.
    assert (Hp : 0 < tri_area2 a b (point_on_normal_bisector a b half_sqrt_3)).
    { destruct (bisector_area a b half_sqrt_3 L0 half_sqrt_3_pos) as (k & Hk & -> & _). pose proof half_sqrt_3_pos. apply Rmult_lt_0_compat; [apply Rmult_lt_0_compat; lra|exact L0]. }
    constructor; [|apply IH; auto; [eapply conforming_tail; eassumption|]].
    + cbn. split; [exact Huv|]. split; [lia|]. split; [lia|]. rewrite (pt_some _ _ _ (Up _ _ Ha)), (pt_some _ _ _ (Up _ _ Hb)), (pt_some _ _ _ En).
      destruct Cn as [K|[K|K]]; [rewrite Rabs_right in K by lra; exact K|apply past_area in K; lra|apply past_area in K; rewrite area_swap in K; lra].
    + intros e [<-|[<-|He]]; [cbn; lia|cbn; lia|]. apply Hne. apply in_app_iff. now left.
Qed.
(** number of triangles whose interior contains q *)
Definition covering (V : list (vec2 R)) (T : list (nat * nat * nat)) (q : vec2 R) : nat :=
  length (filter (fun '(a, b, c) => strictly_inside (pt V a) (pt V b) (pt V c) q) T).
Lemma cover_positive mu V T q : 0 <= mu -> Forall (positive mu V) T -> signed_cover V T q = INR (covering V T q).
Proof.
  intros Hmu. unfold signed_cover, covering. induction 1 as [|[[a b] c] T (_ & _ & _ & H) _ IH]; [reflexivity|]. cbn [map fold_right filter]. rewrite IH.
  assert (N : strictly_inside (pt V c) (pt V b) (pt V a) q = false).
  { unfold strictly_inside. apply not_true_iff_false. rewrite !andb_true_iff, !Rltb_true. intros [[H1 H2] H3].
    pose proof (tri_split (pt V a) (pt V b) (pt V c) q). rewrite (area_swap (pt V b)) in H1. rewrite (area_swap (pt V a)) in H2. rewrite (area_swap (pt V c)) in H3. lra. }
  rewrite N. destruct (strictly_inside (pt V a) (pt V b) (pt V c) q); cbn [length]; [rewrite S_INR|]; lra.
Qed.
Lemma loop_points_app points new s e : (e <= length points)%nat -> loop_points (points ++ new) (s, e) = loop_points points (s, e).
Proof. intros H. unfold loop_points, poly. cbn [fst snd]. apply map_ext_in. intros i Hi. apply in_seq in Hi. unfold pt. apply app_nth1. lia. Qed.
(** C59: if the mesh that comes out is conforming (no vertex lies within the tolerance on an edge it is not an end of), then every triangle is
    counter-clockwise and not degenerate, the areas add up to that of the region, and every point off the triangles' lines is covered exactly as
    often as the loops wind around it: a tiling of the region, without overlaps or gaps. *)
Theorem C59_tiling fuel (points : list (vec2 R)) offsets V out mu : Forall (fun '(s, e) => s + 2 <= e <= length points)%nat (pairs offsets) -> (3 <= length points)%nat ->
  generate_triangular_mesh fuel points offsets = Ok (V, out) ->
  exists T, out = emit T /\ (conforming mu V T ->
    Forall (positive mu V) T /\
    total_area2 V T = sumR (fun l => area2 (loop_points points l)) (pairs offsets) /\
    forall q, off_all_lines V T q -> INR (covering V T q) = sumR (fun l => winding (loop_points points l) q) (pairs offsets)).
Proof.
  intros HL H3 E. unfold generate_triangular_mesh in E.
  assert (HL' : Forall (fun '(s, e) => s < e)%nat (pairs offsets)) by (eapply Forall_impl; [|exact HL]; intros [s e] ?; lia).
  rewrite (initial_front_spec _ HL') in E. cbn [obind] in E. bindas E st' Est. apply Ok_inj in E.
  destruct (loop_steps _ _ _ Est) as [T HT]. destruct (steps_verts _ _ _ HT) as [new Ev]. pose proof (f_equal fst E) as E1. pose proof (f_equal snd E) as E2. cbn [fst snd ms_verts] in *.
  exists T. split; [rewrite <- E2, (steps_tris _ _ _ HT); reflexivity|]. intros HC.
  assert (HP : Forall (positive mu V) T).
  { apply (steps_positive mu V _ _ _ HT); auto; [rewrite <- E1, Ev, app_length; lia|].
    cbn [ms_front]. intros e He. apply in_flat_map in He as ([s t] & Hst & He). rewrite Forall_forall in HL. specialize (HL _ Hst). cbn beta iota in HL.
    unfold loop_edges in He. cbn [fst snd] in He. apply in_app_iff in He as [He|[<-|[]]]; [apply in_map_iff in He as (i & <- & _); cbn; lia|cbn; lia]. }
  split; [exact HP|].
  assert (Sum : forall w : vec2 R -> vec2 R -> R, (forall x y, w y x = - w x y) ->
    sumw (fun i j => w (pt V i) (pt V j)) (map (fun '(a, b, c) => [a; b; c]) T) = sumR (fun l => cyc w (loop_points points l)) (pairs offsets)).
  { intros w Hw. assert (AW : antisym (fun i j => w (pt V i) (pt V j))) by (intros i j; apply Hw). rewrite (steps_sum _ _ _ _ AW HT). cbn [ms_front]. rewrite <- E1, Ev. clear -HL. unfold sumR. induction HL as [|[s e] L Hs HL IH]; [reflexivity|].
    cbn [flat_map map fold_right]. rewrite esum_app, IH, loop_edges_sum by lia. f_equal. rewrite <- (loop_points_app points new) by lia. unfold loop_points, poly. cbn [fst snd]. now rewrite cyc_map. }
  split.
  - rewrite <- sumw_tri. apply Sum. intros x y. unfold cross2. ring.
  - intros q Hq. rewrite <- (cover_positive mu V T q); [|pose proof TOL_pos; destruct HC; lra|exact HP]. rewrite <- sumw_wind by exact Hq. apply Sum. intros x y. apply wind_antisym.
Qed.

(** a run in exact arithmetic whose result is conforming *)
Definition right_triangle : list (vec2 R) := [V2 0 0; V2 4 0; V2 0 4].
Example C59_nonvacuous : generate_triangular_mesh 3 right_triangle [0; 3]%nat = Ok (right_triangle, emit [(2, 0, 1)]%nat) /\ conforming 1 right_triangle [(2, 0, 1)]%nat.
Proof.
  split.
  - assert (Np : point_on_normal_bisector (V2 0 4) (V2 0 0) (@f1 R RNum) = V2 4 2).
    { unfold point_on_normal_bisector. cbv zeta. replace (perp (vsub (V2 0 0) (V2 0 4))) with (V2 4 0) by (unfold perp; vsimp; rnum; cbn [x2 y2]; f_equal; ring).
      replace (length2 (V2 4 0)) with 4. 2:{ unfold length2, dot2. rnum. cbn [x2 y2]. replace (4 * 4 + 0 * 0) with (4 * 4) by ring. rewrite sqrt_square; lra. }
      destruct (4 <? min_grid_size)%num eqn:Q; [exfalso; unfold min_grid_size in Q; revert Q; rnum; rewrite Rltb_true; lra|]. vsimp. unfold f2. rnum. cbn [x2 y2]. f_equal; field. }
    assert (Sn : forall a b c d, ~ segments_meet a b c d -> is_segments_intersect a b c d = false) by (intros a b c d H; apply not_true_iff_false; now rewrite C43_segments_intersect).
    assert (S1 : is_segments_intersect (V2 0 4) (V2 4 2) (V2 0 0) (V2 4 0) = false).
    { apply Sn. intros (q & (s & Hs & E1 & E2) & (t & Ht & F1 & F2)). cbn [x2 y2] in *. lra. }
    assert (S2 : is_segments_intersect (V2 0 0) (V2 4 2) (V2 4 0) (V2 0 4) = true).
    { apply C43_segments_intersect. exists (V2 (8/3) (4/3)). split; [exists (2/3)|exists (1/3)]; cbn [x2 y2]; (split; [lra|split; lra]). }
    assert (S3 : point_is_inside_triangle (V2 4 0) (V2 0 4) (V2 0 0) (V2 4 2) = false).
    { apply not_true_iff_false. rewrite C44_mesher_test by (unfold tri_area2; cbn [x2 y2]; lra). rewrite in_triangle_areas by (unfold tri_area2; cbn [x2 y2]; lra). unfold tri_area2; cbn [x2 y2]. unfold TOL. intros (K1 & K2 & K3). lra. }
    assert (F1 : find_intersection_with_front 2 0 None [(0, 1); (1, 2)]%nat right_triangle = Ok (Some 1%nat)).
    { unfold find_intersection_with_front. cbn [idx nth_error right_triangle obind]. rewrite Np. cbn [mapM]. unfold nearby_node. cbn [fst snd idx nth_error right_triangle obind Nat.eqb negb andb].
      rewrite S1, S2, S3. reflexivity. }
    assert (F2 : find_intersection_with_front 2 0 (Some 1%nat) [(0, 1); (1, 2)]%nat right_triangle = Ok None).
    { reflexivity. }
    unfold generate_triangular_mesh. replace (initial_front [0; 3]%nat) with (Ok [(0, 1); (1, 2); (2, 0)]%nat) by reflexivity. cbn [obind advance_loop ms_front].
    replace (pop_back [(0, 1); (1, 2); (2, 0)]%nat) with (Some ((2, 0), [(0, 1); (1, 2)])%nat) by reflexivity.
    unfold advance. cbn [ms_verts fst snd select_node]. rewrite F1. cbn [obind]. rewrite F2. reflexivity.
  - split; [unfold TOL; lra|]. intros i j k (t & [<-|[]] & Ht) Hk Ki Kj. cbn in Hk.
    assert (G : forall i j k, (i < 3 -> j < 3 -> k < 3 -> i <> j -> k <> i -> k <> j -> clear 1 (pt right_triangle i) (pt right_triangle j) (pt right_triangle k))%nat).
    { clear. intros i j k Hi Hj Hk N1 N2 N3. left. unfold tri_area2.
      assert (A : forall x, x = 16 \/ x = -16 -> 1 < Rabs x) by (intros x [->| ->]; unfold Rabs; destruct (Rcase_abs _); lra). apply A.
      destruct i as [|[|[|i]]]; [| | |lia]; (destruct j as [|[|[|j]]]; [| | |lia]); (destruct k as [|[|[|k]]]; [| | |lia]); try congruence; unfold pt, right_triangle; cbn [nth x2 y2]; (right; lra) || (left; lra). }
    cbn in Ht. apply G; try lia; destruct Ht as [K|[K|[K|[K|[K|K]]]]]; inversion K; subst; lia.
Qed.

(** ** Concrete runs (f64) *)
Definition ring_square : list (vec2 spec_float) := [q64 0 0; q64 8 0; q64 8 8; q64 0 8; q64 3 3; q64 3 5; q64 5 5; q64 5 3].
Example C42_nonvacuous : Forall (fun '(s, e) => s < e)%nat (pairs [0; 4; 8]%nat) /\
  exists V out, generate_triangular_mesh 60 ring_square [0; 4; 8]%nat = Ok (V, out) /\ length V = 20%nat /\ length out = 96%nat.
Proof. split; [repeat constructor|]. eexists _, _. split; [vm_compute; reflexivity|]. split; vm_compute; reflexivity. Qed.

(** The inner selection loop of the code need not end: in a square with one corner listed twice, the search for the edge 4 -> 0 replaces
    node 2 by node 3 and node 3 by node 2 for ever. *)
Definition twice_square : list (vec2 spec_float) := [q64 0 0; q64 4 0; q64 4 4; q64 4 4; q64 0 4].
Lemma twice_select fuel : let fr := [(0, 1); (1, 2); (2, 3); (3, 4)]%nat in
  select_node fuel (4, 0)%nat (Some 2%nat) fr twice_square = OutOfFuel /\ select_node fuel (4, 0)%nat (Some 3%nat) fr twice_square = OutOfFuel.
Proof.
  intros fr.
  assert (E2 : find_intersection_with_front 4 0 (Some 2%nat) fr twice_square = Ok (Some 3%nat)) by (vm_compute; reflexivity).
  assert (E3 : find_intersection_with_front 4 0 (Some 3%nat) fr twice_square = Ok (Some 2%nat)) by (vm_compute; reflexivity).
  induction fuel as [|fuel [IH2 IH3]]; [split; reflexivity|]. split; cbn [select_node fst snd]; [rewrite E2|rewrite E3]; cbn [obind]; assumption.
Qed.
Theorem C42_endless_refuted : forall fuel, generate_triangular_mesh fuel twice_square [0; 5]%nat = OutOfFuel.
Proof.
  intros fuel. unfold generate_triangular_mesh. replace (initial_front [0; 5]%nat) with (Ok [(0, 1); (1, 2); (2, 3); (3, 4); (4, 0)]%nat) by reflexivity. cbn [obind].
  destruct fuel as [|fuel]; [reflexivity|]. cbn [advance_loop ms_front].
  replace (pop_back [(0, 1); (1, 2); (2, 3); (3, 4); (4, 0)]%nat) with (Some ((4, 0), [(0, 1); (1, 2); (2, 3); (3, 4)])%nat) by reflexivity.
  unfold advance. cbn [ms_verts fst snd].
  assert (E1 : find_intersection_with_front 4 0 None [(0, 1); (1, 2); (2, 3); (3, 4)]%nat twice_square = Ok (Some 2%nat)) by (vm_compute; reflexivity).
  replace (select_node (S fuel) (4, 0)%nat None [(0, 1); (1, 2); (2, 3); (3, 4)]%nat twice_square) with (@OutOfFuel (option nat)); [reflexivity|].
  cbn [select_node fst snd]. rewrite E1. cbn [obind]. symmetry. apply twice_select.
Qed.
