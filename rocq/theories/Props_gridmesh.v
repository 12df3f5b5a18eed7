(** Properties C47 (grid triangulation), C48 (patch meshes), C49 (winding reversal). *)
From Coq Require Import Reals Lra Psatz Lia Arith ZArith Permutation Floats.SpecFloat.
From Verif Require Import Prelude Num M_vec M_utils M_curve M_polygon M_meshgen M_surface L_base L_vec L_geom L_cycle L_polygon L_f64 Props_utils Props_polygon Props_ears Props_mesh.
Open Scope nat_scope.

(** ** C47: create_triangles *)
(** vertex numbers of an r x c grid, row by row *)
Definition node := (nat * nat)%type.
Definition enc (c : nat) (n : node) : nat := fst n * c + snd n.
Lemma enc_inj c n m : snd n < c -> snd m < c -> enc c n = enc c m -> n = m.
Proof.
  destruct n as [i j], m as [i' j']. unfold enc. cbn [fst snd]. intros Hj Hj' E.
  assert (i = i') by nia. subst. f_equal. lia.
Qed.
Definition cell_tris (k : node) : list (node * node * node) :=
  let '(i, j) := k in [((i, j), (i + 1, j), (i, j + 1)); ((i, j + 1), (i + 1, j), (i + 1, j + 1))].
Definition cells (r c : nat) : list node := flat_map (fun i => map (fun j => (i, j)) (seq 0 (c - 1))) (seq 0 (r - 1)).
Definition grid_tris (r c : nat) : list (nat * nat * nat) := flat_map (fun k => map (fun '(a, b, d) => (enc c a, enc c b, enc c d)) (cell_tris k)) (cells r c).
Lemma cells_In r c i j : In (i, j) (cells r c) <-> i + 1 < r /\ j + 1 < c.
Proof.
  unfold cells. rewrite in_flat_map. split.
  - intros (x & Hx & H). apply in_map_iff in H as (y & E & Hy). inversion E; subst. apply in_seq in Hx, Hy. lia.
  - intros [H1 H2]. exists i. split; [apply in_seq; lia|]. apply in_map_iff. exists j. split; [reflexivity|apply in_seq; lia].
Qed.
Lemma flat_map_flat_map {A B C} (f : A -> list B) (g : B -> list C) l : flat_map g (flat_map f l) = flat_map (fun x => flat_map g (f x)) l.
Proof. induction l as [|x l IH]; [reflexivity|]. cbn. now rewrite flat_map_app, IH. Qed.
Lemma flat_map_map {A B C} (f : A -> B) (g : B -> list C) l : flat_map g (map f l) = flat_map (fun x => g (f x)) l.
Proof. induction l as [|x l IH]; [reflexivity|]. cbn. now rewrite IH. Qed.
Lemma map_flat_map {A B C} (f : B -> C) (g : A -> list B) l : map f (flat_map g l) = flat_map (fun x => map f (g x)) l.
Proof. induction l as [|x l IH]; [reflexivity|]. cbn. now rewrite map_app, IH. Qed.
Lemma NoDup_app_intro {A} (l l' : list A) : NoDup l -> NoDup l' -> (forall x, In x l -> In x l' -> False) -> NoDup (l ++ l').
Proof.
  induction 1 as [|x l Hx Hl IH]; intros H' D; [exact H'|]. cbn. constructor.
  - rewrite in_app_iff. intros [K|K]; [now apply Hx|]. apply (D x); [now left|exact K].
  - apply IH; [exact H'|]. intros y Hy. apply D. now right.
Qed.
Lemma NoDup_flat_map {A B} (f : A -> list B) l : NoDup l -> (forall x, In x l -> NoDup (f x)) ->
  (forall x y z, In x l -> In y l -> In z (f x) -> In z (f y) -> x = y) -> NoDup (flat_map f l).
Proof.
  induction 1 as [|x l Hx Hl IH]; intros H1 H2; [constructor|]. cbn. apply NoDup_app_intro.
  - apply H1. now left.
  - apply IH; [intros y Hy; apply H1; now right|]. intros y y' z Hy Hy'. apply H2; now right.
  - intros z Hz Hz'. apply in_flat_map in Hz' as (y & Hy & Hzy). apply Hx. rewrite (H2 x y z); auto; [now left|now right].
Qed.
Lemma NoDup_map_inj {A B} (f : A -> B) l : (forall x y, In x l -> In y l -> f x = f y -> x = y) -> NoDup l -> NoDup (map f l).
Proof.
  intros Hf H. induction H as [|x l Hx Hl IH]; [constructor|]. cbn. constructor.
  - intros K. apply in_map_iff in K as (y & E & Hy). apply Hx. rewrite (Hf x y); auto; [now left|now right].
  - apply IH. intros y z Hy Hz. apply Hf; now right.
Qed.
Lemma cells_NoDup r c : NoDup (cells r c).
Proof.
  apply NoDup_flat_map; [apply seq_NoDup| |].
  - intros i _. apply NoDup_map_inj; [intros x y _ _ E; congruence|apply seq_NoDup].
  - intros i i' z _ _ H H'. apply in_map_iff in H as (j & <- & _). apply in_map_iff in H' as (j' & E & _). congruence.
Qed.
(** the directed edges of one cell *)
Definition cell_edges (k : node) : list (node * node) :=
  let '(i, j) := k in
  [((i, j), (i + 1, j)); ((i + 1, j), (i, j + 1)); ((i, j + 1), (i, j)); ((i, j + 1), (i + 1, j)); ((i + 1, j), (i + 1, j + 1)); ((i + 1, j + 1), (i, j + 1))].
Definition enc2 (c : nat) (e : node * node) : nat * nat := (enc c (fst e), enc c (snd e)).
Lemma grid_edges r c : tri_edges (grid_tris r c) = map (enc2 c) (flat_map cell_edges (cells r c)).
Proof.
  unfold tri_edges, grid_tris. rewrite flat_map_flat_map, map_flat_map. apply flat_map_ext. intros [i j]. reflexivity.
Qed.
Lemma cell_edges_NoDup r c : NoDup (flat_map cell_edges (cells r c)).
Proof.
  apply NoDup_flat_map; [apply cells_NoDup| |].
  - intros [i j] _. cbn [cell_edges]. repeat (constructor; [cbn [In]; intros H; repeat (destruct H as [H|H]; [inversion H; lia|]); exact H|]). constructor.
  - intros [i j] [i' j'] z _ _ H H'. cbn [cell_edges In] in H, H'.
    repeat (destruct H as [<-|H]; [repeat (destruct H' as [E|H']; [inversion E; first [lia|f_equal; lia]|]); destruct H'|]). destruct H.
Qed.
Lemma cell_edges_cols r c e : In e (flat_map cell_edges (cells r c)) -> snd (fst e) < c /\ snd (snd e) < c /\ fst (fst e) < r /\ fst (snd e) < r.
Proof.
  intros H. apply in_flat_map in H as ([i j] & Hk & H). apply cells_In in Hk. cbn [cell_edges In] in H.
  repeat (destruct H as [<-|H]; [cbn [fst snd]; lia|]). destruct H.
Qed.
(** the outline of the grid: down the first column, along the last row, up the last column, back along the first row *)
Definition grid_boundary (r c x y : nat) : Prop :=
  (exists i, i + 1 < r /\ x = i * c /\ y = (i + 1) * c) \/
  (exists j, j + 1 < c /\ x = (r - 1) * c + j /\ y = (r - 1) * c + j + 1) \/
  (exists i, i + 1 < r /\ x = (i + 1) * c + (c - 1) /\ y = i * c + (c - 1)) \/
  (exists j, j + 1 < c /\ x = j + 1 /\ y = j).
Lemma grid_tris_length r c : length (grid_tris r c) = 2 * (r - 1) * (c - 1).
Proof.
  assert (L : forall n m s, length (flat_map (fun i => map (fun j => (i, j)) (seq 0 m)) (seq s n)) = n * m).
  { intros n m. induction n as [|n IH]; intros s; [reflexivity|]. cbn [seq flat_map]. rewrite app_length, map_length, seq_length, IH. lia. }
  unfold grid_tris. assert (G : forall l, length (flat_map (fun k => map (fun '(a, b, d) => (enc c a, enc c b, enc c d)) (cell_tris k)) l) = 2 * length l).
  { induction l as [|[i j] l IH]; [reflexivity|]. cbn [flat_map]. rewrite app_length, IH. cbn. lia. }
  rewrite G. unfold cells. rewrite L. lia.
Qed.
Lemma create_triangles_emit r c : 1 <= r -> 1 <= c -> create_triangles r c = Ok (emit (grid_tris r c)).
Proof.
  intros Hr Hc. unfold create_triangles. rewrite !usub_Ok by lia. cbn [obind]. f_equal. unfold emit, grid_tris, cells. rewrite !flat_map_flat_map. unfold Prelude.range. rewrite !Nat.sub_0_r.
  apply flat_map_ext. intros i. rewrite ?flat_map_map, ?flat_map_flat_map, ?flat_map_map.
  apply flat_map_ext. intros j. unfold enc. cbn [cell_tris map flat_map fst snd app]. rewrite !Nat.add_assoc. reflexivity.
Qed.

(** In the plane of (row, column), the position of a vertex number. *)
Definition grid_pos (c k : nat) : vec2 R := V2 (INR (k / c)) (INR (k mod c)).
Lemma enc_pos c n : snd n < c -> grid_pos c (enc c n) = V2 (INR (fst n)) (INR (snd n)).
Proof.
  intros H. unfold grid_pos, enc. rewrite Nat.add_comm, Nat.div_add, Nat.div_small, Nat.mod_add, Nat.mod_small by lia. reflexivity.
Qed.
(** C47: count, valid indices (no wrap of the cast below 2^32), no directed edge twice, a directed edge is either met by its reverse or on the
    outline, the outline edges are unmatched, and every triangle has the same orientation (and half the area of a cell) in the (row, column) plane. *)
Theorem C47_grid_triangulation r c : 1 <= r -> 1 <= c -> exists T, create_triangles r c = Ok (emit T) /\
  length T = 2 * (r - 1) * (c - 1) /\
  Forall (fun '(a, b, d) => a < r * c /\ b < r * c /\ d < r * c /\ a <> b /\ b <> d /\ d <> a) T /\
  NoDup (tri_edges T) /\
  (forall x y, In (x, y) (tri_edges T) -> In (y, x) (tri_edges T) \/ grid_boundary r c x y) /\
  (2 <= r -> 2 <= c -> forall x y, grid_boundary r c x y -> In (x, y) (tri_edges T) /\ ~ In (y, x) (tri_edges T)) /\
  Forall (fun '(a, b, d) => tri_area2 (grid_pos c a) (grid_pos c b) (grid_pos c d) = 1%R) T.
Proof.
  intros Hr Hc. exists (grid_tris r c). split; [now apply create_triangles_emit|]. split; [apply grid_tris_length|].
  assert (Tri : forall P : nat * nat * nat -> Prop, (forall i j, i + 1 < r -> j + 1 < c -> P (enc c (i, j), enc c (i + 1, j), enc c (i, j + 1)) /\ P (enc c (i, j + 1), enc c (i + 1, j), enc c (i + 1, j + 1))) -> Forall P (grid_tris r c)).
  { intros P H. apply Forall_forall. intros t Ht. unfold grid_tris in Ht. apply in_flat_map in Ht as ([i j] & Hk & Ht). apply cells_In in Hk as [Hi Hj]. destruct (H i j Hi Hj) as [P1 P2].
    cbn [cell_tris map In] in Ht. destruct Ht as [<-|[<-|[]]]; assumption. }
  assert (Ein : forall u v, snd u < c -> snd v < c -> In (enc c u, enc c v) (tri_edges (grid_tris r c)) <-> In (u, v) (flat_map cell_edges (cells r c))).
  { intros u v Hu Hv. rewrite grid_edges, in_map_iff. split.
    - intros (e & E & He). pose proof (cell_edges_cols r c e He) as Hcol. unfold enc2 in E.
      assert (E1 : enc c (fst e) = enc c u) by congruence. assert (E2 : enc c (snd e) = enc c v) by congruence.
      apply enc_inj in E1, E2; try lia. destruct e as [e1 e2]. cbn [fst snd] in *. now subst.
    - intros H. exists (u, v). split; [reflexivity|exact H]. }
  assert (Cin : forall u v, In (u, v) (flat_map cell_edges (cells r c)) <-> exists i j, i + 1 < r /\ j + 1 < c /\ In (u, v) (cell_edges (i, j))).
  { intros u v. rewrite in_flat_map. split; [intros ([i j] & Hk & H); apply cells_In in Hk; exists i, j; tauto|intros (i & j & H1 & H2 & H); exists (i, j); split; [apply cells_In; tauto|exact H]]. }
  split; [|split; [|split; [|split]]].
  - apply Tri. intros i j Hi Hj. unfold enc. cbn [fst snd]. nia.
  - rewrite grid_edges. apply NoDup_map_inj; [|apply cell_edges_NoDup]. intros [e1 e2] [d1 d2] He Hd E. apply cell_edges_cols in He, Hd. cbn [fst snd] in *. unfold enc2 in E. cbn [fst snd] in E.
    assert (E1 : enc c e1 = enc c d1) by congruence. assert (E2 : enc c e2 = enc c d2) by congruence. apply enc_inj in E1, E2; try lia. now subst.
  - intros x y H. rewrite grid_edges, in_map_iff in H. destruct H as ([u v] & E & H). unfold enc2 in E. cbn [fst snd] in E. inversion E; subst x y. clear E.
    pose proof (cell_edges_cols _ _ _ H) as Hcol. cbn [fst snd] in Hcol. rewrite Ein by lia. rewrite Cin in H. destruct H as (i & j & Hi & Hj & H). cbn [cell_edges In] in H.
    destruct H as [H|[H|[H|[H|[H|[H|[]]]]]]]; inversion H; subst u v; clear H; unfold enc; cbn [fst snd].
    + (* down *) destruct j as [|j].
      * right. left. exists i. repeat split; lia.
      * left. apply Cin. exists i, j. split; [lia|]. split; [lia|]. cbn [cell_edges In]. rewrite ?Nat.add_1_r. tauto.
    + left. apply Cin. exists i, j. cbn [cell_edges In]. tauto.
    + (* left along row i *) destruct i as [|i].
      * right. right. right. right. exists j. repeat split; lia.
      * left. apply Cin. exists i, j. split; [lia|]. split; [lia|]. cbn [cell_edges In]. rewrite ?Nat.add_1_r. tauto.
    + left. apply Cin. exists i, j. cbn [cell_edges In]. tauto.
    + (* right along row i+1 *) destruct (Nat.eq_dec (i + 2) r) as [K|K].
      * right. right. left. exists j. subst r. replace (i + 2 - 1) with (i + 1) by lia. repeat split; lia.
      * left. apply Cin. exists (i + 1), j. split; [lia|]. split; [lia|]. cbn [cell_edges In]. tauto.
    + (* up the column j+1 *) destruct (Nat.eq_dec (j + 2) c) as [K|K].
      * right. right. right. left. exists i. subst c. replace (j + 2 - 1) with (j + 1) by lia. repeat split; lia.
      * left. apply Cin. exists i, (j + 1). split; [lia|]. split; [lia|]. cbn [cell_edges In]. tauto.
  - intros H2r H2c x y H.
    assert (N : forall u v, snd u < c -> snd v < c -> (forall i j, i + 1 < r -> j + 1 < c -> ~ In (u, v) (cell_edges (i, j))) -> ~ In (enc c u, enc c v) (tri_edges (grid_tris r c))).
    { intros u v Hu Hv Hn K. rewrite Ein, Cin in K by lia. destruct K as (i & j & Hi & Hj & K). exact (Hn i j Hi Hj K). }
    destruct H as [(i & Hi & -> & ->)|[(j & Hj & -> & ->)|[(i & Hi & -> & ->)|(j & Hj & -> & ->)]]].
    + replace (i * c) with (enc c (i, 0)) by (unfold enc; cbn; lia). replace ((i + 1) * c) with (enc c (i + 1, 0)) by (unfold enc; cbn; lia). split.
      * apply Ein; cbn; try lia. apply Cin. exists i, 0. cbn [cell_edges In]. repeat split; try lia. tauto.
      * apply N; cbn [snd]; try lia. intros a b Ha Hb K. cbn [cell_edges In] in K. repeat (destruct K as [K|K]; [inversion K; lia|]). exact K.
    + replace ((r - 1) * c + j) with (enc c (r - 1, j)) by (unfold enc; cbn; lia). replace (enc c (r - 1, j) + 1) with (enc c (r - 1, j + 1)) by (unfold enc; cbn; lia). split.
      * apply Ein; cbn; try lia. apply Cin. exists (r - 2), j. cbn [cell_edges In]. replace (r - 2 + 1) with (r - 1) by lia. repeat split; try lia. tauto.
      * apply N; cbn [snd]; try lia. intros a b Ha Hb K. cbn [cell_edges In] in K. repeat (destruct K as [K|K]; [inversion K; lia|]). exact K.
    + replace ((i + 1) * c + (c - 1)) with (enc c (i + 1, c - 1)) by (unfold enc; cbn; lia). replace (i * c + (c - 1)) with (enc c (i, c - 1)) by (unfold enc; cbn; lia). split.
      * apply Ein; cbn; try lia. apply Cin. exists i, (c - 2). cbn [cell_edges In]. replace (c - 2 + 1) with (c - 1) by lia. repeat split; try lia. tauto.
      * apply N; cbn [snd]; try lia. intros a b Ha Hb K. cbn [cell_edges In] in K. repeat (destruct K as [K|K]; [inversion K; lia|]). exact K.
    + assert (E0 : j = enc c (0, j)) by (unfold enc; cbn; lia). assert (E1 : j + 1 = enc c (0, j + 1)) by (unfold enc; cbn; lia). rewrite E1. rewrite E0 at 2. rewrite E0 at 3. clear E0 E1. split.
      * apply Ein; cbn; try lia. apply Cin. exists 0, j. cbn [cell_edges In]. repeat split; try lia. tauto.
      * apply N; cbn [snd]; try lia. intros a b Ha Hb K. cbn [cell_edges In] in K. repeat (destruct K as [K|K]; [inversion K; lia|]). exact K.
  - apply Tri. intros i j Hi Hj. rewrite !enc_pos by (cbn; lia). unfold tri_area2. cbn [fst snd x2 y2]. rewrite !plus_INR. cbn [INR]. split; ring.
Qed.

Theorem C47_no_wrap r c : (N.of_nat (r * c) <= 2 ^ 32)%N -> emit (grid_tris r c) = flat_map (fun '(a, b, d) => [N.of_nat a; N.of_nat b; N.of_nat d]) (grid_tris r c).
Proof.
  intros H. unfold emit.
  assert (G : forall t, In t (grid_tris r c) -> let '(a, b, d) := t in a < r * c /\ b < r * c /\ d < r * c).
  { intros t Ht. unfold grid_tris in Ht. apply in_flat_map in Ht as ([i j] & Hk & Ht). apply cells_In in Hk as [Hi Hj]. cbn [cell_tris map In] in Ht.
    destruct Ht as [<-|[<-|[]]]; unfold enc; cbn [fst snd]; nia. }
  revert G. generalize (grid_tris r c). induction l as [|[[a b] d] l IH]; intros G; [reflexivity|]. cbn [flat_map]. rewrite IH by (intros; apply G; now right).
  destruct (G (a, b, d) ltac:(now left)) as (Ha & Hb & Hd). f_equal. unfold as_u32. rewrite !N.mod_small by lia. reflexivity.
Qed.
Theorem C47_empty_grid_panics r c : r = 0 \/ c = 0 -> create_triangles r c = Panic.
Proof. unfold create_triangles. intros [-> | ->]; [reflexivity|]. destruct r; reflexivity. Qed.
Example C47_nonvacuous : create_triangles 2 3 = Ok [0; 3; 1; 1; 3; 4; 1; 4; 2; 2; 4; 5]%N /\ grid_boundary 2 3 0 3.
Proof. split; [vm_compute; reflexivity|]. left. exists 0. cbn. lia. Qed.

(** ** C49: reverse_winding_direction *)
Section Reverse.
Context {F : Type} {NF : Num F}.
(** the index list as triples *)
Definition flat3 (T : list (N * N * N)) : list N := flat_map (fun '(a, b, c) => [a; b; c]) T.
Definition rev3 (t : N * N * N) : N * N * N := let '(a, b, c) := t in (c, b, a).
Lemma chunks3_flat3 T : chunks3 (flat3 T) = map (fun '(a, b, c) => [a; b; c]) T.
Proof. induction T as [|[[a b] c] T IH]; [reflexivity|]. cbn. now rewrite <- IH. Qed.
Lemma flat3_length T : length (flat3 T) = 3 * length T.
Proof. induction T as [|[[a b] c] T IH]; [reflexivity|]. cbn. fold (flat3 T). rewrite IH. lia. Qed.
Lemma list3_ind {A} (P : list A -> Prop) : P [] -> (forall x, P [x]) -> (forall x y, P [x; y]) -> (forall a b c l, P l -> P (a :: b :: c :: l)) -> forall l, P l.
Proof.
  intros H0 H1 H2 H3. assert (G : forall n l, length l <= n -> P l); [|intros l; now apply (G (length l))].
  induction n as [|n IH]; intros l Hl; [destruct l; [exact H0|cbn in Hl; lia]|]. destruct l as [|a [|b [|c l]]]; auto. apply H3. apply IH. cbn in Hl. lia.
Qed.
Lemma flat3_of l : length l mod 3 = 0 -> exists T, l = flat3 T.
Proof.
  induction l as [|x|x y|a b c l IH] using list3_ind; intros H; [now exists []|discriminate|discriminate|].
  destruct IH as [T ->]; [|now exists ((a, b, c) :: T)]. cbn [length] in H. replace (S (S (S (length l)))) with (length l + 1 * 3) in H by lia. rewrite Nat.mod_add in H by lia. exact H.
Qed.
Theorem C49_reverses (V N : list (vec3 F)) T :
  reverse_winding_direction (mkTM V N (flat3 T)) = Ok (mkTM V N (flat3 (map rev3 T))).
Proof.
  unfold reverse_winding_direction. cbn [m_triangles m_vertices m_normals]. rewrite chunks3_flat3.
  rewrite (mapM_Ok_map _ (fun l => rev l)).
  - cbn [obind]. f_equal. f_equal. induction T as [|[[a b] c] T IH]; [reflexivity|]. cbn [map concat rev3 flat3 flat_map app rev]. fold (flat3 (map rev3 T)). now rewrite <- IH.
  - intros l Hl. apply in_map_iff in Hl as ([[a b] c] & <- & _). reflexivity.
Qed.
Corollary C49_involution (V N : list (vec3 F)) T m : reverse_winding_direction (mkTM V N (flat3 T)) = Ok m -> reverse_winding_direction m = Ok (mkTM V N (flat3 T)).
Proof. rewrite C49_reverses. intros E. apply Ok_inj in E. subst m. rewrite C49_reverses, map_map. rewrite (map_ext (fun x => rev3 (rev3 x)) (fun x => x)), map_id; [reflexivity|]. now intros [[a b] c]. Qed.
Theorem C49_panics_iff (m : TriangleMesh F) : reverse_winding_direction m = Panic <-> length (m_triangles m) mod 3 <> 0.
Proof.
  destruct m as [V N t]. cbn [m_triangles]. split.
  - intros E H. destruct (flat3_of t H) as [T ->]. rewrite C49_reverses in E. discriminate.
  - intros H. unfold reverse_winding_direction. cbn [m_triangles].
    assert (G : mapM (fun t0 : list BinNums.N => a <- idx t0 2;; b <- idx t0 1;; c <- idx t0 0;; Ok [a; b; c]) (chunks3 t) = Panic); [|now rewrite G].
    revert H. induction t as [|x|x y|a b c l IH] using list3_ind; intros H; [now destruct H|reflexivity|reflexivity|].
    cbn [chunks3 mapM idx nth_error obind]. rewrite IH; [reflexivity|]. cbn [length] in H. replace (S (S (S (length l)))) with (length l + 1 * 3) in H by lia. rewrite Nat.mod_add in H by lia. exact H.
Qed.
End Reverse.
Example C49_nonvacuous : reverse_winding_direction (@mkTM R [] [] [0; 1; 2; 2; 1; 3]%N) = Ok (mkTM [] [] [2; 1; 0; 3; 1; 2]%N) /\ reverse_winding_direction (@mkTM R [] [] [0; 1]%N) = Panic.
Proof. split; reflexivity. Qed.

(** ** C48: patches *)
Section Patch.
Context {F : Type} {NF : Num F}.
Lemma grid_list_length {A B C} (f : A -> B -> C) us vs : length (flat_map (fun u => map (fun v => f u v) vs) us) = length us * length vs.
Proof. induction us as [|u us IH]; [reflexivity|]. cbn [flat_map]. rewrite app_length, map_length, IH. cbn. lia. Qed.
Lemma grid_list_nth {A B C} (f : A -> B -> C) vs db : forall us da dc i j, i < length us -> j < length vs ->
  nth (i * length vs + j) (flat_map (fun u => map (fun v => f u v) vs) us) dc = f (nth i us da) (nth j vs db).
Proof.
  induction us as [|u us IH]; intros da dc i j Hi Hj; [cbn in Hi; lia|]. cbn [flat_map]. destruct i as [|i].
  - rewrite app_nth1 by (rewrite map_length; lia). cbn [Nat.mul Nat.add nth]. rewrite (nth_map_default _ _ _ db) by exact Hj. reflexivity.
  - rewrite app_nth2 by (rewrite map_length; cbn [Nat.mul]; lia). rewrite map_length. replace (S i * length vs + j - length vs) with (i * length vs + j) by (cbn [Nat.mul]; lia). cbn [nth]. apply IH; [cbn in Hi; lia|exact Hj].
Qed.
Lemma uniform_length (r : F * F) n l : uniform_divide r n = Ok l -> 1 <= n /\ length l = n + 1.
Proof.
  destruct n as [|n]; [rewrite C21_uniform_divide_zero_panics; discriminate|]. destruct r as [a b]. rewrite uniform_divide_list by lia. intros E. apply Ok_inj in E. subst l.
  split; [lia|]. rewrite app_length, map_length, seq_length. reflexivity.
Qed.
Lemma repair_length r c : forall (l l' : list (vec3 F)), repair_normals r c l = Ok l' -> length l' = length l.
Proof.
  intros l l' E. unfold repair_normals in E.
  apply (foldM_inv (fun s => length s = length l)) in E; [exact E|reflexivity|].
  intros i s s' _ Hs Es. obind_inv Es. destruct (isnan3 _); [|apply Ok_inj in Es; now subst]. obind_inv Es. destruct a0; [|apply Ok_inj in Es; now subst].
  apply upd_inv in Es as [_ ->]. now rewrite set_nth_length.
Qed.
(** ** repairing the normals *)
Definition adjacent (r c k m : nat) : Prop := exists i j i' j', k = i * c + j /\ m = i' * c + j' /\ i < r /\ i' < r /\ j < c /\ j' < c /\
  (i = i' /\ (j' = j + 1 \/ j = j' + 1) \/ j = j' /\ (i' = i + 1 \/ i = i' + 1)).
Lemma grid_neighbors_spec r c k a b : k < r * c -> In (a, b) (grid_neighbors r c k) <-> b < c /\ a < r /\ adjacent r c k (a * c + b).
Proof.
  intros Hk. assert (Hc : c <> 0) by (intros ->; lia). unfold grid_neighbors. pose proof (Nat.div_mod k c Hc) as E. pose proof (Nat.mod_upper_bound k c Hc) as Hm. set (i := k / c) in *. set (j := k mod c) in *.
  assert (Hi : i < r) by (unfold i; apply Nat.div_lt_upper_bound; lia).
  rewrite !in_app_iff. split.
  - intros H.
    assert (G : (0 < i /\ a = i - 1 /\ b = j) \/ (i < r - 1 /\ a = i + 1 /\ b = j) \/ (0 < j /\ a = i /\ b = j - 1) \/ (j < c - 1 /\ a = i /\ b = j + 1)).
    { destruct H as [H|[H|[H|H]]].
      - destruct (Nat.ltb_spec 0 i); [|destruct H]. destruct H as [H|[]]. inversion H. lia.
      - destruct (Nat.ltb_spec i (r - 1)); [|destruct H]. destruct H as [H|[]]. inversion H. lia.
      - destruct (Nat.ltb_spec 0 j); [|destruct H]. destruct H as [H|[]]. inversion H. lia.
      - destruct (Nat.ltb_spec j (c - 1)); [|destruct H]. destruct H as [H|[]]. inversion H. lia. }
    split; [lia|]. split; [lia|]. exists i, j, a, b. split; [nia|]. split; [reflexivity|]. lia.
  - intros (Hb & Ha & i1 & j1 & a1 & b1 & E1 & E2 & H1 & H2 & H3 & H4 & H).
    assert (X : (i1, j1) = (i, j)) by (apply (enc_inj c); unfold enc; cbn [fst snd]; try assumption; nia).
    assert (Y : (a1, b1) = (a, b)) by (apply (enc_inj c); unfold enc; cbn [fst snd]; try assumption; lia).
    injection X as -> ->. injection Y as -> ->. clear E1 E2 E.
    destruct H as [[-> [->| K]]|[-> [-> | K]]].
    + right. right. right. destruct (Nat.ltb_spec j (c - 1)); [now left|lia].
    + right. right. left. destruct (Nat.ltb_spec 0 j); [left; f_equal; lia|lia].
    + right. left. destruct (Nat.ltb_spec i (r - 1)); [now left|lia].
    + left. destruct (Nat.ltb_spec 0 i); [left; f_equal; lia|lia].
Qed.
Lemma adjacent_lt r c k m : adjacent r c k m -> k < r * c /\ m < r * c /\ k <> m.
Proof. intros (i & j & i' & j' & -> & -> & H). nia. Qed.
Lemma adjacent_pair r c k m : adjacent r c k m -> exists a b, m = a * c + b /\ a < r /\ b < c.
Proof. intros (i & j & i' & j' & E & E' & H). exists i', j'. lia. Qed.
Lemma first_defined_spec (cur : list (vec3 F)) c d l : (forall a b, In (a, b) l -> a * c + b < length cur) ->
  (exists a b, In (a, b) l /\ isnan3 (nth (a * c + b) cur d) = false /\ first_defined cur c l = Ok (Some (nth (a * c + b) cur d))) \/
  (first_defined cur c l = Ok None /\ forall a b, In (a, b) l -> isnan3 (nth (a * c + b) cur d) = true).
Proof.
  induction l as [|[a b] l IH]; intros H; [right; split; [reflexivity|intros ? ? []]|]. cbn [first_defined]. rewrite (idx_nth cur _ d) by (apply H; now left). cbn [obind].
  destruct (isnan3 (nth (a * c + b) cur d)) eqn:E; [|left; exists a, b; split; [now left|auto]].
  destruct IH as [(a' & b' & Hin & Hn & Ef)|[Ef Hn]]; [intros; apply H; now right|left; exists a', b'; split; [now right|auto]|right].
  split; [exact Ef|]. intros a' b' [K|K]; [inversion K; subst; exact E|now apply Hn].
Qed.
(** what the repair guarantees for the list [res] computed from [ns] *)
Record repaired (r c : nat) (d : vec3 F) (ns res : list (vec3 F)) : Prop := {
  rep_length : length res = length ns;
  (** valid normals do not change *)
  rep_valid : forall k, isnan3 (nth k ns d) = false -> nth k res d = nth k ns d;
  (** a changed normal is the final normal of an adjacent vertex *)
  rep_source : forall k, k < r * c -> nth k res d = nth k ns d \/ isnan3 (nth k res d) = false /\ exists m, adjacent r c k m /\ nth k res d = nth m res d;
  (** an undefined normal stays undefined only where all adjacent ones were undefined and the adjacent ones before it stay so *)
  rep_left : forall k, k < r * c -> isnan3 (nth k ns d) = true ->
    (isnan3 (nth k res d) = true <-> forall m, adjacent r c k m -> isnan3 (nth m ns d) = true /\ (m < k -> isnan3 (nth m res d) = true)) }.
Lemma repair_spec r c ns : 1 <= r -> 1 <= c -> length ns = r * c -> exists res, repair_normals r c ns = Ok res /\ forall d, repaired r c d ns res.
Proof.
  intros Hr Hc HL. unfold repair_normals. rewrite HL.
  destruct (foldM_range (fun k cur => length cur = length ns /\ forall d,
    (forall m, k <= m -> nth m cur d = nth m ns d) /\ (forall m, isnan3 (nth m ns d) = false -> nth m cur d = nth m ns d) /\
    (forall m, m < k -> nth m cur d = nth m ns d \/ isnan3 (nth m cur d) = false /\ exists q, adjacent r c m q /\ nth m cur d = nth q cur d) /\
    (forall m, m < k -> isnan3 (nth m ns d) = true ->
      (isnan3 (nth m cur d) = true <-> forall q, adjacent r c m q -> isnan3 (nth q ns d) = true /\ (q < m -> isnan3 (nth q cur d) = true))))
    (fun normals i => n <- idx normals i ;; if isnan3 n then o <- first_defined normals c (grid_neighbors r c i) ;; match o with Some n' => upd normals i n' | None => Ok normals end else Ok normals)
    0 (r * c) ns) as (res & E & HLr & HP); [lia| | |].
  - split; [reflexivity|]. intros d. repeat split; auto; intros; lia.
  - intros k cur Hk [HLc HP]. set (dd := nth k ns (nth 0 ns (nth 0 cur (V3 f0 f0 f0)))).
    rewrite (idx_nth cur k dd) by lia. cbn [obind].
    destruct (isnan3 (nth k cur dd)) eqn:En.
    2:{ exists cur. split; [reflexivity|]. split; [exact HLc|]. intros d. destruct (HP d) as (P1 & P2 & P3 & P4).
        assert (Ek : nth k cur d = nth k cur dd) by (apply nth_indep; lia).
        split; [intros; apply P1; lia|]. split; [exact P2|]. split.
        - intros m Hm. destruct (Nat.eq_dec m k) as [->|Nm]; [left; apply P1; lia|apply P3; lia].
        - intros m Hm Hn. destruct (Nat.eq_dec m k) as [->|Nm]; [|apply P4; [lia|exact Hn]]. exfalso. rewrite <- (P1 k) in Hn by lia. congruence. }
    assert (Hnb : forall a b, In (a, b) (grid_neighbors r c k) -> a * c + b < length cur).
    { intros a b Hin. apply grid_neighbors_spec in Hin; [|lia]. destruct Hin as (_ & _ & Had). apply adjacent_lt in Had. lia. }
    destruct (first_defined_spec cur c dd (grid_neighbors r c k) Hnb) as [(a & b & Hin & Hv & Ef)|[Ef Hall]].
    + rewrite Ef. cbn [obind]. rewrite upd_Ok by lia. exists (set_nth cur k (nth (a * c + b) cur dd)). split; [reflexivity|]. rewrite set_nth_length. split; [exact HLc|].
      apply grid_neighbors_spec in Hin; [|lia]. destruct Hin as (Hb & Ha & Had). destruct (adjacent_lt _ _ _ _ Had) as (_ & Hm & Nm). set (q0 := a * c + b) in *.
      intros d. destruct (HP d) as (P1 & P2 & P3 & P4).
      assert (Ed : forall m, m < r * c -> nth m cur dd = nth m cur d) by (intros; apply nth_indep; lia). rewrite Ed in Hv by exact Hm. rewrite Ed by exact Hm. rewrite Ed in En by lia. clear Ed.
      assert (Eset : forall m, nth m (set_nth cur k (nth q0 cur d)) d = if Nat.eq_dec m k then nth q0 cur d else nth m cur d).
      { intros m. destruct (Nat.eq_dec m k) as [->|Nk]; [apply nth_set_nth_eq; lia|apply nth_set_nth_neq; congruence]. }
      assert (Enk : isnan3 (nth k ns d) = true) by (rewrite <- P1 by lia; exact En).
      split; [|split; [|split]].
      * intros m Hm'. rewrite Eset. destruct (Nat.eq_dec m k); [lia|apply P1; lia].
      * intros m Hm'. rewrite Eset. destruct (Nat.eq_dec m k); [subst; congruence|now apply P2].
      * intros m Hm'. rewrite !Eset. destruct (Nat.eq_dec m k) as [->|Nk].
        -- right. split; [exact Hv|]. exists q0. split; [exact Had|]. rewrite Eset. destruct (Nat.eq_dec q0 k); [lia|reflexivity].
        -- destruct (P3 m ltac:(lia)) as [K|(K1 & q & Hq & K2)]; [now left|right]. split; [exact K1|]. exists q. split; [exact Hq|]. rewrite Eset. destruct (Nat.eq_dec q k) as [->|]; [congruence|exact K2].
      * intros m Hm' Hn. rewrite Eset. destruct (Nat.eq_dec m k) as [->|Nk].
        -- split; [congruence|]. intros Hq. exfalso. destruct (Hq q0 Had) as [K1 K2]. destruct (lt_dec q0 k) as [L|L].
           ++ specialize (K2 L). rewrite Eset in K2. destruct (Nat.eq_dec q0 k); [lia|congruence].
           ++ rewrite P1 in Hv by lia. congruence.
        -- rewrite (P4 m ltac:(lia) Hn). split; intros Hq q Haq; (destruct (Hq q Haq) as [K1 K2]; split; [exact K1|]; intros L; specialize (K2 L); rewrite ?Eset in *; destruct (Nat.eq_dec q k); [lia|exact K2]).
    + rewrite Ef. cbn [obind]. exists cur. split; [reflexivity|]. split; [exact HLc|]. intros d. destruct (HP d) as (P1 & P2 & P3 & P4).
      assert (Ed : forall m, m < r * c -> nth m cur dd = nth m cur d) by (intros; apply nth_indep; lia). rewrite Ed in En by lia.
      split; [intros; apply P1; lia|]. split; [exact P2|]. split.
      * intros m Hm. destruct (Nat.eq_dec m k) as [->|Nm]; [left; apply P1; lia|apply P3; lia].
      * intros m Hm Hn. destruct (Nat.eq_dec m k) as [->|Nm]; [|apply P4; [lia|exact Hn]]. split; [|intros _; exact En]. intros _ q Hq.
        destruct (adjacent_pair _ _ _ _ Hq) as (a & b & -> & Ha & Hb). pose proof (adjacent_lt _ _ _ _ Hq) as (_ & Lq & _).
        assert (K : isnan3 (nth (a * c + b) cur d) = true) by (rewrite <- Ed by exact Lq; apply Hall; apply grid_neighbors_spec; [lia|auto]).
        split; [|intros _; exact K]. destruct (isnan3 (nth (a * c + b) ns d)) eqn:En2; [reflexivity|]. rewrite P2 in K by exact En2. congruence.
  - exists res. split; [exact E|]. intros d. destruct (HP d) as (P1 & P2 & P3 & P4). split; auto.
Qed.
(** C48, any arithmetic: the vertices are the surface points at the (i,j) parameters, the triangles those of the grid. *)
Theorem C48_samples (p : SurfacePatch F) m du : patch_get_triangle_mesh p = Ok m ->
  let '(ud, vd) := sp_division p in
  exists us vs, uniform_divide (fst (sp_range p)) ud = Ok us /\ uniform_divide (snd (sp_range p)) vd = Ok vs /\
    length us = ud + 1 /\ length vs = vd + 1 /\ length (m_vertices m) = (ud + 1) * (vd + 1) /\
    (forall i j, i <= ud -> j <= vd -> sf_get_point (sp_surface p) (nth i us du) (nth j vs du) = Ok (nth (i * (vd + 1) + j) (m_vertices m) (V3 du du du))) /\
    m_triangles m = emit (grid_tris (ud + 1) (vd + 1)).
Proof.
  unfold patch_get_triangle_mesh. destruct (sp_range p) as [ur vr], (sp_division p) as [ud vd]. intros E. bindas E us Eu. bindas E vs Ev. bindas E pts Ep. bindas E ns En. bindas E g Eg. bindas E ts Et. bindas E ns' Er. apply Ok_inj in E. subst m.
  destruct (uniform_length _ _ _ Eu) as [Hu Lu]. destruct (uniform_length _ _ _ Ev) as [Hv Lv].
  exists us, vs. cbn [fst snd m_vertices m_triangles]. do 4 (split; [assumption|]).
  unfold patch_get_points in Ep. pose proof (mapM_length _ _ _ Ep) as Lp. rewrite grid_list_length, Lu, Lv in Lp.
  assert (Egrid : g = mkGrid (vd + 1) pts).
  { unfold grid_from_vec in Eg. destruct pts as [|p0 pts]; [cbn in Lp; nia|]. destruct (vd + 1) as [|k] eqn:K; [discriminate|]. destruct (_ =? 0) in Eg; [apply Ok_inj in Eg; now subst|discriminate]. }
  subst g. assert (Erow : g_rows (mkGrid (vd + 1) pts) = ud + 1).
  { unfold g_rows. cbn [g_cols g_data]. destruct (vd + 1) as [|k] eqn:K; [lia|]. rewrite Lp, Nat.div_mul by lia. reflexivity. }
  rewrite Erow in Et. cbn [g_cols g_data] in *.
  split; [exact Lp|]. split; [|rewrite create_triangles_emit in Et by lia; now apply Ok_inj in Et].
  intros i j Hi Hj.
  pose proof (mapM_nth _ _ _ (i * (vd + 1) + j) (V2 du du) (V3 du du du) Ep) as K. rewrite grid_list_length, Lu, Lv in K. assert (Hk : i * (vd + 1) + j < (ud + 1) * (vd + 1)) by (apply Nat.le_lt_trans with (ud * (vd + 1) + vd); [apply Nat.add_le_mono; [now apply Nat.mul_le_mono_r|exact Hj]|lia]). specialize (K Hk).
  pose proof (grid_list_nth (fun u v => V2 u v) vs du us du (V2 du du) i j ltac:(lia) ltac:(lia)) as G. rewrite Lv in G. rewrite G in K. exact K.
Qed.
(** and it is computed whenever the surface delivers points and one normal per point (or none) *)
Theorem C48_total (p : SurfacePatch F) : 1 <= fst (sp_division p) -> 1 <= snd (sp_division p) ->
  (forall u v, exists q, sf_get_point (sp_surface p) u v = Ok q) ->
  (forall l, exists ns, sf_get_normals (sp_surface p) l = Ok ns /\ (length ns = length l \/ ns = [])) ->
  exists m, patch_get_triangle_mesh p = Ok m.
Proof.
  intros Hu Hv Hp Hn. unfold patch_get_triangle_mesh. destruct (sp_range p) as [[u0 u1] [v0 v1]], (sp_division p) as [ud vd]. cbn [fst snd] in *.
  rewrite (uniform_divide_list u0 u1), (uniform_divide_list v0 v1) by assumption. cbn [obind]. set (us := map _ (seq 0 ud) ++ [u1]). set (vs := map _ (seq 0 vd) ++ [v1]).
  assert (Lu : length us = ud + 1) by (unfold us; rewrite app_length, map_length, seq_length; reflexivity). assert (Lv : length vs = vd + 1) by (unfold vs; rewrite app_length, map_length, seq_length; reflexivity).
  clearbody us vs. destruct (mapM_total (fun q => sf_get_point (sp_surface p) (x2 q) (y2 q)) (flat_map (fun u => map (fun v => V2 u v) vs) us)) as [pts Ep]; [intros q _; apply Hp|].
  unfold patch_get_points. rewrite Ep. cbn [obind]. pose proof (mapM_length _ _ _ Ep) as Lp. rewrite grid_list_length, Lu, Lv in Lp.
  destruct (Hn (flat_map (fun u => map (fun v => V2 u v) vs) us)) as (ns & -> & Ln). cbn [obind]. rewrite grid_list_length, Lu, Lv in Ln.
  assert (Eg : grid_from_vec pts (vd + 1) = Ok (mkGrid (vd + 1) pts)).
  { unfold grid_from_vec. destruct pts as [|p0 pts]; [cbn in Lp; nia|]. destruct (vd + 1) as [|k] eqn:K; [lia|]. rewrite Lp, Nat.mod_mul by lia. reflexivity. }
  rewrite Eg. cbn [obind g_cols]. assert (Er : g_rows (mkGrid (vd + 1) pts) = ud + 1).
  { unfold g_rows. cbn [g_cols g_data]. destruct (vd + 1) as [|k] eqn:K; [lia|]. rewrite Lp, Nat.div_mul by lia. reflexivity. }
  rewrite Er, create_triangles_emit by lia. cbn [obind]. destruct Ln as [Ln| ->]; [|cbn; eauto].
  destruct (repair_spec (ud + 1) (vd + 1) ns) as [ns' [-> _]]; try lia. cbn [obind]. eauto.
Qed.
(** the mesh's normals are the repaired normals of the surface *)
Theorem C48_normals (p : SurfacePatch F) m d : patch_get_triangle_mesh p = Ok m ->
  exists us vs ns, uniform_divide (fst (sp_range p)) (fst (sp_division p)) = Ok us /\ uniform_divide (snd (sp_range p)) (snd (sp_division p)) = Ok vs /\
    sf_get_normals (sp_surface p) (flat_map (fun u => map (fun v => V2 u v) vs) us) = Ok ns /\ length (m_normals m) = length ns /\
    (length ns = length us * length vs -> repaired (length us) (length vs) d ns (m_normals m)).
Proof.
  unfold patch_get_triangle_mesh. destruct (sp_range p) as [ur vr], (sp_division p) as [ud vd]. intros E. bindas E us Eu. bindas E vs Ev. bindas E pts Ep. bindas E ns En. bindas E g Eg. bindas E ts Et. bindas E ns' Er. apply Ok_inj in E. subst m.
  destruct (uniform_length _ _ _ Eu) as [Hu Lu]. destruct (uniform_length _ _ _ Ev) as [Hv Lv]. exists us, vs, ns. cbn [fst snd m_normals]. do 3 (split; [assumption|]). split; [eapply repair_length; exact Er|].
  intros Ln. unfold patch_get_points in Ep. pose proof (mapM_length _ _ _ Ep) as Lp. rewrite grid_list_length, Lu, Lv in Lp.
  assert (Egrid : g = mkGrid (vd + 1) pts).
  { unfold grid_from_vec in Eg. destruct pts as [|p0 pts]; [cbn in Lp; nia|]. destruct (vd + 1) as [|k] eqn:K; [discriminate|]. destruct (_ =? 0) in Eg; [apply Ok_inj in Eg; now subst|discriminate]. }
  subst g. assert (Erow : g_rows (mkGrid (vd + 1) pts) = ud + 1).
  { unfold g_rows. cbn [g_cols g_data]. destruct (vd + 1) as [|k] eqn:K; [lia|]. rewrite Lp, Nat.div_mul by lia. reflexivity. }
  rewrite Erow in Er. cbn [g_cols] in Er. rewrite Lu, Lv in *. destruct (repair_spec (ud + 1) (vd + 1) ns ltac:(lia) ltac:(lia) Ln) as (res & E' & H).
  rewrite E' in Er. apply Ok_inj in Er. subst. apply H.
Qed.
(** get_point_grid delivers the same points *)
Theorem C48_point_grid (p : SurfacePatch F) m : patch_get_triangle_mesh p = Ok m ->
  patch_get_point_grid p = Ok (mkGrid (snd (sp_division p) + 1) (m_vertices m)).
Proof.
  unfold patch_get_triangle_mesh, patch_get_point_grid. destruct (sp_range p) as [ur vr], (sp_division p) as [ud vd]. intros E. bindas E us Eu. bindas E vs Ev. bindas E pts Ep. bindas E ns En. bindas E g Eg. bindas E ts Et. bindas E ns' Er. apply Ok_inj in E. subst m.
  cbn [m_vertices snd].
  destruct (uniform_length _ _ _ Eu) as [Hu Lu]. destruct (uniform_length _ _ _ Ev) as [Hv Lv]. rewrite Eu, Ev. cbn [obind].
  assert (G : mapM (fun '(u, v) => sf_get_point (sp_surface p) u v) (flat_map (fun u => map (fun v => (u, v)) vs) us) = Ok pts).
  { rewrite <- Ep. unfold patch_get_points. clear. assert (M : forall {A B C} (f : B -> outcome C) (g : A -> B) l, mapM f (map g l) = mapM (fun x => f (g x)) l) by (intros A B C f g l; induction l as [|x l IH]; cbn; [reflexivity|]; now rewrite IH).
    replace (flat_map (fun u => map (fun v => V2 u v) vs) us) with (map (fun '(u, v) => V2 u v) (flat_map (fun u => map (fun v => (u, v)) vs) us)).
    - rewrite M. generalize (flat_map (fun u => map (fun v => (u, v)) vs) us). induction l as [|[u v] l IH]; [reflexivity|]. cbn [mapM x2 y2]. now rewrite IH.
    - rewrite map_flat_map. apply flat_map_ext. intros u. now rewrite map_map. }
  rewrite G. cbn [obind]. unfold patch_get_points in Ep. pose proof (mapM_length _ _ _ Ep) as Lp. rewrite grid_list_length, Lu, Lv in Lp.
  unfold grid_from_vec in *. destruct pts as [|p0 pts]; [cbn in Lp; nia|]. destruct (vd + 1) as [|k] eqn:K; [discriminate|]. destruct (_ =? 0) in *; [|discriminate]. apply Ok_inj in Eg. subst g. reflexivity.
Qed.
Theorem C48_zero_division_panics (p : SurfacePatch F) : fst (sp_division p) = 0 -> patch_get_triangle_mesh p = Panic.
Proof. unfold patch_get_triangle_mesh. destruct (sp_range p) as [ur vr], (sp_division p) as [ud vd]. cbn [fst]. intros ->. now rewrite C21_uniform_divide_zero_panics. Qed.
End Patch.

(** in exact arithmetic the parameters are equally spaced over the range *)
Theorem C48_uniform_parameters (p : SurfacePatch R) m ud vd u0 u1 v0 v1 : sp_division p = (ud, vd) -> sp_range p = ((u0, u1), (v0, v1)) ->
  patch_get_triangle_mesh p = Ok m -> forall i j, i <= ud -> j <= vd ->
  sf_get_point (sp_surface p) (u0 + INR i * (u1 - u0) / INR ud)%R (v0 + INR j * (v1 - v0) / INR vd)%R = Ok (nth (i * (vd + 1) + j) (m_vertices m) (V3 0 0 0)%R).
Proof.
  intros Ed Er E i j Hi Hj. pose proof (C48_samples p m 0%R E) as H. rewrite Ed, Er in H. cbn [fst snd] in H. destruct H as (us & vs & Eu & Ev & Lu & Lv & _ & H & _).
  destruct (uniform_length _ _ _ Eu) as [Hu _]. destruct (uniform_length _ _ _ Ev) as [Hv _]. rewrite C21_uniform_divide_exact in Eu, Ev by assumption. apply Ok_inj in Eu, Ev. subst us vs.
  specialize (H i j Hi Hj). rewrite !(nth_map_default _ _ _ 0) in H by (rewrite seq_length; lia). rewrite !seq_nth in H by lia. exact H.
Qed.
(** a run in f64 with an undefined normal in the middle of a 3 x 3 grid *)
Definition bumpy : Surface spec_float :=
  {| sf_get_point := fun u v => Ok (V3 u v (f64_of_Z 0));
     sf_get_normals := fun l => Ok (map (fun p => if SFeqb (x2 p) (f64_of_Z 1) && SFeqb (y2 p) (f64_of_Z 1) then V3 S754_nan S754_nan S754_nan else V3 (x2 p) (y2 p) (f64_of_Z 1)) l);
     sf_trim := default_trim |}.
Definition bumpy_patch : SurfacePatch spec_float := {| sp_surface := bumpy; sp_range := ((f64_of_Z 0, f64_of_Z 2), (f64_of_Z 0, f64_of_Z 2)); sp_division := (2, 2) |}.
Example C48_nonvacuous : exists m, patch_get_triangle_mesh bumpy_patch = Ok m /\ length (m_vertices m) = 9 /\ length (m_triangles m) = 24 /\
  nth_error (m_normals m) 4 = Some (V3 (f64_of_Z 0) (f64_of_Z 1) (f64_of_Z 1)).
Proof. eexists. split; [vm_compute; reflexivity|]. repeat split; vm_compute; reflexivity. Qed.
