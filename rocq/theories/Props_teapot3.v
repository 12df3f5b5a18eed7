(** Property C69, third part: files of Bezier patches. *)
From Coq Require Import Reals Lia Arith ZArith NArith List.
From Verif Require Import Prelude Num M_vec M_utils M_curve M_surface M_files M_teapot L_base L_vec L_surface Props_obj Props_points Props_teapot Props_teapot2.
Import ListNotations.
Open Scope nat_scope.

(** ** Specification: the lines of a patch file *)
(** the white space of Unicode *)
Definition white_chars : list N :=
  [9; 10; 11; 12; 13; 32; 133; 160; 5760; 8192; 8193; 8194; 8195; 8196; 8197; 8198; 8199; 8200; 8201; 8202; 8232; 8233; 8239; 8287; 12288]%N.
Definition blank (c : N) : Prop := In c white_chars.
Definition ink (w : list N) : Prop := w <> [] /\ Forall (fun c => ~ blank c) w.
(** a line of words separated by white space, which may also begin and end the line *)
Inductive line_words : list N -> list (list N) -> Prop :=
| LWEnd g : Forall blank g -> line_words g []
| LWLast g w g' : Forall blank g -> ink w -> Forall blank g' -> line_words (g ++ w ++ g') [w]
| LWCons g w g' t w' ws : Forall blank g -> ink w -> g' <> [] -> Forall blank g' -> line_words t (w' :: ws) -> line_words (g ++ w ++ g' ++ t) (w :: w' :: ws).
(** a number below 2^64 in decimal notation *)
Definition usize_word (w : list N) (n : N) : Prop := (n < 2 ^ 64)%N /\ (decimal w = Some n \/ exists w', w = 43%N :: w' /\ decimal w' = Some n).
(** what a line says: the head of a patch, a point, or nothing (a count of patches, any line without words or with more than three) *)
Inductive item (F : Type) := Nothing | Head (m n : N) | Point (p : vec3 F).
Arguments Nothing {F}. Arguments Head {F} _ _. Arguments Point {F} _.
Section Items.
Context {F : Type}.
Variable parse : list N -> option F.
Inductive line_item : list N -> item F -> Prop :=
| LICount l w n : line_words l [w] -> usize_word w n -> line_item l Nothing
| LIHead l a b m n : line_words l [a; b] -> usize_word a m -> usize_word b n -> line_item l (Head m n)
| LIPoint l a b c x y z : line_words l [a; b; c] -> parse a = Some x -> parse b = Some y -> parse c = Some z -> line_item l (Point (V3 x y z))
| LIOther l ws : line_words l ws -> length ws = 0 \/ 4 <= length ws -> line_item l Nothing.
(** the file [text] says: patches ([m], [n], points), one after the other *)
Definition says (it : item F) : list (item F) := match it with Nothing => [] | _ => [it] end.
Definition patch_file (text : list N) (patches : list (N * N * list (vec3 F))) : Prop :=
  exists ls its, file_lines text ls /\ Forall2 line_item ls its /\
    flat_map says its = flat_map (fun '(m, n, pts) => Head m n :: map Point pts) patches.
End Items.
(** a head whose product of sizes can be computed, and some points *)
Definition proper_patch {F} (p : N * N * list (vec3 F)) : Prop := let '(m, n, pts) := p in ((m + 1) * (n + 1) < 2 ^ 64)%N /\ pts <> [].
(** rows of [m + 1] points, at least two of them *)
Definition full_patch {F} (p : N * N * list (vec3 F)) : Prop :=
  let '(m, n, pts) := p in (1 <= m)%N /\ exists k, (2 <= k) /\ length pts = k * (N.to_nat m + 1).

(** ** Lemmas *)
Lemma white_iff c : is_white c = true <-> blank c.
Proof.
  unfold is_white, blank, white_chars. rewrite !Bool.orb_true_iff, !Bool.andb_true_iff, !N.eqb_eq, !N.leb_le. cbn [In]. split.
  - intros H. assert (K : (9 <= c <= 13)%N \/ (8192 <= c <= 8202)%N \/ c = 32%N \/ c = 133%N \/ c = 160%N \/ c = 5760%N \/ c = 8232%N \/ c = 8233%N \/ c = 8239%N \/ c = 8287%N \/ c = 12288%N) by lia. clear H. lia.
  - intros H. repeat (destruct H as [<-|H]; [lia|]). destruct H.
Qed.
Lemma white_true c : blank c -> is_white c = true. Proof. apply white_iff. Qed.
Lemma white_false c : ~ blank c -> is_white c = false.
Proof. intros H. destruct (is_white c) eqn:E; [now apply white_iff in E|reflexivity]. Qed.
Lemma ws_gap g t : Forall blank g -> split_whitespace (g ++ t) = split_whitespace t.
Proof. induction 1 as [|c g Hc _ IH]; [reflexivity|]. unfold split_whitespace in *. cbn [app split_on]. rewrite (white_true c Hc). cbn [filter negb]. exact IH. Qed.
Lemma ws_split w : Forall (fun c => ~ blank c) w -> split_on is_white w = [w].
Proof. induction 1 as [|c w Hc _ IH]; [reflexivity|]. cbn [split_on]. now rewrite (white_false c Hc), IH. Qed.
Lemma ws_split_sep w c t : Forall (fun c => ~ blank c) w -> blank c -> split_on is_white (w ++ c :: t) = w :: split_on is_white t.
Proof.
  intros H Hc. induction H as [|d w Hd _ IH]; cbn [app split_on]; [now rewrite white_true|]. now rewrite (white_false d Hd), IH.
Qed.
Lemma ws_word_gap w g t : ink w -> g <> [] -> Forall blank g -> split_whitespace (w ++ g ++ t) = w :: split_whitespace t.
Proof.
  intros [Hn Hw] Gn Hg. destruct g as [|c g]; [easy|]. apply Forall_cons_iff in Hg. destruct Hg as [Hc Hg']. cbn [app].
  unfold split_whitespace. rewrite (ws_split_sep w c _ Hw Hc). cbn [filter]. destruct w; [easy|]. cbn [negb]. f_equal. apply (ws_gap g t Hg').
Qed.
Lemma line_words_split l ws : line_words l ws -> split_whitespace l = ws.
Proof.
  induction 1 as [g Hg|g w g' Hg Hw Hg'|g w g' t w' ws Hg Hw Gn Hg' Ht IH].
  - rewrite <- (app_nil_r g). now rewrite ws_gap.
  - rewrite ws_gap by assumption. destruct g' as [|c g'].
    + rewrite app_nil_r. destruct Hw as [Hn Hw]. unfold split_whitespace. rewrite (ws_split w Hw). destruct w; [easy|reflexivity].
    + rewrite <- (app_nil_r (c :: g')). rewrite ws_word_gap; auto. discriminate.
  - rewrite ws_gap, ws_word_gap by assumption. now rewrite IH.
Qed.
Lemma decimal_mono s : forall a n, decimal_from a s = Some n -> (a <= n)%N.
Proof.
  induction s as [|c s IH]; intros a n H; cbn [decimal_from] in H; [injection H as <-; lia|]. unfold digit in H. destruct ((48 <=? c) && (c <=? 57))%N; [|discriminate].
  apply IH in H. lia.
Qed.
Lemma usize_fold s : forall a n, decimal_from a s = Some n -> (n < 2 ^ 64)%N -> fold_left usize_digit s (Some a) = Some n.
Proof.
  induction s as [|c s IH]; intros a n H Hn; cbn [decimal_from fold_left] in *; [exact H|]. unfold usize_digit at 2. unfold digit in H.
  destruct ((48 <=? c) && (c <=? 57))%N%bool; [|discriminate]. pose proof (decimal_mono s _ _ H) as Q. cbv zeta. rewrite (proj2 (N.ltb_lt _ _)) by lia. now apply IH.
Qed.
Lemma parse_usize_word w n : usize_word w n -> parse_usize w = Some n.
Proof.
  intros [Hn [H|(w' & -> & H)]]; unfold parse_usize.
  - destruct w as [|c w]; [discriminate|]. destruct (N.eqb_spec c 43) as [->|_]; [discriminate H|]. now apply usize_fold.
  - rewrite N.eqb_refl. destruct w' as [|c w']; [discriminate|]. now apply usize_fold.
Qed.
Lemma usize_small n : (n < 2 ^ 64)%N -> usize_ck n = Ok n.
Proof. intros H. unfold usize_ck. now rewrite (proj2 (N.ltb_lt _ _) H). Qed.

Lemma obind_assoc {A B C} (e : outcome A) (f : A -> outcome B) (h : B -> outcome C) : obind (obind e f) h = obind e (fun x => obind (f x) h).
Proof. now destruct e. Qed.
Lemma obind_ext {A B} (e : outcome A) (f h : A -> outcome B) : (forall x, f x = h x) -> obind e f = obind e h.
Proof. intros H. destruct e; cbn [obind]; auto. Qed.
Section Load.
Context {F : Type} {NF : Num F}.
Variable parse : list N -> option F.
Variable surface : Grid (vec3 F) -> outcome (Surface F).
Variable division : nat * nat.
Notation face := (teapot_face surface division).
Definition item_step (st : list (SurfacePatch F) * list (vec3 F) * nat) (it : item F) : outcome (list (SurfacePatch F) * list (vec3 F) * nat) :=
  let '(faces, points, cols) := st in
  match it with
  | Nothing => Ok st
  | Point p => Ok (faces, (points ++ [p])%list, cols)
  | Head m n =>
      faces <- (if (0 <? length points)%nat then f <- face points cols ;; Ok (faces ++ [f])%list else Ok faces) ;;
      m1 <- usize_ck (m + 1) ;; n1 <- usize_ck (n + 1) ;; _ <- usize_ck (m1 * n1) ;; Ok (faces, [], N.to_nat m1)
  end.
Lemma line_step st l it : line_item parse l it -> teapot_line parse surface division st l = item_step st it.
Proof.
  destruct st as [[faces points] cols]. intros H. destruct H as [l w n Hw Hn|l a b m n Hw Hm Hn|l a b c x y z Hw Hx Hy Hz|l ws Hw Hl]; unfold teapot_line; rewrite (line_words_split _ _ Hw).
  - rewrite (parse_usize_word _ _ Hn). reflexivity.
  - cbn [item_step]. apply obind_ext. intros fs. rewrite (parse_usize_word _ _ Hm), (parse_usize_word _ _ Hn). reflexivity.
  - rewrite Hx, Hy, Hz. reflexivity.
  - destruct ws as [|a [|b [|c [|d ws]]]]; cbn [length] in Hl; try lia; reflexivity.
Qed.
Lemma foldM_lines ls its : Forall2 (line_item parse) ls its -> forall st, foldM (teapot_line parse surface division) st ls = foldM item_step st (flat_map says its).
Proof.
  induction 1 as [|l it ls its H _ IH]; intros st; [reflexivity|]. cbn [foldM flat_map]. rewrite (line_step st l it H).
  destruct it; cbn [says app foldM]; try (apply obind_ext; exact IH). destruct st as [[? ?] ?]. cbn [item_step obind]. apply IH.
Qed.
Lemma foldM_points pts : forall fs ps c rest, foldM item_step (fs, ps, c) (map Point pts ++ rest) = foldM item_step (fs, (ps ++ pts)%list, c) rest.
Proof. induction pts as [|p pts IH]; intros fs ps c rest; cbn [map app foldM]; [now rewrite app_nil_r|]. cbn [item_step obind]. rewrite IH. now rewrite <- app_assoc. Qed.
Definition finish (st : list (SurfacePatch F) * list (vec3 F) * nat) : outcome (list (SurfacePatch F)) := let '(faces, points, cols) := st in f <- face points cols ;; Ok (faces ++ [f])%list.
Definition patch_face (p : N * N * list (vec3 F)) : outcome (SurfacePatch F) := let '(m, n, pts) := p in face pts (N.to_nat m + 1).
Lemma head_ck m n (A : Type) (k : N -> outcome A) : ((m + 1) * (n + 1) < 2 ^ 64)%N -> (m1 <- usize_ck (m + 1) ;; n1 <- usize_ck (n + 1) ;; _ <- usize_ck (m1 * n1) ;; k m1) = k (m + 1)%N.
Proof. intros H. rewrite !usize_small by nia. cbn [obind]. rewrite usize_small by exact H. reflexivity. Qed.
Lemma load_rest patches : Forall proper_patch patches -> forall fs pts c, pts <> [] ->
  obind (foldM item_step (fs, pts, c) (flat_map (fun '(m, n, pts) => Head m n :: map Point pts) patches)) finish =
  (f <- face pts c ;; gs <- mapM patch_face patches ;; Ok (fs ++ f :: gs)%list).
Proof.
  induction 1 as [|[[m n] qs] patches [Hm Hq] _ IH]; intros fs pts c Hp; cbn [flat_map mapM].
  - cbn [foldM obind finish]. apply obind_ext. reflexivity.
  - cbn [app foldM]. destruct pts as [|p0 pts]; [easy|]. cbn [item_step length]. change (0 <? S (length pts))%nat with true. cbv iota.
    destruct (face (p0 :: pts) c) as [f| |]; cbn [obind]; [|reflexivity..]. rewrite head_ck by exact Hm. cbn [obind].
    rewrite foldM_points. cbn [app]. rewrite IH by exact Hq. cbn [patch_face]. rewrite N2Nat.inj_add. change (N.to_nat 1) with 1.
    destruct (face qs (N.to_nat m + 1)) as [f'| |]; cbn [obind]; [|reflexivity..]. destruct (mapM patch_face patches); cbn [obind]; [|reflexivity..]. now rewrite <- app_assoc.
Qed.
Lemma load_patches text patches : patch_file parse text patches -> Forall proper_patch patches -> patches <> [] -> load_teapot parse surface division text = mapM patch_face patches.
Proof.
  intros (ls & its & Hl & Hi & Hf) Hp Hn. unfold load_teapot. rewrite (file_lines_lines _ _ Hl), (foldM_lines _ _ Hi), Hf.
  change (obind (foldM item_step ([], [], 0) (flat_map (fun '(m, n, pts) => Head m n :: map Point pts) patches)) finish = mapM patch_face patches).
  destruct patches as [|[[m n] qs] patches]; [easy|]. apply Forall_cons_iff in Hp. destruct Hp as [[Hm Hq] Hp]. cbn [flat_map app foldM item_step length]. change (0 <? 0)%nat with false. cbv iota. cbn [obind].
  rewrite head_ck by exact Hm. cbn [obind]. rewrite foldM_points. cbn [app]. rewrite load_rest by assumption. cbn [mapM patch_face app]. rewrite N2Nat.inj_add. reflexivity.
Qed.
Lemma load_empty text : patch_file parse text [] -> load_teapot parse surface division text = (f <- face [] 0 ;; Ok [f]).
Proof. intros (ls & its & Hl & Hi & Hf). unfold load_teapot. rewrite (file_lines_lines _ _ Hl), (foldM_lines _ _ Hi), Hf. reflexivity. Qed.
End Load.

(** the transposed grid *)
Lemma mapM_idx {A B} (f : A -> outcome B) (h : A -> B) l : (forall x, In x l -> f x = Ok (h x)) -> mapM f l = Ok (map h l).
Proof. intros H. now apply mapM_Ok_map. Qed.
Lemma transpose_grid {A} (g : Grid A) r c (d : A) : wf_grid g r c -> 1 <= r ->
  exists g', grid_transpose g = Ok g' /\ wf_grid g' c r /\ forall i j, i < c -> j < r -> grid_idx g' i j = Ok (nth (j * c + i) (g_data g) d).
Proof.
  intros Hg Hr. pose proof (wf_rows g r c Hg) as Er. destruct Hg as (Ec & HL & Hc). unfold grid_transpose. rewrite Er, Ec.
  rewrite (mapM_idx _ (fun '(i, j) => nth (j * c + i) (g_data g) d)).
  2:{ intros [i j] H. apply in_flat_map in H. destruct H as (i' & Hi & H). apply in_map_iff in H. destruct H as (j' & E & Hj). injection E as <- <-. apply in_seq in Hi, Hj. apply idx_nth. nia. }
  cbn [obind]. eexists. split; [reflexivity|].
  assert (E : map (fun '(i, j) => nth (j * c + i) (g_data g) d) (flat_map (fun c0 => map (fun r0 => (c0, r0)) (seq 0 r)) (seq 0 c)) = flat_map (fun i => map (fun j => nth (j * c + i) (g_data g) d) (seq 0 r)) (seq 0 c)).
  { rewrite flat_map_concat_map, concat_map, map_map, <- flat_map_concat_map. apply flat_map_ext. intros i. now rewrite map_map. }
  rewrite E. set (q := flat_map _ _).
  assert (Lq : length q = c * r). { unfold q. rewrite (Props_gridmesh.grid_list_length (fun i j => nth (j * c + i) (g_data g) d)). now rewrite !seq_length. }
  assert (W : wf_grid (mkGrid r q) c r) by (repeat split; assumption). split; [exact W|].
  intros i j Hi Hj. unfold grid_idx. rewrite (wf_rows _ c r W). cbn [g_cols g_data]. rewrite (proj2 (Nat.ltb_lt _ _) Hi), (proj2 (Nat.ltb_lt _ _) Hj). cbn [andb]. rewrite (idx_nth q (i * r + j) d) by nia. f_equal.
  pose proof (Props_gridmesh.grid_list_nth (fun i j => nth (j * c + i) (g_data g) d) (seq 0 r) 0 (seq 0 c) 0 d i j) as K.
  rewrite !seq_length in K. specialize (K Hi Hj). rewrite !seq_nth in K by assumption. exact K.
Qed.

(** ** Theorems *)
(** the surface made of the points of a patch: rows of the file are the columns of the grid *)
Definition columns {A} (g : Grid A) (pts : list A) (r c : nat) (d : A) : Prop :=
  wf_grid g r c /\ length pts = c * r /\ forall i j, i < r -> j < c -> grid_idx g i j = Ok (nth (j * r + i) pts d).
Section Faces.
Context {F : Type} {NF : Num F}.
Variable parse : list N -> option F.
Lemma face_grid (surface : Grid (vec3 F) -> outcome (Surface F)) division pts r c (d : vec3 F) : length pts = c * r -> 1 <= r -> 1 <= c ->
  exists g, columns g pts r c d /\ teapot_face surface division pts r = (s <- surface g ;; Ok {| sp_surface := s; sp_range := ((f0, f1), (f0, f1)); sp_division := division |}).
Proof.
  intros HL Hr Hc. destruct (grid_from_vec_wf pts c r HL Hc Hr) as [E W]. destruct (transpose_grid _ c r d W Hc) as (g & Et & Wg & Hg).
  exists g. split; [split; [exact Wg|split; [exact HL|exact Hg]]|]. unfold teapot_face. rewrite E. cbn [obind]. rewrite Et. reflexivity.
Qed.
(** bezier.rs: the patches of the file, in order, as Bezier patches of the points *)
Theorem C69_load (division : nat * nat) (text : list N) (patches : list (N * N * list (vec3 F))) (d : vec3 F) :
  patch_file parse text patches -> patches <> [] -> Forall proper_patch patches -> Forall full_patch patches ->
  exists faces, load_teapot parse bezier_teapot division text = Ok faces /\
    Forall2 (fun '(m, n, pts) f => exists g c, columns g pts (N.to_nat m + 1) c d /\ bezier_patch f g (N.to_nat m + 1) c /\ sp_division f = division) patches faces.
Proof.
  intros Hf Hn Hp Hs. rewrite (load_patches parse bezier_teapot division text patches Hf Hp Hn). clear Hf Hn Hp.
  induction Hs as [|[[m n] pts] patches (Hm & k & Hk & HL) _ (faces & E & HF)]; [exists []; split; [reflexivity|constructor]|].
  destruct (face_grid bezier_teapot division pts (N.to_nat m + 1) k d HL ltac:(lia) ltac:(lia)) as (g & Hg & Ef). pose proof Hg as (Wg & _ & _).
  assert (Es : bezier_teapot g = Ok (bezier3_surface g)).
  { unfold bezier_teapot, bezier_surface_new. rewrite (wf_rows g _ _ Wg). pose proof Wg as (-> & _ & _). now rewrite (proj2 (Nat.ltb_lt 1 (N.to_nat m + 1))), (proj2 (Nat.ltb_lt 1 k)) by lia. }
  cbn [mapM patch_face]. rewrite Ef, Es. cbn [obind]. rewrite E. cbn [obind].
  eexists. split; [reflexivity|]. constructor; [|exact HF]. exists g, k. split; [exact Hg|]. repeat split; try apply Wg; auto; lia.
Qed.
(** anything else panics: no patch, rows not filled, or fewer than two rows or columns *)
Theorem C69_load_panics (division : nat * nat) (text : list N) (patches : list (N * N * list (vec3 F))) :
  patch_file parse text patches -> Forall proper_patch patches -> patches = [] \/ Exists (fun p => ~ full_patch p) patches ->
  load_teapot parse bezier_teapot division text = Panic.
Proof.
  intros Hf Hp [->|He]; [rewrite (load_empty parse bezier_teapot division text Hf); reflexivity|].
  assert (Hn : patches <> []) by (intros ->; inversion He). rewrite (load_patches parse bezier_teapot division text patches Hf Hp Hn). clear Hf Hn.
  assert (Q : forall p, proper_patch p -> full_patch p \/ patch_face bezier_teapot division p = Panic).
  { intros [[m n] pts] [_ Hq]. cbn [patch_face]. unfold teapot_face, grid_from_vec. destruct pts as [|p0 pts]; [easy|]. set (l := p0 :: pts). replace (N.to_nat m + 1) with (S (N.to_nat m)) by lia.
    destruct (Nat.eqb_spec (length l mod S (N.to_nat m)) 0) as [E|_]; [|right; reflexivity].
    apply Nat.mod_divides in E; [|lia]. destruct E as [k E]. rewrite Nat.mul_comm in E. assert (Hk : 1 <= k) by (destruct k; [discriminate E|lia]).
    assert (W : wf_grid (mkGrid (S (N.to_nat m)) l) k (S (N.to_nat m))) by (repeat split; cbn [g_data]; auto; lia).
    destruct (transpose_grid _ k (S (N.to_nat m)) vzero W Hk) as (g & Et & Wg & _). cbn [obind]. rewrite Et. cbn [obind].
    unfold bezier_teapot, bezier_surface_new. rewrite (wf_rows g _ _ Wg). pose proof Wg as (-> & _ & _).
    destruct (Nat.ltb_spec 1 (S (N.to_nat m))); [|right; reflexivity]. destruct (Nat.ltb_spec 1 k); [|right; reflexivity]. left. split; [lia|]. exists k. split; [lia|]. rewrite E. f_equal. lia. }
  induction patches as [|p patches IH]; [inversion He|]. apply Forall_cons_iff in Hp. destruct Hp as [Hp Hps]. cbn [mapM].
  destruct (Q p Hp) as [H|H]; [|now rewrite H]. 
  assert (He' : Exists (fun p => ~ full_patch p) patches) by (inversion He; [easy|assumption]). specialize (IH Hps He').
  assert (Z : (exists f, patch_face bezier_teapot division p = Ok f) \/ patch_face bezier_teapot division p = Panic).
  { destruct p as [[m n] pts]. destruct H as (Hm & k & Hk & HL). destruct (face_grid bezier_teapot division pts (N.to_nat m + 1) k vzero HL ltac:(lia) ltac:(lia)) as (g & _ & Ef). cbn [patch_face]. rewrite Ef.
    unfold bezier_teapot, bezier_surface_new. destruct (_ && _)%bool; cbn [assert obind]; eauto. }
  destruct Z as [[f ->]| ->]; [|reflexivity]. cbn [obind]. rewrite IH. reflexivity.
Qed.
(** bspline.rs: the same points as clamped B-spline patches with uniform knots *)
Theorem C69_load_bspline {TF : Trig F} (degree division : nat * nat) (text : list N) (patches : list (N * N * list (vec3 F))) (d : vec3 F) :
  patch_file parse text patches -> patches <> [] -> Forall proper_patch patches ->
  Forall (fun '(m, n, pts) => fst degree <= N.to_nat m /\ exists k, snd degree < k /\ length pts = k * (N.to_nat m + 1)) patches ->
  exists faces, load_teapot parse (bspline_teapot degree) division text = Ok faces /\
    Forall2 (fun '(m, n, pts) f => exists g c s, columns g pts (N.to_nat m + 1) c d /\ bss_uniform_clamped g degree = Ok s /\ bss_cps s = g /\
      sp_surface f = bss3_surface s /\ sp_range f = ((f0, f1), (f0, f1)) /\ sp_division f = division) patches faces.
Proof.
  intros Hf Hn Hp Hs. rewrite (load_patches parse (bspline_teapot degree) division text patches Hf Hp Hn). clear Hf Hn Hp.
  induction Hs as [|[[m n] pts] patches (Hm & k & Hk & HL) _ (faces & E & HF)]; [exists []; split; [reflexivity|constructor]|].
  destruct (face_grid (bspline_teapot degree) division pts (N.to_nat m + 1) k d HL ltac:(lia) ltac:(lia)) as (g & Hg & Ef). pose proof Hg as (Wg & _ & _).
  cbn [mapM patch_face]. rewrite Ef. unfold bspline_teapot at 1.
  assert (Es : exists s, bss_uniform_clamped g degree = Ok s /\ bss_cps s = g).
  { destruct degree as [p q]. cbn [fst snd] in *. unfold bss_uniform_clamped. rewrite (wf_rows g _ _ Wg). pose proof Wg as (-> & _ & _).
    rewrite (proj2 (Nat.ltb_lt p (N.to_nat m + 1))), (proj2 (Nat.ltb_lt q k)) by lia. cbn [andb assert obind]. eexists. split; reflexivity. }
  destruct Es as (s & Es & Cs). rewrite Es. cbn [obind]. rewrite E. cbn [obind]. eexists. split; [reflexivity|]. constructor; [|exact HF]. exists g, k, s. repeat split; auto; apply Hg.
Qed.
End Faces.
