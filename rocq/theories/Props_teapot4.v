(** Property C69, fourth part: two patches of /repo/assets/teapot.bpt. *)
From Coq Require Import Reals Lra Lia Arith ZArith NArith List SpecFloat Ascii String.
From Verif Require Import Prelude Num M_vec M_utils M_curve M_surface M_files M_teapot L_base L_vec L_float L_grid L_err L_surface L_bezier L_polygon Props_gridmesh Props_obj Props_points Props_convert Props_convert2 Props_accuracy Props_teapot Props_teapot2 Props_teapot3.
Import ListNotations.
Open Scope nat_scope.
Local Notation length := List.length.

Lemma Forall2_length {A B} {R : A -> B -> Prop} {l m} : Forall2 R l m -> length l = length m.
Proof. induction 1; cbn [List.length]; congruence. Qed.
(** ** From the text to the OBJ file *)
Section Written.
Context {F : Type} {NF : Num F}.
Lemma bezier_point_total (g : Grid (vec3 F)) r c u v : wf_grid g r c -> 1 <= r -> exists q, bezier_surface3_get_point g u v = Ok q.
Proof.
  intros W Hr. unfold bezier_surface3_get_point. rewrite (wf_rows g r c W). pose proof W as (-> & _ & Hc). rewrite !bernstein_rec by assumption. cbn [obind].
  rewrite (tensor_sum_cells g _ _ r c) by (auto; now rewrite map_length, seq_length). eauto.
Qed.
Lemma grid_tris_range r c : Forall (fun '(i, j, k) => i < r * c /\ j < r * c /\ k < r * c) (grid_tris r c).
Proof.
  apply Forall_forall. intros [[a b] d] H. unfold grid_tris in H. apply in_flat_map in H. destruct H as ([i j] & Hij & H). apply cells_In in Hij. cbn [cell_tris map In] in H. unfold enc in H. cbn [fst snd] in H.
  destruct H as [E|[E|[]]]; injection E as <- <- <-; nia.
Qed.
(** every Bezier patch has a mesh, with (u + 1)(v + 1) vertices and 2uv triangles *)
Lemma bezier_mesh (p : SurfacePatch F) g r c ud vd : bezier_patch p g r c -> sp_division p = (ud, vd) -> 1 <= ud -> 1 <= vd -> (N.of_nat ((ud + 1) * (vd + 1)) <= 2 ^ 32)%N ->
  exists m, patch_get_triangle_mesh p = Ok m /\ valid_mesh m /\ m_normals m = [] /\ length (m_vertices m) = (ud + 1) * (vd + 1) /\ length (m_triangles m) = 6 * (ud * vd).
Proof.
  intros (Es & Er & W & Hr) Ed Hu Hv HN. destruct (C48_total p) as [m Em]; [now rewrite Ed|now rewrite Ed| | |].
  - intros u v. rewrite Es. apply (bezier_point_total g r c u v W Hr).
  - intros l. rewrite Es. exists []. split; [reflexivity|now right].
  - exists m. split; [exact Em|]. pose proof (C48_samples p m f0 Em) as H. rewrite Ed in H. destruct H as (us & vs & _ & _ & _ & _ & Lm & _ & ET).
    assert (EN : m_normals m = []).
    { destruct (C48_normals p m (V3 f0 f0 f0) Em) as (us' & vs' & ns & _ & _ & En & Ln & _). rewrite Es in En. apply Ok_inj in En. subst ns. destruct (m_normals m); [reflexivity|discriminate Ln]. }
    split; [|split; [exact EN|split; [exact Lm|]]].
    + apply (emit_valid m _ ET EN); [now rewrite Lm|]. rewrite Lm. apply grid_tris_range.
    + rewrite ET. unfold emit. assert (L3 : forall T : list (nat * nat * nat), length (flat_map (fun '(a, b, c) => [as_u32 a; as_u32 b; as_u32 c]) T) = 3 * length T).
      { induction T as [|[[x y] z] T IH]; [reflexivity|]. cbn [flat_map app length]. rewrite IH. lia. }
      rewrite L3, grid_tris_length. rewrite !Nat.add_sub. lia.
Qed.
(** bezier.rs: a file of patches is read, and the OBJ file written has the triangles of their meshes, patch by patch *)
Theorem C69_written (parse parse2 : list N -> option F) (fmt : F -> list N) (text : list N) (patches : list (N * N * list (vec3 F))) (ud vd : nat) :
  patch_file parse text patches -> patches <> [] -> Forall proper_patch patches -> Forall full_patch patches ->
  1 <= ud -> 1 <= vd -> (N.of_nat (length patches * ((ud + 1) * (vd + 1))) + 1 < 2 ^ 32)%N -> (forall x, faithful fmt parse2 x) ->
  exists faces ms obj fss, load_teapot parse bezier_teapot (ud, vd) text = Ok faces /\ length faces = length patches /\ mapM patch_get_triangle_mesh faces = Ok ms /\
    teapot_obj fmt faces = Ok obj /\ read_obj parse2 obj = Some (concat fss) /\ Forall2 (fun m fs => exists T, mesh_faces m T fs) ms fss /\
    Forall (fun m => length (m_vertices m) = (ud + 1) * (vd + 1)) ms /\ Forall (fun fs => length fs = 2 * ud * vd) fss.
Proof.
  intros Hf Hn Hp Hs Hu Hv HN Ff. destruct (C69_load parse (ud, vd) text patches vzero Hf Hn Hp Hs) as (faces & E & H). exists faces.
  assert (HL : length faces = length patches) by (symmetry; apply (Forall2_length H)).
  assert (HF : Forall (fun f => exists m, patch_get_triangle_mesh f = Ok m /\ valid_mesh m /\ m_normals m = [] /\ length (m_vertices m) = (ud + 1) * (vd + 1) /\ length (m_triangles m) = 6 * (ud * vd)) faces).
  { assert (HS : (N.of_nat ((ud + 1) * (vd + 1)) <= 2 ^ 32)%N) by (destruct patches; [easy|cbn [length] in HN; nia]).
    clear -H Hu Hv HS. induction H as [|[[m n] pts] f patches faces (g & c & _ & B & D) _ IH]; constructor; [|exact IH]. exact (bezier_mesh f g _ c ud vd B D Hu Hv HS). }
  assert (HM : exists ms, mapM patch_get_triangle_mesh faces = Ok ms /\ map patch_get_triangle_mesh faces = map Ok ms /\ length ms = length faces /\
    Forall (fun m => valid_mesh m /\ m_normals m = [] /\ length (m_vertices m) = (ud + 1) * (vd + 1) /\ length (m_triangles m) = 6 * (ud * vd)) ms).
  { clear -HF. induction HF as [|f faces (m & Em & Q) _ (ms & E1 & E2 & L & Q')]; [exists []; repeat split; constructor|]. exists (m :: ms). cbn [mapM map length]. rewrite Em, E1, E2, L. cbn [obind]. repeat split. now constructor. }
  destruct HM as (ms & E1 & E2 & LM & Q). rewrite Forall_forall in Q.
  assert (TV : total m_vertices ms = N.of_nat (length ms * ((ud + 1) * (vd + 1))) /\ total m_normals ms = 0%N).
  { unfold total. clear -Q. induction ms as [|m ms IH]; [split; reflexivity|]. destruct (Q m (or_introl eq_refl)) as (_ & EN & LV & _). destruct IH as [I1 I2]; [intros; apply Q; now right|].
    cbn [flat_map length]. rewrite !app_length, EN. cbn [length Nat.add]. split; [|exact I2]. rewrite LV. lia. }
  destruct TV as [TV TN].
  destruct (C50_roundtrip fmt parse2 ms) as (obj & fss & EO & RO & FO).
  - apply Forall_forall. intros m Hm. now apply Q.
  - apply Forall_forall. intros m Hm. split; apply Forall_forall; intros p _; repeat split; apply Ff.
  - rewrite TV, LM, HL. lia.
  - rewrite TN. reflexivity.
  - exists ms, obj, fss. split; [exact E|]. split; [exact HL|]. split; [exact E1|]. split; [unfold teapot_obj; rewrite E2; exact EO|]. split; [exact RO|]. split; [exact FO|].
    split; [apply Forall_forall; intros m Hm; now apply Q|].
    clear -FO Q. induction FO as [|m fs ms fss (T & ET & HT) _ IH]; constructor; [|apply IH; intros; apply Q; now right].
    destruct (Q m (or_introl eq_refl)) as (_ & _ & _ & L). rewrite <- (Forall2_length HT). rewrite ET in L.
    assert (L3 : forall T : list (N * N * N), length (Props_gridmesh.flat3 T) = 3 * length T) by (clear; induction T as [|[[x y] z] T IH]; [reflexivity|]; cbn [Props_gridmesh.flat3 flat_map app length] in *; unfold Props_gridmesh.flat3 in IH; rewrite IH; lia).
    rewrite L3 in L. lia.
Qed.
End Written.
(** ** Every text has lines, every line has words *)
Lemma line_words_total l : line_words l (split_whitespace l).
Proof.
  assert (H : exists ws, line_words l ws); [|destruct H as [ws H]; now rewrite (line_words_split l ws H)].
  induction l as [|c l [ws IH]]; [exists []; apply (LWEnd []); constructor|].
  destruct (is_white c) eqn:E.
  - apply white_iff in E. exists ws. destruct IH as [g Hg|g w g' Hg Hw Hg'|g w g' t w' ws Hg Hw Gn Hg' Ht].
    + apply LWEnd. now constructor.
    + apply (LWLast (c :: g)); auto.
    + apply (LWCons (c :: g)); auto.
  - assert (Hc : ~ blank c) by (intros B; apply white_iff in B; congruence). destruct IH as [g Hg|g w g' Hg Hw Hg'|g w g' t w' ws Hg Hw Gn Hg' Ht].
    + exists [[c]]. apply (LWLast [] [c] g); auto. split; [discriminate|auto].
    + destruct g as [|b g].
      * exists [c :: w]. apply (LWLast [] (c :: w) g'); auto. destruct Hw. split; [discriminate|auto].
      * exists [[c]; w]. apply (LWCons [] [c] (b :: g) (w ++ g')); auto; [split; [discriminate|auto]|discriminate|]. apply (LWLast [] w g'); auto.
    + destruct g as [|b g].
      * exists ((c :: w) :: w' :: ws). apply (LWCons [] (c :: w) g' t); auto. destruct Hw. split; [discriminate|auto].
      * exists ([c] :: w :: w' :: ws). apply (LWCons [] [c] (b :: g) (w ++ g' ++ t)); auto; [split; [discriminate|auto]|discriminate|]. apply (LWCons [] w g' t); auto.
Qed.
Lemma file_lines_total t : file_lines t (lines t).
Proof.
  assert (H : exists ls, file_lines t ls); [|destruct H as [ls H]; now rewrite (file_lines_lines t ls H)].
  induction t as [|c t [ls IH]]; [exists []; constructor|].
  destruct (N.eq_dec c 10) as [->|Hc]; [exists ([] :: ls); apply (FUnix [] t ls); auto; cbn; discriminate|].
  destruct IH as [|l Hn Hl|l t ls Hl Hr Ht|l t ls Hl Ht].
  - exists [[c]]. apply FLast; [discriminate|auto].
  - exists [c :: l]. apply FLast; [discriminate|auto].
  - destruct l as [|a l]; [destruct (N.eq_dec c 13) as [->|H13]|].
    + exists ([] :: ls). apply (FDos [] t ls); auto.
    + exists ([c] :: ls). apply (FUnix [c] t ls); auto.
    + exists ((c :: a :: l) :: ls). apply (FUnix (c :: a :: l) t ls); auto.
  - exists ((c :: l) :: ls). apply (FDos (c :: l) t ls); auto.
Qed.
(** a check of [patch_file] *)
Definition read_item {F} (parse : list N -> option F) (l : list N) : option (item F) :=
  let nat_of w := match decimal w with Some n => if (n <? 2 ^ 64)%N then Some n else None | None => None end in
  match split_whitespace l with
  | [w] => match nat_of w with Some _ => Some Nothing | None => None end
  | [a; b] => match nat_of a, nat_of b with Some m, Some n => Some (Head m n) | _, _ => None end
  | [a; b; c] => match parse a, parse b, parse c with Some x, Some y, Some z => Some (Point (V3 x y z)) | _, _, _ => None end
  | _ => Some Nothing
  end.
Lemma read_item_line {F} (parse : list N -> option F) l it : read_item parse l = Some it -> line_item parse l it.
Proof.
  unfold read_item. intros H. pose proof (line_words_total l) as W.
  assert (U : forall w n, match decimal w with Some n => if (n <? 2 ^ 64)%N then Some n else None | None => None end = Some n -> usize_word w n).
  { intros w n E. destruct (decimal w) as [k|] eqn:D; [|discriminate]. destruct (N.ltb_spec k (2 ^ 64)); [|discriminate]. injection E as <-. split; auto. }
  destruct (split_whitespace l) as [|a [|b [|c [|e ws]]]].
  - injection H as <-. apply (LIOther _ l [] W). now left.
  - destruct (match decimal a with Some _ => _ | None => _ end) as [n|] eqn:E; [|discriminate]. injection H as <-. exact (LICount _ l a n W (U a n E)).
  - destruct (match decimal a with Some _ => _ | None => _ end) as [m|] eqn:E; [|discriminate]. destruct (match decimal b with Some _ => _ | None => _ end) as [n|] eqn:E'; [|discriminate]. injection H as <-. exact (LIHead _ l a b m n W (U a m E) (U b n E')).
  - destruct (parse a) eqn:Ea; [|discriminate]. destruct (parse b) eqn:Eb; [|discriminate]. destruct (parse c) eqn:Ec; [|discriminate]. injection H as <-. now apply (LIPoint _ l a b c).
  - injection H as <-. apply (LIOther _ l _ W). right. cbn. lia.
Qed.
Fixpoint all_items {F} (parse : list N -> option F) (ls : list (list N)) : option (list (item F)) :=
  match ls with [] => Some [] | l :: t => match read_item parse l, all_items parse t with Some i, Some is => Some (i :: is) | _, _ => None end end.
Lemma check_file {F} (parse : list N -> option F) text its patches : all_items parse (lines text) = Some its ->
  flat_map says its = flat_map (fun '(m, n, pts) => Head m n :: map Point pts) patches -> patch_file parse text patches.
Proof.
  intros E H. exists (lines text), its. split; [apply file_lines_total|]. split; [|exact H]. clear H. revert its E.
  induction (lines text) as [|l ls IH]; intros its E; cbn [all_items] in E; [injection E as <-; constructor|].
  destruct (read_item parse l) as [i|] eqn:Ei; [|discriminate]. destruct (all_items parse ls) as [is|]; [|discriminate]. injection E as <-. constructor; [now apply read_item_line|auto].
Qed.
(** correctly rounded reading of a decimal fraction *)
Fixpoint cut_dot (w : list N) : list N * list N := match w with [] => ([], []) | c :: t => if (c =? 46)%N then ([], t) else let (a, b) := cut_dot t in (c :: a, b) end.
Definition parse_fraction (w : list N) : option f64 :=
  let '(neg, w) := match w with c :: t => if (c =? 45)%N then (true, t) else (false, w) | [] => (false, w) end in
  let (a, b) := cut_dot w in
  match decimal (a ++ b) with
  | Some N0 => Some (S754_zero neg)
  | Some (Npos p) => Some (SFdiv p64 e64 (S754_finite neg p 0) (S754_finite false (match length b with O => 1 | S k => 10 ^ Pos.of_nat (S k) end)%positive 0))
  | None => None
  end.
Definition chars (s : string) : list N := map N_of_ascii (list_ascii_of_string s).
(** patches 9, 10 and 32 of the file: two quarters of the lower body and a quarter of the bottom *)
Definition teapot_text : list N := Eval vm_compute in chars
"3
3 3
2.0 0.0 1.1999997000000002
2.0 -1.12 1.1999997000000002
1.12 -2.0 1.1999997000000002
0.0 -2.0 1.1999997000000002
2.0 0.0 0.5999998500000001
2.0 -1.12 0.5999998500000001
1.12 -2.0 0.5999998500000001
0.0 -2.0 0.5999998500000001
1.5 0.0 0.29999992500000006
1.5 -0.84 0.29999992500000006
0.84 -1.5 0.29999992500000006
0.0 -1.5 0.29999992500000006
1.5 0.0 0.19999995
1.5 -0.84 0.19999995
0.84 -1.5 0.19999995
0.0 -1.5 0.19999995
3 3
0.0 -2.0 1.1999997000000002
-1.12 -2.0 1.1999997000000002
-2.0 -1.12 1.1999997000000002
-2.0 0.0 1.1999997000000002
0.0 -2.0 0.5999998500000001
-1.12 -2.0 0.5999998500000001
-2.0 -1.12 0.5999998500000001
-2.0 0.0 0.5999998500000001
0.0 -1.5 0.29999992500000006
-0.84 -1.5 0.29999992500000006
-1.5 -0.84 0.29999992500000006
-1.5 0.0 0.29999992500000006
0.0 -1.5 0.19999995
-0.84 -1.5 0.19999995
-1.5 -0.84 0.19999995
-1.5 0.0 0.19999995
3 3
0.0 0.0 0.0
0.0 0.0 0.0
0.0 0.0 0.0
0.0 0.0 0.0
0.0 -1.425 0.0
0.798 -1.425 0.0
1.425 -0.798 0.0
1.425 0.0 0.0
0.0 -1.5 0.099999975
0.84 -1.5 0.099999975
1.5 -0.84 0.099999975
1.5 0.0 0.099999975
0.0 -1.5 0.19999995
0.84 -1.5 0.19999995
1.5 -0.84 0.19999995
1.5 0.0 0.19999995
".
Definition teapot_items : list (item f64) := Eval vm_compute in match all_items parse_fraction (lines teapot_text) with Some l => l | None => [] end.
Definition item_points (l : list (item f64)) : list (vec3 f64) := flat_map (fun i => match i with Point p => [p] | _ => [] end) l.
(** the patches as read *)
Definition reads_as (f : SurfacePatch f64) (g : Grid (vec3 f64)) (pts : list (vec3 f64)) : Prop :=
  bezier_patch f g 4 4 /\ sp_division f = (16, 16) /\ forall i j, i < 4 -> j < 4 -> grid_idx g i j = Ok (nth (j * 4 + i) pts vzero).
Lemma load_three (parse : list N -> option f64) text a b c : length a = 16 -> length b = 16 -> length c = 16 -> patch_file parse text [(3%N, 3%N, a); (3%N, 3%N, b); (3%N, 3%N, c)] ->
  exists f1 f2 f3 g1 g2 g3, load_teapot parse bezier_teapot (16, 16) text = Ok [f1; f2; f3] /\ reads_as f1 g1 a /\ reads_as f2 g2 b /\ reads_as f3 g3 c.
Proof.
  intros La Lb Lc Hf. assert (P : Forall proper_patch [(3%N, 3%N, a); (3%N, 3%N, b); (3%N, 3%N, c)]) by (repeat constructor; intros ->; discriminate).
  assert (Q : Forall full_patch [(3%N, 3%N, a); (3%N, 3%N, b); (3%N, 3%N, c)]) by (repeat constructor; try lia; exists 4; split; try lia; assumption).
  destruct (C69_load parse (16, 16) text _ vzero Hf ltac:(discriminate) P Q) as (faces & E & H).
  inversion H as [|x1 f1 l1 fs1 H1 HT]; subst. inversion HT as [|x2 f2 l2 fs2 H2 HT2]; subst. inversion HT2 as [|x3 f3 l3 fs3 H3 HE]; subst. inversion HE; subst.
  destruct H1 as (g1 & c1 & (W1 & L1 & G1) & B1 & D1). destruct H2 as (g2 & c2 & (W2 & L2 & G2) & B2 & D2). destruct H3 as (g3 & c3 & (W3 & L3 & G3) & B3 & D3). change (N.to_nat 3 + 1) with 4 in *.
  assert (c1 = 4) by lia. assert (c2 = 4) by lia. assert (c3 = 4) by lia. subst c1 c2 c3. exists f1, f2, f3, g1, g2, g3. split; [exact E|]. repeat split; assumption || apply B1 || apply B2 || apply B3.
Qed.
Definition body1 : list (vec3 f64) := Eval vm_compute in firstn 16 (item_points teapot_items).
Definition body2 : list (vec3 f64) := Eval vm_compute in firstn 16 (skipn 16 (item_points teapot_items)).
Definition bottom : list (vec3 f64) := Eval vm_compute in skipn 32 (item_points teapot_items).
Lemma teapot_file : patch_file parse_fraction teapot_text [(3%N, 3%N, body1); (3%N, 3%N, body2); (3%N, 3%N, bottom)].
Proof. apply (check_file _ _ teapot_items); vm_compute; reflexivity. Qed.
(** the control points along the sides: the seam between the two quarters of the body, and the rim between body and bottom *)
Definition seam : list (vec3 f64) := Eval vm_compute in map (fun j => nth (j * 4 + 3) body1 vzero) (seq 0 4).
Definition rim : list (vec3 f64) := Eval vm_compute in skipn 12 body1.
Lemma side_of (g : Grid (vec3 f64)) (pts ps : list (vec3 f64)) s : (forall i j, i < 4 -> j < 4 -> grid_idx g i j = Ok (nth (j * 4 + i) pts vzero)) ->
  ps = map (fun k => let (i, j) := side_cell 4 4 s k in nth (j * 4 + i) pts vzero) (seq 0 4) -> side_points g 4 4 s ps.
Proof.
  intros H ->. split; [rewrite map_length; now destruct s|]. intros k p Ek. assert (Hk : k < 4) by (replace 4 with (length (map (fun k => let (i, j) := side_cell 4 4 s k in nth (j * 4 + i) pts vzero) (seq 0 4))) by (now rewrite map_length); apply nth_error_Some; congruence).
  apply (nth_error_nth _ _ (vzero : vec3 f64)) in Ek. rewrite (nth_map_default _ _ _ 0) in Ek by (rewrite seq_length; lia). rewrite seq_nth in Ek by exact Hk. cbn [Nat.add] in Ek.
  destruct s; cbn [side_cell fst snd] in *; rewrite H by lia; now rewrite Ek.
Qed.
Lemma data_of (g : Grid (vec3 f64)) (pts : list (vec3 f64)) : wf_grid g 4 4 -> (forall i j, i < 4 -> j < 4 -> grid_idx g i j = Ok (nth (j * 4 + i) pts vzero)) -> length pts = 16 -> Forall num3 pts -> Forall num3 (g_data g).
Proof.
  intros W H L Hp. pose proof (wf_rows g 4 4 W) as Er. destruct W as (Ec & Lg & _). apply Forall_forall. intros p HIn. destruct (In_nth _ _ vzero HIn) as (k & Hk & <-). rewrite Lg in Hk.
  pose proof (Nat.div_mod k 4 ltac:(lia)) as D. pose proof (Nat.mod_upper_bound k 4 ltac:(lia)) as M. assert (Hd : k / 4 < 4) by (apply Nat.div_lt_upper_bound; lia).
  specialize (H _ _ Hd M). unfold grid_idx in H. rewrite Er, Ec, (proj2 (Nat.ltb_lt _ _) Hd), (proj2 (Nat.ltb_lt _ _) M) in H. cbn [andb] in H. rewrite (idx_nth _ _ vzero) in H by lia. apply Ok_inj in H.
  replace (k / 4 * 4 + k mod 4) with k in H by lia. rewrite H. rewrite Forall_forall in Hp. apply Hp, nth_In. lia.
Qed.
Definition num64b (x : f64) : bool := is_fin x && valid_binary p64 e64 x.
Definition num3b (p : vec3 f64) : bool := num64b (x3 p) && (num64b (y3 p) && num64b (z3 p)).
Lemma num3b_ok l : forallb num3b l = true -> Forall num3 l.
Proof. intros H. apply Forall_forall. intros p Hp. rewrite forallb_forall in H. specialize (H p Hp). unfold num3b, num64b in H. rewrite !Bool.andb_true_iff in H. unfold num3, number. tauto. Qed.
Lemma bodies_num : Forall num3 body1 /\ Forall num3 body2.
Proof. split; apply num3b_ok; vm_compute; reflexivity. Qed.
(** The loader and the joint theorem at work: the meshes of patches 9 and 10 share their 17 vertices along the seam. *)
Example C69_nonvacuous : exists f1 f2 f3, load_teapot parse_fraction bezier_teapot (16, 16) teapot_text = Ok [f1; f2; f3] /\
  exists m1 m2, patch_get_triangle_mesh f1 = Ok m1 /\ patch_get_triangle_mesh f2 = Ok m2 /\ forall k, k <= 16 ->
    exists v, nth_error (m_vertices m1) (side_index (16, 16) U1 k) = Some v /\ nth_error (m_vertices m2) (side_index (16, 16) U0 k) = Some v.
Proof.
  destruct (load_three parse_fraction teapot_text body1 body2 bottom eq_refl eq_refl eq_refl teapot_file) as (f1 & f2 & f3 & g1 & g2 & g3 & E & (B1 & D1 & G1) & (B2 & D2 & G2) & _).
  exists f1, f2, f3. split; [exact E|]. destruct (bezier_mesh f1 g1 4 4 16 16 B1 D1) as (m1 & E1 & _); [lia|lia|lia|]. destruct (bezier_mesh f2 g2 4 4 16 16 B2 D2) as (m2 & E2 & _); [lia|lia|lia|].
  exists m1, m2. split; [exact E1|]. split; [exact E2|]. intros k Hk. destruct bodies_num as [N1 N2]. assert (M4 : moderate 4) by (unfold moderate; lia).
  assert (S1 : side_points g1 4 4 U1 seam) by (apply (side_of g1 body1); [exact G1|reflexivity]). assert (S2 : side_points g2 4 4 U0 seam) by (apply (side_of g2 body2); [exact G2|reflexivity]).
  pose proof (C69_joint64 f1 f2 g1 g2 4 4 4 4 U1 U0 seam m1 m2 B1 B2 S1 S2 M4 M4 M4 M4 (data_of g1 body1 (proj1 (proj2 (proj2 B1))) G1 eq_refl N1) (data_of g2 body2 (proj1 (proj2 (proj2 B2))) G2 eq_refl N2)) as J.
  rewrite D1, D2 in J. cbn [side_division snd] in J. now apply J.
Qed.
Lemma meshes_apart : match load_teapot parse_fraction bezier_teapot (16, 16) teapot_text with
  | Ok [f1; _; f3] => match patch_get_triangle_mesh f1, patch_get_triangle_mesh f3 with
                   | Ok m1, Ok m3 => match nth_error (m_vertices m1) (side_index (16, 16) V1 1) with
                                     | Some v => (feqb (x3 v) (x3 v) && feqb (y3 v) (y3 v) && feqb (z3 v) (z3 v)) && forallb (fun w => negb (feqb (x3 v) (x3 w) && feqb (y3 v) (y3 w) && feqb (z3 v) (z3 w))) (m_vertices m3)
                                     | None => false
                                     end
                   | _, _ => false
                   end
  | _ => false
  end = true.
Proof. vm_compute. reflexivity. Qed.
(** The patches 9 and 32 of teapot.bpt have the same control points along a side, in opposite directions.
    Of the 17 mesh vertices of the one side the second is, in doubles, no vertex of the other patch. *)
Theorem C69_reversed_refuted : exists f1 f2 f3 g1 g3 m1 m3 v,
  load_teapot parse_fraction bezier_teapot (16, 16) teapot_text = Ok [f1; f2; f3] /\ bezier_patch f1 g1 4 4 /\ bezier_patch f3 g3 4 4 /\
  side_points g1 4 4 V1 rim /\ side_points g3 4 4 V1 (rev rim) /\ sp_division f1 = (16, 16) /\ sp_division f3 = (16, 16) /\
  patch_get_triangle_mesh f1 = Ok m1 /\ patch_get_triangle_mesh f3 = Ok m3 /\
  nth_error (m_vertices m1) (side_index (16, 16) V1 1) = Some v /\ ~ In v (m_vertices m3).
Proof.
  destruct (load_three parse_fraction teapot_text body1 body2 bottom eq_refl eq_refl eq_refl teapot_file) as (f1 & f2 & f3 & g1 & g2 & g3 & E & (B1 & D1 & G1) & _ & (B3 & D3 & G3)).
  pose proof meshes_apart as M. rewrite E in M.
  destruct (patch_get_triangle_mesh f1) as [m1| |] eqn:E1; try discriminate M. destruct (patch_get_triangle_mesh f3) as [m3| |] eqn:E3; try discriminate M.
  destruct (nth_error (m_vertices m1) (side_index (16, 16) V1 1)) as [v|] eqn:Ev; [|discriminate M].
  exists f1, f2, f3, g1, g3, m1, m3, v. do 3 (split; [assumption|]). split; [apply (side_of g1 body1); [exact G1|reflexivity]|]. split; [apply (side_of g3 bottom); [exact G3|reflexivity]|].
  do 5 (split; [assumption|]). intros HIn. apply andb_prop in M. destruct M as [Mv M]. rewrite forallb_forall in M. specialize (M v HIn). rewrite Mv in M. discriminate M.
Qed.
(** The counts in a file are not compared with its contents: the text announces seven patches of 2 x 6 points and holds one of 2 x 2. *)
Definition miscounted : list N := Eval vm_compute in chars "7
1 5
0 0 0
1 0 0
0 1 0
1 1 0
".
Theorem C69_counts_refuted : exists pts faces, patch_file parse_fraction miscounted [(1%N, 5%N, pts)] /\ length pts = 4 /\ load_teapot parse_fraction bezier_teapot (16, 16) miscounted = Ok faces /\ length faces = 1.
Proof.
  set (its := match all_items parse_fraction (lines miscounted) with Some l => l | None => [] end). exists (item_points its).
  assert (Hf : patch_file parse_fraction miscounted [(1%N, 5%N, item_points its)]) by (apply (check_file _ _ its); vm_compute; reflexivity).
  destruct (C69_load parse_fraction (16, 16) miscounted _ vzero Hf ltac:(discriminate)) as (faces & E & H).
  - repeat constructor. discriminate.
  - repeat constructor; [lia|]. exists 2. split; [lia|reflexivity].
  - exists faces. split; [exact Hf|]. split; [reflexivity|]. split; [exact E|]. inversion H as [|? ? ? ? _ H']; subst. inversion H'; subst. reflexivity.
Qed.
Example C69_load_bspline_nonvacuous {TF : Trig f64} : exists faces, load_teapot parse_fraction (bspline_teapot (1, 3)) (16, 16) teapot_text = Ok faces /\ length faces = 3.
Proof.
  destruct (C69_load_bspline parse_fraction (1, 3) (16, 16) teapot_text _ vzero teapot_file ltac:(discriminate)) as (faces & E & H).
  - repeat constructor; discriminate.
  - repeat constructor; cbn [fst snd]; try lia; exists 4; split; try lia; reflexivity.
  - exists faces. split; [exact E|]. symmetry. apply (Forall2_length H).
Qed.
(** a way to write all doubles *)
Definition fmt_all (x : f64) : list N := match x with S754_infinity s => [5; if s then 1 else 0]%N | S754_nan => [5; 5; 5]%N | _ => fmt64 x end.
Definition parse_all (l : list N) : option f64 := match l with [_; s] => Some (S754_infinity (s =? 1)%N) | [_; _; _] => Some S754_nan | _ => parse64 l end.
Lemma fmt_all_faithful x : faithful fmt_all parse_all x.
Proof.
  destruct x as [s|s| |s m e].
  - exact (fmt64_faithful (S754_zero s) (conj eq_refl eq_refl)).
  - split; [destruct s; reflexivity|]. destruct s; split; repeat constructor; discriminate.
  - split; [reflexivity|]. split; repeat constructor; discriminate.
  - destruct (fmt64_text s m e) as [H1 H2]. split; [exact H1|exact H2].
Qed.
Example C69_written_nonvacuous : exists faces obj fs, load_teapot parse_fraction bezier_teapot (16, 16) teapot_text = Ok faces /\ length faces = 3 /\
  teapot_obj fmt_all faces = Ok obj /\ read_obj parse_all obj = Some fs /\ length fs = 1536.
Proof.
  destruct (C69_written parse_fraction parse_all fmt_all teapot_text _ 16 16 teapot_file ltac:(discriminate)) as (faces & ms & obj & fss & E & L & EM & EO & RO & FO & _ & LF).
  - repeat constructor; discriminate.
  - repeat constructor; try lia; exists 4; split; try lia; reflexivity.
  - lia.
  - lia.
  - reflexivity.
  - apply fmt_all_faithful.
  - exists faces, obj, (concat fss). repeat (split; [assumption|]). pose proof (mapM_length _ _ _ EM) as LM. pose proof (Forall2_length FO) as LO. rewrite L in LM. cbn [length] in LM. rewrite LM in LO.
    destruct fss as [|a [|b [|c [|d fss]]]]; try discriminate LO. inversion LF as [|? ? La LF1]; subst. inversion LF1 as [|? ? Lb LF2]; subst. inversion LF2 as [|? ? Lc _]; subst. cbn [concat]. rewrite !app_length, La, Lb, Lc. reflexivity.
Qed.
