(** Property C51: binary STL files. *)
From Coq Require Import Lia Arith ZArith NArith List Floats.SpecFloat Reals.
From Verif Require Import Prelude Num M_vec M_utils M_curve M_surface M_files L_base L_polygon L_float Props_gridmesh Props_obj.
Open Scope nat_scope.

(** ** Specification: reading a binary STL file *)
(** value of bytes in little-endian order *)
Fixpoint le_value (b : list N) : N := match b with [] => 0 | x :: t => x + 256 * le_value t end%N.
Definition slice {A} (i n : nat) (l : list A) : list A := firstn n (skipn i l).

Section Read.
Context {G : Type}.
(** value of the 4 bytes of a single precision number *)
Variable dec : list N -> option G.
Definition stl_point (b : list N) : option (vec3 G) :=
  match dec (slice 0 4 b), dec (slice 4 4 b), dec (slice 8 4 b) with Some x, Some y, Some z => Some (V3 x y z) | _, _, _ => None end.
(** a record: normal (12 bytes), three vertices (12 bytes each), attribute byte count (2 bytes) *)
Definition stl_record (b : list N) : option (vec3 G * vec3 G * vec3 G) :=
  match stl_point (slice 12 12 b), stl_point (slice 24 12 b), stl_point (slice 36 12 b) with Some p, Some q, Some r => Some (p, q, r) | _, _, _ => None end.
(** header (80 bytes), number of triangles (4 bytes), that many records of 50 bytes, end of file *)
Definition read_stl (b : list N) : option (list (vec3 G * vec3 G * vec3 G)) :=
  let count := N.to_nat (le_value (slice 80 4 b)) in
  if length b =? 84 + 50 * count then all_some (map (fun i => stl_record (slice (84 + 50 * i) 50 b)) (seq 0 count)) else None.
End Read.

(** [ts] are the triangles of the mesh with the coordinates rounded by [rnd] *)
Definition round3 {F G} (rnd : F -> G) (p : vec3 F) : vec3 G := V3 (rnd (x3 p)) (rnd (y3 p)) (rnd (z3 p)).
Definition mesh_triangles {F G} (rnd : F -> G) (m : TriangleMesh F) (ts : list (vec3 G * vec3 G * vec3 G)) : Prop :=
  exists T, m_triangles m = flat3 T /\
    Forall2 (fun '(a, b, c) '(p, q, r) => exists p' q' r',
      nth_error (m_vertices m) (N.to_nat a) = Some p' /\ nth_error (m_vertices m) (N.to_nat b) = Some q' /\ nth_error (m_vertices m) (N.to_nat c) = Some r' /\
      p = round3 rnd p' /\ q = round3 rnd q' /\ r = round3 rnd r') T ts.
Definition in_range {F} (m : TriangleMesh F) : Prop :=
  length (m_triangles m) mod 3 = 0 /\ Forall (fun k => N.to_nat k < length (m_vertices m)) (m_triangles m).

(** ** Lemmas *)
Lemma slice_app_r {A} i n (l r : list A) : i = length l -> n = length r -> slice i n (l ++ r) = r.
Proof. intros -> ->. unfold slice. rewrite skipn_app, Nat.sub_diag, skipn_all, firstn_all. reflexivity. Qed.
Lemma slice_mid {A} i n (l m r : list A) : i = length l -> n = length m -> slice i n (l ++ m ++ r) = m.
Proof. intros -> ->. unfold slice. rewrite skipn_app, Nat.sub_diag, skipn_all. cbn [app skipn]. rewrite firstn_app, Nat.sub_diag, firstn_all. cbn [firstn]. apply app_nil_r. Qed.
Lemma u32_le_value n : (n < 2 ^ 32)%N -> le_value (u32_le n) = n.
Proof.
  intros H. unfold u32_le, le_value. change (2 ^ 32)%N with 4294967296%N in H.
  pose proof (N.div_mod n 256 ltac:(lia)) as E1.
  pose proof (N.div_mod (n / 256) 256 ltac:(lia)) as E2. rewrite N.div_div in E2 by lia. change (256 * 256)%N with 65536%N in E2.
  pose proof (N.div_mod (n / 65536) 256 ltac:(lia)) as E3. rewrite N.div_div in E3 by lia. change (65536 * 256)%N with 16777216%N in E3.
  assert ((n / 16777216 < 256)%N) by (apply N.div_lt_upper_bound; lia). rewrite (N.mod_small (n / 16777216)) by assumption. lia.
Qed.
Lemma u32_le_bytes n : Forall (fun b => (b < 256)%N) (u32_le n).
Proof. unfold u32_le. repeat constructor; apply N.mod_lt; lia. Qed.

(** ** The header *)
(** a character has at least one byte *)
Definition utf8 (name : list (list N)) : Prop := Forall (fun c => c <> []) name.
Lemma concat_length_ge (name : list (list N)) : utf8 name -> length name <= length (concat name).
Proof. induction 1 as [|c l Hc _ IH]; [cbn; lia|]. cbn [concat length]. rewrite app_length. destruct c; [easy|]. cbn [length]. lia. Qed.
(** 80 bytes for every file name, beginning with "Binary STL file" (not with the "solid" by
    which readers recognise text files) and containing the start of the name. *)
Theorem C51_header (name : list (list N)) : utf8 name ->
  length (stl_header name) = 80 /\ firstn 15 (stl_header name) = [66;105;110;97;114;121;32;83;84;76;32;102;105;108;101]%N /\
  slice 22 58 (stl_header name) = firstn 58 (concat name ++ repeat 32%N (57 - length name) ++ [10%N]).
Proof.
  intros H. pose proof (concat_length_ge name H) as L. unfold stl_header.
  assert (L80 : 80 <= length (stl_prefix ++ stl_name_field name ++ [ch_nl])) by (unfold stl_prefix, stl_name_field; rewrite !app_length, repeat_length; cbn [length]; lia).
  split; [|split].
  - rewrite firstn_length. lia.
  - rewrite firstn_firstn. reflexivity.
  - unfold slice. rewrite skipn_firstn_comm. change (80 - 22) with 58. rewrite firstn_firstn. change (Nat.min 58 58) with 58.
    unfold stl_name_field. rewrite <- app_assoc. reflexivity.
Qed.

Section Body.
Context {F G : Type}.
Variable f32_le : F -> list N.
Variable dec : list N -> option G.
Variable rnd : F -> G.
Definition f32_ok (x : F) : Prop := length (f32_le x) = 4 /\ dec (f32_le x) = Some (rnd x).
Definition f32_ok3 (p : vec3 F) : Prop := f32_ok (x3 p) /\ f32_ok (y3 p) /\ f32_ok (z3 p).
Definition point_bytes (p : vec3 F) : list N := f32_le (x3 p) ++ f32_le (y3 p) ++ f32_le (z3 p).
Lemma point_bytes_length p : f32_ok3 p -> length (point_bytes p) = 12.
Proof. intros ((A & _) & (B & _) & (C & _)). unfold point_bytes. rewrite !app_length, A, B, C. reflexivity. Qed.
Lemma point_bytes_read p : f32_ok3 p -> stl_point dec (point_bytes p) = Some (round3 rnd p).
Proof.
  intros ((A & A') & (B & B') & (C & C')). unfold stl_point, point_bytes.
  pose proof (slice_mid 0 4 [] (f32_le (x3 p)) (f32_le (y3 p) ++ f32_le (z3 p)) eq_refl (eq_sym A)) as S0. cbn [app] in S0. rewrite S0. clear S0.
  rewrite (slice_mid 4 4 (f32_le (x3 p)) (f32_le (y3 p)) (f32_le (z3 p))) by auto.
  rewrite (app_assoc (f32_le (x3 p))). rewrite (slice_app_r 8 4 (f32_le (x3 p) ++ f32_le (y3 p)) (f32_le (z3 p))) by (rewrite ?app_length; lia).
  rewrite A', B', C'. reflexivity.
Qed.
Definition tri_bytes (t : vec3 F * vec3 F * vec3 F) : list N := let '(p, q, r) := t in repeat 0%N 12 ++ (point_bytes p ++ point_bytes q ++ point_bytes r ++ []) ++ [0; 0]%N.
Definition tri_ok (t : vec3 F * vec3 F * vec3 F) : Prop := let '(p, q, r) := t in f32_ok3 p /\ f32_ok3 q /\ f32_ok3 r.
Definition round9 (t : vec3 F * vec3 F * vec3 F) : vec3 G * vec3 G * vec3 G := let '(p, q, r) := t in (round3 rnd p, round3 rnd q, round3 rnd r).
Lemma tri_bytes_length t : tri_ok t -> length (tri_bytes t) = 50.
Proof. destruct t as [[p q] r]. intros (A & B & C). cbn [tri_bytes]. rewrite !app_length, repeat_length, !point_bytes_length by assumption. reflexivity. Qed.
Lemma tri_bytes_read t : tri_ok t -> stl_record dec (tri_bytes t) = Some (round9 t).
Proof.
  destruct t as [[p q] r]. intros (A & B & C). unfold tri_bytes, round9, stl_record. rewrite app_nil_r.
  pose proof (point_bytes_length p A) as LA. pose proof (point_bytes_length q B) as LB. pose proof (point_bytes_length r C) as LC. 
  rewrite <- !app_assoc.
  rewrite (slice_mid 12 12 (repeat 0%N 12) (point_bytes p)) by (rewrite ?repeat_length; auto).
  rewrite (app_assoc (repeat 0%N 12)). rewrite (slice_mid 24 12 (repeat 0%N 12 ++ point_bytes p) (point_bytes q)) by (rewrite ?app_length, ?repeat_length; lia).
  rewrite (app_assoc (repeat 0%N 12 ++ point_bytes p)). rewrite (slice_mid 36 12 ((repeat 0%N 12 ++ point_bytes p) ++ point_bytes q) (point_bytes r)) by (rewrite ?app_length, ?repeat_length; lia).
  rewrite !point_bytes_read by assumption. reflexivity.
Qed.
Lemma records_length ts : Forall tri_ok ts -> length (flat_map tri_bytes ts) = 50 * length ts.
Proof. induction 1 as [|t ts Ht _ IH]; [reflexivity|]. cbn [flat_map length]. rewrite app_length, tri_bytes_length, IH by assumption. lia. Qed.
Lemma records_read ts : forall pre, Forall tri_ok ts ->
  all_some (map (fun i => stl_record dec (slice (length pre + 50 * i) 50 (pre ++ flat_map tri_bytes ts))) (seq 0 (length ts))) = Some (map round9 ts).
Proof.
  induction ts as [|t ts IH]; intros pre H; [reflexivity|]. inversion H as [|? ? Ht Hts]; subst. cbn [length seq map all_some flat_map].
  rewrite (slice_mid _ 50 pre (tri_bytes t)) by (rewrite ?tri_bytes_length; auto; lia). rewrite tri_bytes_read by assumption.
  rewrite <- seq_shift, map_map. specialize (IH (pre ++ tri_bytes t) Hts). rewrite app_length, tri_bytes_length, <- app_assoc in IH by assumption.
  erewrite map_ext; [rewrite IH; reflexivity|]. intros i. cbn beta. do 2 f_equal. lia.
Qed.

(** what the writer writes for a mesh *)
Definition picked (m : TriangleMesh F) (T : list (N * N * N)) (ts : list (vec3 F * vec3 F * vec3 F)) : Prop :=
  Forall2 (fun '(a, b, c) '(p, q, r) => nth_error (m_vertices m) (N.to_nat a) = Some p /\ nth_error (m_vertices m) (N.to_nat b) = Some q /\ nth_error (m_vertices m) (N.to_nat c) = Some r) T ts.
Lemma picked_ex m T : Forall (fun k => N.to_nat k < length (m_vertices m)) (flat3 T) -> exists ts, picked m T ts.
Proof.
  induction T as [|[[a b] c] T IH]; intros H; [exists []; constructor|]. cbn in H. inversion H as [|? ? Ha H1]; subst. inversion H1 as [|? ? Hb H2]; subst. inversion H2 as [|? ? Hc H3]; subst.
  destruct (IH H3) as (ts & K). apply nth_error_Some in Ha, Hb, Hc.
  destruct (nth_error (m_vertices m) (N.to_nat a)) as [p|] eqn:Ea; [|easy]. destruct (nth_error (m_vertices m) (N.to_nat b)) as [q|] eqn:Eb; [|easy]. destruct (nth_error (m_vertices m) (N.to_nat c)) as [r|] eqn:Ec; [|easy].
  exists ((p, q, r) :: ts). constructor; auto.
Qed.
Lemma stl_vertex_Ok vs k p : nth_error vs (N.to_nat k) = Some p -> stl_vertex f32_le vs k = Ok (point_bytes p).
Proof. intros H. unfold stl_vertex, idx. now rewrite H. Qed.
Lemma stl_face_Ok m T ts : m_triangles m = flat3 T -> picked m T ts -> stl_face f32_le m = Ok (flat_map tri_bytes ts).
Proof.
  intros E H. unfold stl_face. rewrite E, chunks3_flat3. clear E.
  assert (G0 : mapM (stl_triangle f32_le (m_vertices m)) (map (fun '(a, b, c) => [a; b; c]) T) = Ok (map tri_bytes ts)).
  { induction H as [|[[a b] c] [[p q] r] T ts (A & B & C) _ IH]; [reflexivity|]. cbn [map mapM]. unfold stl_triangle at 1. cbn [mapM].
    rewrite (stl_vertex_Ok _ _ _ A), (stl_vertex_Ok _ _ _ B), (stl_vertex_Ok _ _ _ C). cbn [obind]. rewrite IH. reflexivity. }
  rewrite G0. cbn [obind]. now rewrite flat_map_concat_map.
Qed.
Lemma stl_model_Ok ms : forall tss out n, Forall2 (fun m ts => exists T, m_triangles m = flat3 T /\ picked m T ts) ms tss ->
  foldM (fun '(out, triangle_count) face => mesh <- face ;; bytes <- stl_face f32_le mesh ;; Ok (out ++ bytes, (triangle_count + M_surface.triangle_count mesh)%nat))
       (out, n) (map Ok ms) = Ok (out ++ flat_map tri_bytes (concat tss), n + length (concat tss)).
Proof.
  intros tss out n H. revert out n. induction H as [|m ts ms tss (T & E & P) _ IH]; intros out n; [cbn; rewrite app_nil_r, Nat.add_0_r; reflexivity|].
  cbn [map foldM obind]. rewrite (stl_face_Ok m T ts E P). cbn [obind]. rewrite IH. cbn [concat]. rewrite flat_map_app, app_length, <- app_assoc. unfold triangle_count. rewrite E, flat3_length.
  assert (LT : length T = length ts) by (clear -P; induction P; cbn; congruence). rewrite (Nat.mul_comm 3), Nat.div_mul by lia. rewrite LT, Nat.add_assoc. reflexivity.
Qed.
End Body.

(** ** C51 *)
Definition triangle_total {F} (ms : list (TriangleMesh F)) : nat := fold_right plus 0 (map (fun m => length (m_triangles m) / 3) ms).
(** Layout and round trip of a written file: 80 + 4 + 50 bytes per triangle, and the
    specification reader recovers the triangles of all meshes in order. *)
Theorem C51_roundtrip {F G} (f32_le : F -> list N) (dec : list N -> option G) (rnd : F -> G) (name : list (list N)) (ms : list (TriangleMesh F)) :
  utf8 name -> Forall in_range ms -> Forall (fun m => Forall (f32_ok3 f32_le dec rnd) (m_vertices m)) ms -> (N.of_nat (triangle_total ms) < 2 ^ 32)%N ->
  exists file tss, model_save_as_stl f32_le name (map Ok ms) = Ok file /\
    length file = 84 + 50 * triangle_total ms /\ firstn 80 file = stl_header name /\ slice 80 4 file = u32_le (N.of_nat (triangle_total ms)) /\
    read_stl dec file = Some (concat tss) /\ Forall2 (mesh_triangles rnd) ms tss.
Proof.
  intros Hn Hr Hf Ht.
  assert (exists tss, Forall2 (fun m ts => (exists T, m_triangles m = flat3 T /\ picked m T ts) /\ Forall (tri_ok f32_le dec rnd) ts) ms tss) as (tss & K).
  { clear Ht. induction Hr as [|m ms [H3 Hi] _ IH]; [exists []; constructor|]. inversion Hf as [|? ? Hm Hf']; subst. destruct (IH Hf') as (tss & K).
    destruct (flat3_of _ H3) as [T E]. rewrite E in Hi. destruct (picked_ex m T Hi) as (ts & P). exists (ts :: tss). constructor; [|exact K]. split; [eauto|].
    clear -P Hm. rewrite Forall_forall in Hm. induction P as [|[[a b] c] [[p q] r] T ts (A & B & C) _ IH]; constructor; [|exact IH]. repeat split; eapply Hm; eapply nth_error_In; eassumption. }
  assert (K1 : Forall2 (fun m ts => exists T, m_triangles m = flat3 T /\ picked m T ts) ms tss) by (clear -K; induction K as [|? ? ? ? [? ?]]; constructor; auto).
  assert (K2 : Forall (tri_ok f32_le dec rnd) (concat tss)) by (clear -K; induction K as [|? ? ? ? [? ?]]; cbn [concat]; [constructor|apply Forall_app; auto]).
  assert (Ln : triangle_total ms = length (concat tss)).
  { clear -K1. unfold triangle_total. induction K1 as [|m ts ms tss (T & E & P) _ IH]; [reflexivity|]. cbn [map fold_right concat]. rewrite app_length, IH, E, flat3_length.
    assert (L : length T = length ts) by (clear -P; induction P; cbn; congruence). rewrite (Nat.mul_comm 3), Nat.div_mul by lia. now rewrite L. }
  assert (LH : length (stl_header name) = 80) by now apply C51_header.
  pose (count := u32_le (N.of_nat (triangle_total ms))).
  exists (stl_header name ++ count ++ flat_map (tri_bytes f32_le) (concat tss)), (map (map (round9 rnd)) tss). split; [|split; [|split; [|split; [|split]]]].
  - unfold model_save_as_stl. rewrite (stl_model_Ok f32_le ms tss _ _ K1). cbn [obind]. unfold overwrite. f_equal. rewrite <- app_assoc. rewrite <- Ln. rewrite as_u32_small by assumption. cbn [plus].
    rewrite (firstn_app 80), LH, Nat.sub_diag, (firstn_all2 (stl_header name)) by lia. cbn [firstn]. rewrite app_nil_r. f_equal. fold count. f_equal.
    change (length count) with 4. change (80 + 4) with 84. rewrite skipn_app, LH. rewrite (skipn_all2 (stl_header name)) by lia. reflexivity.
  - rewrite !app_length, LH, (records_length f32_le dec rnd _ K2), <- Ln. change (length count) with 4. lia.
  - rewrite firstn_app, LH, Nat.sub_diag, firstn_all2 by lia. cbn [firstn]. apply app_nil_r.
  - apply slice_mid; [now rewrite LH|reflexivity].
  - unfold read_stl. rewrite (slice_mid 80 4 _ count) by (rewrite ?LH; reflexivity). 
    assert (LV : N.to_nat (le_value count) = triangle_total ms) by (unfold count; rewrite u32_le_value by assumption; apply Nat2N.id). rewrite LV.
    rewrite !app_length, LH, (records_length f32_le dec rnd _ K2), <- Ln. change (length count) with 4.
    replace (80 + (4 + 50 * triangle_total ms) =? 84 + 50 * triangle_total ms) with true by (symmetry; apply Nat.eqb_eq; lia).
    pose proof (records_read f32_le dec rnd (concat tss) (stl_header name ++ count) K2) as R. rewrite app_length, LH, <- app_assoc, <- Ln in R. change (80 + length count) with 84 in R.
    rewrite R. f_equal. apply concat_map.
  - clear -K1. induction K1 as [|m ts ms tss (T & E & P) _ IH]; [constructor|]. cbn [map]. constructor; [|exact IH]. exists T. split; [exact E|].
    clear -P. induction P as [|[[a b] c] [[p q] r] T ts (A & B & C) _ IH]; [constructor|]. cbn [map]. constructor; [|exact IH]. cbn [round9]. exists p, q, r. repeat split; assumption.
Qed.
(** An index list that is not a multiple of 3 long gives a file no reader of the format accepts:
    the count is rounded down, but a short record is written for the rest. *)
Theorem C51_ragged {F G} (f32_le : F -> list N) (dec : list N -> option G) (name : list (list N)) (m : TriangleMesh F) file :
  utf8 name -> (forall x, length (f32_le x) = 4) -> (N.of_nat (length (m_triangles m)) < 2 ^ 32)%N -> length (m_triangles m) mod 3 <> 0 ->
  model_save_as_stl f32_le name [Ok m] = Ok file -> read_stl dec file = None.
Proof.
  intros Hn H4 Hb Hr E. unfold model_save_as_stl in E. cbn [foldM obind] in E. bindas E st Es. bindas Es st' Es'. bindas Es' bs Eb. apply Ok_inj in Es'. subst st'. apply Ok_inj in Es. subst st. apply Ok_inj in E. subst file.
  assert (LH : length (stl_header name) = 80) by now apply C51_header.
  assert (L : exists k, length bs = 50 * (length (m_triangles m) / 3) + S k).
  { unfold stl_face in Eb. bindas Eb ts Et. apply Ok_inj in Eb. subst bs. apply mapM_inv in Et.
    assert (LT : Forall2 (fun t b => length b = 14 + 12 * length t) (chunks3 (m_triangles m)) ts).
    { clear -Et H4. induction Et as [|t b l ts Hb _ IH]; constructor; [|exact IH]. unfold stl_triangle in Hb. bindas Hb vs Ev. apply Ok_inj in Hb. subst b. apply mapM_inv in Ev.
      rewrite !app_length, repeat_length. cbn [length]. replace (length (concat vs)) with (12 * length t); [lia|].
      clear -Ev H4. induction Ev as [|k v l vs Hv _ IH]; [reflexivity|]. cbn [concat length]. rewrite app_length, <- IH. unfold stl_vertex in Hv. bindas Hv p Ep. apply Ok_inj in Hv. subst v. rewrite !app_length, !H4. lia. }
    clear -LT Hr. remember (m_triangles m) as l eqn:El. clear El m. revert ts LT Hr. induction l as [|x|x y|a b c l IH] using list3_ind; intros ts LT Hr; [now contradict Hr| | |].
    - cbn [chunks3] in LT. inversion LT as [|? b0 ? ? Hb0 Ht]; subst. inversion Ht; subst. cbn [concat length] in *. rewrite app_length, Hb0. exists 25. reflexivity.
    - cbn [chunks3] in LT. inversion LT as [|? b0 ? ? Hb0 Ht]; subst. inversion Ht; subst. cbn [concat length] in *. rewrite app_length, Hb0. exists 37. reflexivity.
    - cbn [chunks3] in LT. inversion LT as [|? b0 ? ts' Hb0 Ht]; subst. cbn [length] in Hr. replace (S (S (S (length l)))) with (length l + 1 * 3) in Hr by lia. rewrite Nat.mod_add in Hr by lia.
      destruct (IH ts' Ht Hr) as [k K]. exists k. cbn [concat length]. rewrite app_length, K, Hb0. cbn [length].
      replace (S (S (S (length l)))) with (length l + 1 * 3) by lia. rewrite Nat.div_add by lia. lia. }
  destruct L as [k L]. unfold read_stl, overwrite, triangle_count in *. cbn [plus].
  assert (Hc : (N.of_nat (length (m_triangles m) / 3) < 2 ^ 32)%N) by (pose proof (Nat.div_le_upper_bound (length (m_triangles m)) 3 (length (m_triangles m)) ltac:(lia) ltac:(lia)); lia).
  rewrite as_u32_small by assumption. set (cnt := u32_le (N.of_nat (length (m_triangles m) / 3))).
  rewrite <- app_assoc, (firstn_app 80), LH, Nat.sub_diag, (firstn_all2 (stl_header name)) by lia. cbn [firstn]. rewrite app_nil_r.
  rewrite (slice_mid 80 4 _ cnt) by (rewrite ?LH; reflexivity). rewrite !app_length, LH, skipn_length, !app_length, LH. 
  assert (LV : N.to_nat (le_value cnt) = length (m_triangles m) / 3) by (unfold cnt; rewrite u32_le_value by assumption; apply Nat2N.id). rewrite LV.
  change (length cnt) with 4. change (length (u32_le 0)) with 4. rewrite L. match goal with |- (if ?a =? ?b then _ else _) = _ => destruct (Nat.eqb_spec a b) as [C|C] end; [lia|reflexivity].
Qed.

(** ** Single precision numbers *)
(** the number of a bit pattern: sign, exponent and mantissa fields of IEEE 754 binary32 *)
Definition f32_dec (b : list N) : option spec_float :=
  if negb (length b =? 4) then None else
  let v := le_value b in
  let s := (2 ^ 31 <=? v)%N in
  let e := (v / 2 ^ 23 mod 256)%N in
  let m := (v mod 2 ^ 23)%N in
  if (e =? 255)%N then (if (m =? 0)%N then Some (S754_infinity s) else Some S754_nan)
  else if (e =? 0)%N then match m with N0 => Some (S754_zero s) | Npos p => Some (S754_finite s p (-149)) end
  else match (m + 2 ^ 23)%N with N0 => None | Npos p => Some (S754_finite s p (Z.of_N e - 150)) end.
Lemma f64_as_f32_valid x : valid_binary 24 128 (f64_as_f32 x) = true.
Proof.
  destruct x as [s|s| |s m e]; try reflexivity. unfold f64_as_f32. pose proof (binary_round_rounded 24 128 ltac:(lia) ltac:(lia) s m e) as [H _].
  destruct (binary_round 24 128 s m e) as [s0|s0| |s0 m0 e0]; try reflexivity. apply H.
Qed.
Lemma f32_bits_dec x : valid_binary 24 128 x = true -> f32_dec (u32_le (f32_bits x)) = Some x.
Proof.
  intros H. unfold f32_dec. change (negb (length (u32_le (f32_bits x)) =? 4)) with false. cbv iota.
  destruct x as [s|s| |s m e]; [destruct s; reflexivity..|reflexivity|].
  destruct (number_mantissa 24 128 s m e (conj eq_refl H)) as (A & B & C & _). change (emin 24 128) with (-149)%Z in *. change (128 - 24)%Z with 104%Z in B. change (2 ^ 24)%Z with 16777216%Z in A. change (2 ^ (24 - 1))%Z with 8388608%Z in C.
  cbn [f32_bits]. set (k := Z.to_N (e + 149)). assert (Hk : (k <= 253)%N) by lia. change (2 ^ 23)%N with 8388608%N. change (2 ^ 31)%N with 2147483648%N.
  set (v := ((if s then 2147483648 else 0) + k * 8388608 + N.pos m)%N).
  assert (Hv : (v < 2 ^ 32)%N) by (change (2 ^ 32)%N with 4294967296%N; unfold v; destruct s; lia). rewrite u32_le_value by exact Hv.
  assert (Hs : (2147483648 <=? v)%N = s).
  { unfold v. destruct s; [apply N.leb_le; lia|apply N.leb_gt; lia]. }
  destruct (Z_lt_le_dec (Zpos m) 8388608) as [Sub|Nor].
  - assert (e = (-149)%Z) by lia. assert (k = 0%N) by lia.
    assert (Eq : (v / 8388608 mod 256 = 0)%N).
    { replace v with (N.pos m + (if s then 256 else 0) * 8388608)%N by (unfold v; destruct s; lia). rewrite N.div_add by lia. rewrite (N.div_small (N.pos m)) by lia. destruct s; reflexivity. }
    assert (Em : (v mod 8388608 = N.pos m)%N).
    { replace v with (N.pos m + (if s then 256 else 0) * 8388608)%N by (unfold v; destruct s; lia). rewrite N.mod_add by lia. apply N.mod_small. lia. }
    rewrite Eq, Em, Hs. cbn. now subst e.
  - assert (Hr : exists r, N.pos m = (8388608 + r)%N /\ (r < 8388608)%N) by (exists (N.pos m - 8388608)%N; lia). destruct Hr as (r & Er & Lr).
    assert (Eq : (v / 8388608 mod 256 = k + 1)%N).
    { replace v with (r + ((if s then 256 else 0) + (k + 1)) * 8388608)%N by (unfold v; destruct s; lia). rewrite N.div_add by lia. rewrite (N.div_small r) by lia. rewrite N.add_0_l.
      replace ((if s then 256 else 0) + (k + 1))%N with ((k + 1) + (if s then 1 else 0) * 256)%N by (destruct s; lia). rewrite N.mod_add by lia. apply N.mod_small. lia. }
    assert (Em : (v mod 8388608 = r)%N).
    { replace v with (r + ((if s then 256 else 0) + (k + 1)) * 8388608)%N by (unfold v; destruct s; lia). rewrite N.mod_add by lia. now apply N.mod_small. }
    rewrite Eq, Em, Hs. destruct (N.eqb_spec (k + 1) 255) as [K|_]; [lia|]. destruct (N.eqb_spec (k + 1) 0) as [K|_]; [lia|].
    replace (r + 8388608)%N with (N.pos m) by lia. f_equal. f_equal. lia.
Qed.
(** The bytes written for a coordinate are those of a single precision number; unless the
    coordinate overflows, it is within half a unit in the last place of the coordinate. *)
Theorem C51_single_precision (x : f64) :
  f32_ok f64_f32_le f32_dec f64_as_f32 x /\
  (number 53 1024 x -> (Rabs (B2R x) < pow2 127)%R ->
   number 24 128 (f64_as_f32 x) /\ (Rabs (B2R (f64_as_f32 x) - B2R x) <= Rmax (pow2 (-24) * Rabs (B2R x)) (pow2 (-150)))%R).
Proof.
  split.
  - split; [reflexivity|]. apply f32_bits_dec, f64_as_f32_valid.
  - intros Hx Hb. destruct x as [s|s| |s m e]; try (destruct Hx; discriminate).
    + split; [apply number_zero|]. cbn [f64_as_f32 B2R]. rewrite Rminus_0_r, Rabs_R0. eapply Rle_trans; [|apply Rmax_r]. left. apply pow2_pos.
    + destruct (rounded_number 24 128 (f64_as_f32 (S754_finite s m e)) (B2R (S754_finite s m e))) as (A & B & _); [|exact Hb|split; [exact A|exact B]].
      apply binary_round_rounded; lia.
Qed.

(** a tetrahedron and a square in a file with a long name *)
Definition z64 (x y z : Z) : vec3 f64 := V3 (SFdiv p64 e64 (f64_of_Z x) (f64_of_Z 10)) (f64_of_Z y) (f64_of_Z z).
Definition ex_stl : list (TriangleMesh f64) :=
  [mkTM [z64 0 0 0; z64 1 0 0; z64 0 1 0; z64 0 0 (-3)] [] [0; 1; 2; 0; 3; 1; 0; 2; 3; 1; 3; 2]%N; mkTM [z64 5 0 0; z64 6 0 0; z64 6 1 0; z64 5 1 0] [] [0; 1; 2; 2; 3; 0]%N].
Example C51_roundtrip_nonvacuous :
  let name := repeat [195; 169]%N 70 in
  utf8 name /\ Forall in_range ex_stl /\ (forall m, In m ex_stl -> Forall (f32_ok3 f64_f32_le f32_dec f64_as_f32) (m_vertices m)) /\
  exists file, model_save_as_stl f64_f32_le name (map Ok ex_stl) = Ok file /\ length file = 384 /\
    option_map (fun l => nth_error l 5) (read_stl f32_dec file) =
      Some (Some (V3 (S754_finite false 10066330 (-24)) (S754_finite false 8388608 (-23)) (S754_zero false),
                  V3 (S754_finite false 8388608 (-24)) (S754_finite false 8388608 (-23)) (S754_zero false),
                  V3 (S754_finite false 8388608 (-24)) (S754_zero false) (S754_zero false))).
Proof.
  cbv zeta. split; [|split; [|split]].
  - apply Forall_forall. intros c Hc. apply repeat_spec in Hc. now subst c.
  - repeat constructor.
  - intros m _. apply Forall_forall. intros p _. repeat split; try apply C51_single_precision.
  - match goal with |- exists f, ?e = Ok f /\ _ => let r := eval vm_compute in e in match r with Ok ?f => exists f end end. split; [vm_compute; reflexivity|]. split; vm_compute; reflexivity.
Qed.
