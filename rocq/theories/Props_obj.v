(** Property C50: OBJ files. *)
From Coq Require Import Lia Arith ZArith List DecimalN.
From Verif Require Import Prelude Num M_vec M_utils M_curve M_surface M_files L_base L_polygon Props_gridmesh.
Open Scope nat_scope.

(** ** Specification: reading an OBJ file *)
(** pieces of a text between the occurrences of a character *)
Fixpoint cut (c : N) (s : list N) : list (list N) :=
  match s with
  | [] => [[]]
  | x :: t => if (x =? c)%N then [] :: cut c t else match cut c t with w :: ws => (x :: w) :: ws | [] => [[x]] end
  end.
Definition digit (c : N) : option N := if ((48 <=? c) && (c <=? 57))%N then Some (c - 48)%N else None.
(** a decimal number *)
Fixpoint decimal_from (acc : N) (s : list N) : option N :=
  match s with
  | [] => Some acc
  | c :: t => match digit c with Some d => decimal_from (acc * 10 + d)%N t | None => None end
  end.
Definition decimal (s : list N) : option N := match s with [] => None | _ => decimal_from 0 s end.

Section Read.
Context {F : Type}.
Variable parse : list N -> option F.
(** the records of a file that concern faces: "v", "vn" and "f"; others are ignored *)
Inductive obj_record :=
| RV (p : vec3 F) | RN (p : vec3 F) | RF (corners : list (N * option N)) | ROther.
Definition corner_of (w : list N) : option (N * option N) :=
  match cut ch_slash w with
  | [a] => match decimal a with Some a => Some (a, None) | None => None end
  | [a; _] => match decimal a with Some a => Some (a, None) | None => None end
  | [a; _; n] => match decimal a, decimal n with Some a, Some n => Some (a, Some n) | _, _ => None end
  | _ => None
  end.
Fixpoint all_some {A} (l : list (option A)) : option (list A) :=
  match l with
  | [] => Some []
  | Some x :: t => match all_some t with Some r => Some (x :: r) | None => None end
  | None :: _ => None
  end.
Definition coords (x y z : list N) : option (vec3 F) :=
  match parse x, parse y, parse z with Some x, Some y, Some z => Some (V3 x y z) | _, _, _ => None end.
Definition record_of (line : list N) : option obj_record :=
  match cut ch_sp line with
  | [[k]; x; y; z] =>
      if (k =? ch_v)%N then match coords x y z with Some p => Some (RV p) | None => None end
      else if (k =? ch_f)%N then match all_some (map corner_of [x; y; z]) with Some cs => Some (RF cs) | None => None end else Some ROther
  | [[k; k']; x; y; z] => if ((k =? ch_v) && (k' =? ch_n))%N then match coords x y z with Some p => Some (RN p) | None => None end else Some ROther
  | [k] :: ws => if (k =? ch_f)%N then match all_some (map corner_of ws) with Some cs => Some (RF cs) | None => None end else Some ROther
  | _ => Some ROther
  end.
Definition file_vertices (rs : list obj_record) : list (vec3 F) := flat_map (fun r => match r with RV p => [p] | _ => [] end) rs.
Definition file_normals (rs : list obj_record) : list (vec3 F) := flat_map (fun r => match r with RN p => [p] | _ => [] end) rs.
(** 1-based reference into the whole file *)
Definition refer {A} (l : list A) (k : N) : option A := if (k =? 0)%N then None else nth_error l (N.to_nat k - 1).
Definition resolve (vs ns : list (vec3 F)) (c : N * option N) : option (vec3 F * option (vec3 F)) :=
  match refer vs (fst c) with
  | None => None
  | Some p => match snd c with None => Some (p, None) | Some k => match refer ns k with Some n => Some (p, Some n) | None => None end end
  end.
Definition faces_of (rs : list obj_record) : option (list (list (vec3 F * option (vec3 F)))) :=
  all_some (flat_map (fun r => match r with RF cs => [all_some (map (resolve (file_vertices rs) (file_normals rs)) cs)] | _ => [] end) rs).
(** the faces of the text of a file, with the position (and normal, if any) of each corner *)
Definition read_obj (text : list N) : option (list (list (vec3 F * option (vec3 F)))) :=
  match all_some (map record_of (removelast (cut ch_nl text))) with Some rs => faces_of rs | None => None end.

(** the triangles of a mesh *)
Definition corner (m : TriangleMesh F) (k : N) (p : vec3 F * option (vec3 F)) : Prop :=
  nth_error (m_vertices m) (N.to_nat k) = Some (fst p) /\
  match m_normals m with [] => snd p = None | ns => exists n, nth_error ns (N.to_nat k) = Some n /\ snd p = Some n end.
Definition mesh_faces (m : TriangleMesh F) (T : list (N * N * N)) (fs : list (list (vec3 F * option (vec3 F)))) : Prop :=
  m_triangles m = flat3 T /\ Forall2 (fun '(a, b, c) f => exists pa pb pc, f = [pa; pb; pc] /\ corner m a pa /\ corner m b pb /\ corner m c pc) T fs.
Definition valid_mesh (m : TriangleMesh F) : Prop :=
  exists T, m_triangles m = flat3 T /\ Forall (fun '(a, b, c) => forall k, k = a \/ k = b \/ k = c -> N.to_nat k < length (m_vertices m) /\ (m_normals m = [] \/ N.to_nat k < length (m_normals m))) T.
End Read.
Arguments obj_record : clear implicits.

(** ** Texts *)
Lemma cut_nosep c w : Forall (fun x => x <> c) w -> cut c w = [w].
Proof. induction 1 as [|x w Hx _ IH]; [reflexivity|]. cbn. destruct (N.eqb_spec x c); [congruence|]. now rewrite IH. Qed.
Lemma cut_app c w t : Forall (fun x => x <> c) w -> cut c (w ++ c :: t) = w :: cut c t.
Proof.
  induction 1 as [|x w Hx _ IH]; [cbn; now rewrite N.eqb_refl|]. cbn. destruct (N.eqb_spec x c); [congruence|]. now rewrite IH.
Qed.
Lemma cut_lines c ls : Forall (Forall (fun x => x <> c)) ls -> removelast (cut c (flat_map (fun l => l ++ [c]) ls)) = ls.
Proof.
  intros H. assert (G : cut c (flat_map (fun l => l ++ [c]) ls) = ls ++ [[]]).
  { induction H as [|l ls Hl _ IH]; [reflexivity|]. cbn [flat_map]. rewrite <- app_assoc. cbn [app]. rewrite cut_app, IH by exact Hl. reflexivity. }
  rewrite G, removelast_app by discriminate. cbn. apply app_nil_r.
Qed.
Definition is_digit (c : N) : Prop := (48 <= c <= 57)%N.
Lemma uint_chars_digits u : Forall is_digit (uint_chars u).
Proof. induction u; cbn; constructor; auto; unfold is_digit; lia. Qed.
Lemma uint_chars_decimal u : forall acc, decimal_from (Npos acc) (uint_chars u) = Some (Npos (Pos.of_uint_acc u acc)).
Proof.
  induction u; intros acc; [reflexivity|..]; cbn [uint_chars decimal_from Pos.of_uint_acc]; rewrite <- IHu; unfold digit;
    match goal with |- match (if ?b then _ else _) with _ => _ end = _ => change b with true end; cbv iota; f_equal; lia.
Qed.
Lemma uint_chars_decimal0 u : decimal_from 0 (uint_chars u) = Some (N.of_uint u).
Proof.
  unfold N.of_uint. induction u; [reflexivity|exact IHu|..]; cbn [uint_chars decimal_from Pos.of_uint]; rewrite <- uint_chars_decimal; reflexivity.
Qed.
Lemma uint_chars_nonempty u : u <> Decimal.Nil -> uint_chars u <> [].
Proof. destruct u; cbn; congruence. Qed.
Lemma u32_decimal n : decimal (u32_chars n) = Some n.
Proof.
  unfold decimal. destruct (u32_chars n) as [|c t] eqn:E.
  - exfalso. unfold u32_chars in E. revert E. apply uint_chars_nonempty. destruct n; [discriminate|]. apply DecimalPos.Unsigned.to_uint_nonnil.
  - rewrite <- E. unfold u32_chars. rewrite uint_chars_decimal0. now rewrite DecimalN.Unsigned.of_to.
Qed.
Lemma u32_chars_no n c : ~ is_digit c -> Forall (fun x => x <> c) (u32_chars n).
Proof. intros H. eapply Forall_impl; [|apply uint_chars_digits]. intros x Hx ->. contradiction. Qed.
Lemma corner_no c k : ~ is_digit c -> c <> ch_slash -> Forall (fun x => x <> c) (corner_chars k).
Proof.
  intros H1 H2. unfold corner_chars. destruct (snd k) as [n|]; [|now apply u32_chars_no].
  apply Forall_app. split; [now apply u32_chars_no|]. constructor; [congruence|]. constructor; [congruence|]. now apply u32_chars_no.
Qed.
Lemma corner_roundtrip k : corner_of (corner_chars k) = Some k.
Proof.
  destruct k as [a [n|]]; unfold corner_of, corner_chars; cbn [fst snd].
  - cbn [app]. rewrite cut_app by (apply u32_chars_no; unfold is_digit, ch_slash; lia). cbn [cut]. rewrite N.eqb_refl, cut_nosep by (apply u32_chars_no; unfold is_digit, ch_slash; lia). now rewrite !u32_decimal.
  - rewrite cut_nosep by (apply u32_chars_no; unfold is_digit, ch_slash; lia). now rewrite u32_decimal.
Qed.

Section Write.
Context {F : Type}.
Variable fmt : F -> list N.
Variable parse : list N -> option F.
(** the text of a number reads back as the number and contains no blank or line end *)
Definition faithful (x : F) : Prop := parse (fmt x) = Some x /\ Forall (fun c => c <> ch_sp) (fmt x) /\ Forall (fun c => c <> ch_nl) (fmt x).
Definition faithful3 (p : vec3 F) : Prop := faithful (x3 p) /\ faithful (y3 p) /\ faithful (z3 p).

Definition rec_of (l : obj_line F) : obj_record F :=
  match l with ObjV x y z => RV (V3 x y z) | ObjVN x y z => RN (V3 x y z) | ObjF cs => RF cs | ObjL _ _ => ROther end.
Definition line_ok (l : obj_line F) : Prop :=
  match l with ObjV x y z | ObjVN x y z => faithful3 (V3 x y z) | ObjF cs => length cs = 3 | ObjL _ _ => True end.
Definition line_text (l : obj_line F) : list N :=
  match l with
  | ObjV x y z => [ch_v; ch_sp] ++ fmt x ++ [ch_sp] ++ fmt y ++ [ch_sp] ++ fmt z
  | ObjVN x y z => [ch_v; ch_n; ch_sp] ++ fmt x ++ [ch_sp] ++ fmt y ++ [ch_sp] ++ fmt z
  | ObjF cs => [ch_f] ++ flat_map (fun c => ch_sp :: corner_chars c) cs
  | ObjL a b => [ch_l; ch_sp] ++ u32_chars a ++ [ch_sp] ++ u32_chars b
  end.
Lemma line_text_nl l : obj_line_chars fmt l = line_text l ++ [ch_nl].
Proof. destruct l; cbn [obj_line_chars line_text]; rewrite <- ?app_assoc; cbn [app]; rewrite <- ?app_assoc; cbn [app]; rewrite <- ?app_assoc; reflexivity. Qed.
Lemma line_text_no_nl l : line_ok l -> Forall (fun c => c <> ch_nl) (line_text l).
Proof.
  destruct l as [x y z|x y z|cs|a b]; cbn [line_ok line_text].
  - intros ((_ & _ & A) & (_ & _ & B) & (_ & _ & C)). cbn [x3 y3 z3] in *. repeat (apply Forall_app; split; auto); repeat (constructor; try discriminate).
  - intros ((_ & _ & A) & (_ & _ & B) & (_ & _ & C)). cbn [x3 y3 z3] in *. repeat (apply Forall_app; split; auto); repeat (constructor; try discriminate).
  - intros _. constructor; [discriminate|]. induction cs as [|c cs IH]; [constructor|]. cbn [flat_map app]. constructor; [discriminate|]. apply Forall_app. split; [|exact IH]. apply corner_no; [unfold is_digit, ch_nl; lia|discriminate].
  - intros _. assert (K : forall n, Forall (fun x => x <> ch_nl) (u32_chars n)) by (intros n; apply u32_chars_no; unfold is_digit, ch_nl; lia).
    repeat (apply Forall_app; split; auto); repeat (constructor; try discriminate).
Qed.
Lemma record_roundtrip l : line_ok l -> record_of parse (line_text l) = Some (rec_of l).
Proof.
  destruct l as [x y z|x y z|cs|a b]; cbn [line_ok line_text rec_of].
  - intros ((Px & A & _) & (Py & B & _) & (Pz & C & _)). cbn [x3 y3 z3] in *. unfold record_of.
    change ([ch_v; ch_sp] ++ fmt x ++ [ch_sp] ++ fmt y ++ [ch_sp] ++ fmt z) with ([ch_v] ++ ch_sp :: (fmt x ++ ch_sp :: (fmt y ++ ch_sp :: fmt z))).
    rewrite cut_app by (repeat constructor; discriminate). rewrite !cut_app, cut_nosep by assumption. unfold coords. now rewrite Px, Py, Pz.
  - intros ((Px & A & _) & (Py & B & _) & (Pz & C & _)). cbn [x3 y3 z3] in *. unfold record_of.
    change ([ch_v; ch_n; ch_sp] ++ fmt x ++ [ch_sp] ++ fmt y ++ [ch_sp] ++ fmt z) with ([ch_v; ch_n] ++ ch_sp :: (fmt x ++ ch_sp :: (fmt y ++ ch_sp :: fmt z))).
    rewrite cut_app by (repeat constructor; discriminate). rewrite !cut_app, cut_nosep by assumption. unfold coords. now rewrite Px, Py, Pz.
  - intros H. destruct cs as [|c1 [|c2 [|c3 [|]]]]; try discriminate. unfold record_of. cbn [flat_map app]. rewrite app_nil_r.
    change (ch_f :: ch_sp :: corner_chars c1 ++ ch_sp :: corner_chars c2 ++ ch_sp :: corner_chars c3) with ([ch_f] ++ ch_sp :: (corner_chars c1 ++ ch_sp :: (corner_chars c2 ++ ch_sp :: corner_chars c3))).
    assert (K : forall c, Forall (fun x => x <> ch_sp) (corner_chars c)) by (intros c; apply corner_no; [unfold is_digit, ch_sp; lia|discriminate]).
    rewrite cut_app by (repeat constructor; discriminate). rewrite !cut_app, cut_nosep by apply K. cbn [map all_some]. rewrite !corner_roundtrip. reflexivity.
  - intros _. unfold record_of. change ([ch_l; ch_sp] ++ u32_chars a ++ [ch_sp] ++ u32_chars b) with ([ch_l] ++ ch_sp :: (u32_chars a ++ ch_sp :: u32_chars b)).
    assert (K : forall n, Forall (fun x => x <> ch_sp) (u32_chars n)) by (intros n; apply u32_chars_no; unfold is_digit, ch_sp; lia).
    rewrite cut_app by (repeat constructor; discriminate). rewrite cut_app, cut_nosep by apply K. reflexivity.
Qed.
Lemma all_some_map {A B} (f : A -> option B) (g : A -> B) l : (forall x, In x l -> f x = Some (g x)) -> all_some (map f l) = Some (map g l).
Proof. induction l as [|x l IH]; intros H; [reflexivity|]. cbn. rewrite (H x) by now left. rewrite IH by (intros; apply H; now right). reflexivity. Qed.
Lemma file_records ls : Forall line_ok ls -> all_some (map (record_of parse) (removelast (cut ch_nl (obj_chars fmt ls)))) = Some (map rec_of ls).
Proof.
  intros H. unfold obj_chars. replace (flat_map (obj_line_chars fmt) ls) with (flat_map (fun l => l ++ [ch_nl]) (map line_text ls)).
  - rewrite cut_lines by (apply Forall_map; eapply Forall_impl; [|exact H]; apply line_text_no_nl). rewrite map_map. apply all_some_map. intros l Hl. apply record_roundtrip. rewrite Forall_forall in H. now apply H.
  - rewrite flat_map_map. apply flat_map_ext. intros l. now rewrite line_text_nl.
Qed.

(** ** What the writer writes *)
Definition fcorner (withn : bool) (vo no : N) (k : N) : N * option N := ((k + vo)%N, if withn then Some (k + no)%N else None).
Definition mesh_lines (m : TriangleMesh F) (T : list (N * N * N)) (vo no : N) : list (obj_line F) :=
  map (fun p => ObjV (x3 p) (y3 p) (z3 p)) (m_vertices m) ++ map (fun p => ObjVN (x3 p) (y3 p) (z3 p)) (m_normals m) ++
  map (fun '(a, b, c) => let f := fcorner (match m_normals m with [] => false | _ => true end) vo no in ObjF [f a; f b; f c]) T.
Definition small (m : TriangleMesh F) T (vo no : N) : Prop :=
  Forall (fun '(a, b, c) => forall k, k = a \/ k = b \/ k = c -> (k + vo < 2 ^ 32)%N /\ (m_normals m = [] \/ (k + no < 2 ^ 32)%N)) T.
Lemma u32_add_Ok a b : (a + b < 2 ^ 32)%N -> u32_add a b = Ok (a + b)%N.
Proof. intros H. unfold u32_add. destruct (N.ltb_spec (a + b) (2 ^ 32)); [reflexivity|lia]. Qed.
Lemma write_obj_Ok m T vo no : m_triangles m = flat3 T -> small m T vo no -> write_obj m vo no = Ok (mesh_lines m T vo no).
Proof.
  intros E H. unfold write_obj, mesh_lines. rewrite E, chunks3_flat3. unfold small in H. destruct (m_normals m) as [|n0 ns] eqn:En.
  - assert (G : mapM (fun t => t0 <- idx t 0 ;; a <- u32_add t0 vo ;; t1 <- idx t 1 ;; b <- u32_add t1 vo ;; t2 <- idx t 2 ;; c <- u32_add t2 vo ;; Ok (@ObjF F [(a, None); (b, None); (c, None)])) (map (fun '(a, b, c) => [a; b; c]) T)
       = Ok (map (fun '(a, b, c) => let f := fcorner false vo no in ObjF [f a; f b; f c]) T)).
    { clear E. induction H as [|[[a b] c] T Ht _ IH]; [reflexivity|]. cbn [map mapM idx nth_error obind]. rewrite !u32_add_Ok by (apply Ht; auto). cbn [obind]. rewrite IH. reflexivity. }
    rewrite G. reflexivity.
  - assert (G : mapM (fun t => t0 <- idx t 0 ;; a <- u32_add t0 vo ;; na <- u32_add t0 no ;; t1 <- idx t 1 ;; b <- u32_add t1 vo ;; nb <- u32_add t1 no ;; t2 <- idx t 2 ;; c <- u32_add t2 vo ;; nc <- u32_add t2 no ;; Ok (@ObjF F [(a, Some na); (b, Some nb); (c, Some nc)])) (map (fun '(a, b, c) => [a; b; c]) T)
       = Ok (map (fun '(a, b, c) => let f := fcorner true vo no in ObjF [f a; f b; f c]) T)).
    { clear E. induction H as [|[[a b] c] T Ht _ IH]; [reflexivity|]. cbn [map mapM idx nth_error obind].
      assert (A : forall k, k = a \/ k = b \/ k = c -> (k + vo < 2 ^ 32)%N /\ (k + no < 2 ^ 32)%N) by (intros k Hk; destruct (Ht k Hk) as [? [?|?]]; [discriminate|auto]).
      rewrite (u32_add_Ok a vo), (u32_add_Ok a no), (u32_add_Ok b vo), (u32_add_Ok b no), (u32_add_Ok c vo), (u32_add_Ok c no) by (apply A; auto). cbn [obind]. rewrite IH. reflexivity. }
    rewrite G. reflexivity.
Qed.
Fixpoint model_lines (ms : list (TriangleMesh F * list (N * N * N))) (vo no : N) : list (obj_line F) :=
  match ms with
  | [] => []
  | (m, T) :: r => mesh_lines m T vo no ++ model_lines r (vo + N.of_nat (length (m_vertices m))) (no + N.of_nat (length (m_normals m)))
  end.
Definition vtotal (ms : list (TriangleMesh F * list (N * N * N))) : nat := fold_right plus 0 (map (fun x => length (m_vertices (fst x))) ms).
Definition ntotal (ms : list (TriangleMesh F * list (N * N * N))) : nat := fold_right plus 0 (map (fun x => length (m_normals (fst x))) ms).
Definition triangles_of (x : TriangleMesh F * list (N * N * N)) : Prop :=
  m_triangles (fst x) = flat3 (snd x) /\ Forall (fun '(a, b, c) => forall k, k = a \/ k = b \/ k = c -> N.to_nat k < length (m_vertices (fst x)) /\ (m_normals (fst x) = [] \/ N.to_nat k < length (m_normals (fst x)))) (snd x).
Lemma as_u32_small n : (N.of_nat n < 2 ^ 32)%N -> as_u32 n = N.of_nat n.
Proof. intros H. unfold as_u32. now apply N.mod_small. Qed.
Lemma model_lines_Ok ms : forall vo no out, Forall triangles_of ms -> (vo + N.of_nat (vtotal ms) < 2 ^ 32)%N -> (no + N.of_nat (ntotal ms) < 2 ^ 32)%N ->
  exists vo' no', foldM (fun '(out, vertex_start, normal_start) face => mesh <- face ;; ls <- write_obj mesh vertex_start normal_start ;;
         vertex_start <- u32_add vertex_start (as_u32 (length (m_vertices mesh))) ;; normal_start <- u32_add normal_start (as_u32 (length (m_normals mesh))) ;;
         Ok (out ++ ls, vertex_start, normal_start)) (out, vo, no) (map (fun x => Ok (fst x)) ms) = Ok (out ++ model_lines ms vo no, vo', no').
Proof.
  induction ms as [|[m T] ms IH]; intros vo no out H Hv Hn.
  - exists vo, no. cbn. now rewrite app_nil_r.
  - inversion H as [|? ? [Ht HF] Hms]; subst. cbn [fst snd] in *. unfold vtotal, ntotal in Hv, Hn. cbn [map fold_right fst] in Hv, Hn. fold (vtotal ms) in Hv. fold (ntotal ms) in Hn.
    cbn [map foldM obind fst]. rewrite (write_obj_Ok m T vo no Ht). 2:{ unfold small. eapply Forall_impl; [|exact HF]. intros [[a b] c] K k Hk. destruct (K k Hk) as [K1 K2]. split; [lia|]. destruct K2; [now left|right; lia]. }
    cbn [obind]. rewrite !as_u32_small by lia. rewrite !u32_add_Ok by lia. cbn [obind].
    destruct (IH (vo + N.of_nat (length (m_vertices m)))%N (no + N.of_nat (length (m_normals m)))%N (out ++ mesh_lines m T vo no) Hms ltac:(lia) ltac:(lia)) as (vo' & no' & E).
    exists vo', no'. rewrite E. cbn [model_lines]. now rewrite app_assoc.
Qed.

(** ** Reading it back *)
Lemma mesh_vs m T vo no : file_vertices (map rec_of (mesh_lines m T vo no)) = m_vertices m.
Proof.
  unfold file_vertices, mesh_lines. rewrite !map_app, !flat_map_app, !map_map, !flat_map_map. cbn [rec_of].
  replace (flat_map (fun x : vec3 F => _) (m_normals m)) with (@nil (vec3 F)) by (induction (m_normals m); auto).
  replace (flat_map _ T) with (@nil (vec3 F)) by (induction T as [|[[a b] c] T IHT]; auto). rewrite !app_nil_r. induction (m_vertices m) as [|[x y z] l IH]; [reflexivity|]. cbn. now rewrite IH.
Qed.
Lemma mesh_ns m T vo no : file_normals (map rec_of (mesh_lines m T vo no)) = m_normals m.
Proof.
  unfold file_normals, mesh_lines. rewrite !map_app, !flat_map_app, !map_map, !flat_map_map. cbn [rec_of].
  replace (flat_map (fun x : vec3 F => _) (m_vertices m)) with (@nil (vec3 F)) by (induction (m_vertices m); auto).
  replace (flat_map _ T) with (@nil (vec3 F)) by (induction T as [|[[a b] c] T IHT]; auto). rewrite !app_nil_r. cbn [app]. induction (m_normals m) as [|[x y z] l IH]; [reflexivity|]. cbn. now rewrite IH.
Qed.
Lemma model_vs ms : forall vo no, file_vertices (map rec_of (model_lines ms vo no)) = flat_map (fun x => m_vertices (fst x)) ms.
Proof. induction ms as [|[m T] ms IH]; intros; [reflexivity|]. cbn [model_lines flat_map fst]. unfold file_vertices in *. rewrite map_app, flat_map_app, IH. f_equal. apply (mesh_vs m T). Qed.
Lemma model_ns ms : forall vo no, file_normals (map rec_of (model_lines ms vo no)) = flat_map (fun x => m_normals (fst x)) ms.
Proof. induction ms as [|[m T] ms IH]; intros; [reflexivity|]. cbn [model_lines flat_map fst]. unfold file_normals in *. rewrite map_app, flat_map_app, IH. f_equal. apply (mesh_ns m T). Qed.

Definition res_faces (VS NS : list (vec3 F)) (rs : list (obj_record F)) : list (option (list (vec3 F * option (vec3 F)))) :=
  flat_map (fun r => match r with RF cs => [all_some (map (resolve VS NS) cs)] | _ => [] end) rs.
Lemma refer_app {A} (pre l post : list A) k v : nth_error l (N.to_nat k) = Some v -> refer (pre ++ l ++ post) (k + N.of_nat (S (length pre))) = Some v.
Proof.
  intros H. unfold refer. destruct (N.eqb_spec (k + N.of_nat (S (length pre))) 0) as [E|_]; [lia|].
  replace (N.to_nat (k + N.of_nat (S (length pre))) - 1) with (length pre + N.to_nat k) by lia.
  rewrite nth_error_app2 by lia. replace (length pre + N.to_nat k - length pre) with (N.to_nat k) by lia.
  rewrite nth_error_app1; [exact H|]. apply nth_error_Some. now rewrite H.
Qed.
Lemma corner_resolves (m : TriangleMesh F) k pv qv pn qn : N.to_nat k < length (m_vertices m) -> m_normals m = [] \/ N.to_nat k < length (m_normals m) ->
  exists p, corner m k p /\ resolve (pv ++ m_vertices m ++ qv) (pn ++ m_normals m ++ qn)
    (fcorner (match m_normals m with [] => false | _ => true end) (N.of_nat (S (length pv))) (N.of_nat (S (length pn))) k) = Some p.
Proof.
  intros Hv Hn. destruct (nth_error (m_vertices m) (N.to_nat k)) as [p|] eqn:Ep; [|apply nth_error_None in Ep; lia].
  unfold corner, resolve, fcorner. cbn [fst snd]. destruct (m_normals m) as [|n0 ns] eqn:En.
  - exists (p, None). cbn [fst snd]. rewrite (refer_app pv _ qv k p Ep). auto.
  - destruct Hn as [?|Hn]; [discriminate|]. destruct (nth_error (n0 :: ns) (N.to_nat k)) as [n|] eqn:E; [|apply nth_error_None in E; lia].
    exists (p, Some n). cbn [fst snd]. rewrite (refer_app pv _ qv k p Ep), (refer_app pn _ qn k n E). eauto.
Qed.
Lemma flat_map_nil {A B} (l : list A) : flat_map (fun _ => @nil B) l = [].
Proof. induction l; auto. Qed.
Lemma mesh_res (m : TriangleMesh F) T pv qv pn qn : triangles_of (m, T) ->
  exists fs, mesh_faces m T fs /\
    res_faces (pv ++ m_vertices m ++ qv) (pn ++ m_normals m ++ qn) (map rec_of (mesh_lines m T (N.of_nat (S (length pv))) (N.of_nat (S (length pn))))) = map Some fs.
Proof.
  intros [E HF]. cbn [fst snd] in *. unfold mesh_faces, res_faces, mesh_lines. rewrite !map_app, !flat_map_app, !map_map, !flat_map_map. cbn [rec_of].
  rewrite !flat_map_nil.
  cbn [app]. cut (exists fs, Forall2 (fun '(a, b, c) f => exists pa pb pc, f = [pa; pb; pc] /\ corner m a pa /\ corner m b pb /\ corner m c pc) T fs /\
    flat_map (fun x => match rec_of (let '(a, b, c) := x in let f := fcorner (match m_normals m with [] => false | _ => true end) (N.of_nat (S (length pv))) (N.of_nat (S (length pn))) in ObjF [f a; f b; f c]) with
       RF cs => [all_some (map (resolve (pv ++ m_vertices m ++ qv) (pn ++ m_normals m ++ qn)) cs)] | _ => [] end) T = map Some fs).
  { intros (fs & A & B). exists fs. split; [split; assumption|exact B]. }
  clear E. induction HF as [|[[a b] c] T Ht _ (fs & A & B)]; [exists []; now split|]. cbn beta iota in Ht.
  destruct (corner_resolves m a pv qv pn qn (proj1 (Ht a ltac:(auto))) (proj2 (Ht a ltac:(auto)))) as (pa & Ca & Ra).
  destruct (corner_resolves m b pv qv pn qn (proj1 (Ht b ltac:(auto))) (proj2 (Ht b ltac:(auto)))) as (pb & Cb & Rb).
  destruct (corner_resolves m c pv qv pn qn (proj1 (Ht c ltac:(auto))) (proj2 (Ht c ltac:(auto)))) as (pc & Cc & Rc).
  exists ([pa; pb; pc] :: fs). split; [constructor; [eauto 10|exact A]|]. match goal with |- flat_map ?f (?x :: ?l) = ?r => change (f x ++ flat_map f l = r) end. rewrite B. cbn [rec_of map all_some]. rewrite Ra, Rb, Rc. reflexivity.
Qed.
Lemma model_res ms : forall pv qv pn qn, Forall triangles_of ms ->
  exists fss, Forall2 (fun x fs => mesh_faces (fst x) (snd x) fs) ms fss /\
    res_faces (pv ++ flat_map (fun x => m_vertices (fst x)) ms ++ qv) (pn ++ flat_map (fun x => m_normals (fst x)) ms ++ qn)
      (map rec_of (model_lines ms (N.of_nat (S (length pv))) (N.of_nat (S (length pn))))) = map Some (concat fss).
Proof.
  induction ms as [|[m T] ms IH]; intros pv qv pn qn H; [exists []; split; [constructor|reflexivity]|].
  inversion H as [|? ? Hm Hms]; subst. cbn [flat_map fst snd model_lines]. rewrite <- !app_assoc.
  destruct (mesh_res m T pv (flat_map (fun x => m_vertices (fst x)) ms ++ qv) pn (flat_map (fun x => m_normals (fst x)) ms ++ qn) Hm) as (fs & A & B).
  destruct (IH (pv ++ m_vertices m) qv (pn ++ m_normals m) qn Hms) as (fss & A' & B'). exists (fs :: fss). split; [constructor; assumption|].
  cbn [concat]. rewrite (map_app Some), <- B, <- B'. unfold res_faces. rewrite map_app, flat_map_app, <- !app_assoc, !app_length. f_equal.
  replace (N.of_nat (S (length pv)) + N.of_nat (length (m_vertices m)))%N with (N.of_nat (S (length pv + length (m_vertices m)))) by lia.
  replace (N.of_nat (S (length pn)) + N.of_nat (length (m_normals m)))%N with (N.of_nat (S (length pn + length (m_normals m)))) by lia. reflexivity.
Qed.
Lemma all_some_Some {A} (l : list A) : all_some (map Some l) = Some l.
Proof. induction l as [|x l IH]; [reflexivity|]. cbn. now rewrite IH. Qed.
Lemma mesh_lines_ok (m : TriangleMesh F) T vo no : Forall faithful3 (m_vertices m) -> Forall faithful3 (m_normals m) -> Forall line_ok (mesh_lines m T vo no).
Proof.
  intros Hv Hn. unfold mesh_lines. repeat (apply Forall_app; split); apply Forall_map.
  - eapply Forall_impl; [|exact Hv]. intros [x y z]; auto.
  - eapply Forall_impl; [|exact Hn]. intros [x y z]; auto.
  - apply Forall_forall. intros [[a b] c] _. reflexivity.
Qed.
Lemma model_lines_ok ms : forall vo no, Forall (fun x => Forall faithful3 (m_vertices (fst x)) /\ Forall faithful3 (m_normals (fst x))) ms -> Forall line_ok (model_lines ms vo no).
Proof.
  induction ms as [|[m T] ms IH]; intros vo no H; [constructor|]. inversion H as [|? ? [? ?] ?]; subst. cbn [model_lines]. apply Forall_app. split; [now apply mesh_lines_ok|now apply IH].
Qed.
End Write.

(** total number of entries *)
Definition total {A B} (f : A -> list B) (l : list A) : N := N.of_nat (length (flat_map f l)).

(** ** C50 *)
(** Reading the written file back gives the triangles of the meshes, mesh by mesh, with the
    positions and normals of their corners: whatever the number of meshes, and whether or not
    each of them has normals. *)
Theorem C50_roundtrip {F} (fmt : F -> list N) (parse : list N -> option F) (ms : list (TriangleMesh F)) :
  Forall valid_mesh ms -> Forall (fun m => Forall (faithful3 fmt parse) (m_vertices m) /\ Forall (faithful3 fmt parse) (m_normals m)) ms ->
  (1 + total m_vertices ms < 2 ^ 32)%N -> (1 + total m_normals ms < 2 ^ 32)%N ->
  exists text fss, model_obj_file fmt (map Ok ms) = Ok text /\ read_obj parse text = Some (concat fss) /\
    Forall2 (fun m fs => exists T, mesh_faces m T fs) ms fss.
Proof.
  intros Hm Hf Hv Hn.
  assert (exists mts, map fst mts = ms /\ Forall triangles_of mts) as (mts & Em & Ht).
  { clear Hf Hv Hn. induction Hm as [|m ms (T & E & HT) _ (mts & Em & Ht)]; [exists []; split; [reflexivity|constructor]|].
    exists ((m, T) :: mts). split; [cbn; now rewrite Em|]. constructor; [|exact Ht]. split; assumption. }
  assert (Tv : vtotal mts = length (flat_map m_vertices ms)).
  { rewrite <- Em. clear. unfold vtotal. induction mts as [|[m T] mts IH]; [reflexivity|]. cbn [map fold_right flat_map fst]. rewrite app_length, IH. reflexivity. }
  assert (Tn : ntotal mts = length (flat_map m_normals ms)).
  { rewrite <- Em. clear. unfold ntotal. induction mts as [|[m T] mts IH]; [reflexivity|]. cbn [map fold_right flat_map fst]. rewrite app_length, IH. reflexivity. }
  unfold total in Hv, Hn.
  destruct (model_lines_Ok mts 1 1 [] Ht) as (vo' & no' & E); [rewrite Tv; lia|rewrite Tn; lia|].
  destruct (model_res mts [] [] [] [] Ht) as (fss & A & B). cbn [app length] in B. rewrite !app_nil_r in B. change (N.of_nat 1) with 1%N in B.
  exists (obj_chars fmt (model_lines mts 1 1)), fss. split; [|split].
  - unfold model_obj_file, model_save_as_obj. rewrite <- Em, map_map. rewrite E. reflexivity.
  - unfold read_obj. rewrite file_records.
    + unfold faces_of. rewrite model_vs, model_ns. fold (res_faces (flat_map (fun x => m_vertices (fst x)) mts) (flat_map (fun x => m_normals (fst x)) mts) (map rec_of (model_lines mts 1 1))).
      rewrite B. apply all_some_Some.
    + apply model_lines_ok. rewrite <- Em in Hf. rewrite Forall_map in Hf. exact Hf.
  - rewrite <- Em. clear -A. induction A as [|[m T] fs mts fss H _ IH]; [constructor|]. cbn [map]. constructor; [eauto|exact IH].
Qed.
(** the triangles of a mesh have one outcome: [mesh_faces] determines the faces *)
Theorem C50_faces_unique {F} (m : TriangleMesh F) T T' fs fs' : mesh_faces m T fs -> mesh_faces m T' fs' -> fs = fs'.
Proof.
  intros [E H] [E' H']. assert (T = T') as <-.
  { rewrite E in E'. clear -E'. revert T' E'. induction T as [|[[a b] c] T IH]; intros [|[[a' b'] c'] T'] E; try discriminate; [reflexivity|]. cbn in E. injection E as -> -> -> E. f_equal. now apply IH. }
  assert (U : forall k p q, corner m k p -> corner m k q -> p = q).
  { intros k [p n] [q n'] [A B] [A' B']. cbn [fst snd] in *. rewrite A in A'. injection A' as ->. f_equal. destruct (m_normals m); [congruence|]. destruct B as (x & B & ->), B' as (y & B' & ->). congruence. }
  clear E E'. revert fs' H'. induction H as [|[[a b] c] f T fs (pa & pb & pc & -> & A & B & C) _ IH]; intros fs' H'; inversion H' as [|? ? ? ? Hx Ht]; subst; [reflexivity|].
  destruct Hx as (qa & qb & qc & -> & A' & B' & C'). f_equal; [|now apply IH]. now rewrite (U _ _ _ A A'), (U _ _ _ B B'), (U _ _ _ C C').
Qed.
(** index lists whose length is not a multiple of 3 panic *)
Theorem C50_ragged_panics {F} (m : TriangleMesh F) (vo no : N) : length (m_triangles m) mod 3 <> 0 -> write_obj m vo no <> OutOfFuel /\ forall ls, write_obj m vo no <> Ok ls.
Proof.
  intros H.
  assert (L : exists t, In t (chunks3 (m_triangles m)) /\ length t < 3).
  { revert H. generalize (m_triangles m). apply (list3_ind (fun l => length l mod 3 <> 0 -> exists t, In t (chunks3 l) /\ length t < 3)).
    - intros H; now contradict H.
    - intros a _. exists [a]. split; [left; reflexivity|cbn; lia].
    - intros a b _. exists [a; b]. split; [left; reflexivity|cbn; lia].
    - intros a b c l IH H. destruct IH as (t & Ht & Hl); [|exists t; split; [right; exact Ht|exact Hl]].
      cbn [length] in H. replace (S (S (S (length l)))) with (length l + 1 * 3) in H by lia. now rewrite Nat.mod_add in H. }
  destruct L as (t & Ht & Hl).
  assert (G : forall {B} (f : list N -> outcome B), (forall t, length t < 3 -> f t = Panic) -> (forall t, f t <> OutOfFuel) -> mapM f (chunks3 (m_triangles m)) = Panic).
  { intros B f Hp Hn. revert Ht. generalize (chunks3 (m_triangles m)). induction l as [|x l IH]; intros []; cbn [mapM].
    - subst. now rewrite Hp.
    - rewrite (IH H0). specialize (Hn x). destruct (f x); cbn; congruence. }
  assert (U : forall a b, u32_add a b <> OutOfFuel) by (intros; unfold u32_add; destruct (_ <? _)%N; discriminate).
  assert (I : forall (l : list N) i, idx l i <> OutOfFuel) by (intros l i; unfold idx; destruct (nth_error l i); discriminate).
  unfold write_obj. destruct (m_normals m).
  - rewrite G; [split; discriminate| |].
    + intros u Hu. destruct u as [|a [|b [|? ?]]]; cbn in Hu; try lia; cbn [idx nth_error obind]; try reflexivity;
      repeat (match goal with |- context [u32_add ?a ?b] => pose proof (U a b); destruct (u32_add a b) end; cbn [obind idx nth_error]; try reflexivity; try congruence).
    + intros u. repeat (match goal with |- context [idx ?a ?b] => pose proof (I a b); destruct (idx a b) | |- context [u32_add ?a ?b] => pose proof (U a b); destruct (u32_add a b) end; cbn [obind]; try discriminate; try congruence).
  - rewrite G; [split; discriminate| |].
    + intros u Hu. destruct u as [|a [|b [|? ?]]]; cbn in Hu; try lia; cbn [idx nth_error obind]; try reflexivity;
      repeat (match goal with |- context [u32_add ?a ?b] => pose proof (U a b); destruct (u32_add a b) end; cbn [obind idx nth_error]; try reflexivity; try congruence).
    + intros u. repeat (match goal with |- context [idx ?a ?b] => pose proof (I a b); destruct (idx a b) | |- context [u32_add ?a ?b] => pose proof (U a b); destruct (u32_add a b) end; cbn [obind]; try discriminate; try congruence).
Qed.

(** a model of two meshes, the second one with normals; coordinates are natural numbers written
    in decimal *)
Definition ex_m1 : TriangleMesh N := mkTM [V3 0 0 0; V3 1 0 0; V3 0 12 0; V3 7 7 7]%N [] [0; 1; 2; 1; 3; 2]%N.
Definition ex_m2 : TriangleMesh N := mkTM [V3 5 0 0; V3 5 1 0; V3 5 0 1]%N [V3 1 0 0; V3 1 0 0; V3 1 0 0]%N [2; 1; 0]%N.
Example C50_roundtrip_nonvacuous :
  Forall valid_mesh [ex_m1; ex_m2] /\
  Forall (fun m => Forall (faithful3 u32_chars decimal) (m_vertices m) /\ Forall (faithful3 u32_chars decimal) (m_normals m)) [ex_m1; ex_m2] /\
  (t <- model_obj_file u32_chars [Ok ex_m1; Ok ex_m2] ;; Ok (read_obj decimal t)) =
    Ok (Some [[(V3 0 0 0, None); (V3 1 0 0, None); (V3 0 12 0, None)]; [(V3 1 0 0, None); (V3 7 7 7, None); (V3 0 12 0, None)];
              [(V3 5 0 1, Some (V3 1 0 0)); (V3 5 1 0, Some (V3 1 0 0)); (V3 5 0 0, Some (V3 1 0 0))]])%N.
Proof.
  assert (K : forall x, faithful u32_chars decimal x).
  { intros x. repeat split; [apply u32_decimal|apply u32_chars_no; unfold is_digit, ch_sp; lia|apply u32_chars_no; unfold is_digit, ch_nl; lia]. }
  assert (K3 : forall p, faithful3 u32_chars decimal p) by (intros p; repeat split; apply K).
  split; [|split].
  - apply Forall_cons; [|apply Forall_cons; [|constructor]].
    + exists [(0, 1, 2); (1, 3, 2)]%N. split; [reflexivity|]. apply Forall_forall. intros t [<-|[<-|[]]] k [->|[->| ->]]; cbn; lia || (split; [lia|auto]).
    + exists [(2, 1, 0)]%N. split; [reflexivity|]. apply Forall_forall. intros t [<-|[]] k [->|[->| ->]]; cbn; lia || (split; [lia|right; lia]).
  - apply Forall_forall. intros m _. split; apply Forall_forall; intros p _; apply K3.
  - vm_compute. reflexivity.
Qed.
