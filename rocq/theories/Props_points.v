(** Property C52: point cloud files. *)
From Coq Require Import Lia Arith ZArith NArith List.
From Verif Require Import Prelude Num M_vec M_utils M_curve M_surface M_files L_base L_polygon Props_gridmesh Props_obj.
Open Scope nat_scope.

(** ** Specification: the lines of a point cloud file *)
Definition sepc (c : N) : Prop := c = 32%N \/ c = 44%N \/ c = 9%N. (* blank, comma, tab *)
Definition is_word (w : list N) : Prop := w <> [] /\ Forall (fun c => ~ sepc c /\ c <> 10%N) w.
Definition is_gap (g : list N) : Prop := g <> [] /\ Forall sepc g.
(** a line of words separated by one or more blanks, commas or tabs, which may also begin and
    end the line *)
Inductive words_line : list N -> list (list N) -> Prop :=
| WEnd g : Forall sepc g -> words_line g []
| WLast g w g' : Forall sepc g -> is_word w -> Forall sepc g' -> words_line (g ++ w ++ g') [w]
| WCons g w g' t w' ws : Forall sepc g -> is_word w -> is_gap g' -> words_line t (w' :: ws) -> words_line (g ++ w ++ g' ++ t) (w :: w' :: ws).
(** the contents of a line: a comment begins with '#'; three words are a point; of four words the
    first is ignored; anything else is not a point *)
Section Content.
Context {F : Type}.
Variable parse : list N -> option F.
Inductive content : list N -> list (vec3 F) -> Prop :=
| CComment t : Forall (fun c => c <> 10%N) t -> content (35%N :: t) []
| CThree l x y z px py pz : words_line l [x; y; z] -> hd 0%N l <> 35%N -> parse x = Some px -> parse y = Some py -> parse z = Some pz -> content l [V3 px py pz]
| CFour l k x y z px py pz : words_line l [k; x; y; z] -> hd 0%N l <> 35%N -> parse x = Some px -> parse y = Some py -> parse z = Some pz -> content l [V3 px py pz]
| COther l ws : words_line l ws -> hd 0%N l <> 35%N -> length ws <> 3 -> length ws <> 4 -> content l [].
End Content.
(** lines end with "\n" or "\r\n"; the last one may lack it if it is not empty *)
Inductive file_lines : list N -> list (list N) -> Prop :=
| FNil : file_lines [] []
| FLast l : l <> [] -> Forall (fun c => c <> 10%N) l -> file_lines l [l]
| FUnix l t ls : Forall (fun c => c <> 10%N) l -> last l 0%N <> 13%N -> file_lines t ls -> file_lines (l ++ 10%N :: t) (l :: ls)
| FDos l t ls : Forall (fun c => c <> 10%N) l -> file_lines t ls -> file_lines (l ++ 13%N :: 10%N :: t) (l :: ls).

(** ** Lemmas *)
Definition wordsf (s : list N) : list (list N) := filter (fun w => negb (match w with [] => true | _ => false end)) (split_on is_point_sep s).
Lemma sep_true c : sepc c -> is_point_sep c = true.
Proof. intros [->|[->| ->]]; reflexivity. Qed.
Lemma sep_false c : ~ sepc c -> is_point_sep c = false.
Proof. intros H. unfold is_point_sep, sepc, ch_sp, ch_comma, ch_tab in *. repeat match goal with |- context [N.eqb ?a ?b] => destruct (N.eqb_spec a b) end; tauto || reflexivity. Qed.
Lemma split_cons c t : is_point_sep c = true -> split_on is_point_sep (c :: t) = [] :: split_on is_point_sep t.
Proof. intros H. cbn [split_on]. now rewrite H. Qed.
Lemma split_nonempty sep s : exists w ws, split_on sep s = w :: ws.
Proof. induction s as [|c t IH]; [cbn; eauto|]. destruct IH as (w & ws & IH). cbn [split_on]. destruct (sep c); [eauto|]. rewrite IH. eauto. Qed.
Lemma split_word w : Forall (fun c => ~ sepc c /\ c <> 10%N) w -> split_on is_point_sep w = [w].
Proof. induction 1 as [|c w [Hc _] _ IH]; [reflexivity|]. cbn [split_on]. rewrite (sep_false c Hc), IH. reflexivity. Qed.
Lemma split_word_sep w c t : Forall (fun c => ~ sepc c /\ c <> 10%N) w -> sepc c -> split_on is_point_sep (w ++ c :: t) = w :: split_on is_point_sep t.
Proof.
  intros H Hc. induction H as [|d w [Hd _] _ IH]; [cbn [app]; now rewrite split_cons by now apply sep_true|].
  cbn [app split_on]. rewrite (sep_false d Hd), IH. reflexivity.
Qed.
Lemma wordsf_gap g t : Forall sepc g -> wordsf (g ++ t) = wordsf t.
Proof. induction 1 as [|c g Hc _ IH]; [reflexivity|]. cbn [app]. unfold wordsf in *. rewrite split_cons by now apply sep_true. cbn [filter negb]. exact IH. Qed.
Lemma wordsf_word w : is_word w -> wordsf w = [w].
Proof. intros [Hn Hw]. unfold wordsf. rewrite (split_word w Hw). destruct w; [easy|reflexivity]. Qed.
Lemma wordsf_word_gap w g t : is_word w -> is_gap g -> wordsf (w ++ g ++ t) = w :: wordsf t.
Proof.
  intros [Hn Hw] [Gn Hg]. destruct g as [|c g]; [easy|]. inversion Hg as [|? ? Hc Hg']; subst. cbn [app].
  unfold wordsf. rewrite (split_word_sep w c _ Hw Hc). cbn [filter]. destruct w; [easy|]. cbn [negb]. f_equal. apply (wordsf_gap g t Hg').
Qed.
Lemma words_line_wordsf l ws : words_line l ws -> wordsf l = ws.
Proof.
  induction 1 as [g Hg|g w g' Hg Hw Hg'|g w g' t w' ws Hg Hw Hg' Ht IH].
  - rewrite <- (app_nil_r g). now rewrite wordsf_gap.
  - rewrite wordsf_gap by assumption. destruct g' as [|c g']; [rewrite app_nil_r; now apply wordsf_word|].
    rewrite <- (app_nil_r (c :: g')). rewrite wordsf_word_gap; [reflexivity|exact Hw|split; [discriminate|exact Hg']].
  - rewrite wordsf_gap, wordsf_word_gap by assumption. now rewrite IH.
Qed.
Lemma split_nl_word l : Forall (fun c => c <> 10%N) l -> split_on (N.eqb ch_nl) l = [l].
Proof. induction 1 as [|c l Hc _ IH]; [reflexivity|]. cbn [split_on]. destruct (N.eqb_spec ch_nl c) as [E|_]; [now contradict Hc|]. now rewrite IH. Qed.
Lemma split_nl_app l t : Forall (fun c => c <> 10%N) l -> split_on (N.eqb ch_nl) (l ++ 10%N :: t) = l :: split_on (N.eqb ch_nl) t.
Proof.
  induction 1 as [|c l Hc _ IH]; [reflexivity|]. cbn [app split_on]. destruct (N.eqb_spec ch_nl c) as [E|_]; [now contradict Hc|]. now rewrite IH.
Qed.
Lemma lines_cons l t : Forall (fun c => c <> 10%N) l -> lines (l ++ 10%N :: t) = strip_cr l :: lines t.
Proof.
  intros H. unfold lines. rewrite (split_nl_app l t H). destruct (split_nonempty (N.eqb ch_nl) t) as (w & ws & ->). reflexivity.
Qed.
Lemma strip_none l : last l 0%N <> 13%N -> strip_cr l = l.
Proof.
  intros H. unfold strip_cr. destruct l as [|x l] using rev_ind; [reflexivity|]. rewrite last_last in H. rewrite rev_app_distr. cbn [rev app]. destruct (N.eqb_spec x ch_cr) as [->|]; [now contradict H|reflexivity].
Qed.
Lemma strip_cr_app l : strip_cr (l ++ [13%N]) = l.
Proof. unfold strip_cr. rewrite rev_app_distr. cbn [rev app]. change (13 =? ch_cr)%N with true. cbv iota. apply rev_involutive. Qed.
Lemma file_lines_lines t ls : file_lines t ls -> lines t = ls.
Proof.
  induction 1 as [|l Hn Hl|l t ls Hl Hc Ht IH|l t ls Hl Ht IH]; [reflexivity| | |].
  - unfold lines. rewrite (split_nl_word l Hl). cbn. destruct l; [easy|reflexivity].
  - now rewrite lines_cons, strip_none, IH.
  - change (l ++ 13%N :: 10%N :: t) with (l ++ [13%N] ++ 10%N :: t). rewrite app_assoc, lines_cons, strip_cr_app, IH; [reflexivity|]. apply Forall_app. split; [exact Hl|]. repeat constructor. discriminate.
Qed.

Section Load.
Context {F : Type}.
Variable parse : list N -> option F.
Lemma not_comment {A} (l : list N) (a b : A) : hd 0%N l <> 35%N -> (if match l with c :: _ => (c =? ch_hash)%N | [] => false end then a else b) = b.
Proof. intros H. destruct l as [|c l]; [reflexivity|]. cbn [hd] in H. destruct (N.eqb_spec c ch_hash) as [->|]; [now contradict H|reflexivity]. Qed.
Lemma load_line_words l ws : words_line l ws -> hd 0%N l <> 35%N ->
  load_line parse l = match ws with
                      | [x; y; z] | [_; x; y; z] => x <- unwrap (parse x) ;; y <- unwrap (parse y) ;; z <- unwrap (parse z) ;; Ok [V3 x y z]
                      | _ => Ok []
                      end.
Proof. intros H1 H2. unfold load_line. rewrite not_comment by exact H2. fold (wordsf l). now rewrite (words_line_wordsf l ws H1). Qed.
Lemma load_line_content l ps : content parse l ps -> load_line parse l = Ok ps.
Proof.
  intros [t Ht|l' x y z px py pz H1 H2 Ex Ey Ez|l' k x y z px py pz H1 H2 Ex Ey Ez|l' ws H1 H2 H3 H4].
  - reflexivity.
  - rewrite (load_line_words _ _ H1 H2), Ex, Ey, Ez. reflexivity.
  - rewrite (load_line_words _ _ H1 H2), Ex, Ey, Ez. reflexivity.
  - rewrite (load_line_words _ _ H1 H2). destruct ws as [|a [|b [|c [|d [|e ws]]]]]; try reflexivity; cbn in *; lia.
Qed.
End Load.

(** ** C52 *)
(** Every file of such lines loads as the points of its lines, in order. *)
Theorem C52_grammar {F} (parse : list N -> option F) text ls pss :
  file_lines text ls -> Forall2 (content parse) ls pss -> load_point_cloud parse text = Ok (concat pss).
Proof.
  intros H1 H2. unfold load_point_cloud. rewrite (file_lines_lines _ _ H1).
  assert (E : mapM (load_line parse) ls = Ok pss) by (apply mapM_inv; clear H1; induction H2; constructor; auto; now apply load_line_content). now rewrite E.
Qed.
(** A line of three or four words one of whose (last three) words is not a number makes loading
    panic, whatever the other lines are. *)
Theorem C52_bad_number_panics {F} (parse : list N -> option F) text ls l x y z k :
  file_lines text ls -> In l ls -> hd 0%N l <> 35%N -> words_line l [x; y; z] \/ words_line l [k; x; y; z] ->
  parse x = None \/ parse y = None \/ parse z = None -> load_point_cloud parse text = Panic.
Proof.
  intros H1 Hin Hh Hw Hp. unfold load_point_cloud. rewrite (file_lines_lines _ _ H1).
  assert (E : load_line parse l = Panic).
  { destruct Hw as [Hw|Hw]; rewrite (load_line_words parse _ _ Hw Hh); destruct (parse x), (parse y), (parse z); cbn; try reflexivity; intuition discriminate. }
  assert (N : forall l, load_line parse l <> OutOfFuel).
  { intros l0. unfold load_line. destruct (match l0 with c :: _ => (c =? ch_hash)%N | [] => false end); [discriminate|].
    destruct (filter _ _) as [|a [|b [|c [|d [|e ws]]]]]; try discriminate; repeat (match goal with |- context [parse ?w] => destruct (parse w) end; cbn; try discriminate). }
  assert (M : mapM (load_line parse) ls = Panic).
  { clear H1. induction ls as [|a ls IH]; [destruct Hin|]. cbn [mapM]. destruct Hin as [->|Hin]; [now rewrite E|]. rewrite (IH Hin). specialize (N a). destruct (load_line parse a); cbn; congruence. }
  now rewrite M.
Qed.

Section Save.
Context {F : Type}.
Variable fmt : F -> list N.
Variable parse : list N -> option F.
(** the text of a number is a word, does not begin with '#' and reads back *)
Definition readable (x : F) : Prop := parse (fmt x) = Some x /\ is_word (fmt x) /\ hd 0%N (fmt x) <> 35%N /\ last (fmt x) 0%N <> 13%N.
Definition readable3 (p : vec3 F) : Prop := readable (x3 p) /\ readable (y3 p) /\ readable (z3 p).
Lemma word_no_nl w : is_word w -> Forall (fun c => c <> 10%N) w.
Proof. intros [_ H]. eapply Forall_impl; [|exact H]. cbn. tauto. Qed.
Lemma gap1 c : sepc c -> is_gap [c].
Proof. intros H. split; [discriminate|]. now constructor. Qed.
Fixpoint joined (c : N) (ws : list (list N)) : list N := match ws with [] => [] | [w] => w | w :: ws => w ++ [c] ++ joined c ws end.
Lemma joined_words c ws : sepc c -> Forall is_word ws -> words_line (joined c ws) ws.
Proof.
  intros Hc H. induction H as [|w ws Hw Hws IH]; [apply (WEnd []); constructor|]. destruct ws as [|w' ws].
  - cbn [joined]. pose proof (WLast [] w [] ltac:(constructor) Hw ltac:(constructor)) as K. cbn [app] in K. now rewrite app_nil_r in K.
  - apply (WCons [] w [c] _ w' ws); [constructor|exact Hw|now apply gap1|exact IH].
Qed.
Lemma joined_no_nl c ws : sepc c -> Forall is_word ws -> Forall (fun x => x <> 10%N) (joined c ws).
Proof.
  intros Hc H. induction H as [|w ws Hw Hws IH]; [constructor|]. destruct ws as [|w' ws]; cbn [joined]; [now apply word_no_nl|]. apply Forall_app. split; [now apply word_no_nl|].
  constructor; [destruct Hc as [->|[->| ->]]; discriminate|exact IH].
Qed.
Lemma last_app_ne {A} (l r : list A) d : r <> [] -> last (l ++ r) d = last r d.
Proof. intros H. destruct r as [|x r] using rev_ind; [easy|]. rewrite app_assoc, !last_last. reflexivity. Qed.
Lemma joined_last c ws d : ws <> [] -> Forall is_word ws -> last (joined c ws) d = last (last ws []) d /\ joined c ws <> [].
Proof.
  intros Hn H. induction H as [|w ws Hw Hws IH]; [easy|]. destruct ws as [|w' ws]; [split; [reflexivity|apply Hw]|].
  destruct IH as [IH1 IH2]; [discriminate|]. change (joined c (w :: w' :: ws)) with (w ++ [c] ++ joined c (w' :: ws)). split.
  - rewrite app_assoc, last_app_ne by exact IH2. exact IH1.
  - intros E. apply app_eq_nil in E. destruct E. now apply Hw.
Qed.
Lemma joined_hd c w ws d : is_word w -> hd d (joined c (w :: ws)) = hd d w.
Proof. intros [H _]. destruct w; [easy|]. destruct ws; reflexivity. Qed.
Lemma file_of_lines (ls : list (list N)) : Forall (fun l => Forall (fun c => c <> 10%N) l /\ last l 0%N <> 13%N) ls -> file_lines (flat_map (fun l => l ++ [10%N]) ls) ls.
Proof. induction 1 as [|l ls [A B] _ IH]; [constructor|]. cbn [flat_map]. rewrite <- app_assoc. cbn [app]. now apply FUnix. Qed.

Definition coords3 (p : vec3 F) : list (list N) := [fmt (x3 p); fmt (y3 p); fmt (z3 p)].
Lemma readable3_words p : readable3 p -> Forall is_word (coords3 p).
Proof. intros (A & B & C). repeat constructor; try apply A; try apply B; apply C. Qed.
Theorem C52_roundtrip (ps : list (vec3 F)) : Forall readable3 ps -> load_point_cloud parse (save_point_cloud fmt ps) = Ok ps.
Proof.
  intros H. set (ls := map (fun p => joined 32%N (coords3 p)) ps).
  assert (E : save_point_cloud fmt ps = flat_map (fun l => l ++ [10%N]) ls).
  { unfold ls. rewrite flat_map_map. unfold save_point_cloud. apply flat_map_ext. intros p. cbn [joined coords3]. rewrite <- !app_assoc. reflexivity. }
  assert (S : sepc 32%N) by now left.
  rewrite E. transitivity (Ok (concat (map (fun p => [p]) ps))); [|f_equal; clear; induction ps; cbn; congruence].
  eapply C52_grammar; [apply file_of_lines|].
  - unfold ls. apply Forall_map. eapply Forall_impl; [|exact H]. intros p Hp. pose proof (readable3_words p Hp) as W. split; [now apply joined_no_nl|].
    destruct (joined_last 32%N (coords3 p) 0%N ltac:(discriminate) W) as [L _]. rewrite L. cbn [coords3 last]. apply Hp.
  - unfold ls. clear E ls. induction H as [|p ps Hp _ IH]; [constructor|]. cbn [map]. constructor; [|exact IH]. pose proof (readable3_words p Hp) as W. destruct Hp as ((Ex & Wx & Hx & _) & (Ey & _) & (Ez & _)). destruct p as [x y z]; cbn [x3 y3 z3] in *.
    eapply CThree; [apply (joined_words 32%N _ S W)| |eassumption..]. unfold coords3. rewrite joined_hd by exact Wx. exact Hx.
Qed.
(** files with normals (six columns) and files of plane points (two columns) are not read back at
    all *)
Theorem C52_normals_lost (ps : list (vec3 F * vec3 F)) : Forall (fun pn => readable3 (fst pn) /\ readable3 (snd pn)) ps ->
  load_point_cloud parse (save_point_cloud_with_normal fmt ps) = Ok [].
Proof.
  intros H. set (ls := map (fun pn => joined 32%N (coords3 (fst pn) ++ coords3 (snd pn))) ps).
  assert (E : save_point_cloud_with_normal fmt ps = flat_map (fun l => l ++ [10%N]) ls).
  { unfold ls. rewrite flat_map_map. unfold save_point_cloud_with_normal. apply flat_map_ext. intros [p n]. cbn [joined coords3 fst snd app]. repeat (rewrite <- !app_assoc; cbn [app]). reflexivity. }
  assert (S : sepc 32%N) by now left.
  rewrite E. replace (@nil (vec3 F)) with (concat (map (fun _ : vec3 F * vec3 F => @nil (vec3 F)) ps)) by (clear; induction ps; cbn; congruence).
  eapply C52_grammar; [apply file_of_lines|].
  - unfold ls. apply Forall_map. eapply Forall_impl; [|exact H]. intros [p n] [Hp Hn]. cbn [fst snd] in *.
    assert (W : Forall is_word (coords3 p ++ coords3 n)) by (apply Forall_app; split; now apply readable3_words). split; [now apply joined_no_nl|].
    destruct (joined_last 32%N (coords3 p ++ coords3 n) 0%N ltac:(discriminate) W) as [L _]. rewrite L. cbn [coords3 app last]. apply Hn.
  - unfold ls. clear E ls. induction H as [|[p n] ps [Hp Hn] _ IH]; [constructor|]. cbn [map fst snd] in *. constructor; [|exact IH].
    assert (W : Forall is_word (coords3 p ++ coords3 n)) by (apply Forall_app; split; now apply readable3_words).
    eapply COther; [apply (joined_words 32%N _ S W)| |discriminate|discriminate]. cbn [coords3 app]. rewrite joined_hd; apply Hp.
Qed.
Theorem C52_plane_points_lost (ps : list (vec2 F)) : Forall (fun p => readable (x2 p) /\ readable (y2 p)) ps -> load_point_cloud parse (save_points fmt ps) = Ok [].
Proof.
  intros H. set (ls := map (fun p => joined 44%N [fmt (x2 p); fmt (y2 p)]) ps).
  assert (E : save_points fmt ps = flat_map (fun l => l ++ [10%N]) ls).
  { unfold ls. rewrite flat_map_map. unfold save_points. apply flat_map_ext. intros p. cbn [joined]. rewrite <- !app_assoc. reflexivity. }
  assert (S : sepc 44%N) by (right; now left).
  rewrite E. replace (@nil (vec3 F)) with (concat (map (fun _ : vec2 F => @nil (vec3 F)) ps)) by (clear; induction ps; cbn; congruence).
  assert (W : forall p, readable (x2 p) /\ readable (y2 p) -> Forall is_word [fmt (x2 p); fmt (y2 p)]) by (intros p [A B]; repeat constructor; try apply A; apply B).
  eapply C52_grammar; [apply file_of_lines|].
  - unfold ls. apply Forall_map. eapply Forall_impl; [|exact H]. intros p Hp. specialize (W p Hp). split; [now apply joined_no_nl|].
    destruct (joined_last 44%N [fmt (x2 p); fmt (y2 p)] 0%N ltac:(discriminate) W) as [L _]. rewrite L. cbn [last]. apply Hp.
  - unfold ls. clear E ls. induction H as [|p ps Hp _ IH]; [constructor|]. cbn [map]. constructor; [|exact IH].
    eapply COther; [apply (joined_words 44%N _ S (W p Hp))| |discriminate|discriminate]. rewrite joined_hd; apply Hp.
Qed.
End Save.

(** numbers written in decimal are readable *)
Lemma decimal_readable (n : N) : readable u32_chars decimal n.
Proof.
  pose proof (u32_decimal n) as E. assert (D : Forall is_digit (u32_chars n)) by apply uint_chars_digits.
  assert (Ne : u32_chars n <> []) by (intros K; rewrite K in E; discriminate). split; [exact E|]. split; [split; [exact Ne|]|].
  - eapply Forall_impl; [|exact D]. unfold is_digit, sepc. intros c Hc. lia.
  - rewrite Forall_forall in D. unfold is_digit in D. split.
    + destruct (u32_chars n) as [|c l]; [easy|]. specialize (D c ltac:(now left)). cbn. lia.
    + destruct (u32_chars n) as [|c l] using rev_ind; [easy|]. rewrite last_last. specialize (D c ltac:(apply in_or_app; right; now left)). lia.
Qed.
(** "# points\r\n1 2 3\n 7,\t4 ,5,6\n\n10 20" *)
Definition ex_file : list N := [35;32;112;13;10; 49;32;50;32;51;10; 32;55;44;9;52;32;44;53;44;54;10; 10; 49;48;32;50;48]%N.
Example C52_nonvacuous :
  (forall ps, Forall (readable3 u32_chars decimal) ps) /\
  load_point_cloud decimal (save_point_cloud u32_chars [V3 1 20 300; V3 0 7 5]%N) = Ok [V3 1 20 300; V3 0 7 5]%N /\
  load_point_cloud decimal ex_file = Ok [V3 1 2 3; V3 4 5 6]%N /\
  file_lines ex_file [[35;32;112]; [49;32;50;32;51]; [32;55;44;9;52;32;44;53;44;54]; []; [49;48;32;50;48]]%N /\
  content decimal [32;55;44;9;52;32;44;53;44;54]%N [V3 4 5 6]%N /\
  load_point_cloud decimal [49;32;50;32;120]%N = Panic.
Proof.
  split; [|split; [|split; [|split; [|split]]]]; try (vm_compute; reflexivity).
  - intros ps. apply Forall_forall. intros p _. repeat split; apply decimal_readable.
  - apply (FDos [35;32;112]%N); [repeat constructor; discriminate|]. apply (FUnix [49;32;50;32;51]%N); [repeat constructor; discriminate|discriminate|].
    apply (FUnix [32;55;44;9;52;32;44;53;44;54]%N); [repeat constructor; discriminate|discriminate|]. apply (FUnix []); [constructor|discriminate|]. apply FLast; [discriminate|repeat constructor; discriminate].
  - eapply (CFour _ _ [55] [52] [53] [54])%N; try reflexivity; [|discriminate].
    assert (W : forall c, (48 <= c <= 57)%N -> is_word [c]) by (intros c Hc; split; [discriminate|]; constructor; [unfold sepc; lia|constructor]).
    assert (G : forall g, forallb (fun c => (c =? 32) || (c =? 44) || (c =? 9))%N g = true -> Forall sepc g).
    { intros g Hg. apply Forall_forall. intros c Hc. rewrite forallb_forall in Hg. specialize (Hg c Hc). unfold sepc. rewrite !Bool.orb_true_iff, !N.eqb_eq in Hg. tauto. }
    apply (WCons [32] [55] [44; 9] _ [52])%N; [now apply G|apply W; lia|split; [discriminate|now apply G]|].
    apply (WCons [] [52] [32; 44] _ [53])%N; [now apply G|apply W; lia|split; [discriminate|now apply G]|].
    apply (WCons [] [53] [44] _ [54])%N; [now apply G|apply W; lia|split; [discriminate|now apply G]|].
    apply (WLast [] [54] [])%N; [now apply G|apply W; lia|now apply G].
Qed.
