(** Property C56: SVG path data. *)
From Coq Require Import Reals Lra Psatz Lia Arith ZArith List Floats.SpecFloat.
From Verif Require Import Prelude Num M_vec M_utils M_curve M_surface M_files L_base L_vec L_polygon L_knot L_bspline Props_bezier Props_knot Props_bspline Props_utils Props_polygon Props_split Props_loops.
Open Scope nat_scope.

(** ** Specification: what an SVG viewer draws for a path *)
(** the d attribute is split into command letters and numbers; spaces and commas separate *)
Inductive token := TCmd (c : N) | TNum (w : list N).
Definition is_letter (c : N) : bool := (((65 <=? c) && (c <=? 90)) || ((97 <=? c) && (c <=? 122)))%N.
Definition is_sep (c : N) : bool := ((c =? 32) || (c =? 44) || (c =? 10) || (c =? 13) || (c =? 9))%N.
Definition flush (w : list N) (ts : list token) : list token := match w with [] => ts | _ => TNum w :: ts end.
Fixpoint tokens (w s : list N) : list token :=
  match s with
  | [] => flush w []
  | c :: t => if is_letter c then flush w (TCmd c :: tokens [] t)
              else if is_sep c then flush w (tokens [] t) else tokens (w ++ [c]) t
  end.
(** what is drawn: straight segments and cubic Bezier arcs *)
Inductive prim (P : Type) := Seg (a b : P) | Cubic (a b c d : P).
Arguments Seg {P} _ _. Arguments Cubic {P} _ _ _ _.
Definition map_prim {P Q} (f : P -> Q) (x : prim P) : prim Q :=
  match x with Seg a b => Seg (f a) (f b) | Cubic a b c d => Cubic (f a) (f b) (f c) (f d) end.
(** the absolute commands M, L and C with implicit repetition (after M the repetition is L) *)
Inductive mode := MNone | MMove | MLine | MCurve.
Definition spoint := (list N * list N)%type.
Fixpoint draw (m : mode) (cur : option spoint) (ts : list token) : option (list (prim spoint)) :=
  match ts with
  | [] => Some []
  | TCmd k :: (TNum _ :: _) as t =>
      if (k =? 77)%N then draw MMove cur t
      else match cur with
           | None => None
           | Some _ => if (k =? 76)%N then draw MLine cur t else if (k =? 67)%N then draw MCurve cur t else None
           end
  | TNum x :: TNum y :: t =>
      match m, cur with
      | MMove, _ => draw MLine (Some (x, y)) t
      | MLine, Some c => match draw MLine (Some (x, y)) t with Some r => Some (Seg c (x, y) :: r) | None => None end
      | MCurve, Some c =>
          match t with
          | TNum x1 :: TNum y1 :: TNum x2 :: TNum y2 :: t =>
              match draw MCurve (Some (x2, y2)) t with Some r => Some (Cubic c (x, y) (x1, y1) (x2, y2) :: r) | None => None end
          | _ => None
          end
      | _, _ => None
      end
  | _ => None
  end.
Definition drawing (d : list N) : option (list (prim spoint)) := draw MNone None (tokens [] d).

(** what the segments of a polycurve should draw; [cur] is the end of what was drawn before *)
Section Expected.
Context {F : Type} {NF : Num F}.
Fixpoint path_prims (p : vec2 F) (l : list (vec2 F)) : list (prim (vec2 F)) :=
  match l with [] => [] | q :: l => Seg p q :: path_prims q l end.
Fixpoint cubic_prims (p : vec2 F) (l : list (vec2 F * vec2 F * vec2 F)) : list (prim (vec2 F)) :=
  match l with [] => [] | (a, b, c) :: l => Cubic p a b c :: cubic_prims c l end.
(** the last three control points of a cubic *)
Definition cubic_tail (cps : list (vec3 F)) (t : vec2 F * vec2 F * vec2 F) : Prop :=
  exists p0 p1 p2 p3 l, cps = p0 :: p1 :: p2 :: p3 :: l /\ t = (xy p1, xy p2, xy p3).

Inductive expected (fuel : nat) (rnd : list bool -> F) : option (vec2 F) -> DynSegment F -> list (prim (vec2 F)) -> option (vec2 F) -> Prop :=
| exp_line cur l r tol n a b : line_get_point l (fst r) = a -> line_get_point l (snd r) = b ->
    expected fuel rnd cur {| d_curve := DLine l; d_range := r; d_tolerance := tol; d_division := n |} [Seg (xy a) (xy b)] (Some (xy b))
| exp_polyline0 cur pl r tol n : pl_vertices pl = [] ->
    expected fuel rnd cur {| d_curve := DPolyline pl; d_range := r; d_tolerance := tol; d_division := n |} [] cur
| exp_polyline cur pl r tol n v vs : pl_vertices pl = v :: vs ->
    expected fuel rnd cur {| d_curve := DPolyline pl; d_range := r; d_tolerance := tol; d_division := n |} (path_prims (xy v) (map xy vs)) (Some (last (map xy vs) (xy v)))
| exp_cubic0 cur b r tol n : bs_degree b = 3 -> to_piecewise_bezier b = Ok [] ->
    expected fuel rnd cur {| d_curve := DBSpline3 b; d_range := r; d_tolerance := tol; d_division := n |} [] cur
| exp_cubic cur b r tol n start rest pieces tails : bs_degree b = 3 -> to_piecewise_bezier b = Ok ((start :: rest) :: pieces) ->
    Forall2 cubic_tail ((start :: rest) :: pieces) tails ->
    expected fuel rnd cur {| d_curve := DBSpline3 b; d_range := r; d_tolerance := tol; d_division := n |} (cubic_prims (xy start) tails) (Some (last (map snd tails) (xy start)))
| exp_sampled cur s p pts : (forall l, d_curve s <> DLine l) -> (forall pl, d_curve s <> DPolyline pl) -> (forall b, d_curve s = DBSpline3 b -> bs_degree b <> 3) ->
    segment_get_points fuel rnd (dyn_segment s) = Ok (p :: pts) ->
    expected fuel rnd cur s ((match cur with None => [] | Some c => [Seg c (xy p)] end) ++ path_prims (xy p) (map xy pts)) (Some (last (map xy pts) (xy p))).
Inductive expected_all (fuel : nat) (rnd : nat -> list bool -> F) : nat -> option (vec2 F) -> list (DynSegment F) -> list (prim (vec2 F)) -> Prop :=
| exp_nil k cur : expected_all fuel rnd k cur [] []
| exp_cons k cur s prims cur' segs rest : expected fuel (rnd k) cur s prims cur' -> expected_all fuel rnd (S k) cur' segs rest ->
    expected_all fuel rnd k cur (s :: segs) (prims ++ rest).
End Expected.

(** ** Tokens of the written text *)
Section Text.
Context {F : Type} {NF : Num F}.
Variable fmt2 : F -> list N.
(** the text of a number is not empty and has no letters or separators (so: not NaN or infinite) *)
Definition plain (w : list N) : Prop := w <> [] /\ Forall (fun c => is_letter c = false /\ is_sep c = false) w.
Definition plain_point (p : vec2 F) : Prop := plain (fmt2 (x2 p)) /\ plain (fmt2 (y2 p)).

Definition boundary (s : list N) : Prop := match s with [] => True | c :: _ => is_letter c = true \/ is_sep c = true end.
Lemma tokens_flush w s : boundary s -> tokens w s = flush w (tokens [] s).
Proof. destruct s as [|c s]; [reflexivity|]. cbn. intros [->| H]; [reflexivity|]. destruct (is_letter c); [reflexivity|]. now rewrite H. Qed.
Lemma tokens_word : forall v w s, Forall (fun c => is_letter c = false /\ is_sep c = false) v -> tokens w (v ++ s) = tokens (w ++ v) s.
Proof.
  induction v as [|c v IH]; intros w s H; [now rewrite app_nil_r|]. inversion H as [|? ? [H1 H2] Hv]; subst. cbn [app tokens]. rewrite H1, H2, IH by assumption. now rewrite <- app_assoc.
Qed.
Lemma tokens_number v s : plain v -> boundary s -> tokens [] (v ++ s) = TNum v :: tokens [] s.
Proof. intros [Hn Hp] Hb. rewrite tokens_word by assumption. cbn [app]. rewrite tokens_flush by assumption. destruct v; [congruence|reflexivity]. Qed.
Definition ptoks (p : vec2 F) : list token := [TNum (fmt2 (x2 p)); TNum (fmt2 (y2 p))].
Lemma tokens_point p s : plain_point p -> boundary s -> tokens [] (point_chars fmt2 p ++ s) = ptoks p ++ tokens [] s.
Proof.
  intros [Hx Hy] Hb. unfold point_chars. rewrite <- !app_assoc. rewrite tokens_number; [|assumption|cbn; now right]. cbn [app tokens is_letter is_sep].
  change (is_letter ch_comma) with false. change (is_sep ch_comma) with true. cbn [flush app]. cbv iota. rewrite tokens_number by assumption. reflexivity.
Qed.
Definition cmd_points (c : path_cmd F) : list (vec2 F) :=
  match c with MoveTo p | LineTo p => [p] | CurveTo a b c | CurveToCont a b c => [a; b; c] end.
Definition ctoks (c : path_cmd F) : list token :=
  match c with MoveTo _ => [TCmd 77] | LineTo _ => [TCmd 76] | CurveTo _ _ _ => [TCmd 67] | CurveToCont _ _ _ => [] end ++ flat_map ptoks (cmd_points c).
Definition plain_cmd (c : path_cmd F) : Prop := Forall plain_point (cmd_points c).
Lemma path_chars_boundary cs : boundary (path_chars fmt2 cs).
Proof. destruct cs as [|[p|p|a b c|a b c] cs]; cbn; auto. Qed.
Lemma tokens_path : forall cs, Forall plain_cmd cs -> tokens [] (path_chars fmt2 cs) = flat_map ctoks cs.
Proof.
  induction cs as [|c cs IH]; intros H; [reflexivity|]. inversion H as [|? ? Hc Hcs]; subst. change (path_chars fmt2 (c :: cs)) with (path_cmd_chars fmt2 c ++ path_chars fmt2 cs).
  cbn [flat_map]. rewrite <- IH by assumption. pose proof (path_chars_boundary cs) as Hb. generalize dependent (path_chars fmt2 cs). intros s _ Hb.
  assert (Sp : forall s, tokens [] (ch_sp :: s) = tokens [] s) by reflexivity.
  destruct c as [p|p|p q r|p q r]; unfold plain_cmd in Hc; cbn [cmd_points] in Hc; unfold path_cmd_chars, ctoks; cbn [cmd_points flat_map]; rewrite <- ?app_assoc; cbn [app].
  - inversion Hc; subst. change (tokens [] (ch_M :: ch_sp :: point_chars fmt2 p ++ s)) with (TCmd 77 :: tokens [] (point_chars fmt2 p ++ s)). rewrite tokens_point by assumption. reflexivity.
  - inversion Hc; subst. change (tokens [] (ch_sp :: ch_L :: ch_sp :: point_chars fmt2 p ++ s)) with (TCmd 76 :: tokens [] (point_chars fmt2 p ++ s)). rewrite tokens_point by assumption. reflexivity.
  - inversion Hc as [|? ? Hp Hc1]; subst. inversion Hc1 as [|? ? Hq Hc2]; subst. inversion Hc2; subst.
    match goal with |- tokens [] (ch_sp :: ch_C :: ch_sp :: ?u) = _ => change (tokens [] (ch_sp :: ch_C :: ch_sp :: u)) with (TCmd 67 :: tokens [] u) end.
    rewrite tokens_point; [|assumption|cbn; now right]. rewrite Sp, tokens_point; [|assumption|cbn; now right]. rewrite Sp, tokens_point by assumption. reflexivity.
  - inversion Hc as [|? ? Hp Hc1]; subst. inversion Hc1 as [|? ? Hq Hc2]; subst. inversion Hc2; subst.
    rewrite Sp, tokens_point; [|assumption|cbn; now right]. rewrite Sp, tokens_point; [|assumption|cbn; now right]. rewrite Sp, tokens_point by assumption. reflexivity.
Qed.
End Text.

(** ** Drawing of command lists *)
Section Runs.
Context {F : Type} {NF : Num F}.
Definition state := (mode * option (vec2 F))%type.
Definition run1 (st : state) (c : path_cmd F) : option (list (prim (vec2 F)) * state) :=
  match c, st with
  | MoveTo p, _ => Some ([], (MLine, Some p))
  | LineTo p, (_, Some q) => Some ([Seg q p], (MLine, Some p))
  | CurveTo a b c, (_, Some q) => Some ([Cubic q a b c], (MCurve, Some c))
  | CurveToCont a b c, (MCurve, Some q) => Some ([Cubic q a b c], (MCurve, Some c))
  | _, _ => None
  end.
Fixpoint runs (st : state) (cs : list (path_cmd F)) : option (list (prim (vec2 F)) * state) :=
  match cs with
  | [] => Some ([], st)
  | c :: cs => match run1 st c with
               | Some (p, st) => match runs st cs with Some (q, st) => Some (p ++ q, st) | None => None end
               | None => None
               end
  end.
Lemma runs_app : forall cs ds st p st1 q st2, runs st cs = Some (p, st1) -> runs st1 ds = Some (q, st2) -> runs st (cs ++ ds) = Some (p ++ q, st2).
Proof.
  induction cs as [|c cs IH]; intros ds st p st1 q st2 E1 E2; cbn in *; [now injection E1 as <- <-|].
  destruct (run1 st c) as [[p0 st0]|]; [|discriminate]. destruct (runs st0 cs) as [[p1 st1']|] eqn:E; [|discriminate]. injection E1 as <- <-.
  rewrite (IH _ _ _ _ _ _ E E2). now rewrite app_assoc.
Qed.
Variable fmt2 : F -> list N.
Definition spt (p : vec2 F) : spoint := (fmt2 (x2 p), fmt2 (y2 p)).
Lemma draw_runs : forall cs m cur p st, runs (m, cur) cs = Some (p, st) -> draw m (option_map spt cur) (flat_map (ctoks fmt2) cs) = Some (map (map_prim spt) p).
Proof.
  induction cs as [|c cs IH]; intros m cur p st E; cbn [runs] in E; [now injection E as <- <-|].
  destruct (run1 (m, cur) c) as [[p0 [m0 cur0]]|] eqn:E1; [|discriminate]. destruct (runs (m0, cur0) cs) as [[p1 st1]|] eqn:E2; [|discriminate].
  injection E as <- <-. apply IH in E2. rewrite map_app. destruct c as [a|a|a b d|a b d]; cbn [run1] in E1.
  - injection E1 as <- <- <-. cbn. exact E2.
  - destruct cur as [q|]; [|discriminate]. injection E1 as <- <- <-. cbn in E2 |- *. match type of E2 with ?l = _ => match goal with |- match ?d with _ => _ end = _ => change d with l end end. rewrite E2. reflexivity.
  - destruct cur as [q|]; [|discriminate]. injection E1 as <- <- <-. cbn in E2 |- *. match type of E2 with ?l = _ => match goal with |- match ?d with _ => _ end = _ => change d with l end end. rewrite E2. reflexivity.
  - destruct m; try discriminate. destruct cur as [q|]; [|discriminate]. injection E1 as <- <- <-. cbn in E2 |- *. match type of E2 with ?l = _ => match goal with |- match ?d with _ => _ end = _ => change d with l end end. rewrite E2. reflexivity.
Qed.
Lemma last_cons {A} (a p : A) l : last (a :: l) p = last l a.
Proof. revert a p. induction l as [|b l IH]; intros a p; [reflexivity|]. change (last (a :: b :: l) p) with (last (b :: l) p). now rewrite !IH. Qed.
Lemma runs_lines : forall l m p, exists m', runs (m, Some p) (map LineTo l) = Some (path_prims p l, (m', Some (last l p))).
Proof.
  induction l as [|q l IH]; intros m p; [eexists; reflexivity|]. destruct (IH MLine q) as [m' E]. exists m'. cbn [map runs run1]. rewrite E, last_cons. reflexivity.
Qed.
Lemma runs_curves : forall l m p, exists m', (l = [] \/ m = MCurve) ->
  runs (m, Some p) (map (fun '(a, b, c) => CurveToCont a b c) l) = Some (cubic_prims p l, (m', Some (last (map snd l) p))).
Proof.
  induction l as [|[[a b] c] l IH]; intros m p; [eexists; reflexivity|]. destruct (IH MCurve c) as [m' E]. exists m'. intros [H|H]; [discriminate|].
  cbn [map runs run1]. subst m. rewrite E by now right. cbn [map snd]. rewrite last_cons. reflexivity.
Qed.

Lemma svg_points_nonempty : forall (pts : list (vec3 F)) (data : list (path_cmd F)), data <> [] -> svg_points data pts = data ++ map LineTo (map xy pts).
Proof.
  unfold svg_points. induction pts as [|p pts IH]; intros data Hd; cbn [fold_left map]; [now rewrite app_nil_r|]. destruct data as [|c data]; [congruence|].
  rewrite IH by discriminate. now rewrite <- app_assoc.
Qed.
Lemma polyline_cmds (v : vec3 F) vs : map (fun '(index, p) => if index =? 0 then @MoveTo F (xy p) else LineTo (xy p)) (enumerate (v :: vs)) = MoveTo (xy v) :: map LineTo (map xy vs).
Proof.
  unfold enumerate. cbn [length seq combine map]. f_equal. generalize 1 (eq_refl : 0 <? 1 = true). intros k Hk. revert k Hk.
  induction vs as [|w vs IH]; intros k Hk; [reflexivity|]. cbn [length seq combine map]. apply Nat.ltb_lt in Hk. destruct (Nat.eqb_spec k 0); [lia|]. f_equal. apply IH, Nat.ltb_lt. lia.
Qed.
Definition piece_cmds (x : nat * list (vec3 F)) : outcome (list (path_cmd F)) :=
  let '(index, cps) := x in
  start <- idx cps 0 ;; cp1 <- idx cps 1 ;; cp2 <- idx cps 2 ;; en <- idx cps 3 ;;
  Ok (if (index =? 0)%nat then [MoveTo (xy start); CurveTo (xy cp1) (xy cp2) (xy en)] else [CurveToCont (xy cp1) (xy cp2) (xy en)]).
Lemma piece_inv k cps cs : piece_cmds (k, cps) = Ok cs -> exists start t, hd_error cps = Some start /\ cubic_tail cps t /\
  cs = if k =? 0 then [MoveTo (xy start); (fun '(a, b, c) => CurveTo a b c) t] else [(fun '(a, b, c) => CurveToCont a b c) t].
Proof.
  unfold piece_cmds. intros E. obind_inv E. obind_inv E. obind_inv E. obind_inv E. apply Ok_inj in E. subst cs.
  destruct cps as [|p0 [|p1 [|p2 [|p3 l]]]]; try discriminate. cbn in *. apply Ok_inj in E0, E1, E2, E3. subst.
  exists a, (xy a0, xy a1, xy a2). split; [reflexivity|]. split; [unfold cubic_tail; eauto 10|]. destruct (k =? 0); reflexivity.
Qed.
Lemma later_pieces : forall pieces k cs, 0 < k -> mapM piece_cmds (combine (seq k (length pieces)) pieces) = Ok cs ->
  exists tails, Forall2 cubic_tail pieces tails /\ concat cs = map (fun '(a, b, c) => CurveToCont a b c) tails.
Proof.
  induction pieces as [|p pieces IH]; intros k cs Hk E; cbn [length seq combine mapM] in E.
  - apply Ok_inj in E. subst. exists []. split; [constructor|reflexivity].
  - obind_inv E. obind_inv E. apply Ok_inj in E. subst cs. apply piece_inv in E0 as (st & t & _ & Ht & ->). apply (IH (S k)) in E1 as (ts & HF & Ec); [|lia].
    exists (t :: ts). split; [now constructor|]. destruct (Nat.eqb_spec k 0); [lia|]. cbn [concat app map]. now rewrite Ec.
Qed.

Lemma svg_segment_spec fuel rnd data s data' m cur : svg_segment fuel rnd data s = Ok data' -> (cur = None <-> data = []) ->
  exists cs prims m' cur', data' = data ++ cs /\ expected fuel rnd cur s prims cur' /\ runs (m, cur) cs = Some (prims, (m', cur')) /\ (cur' = None <-> data' = []).
Proof.
  intros E Hcur. unfold svg_segment in E. destruct s as [cv r tol n]. cbn [d_curve d_range] in E.
  assert (Smp : forall pts, (forall l, cv <> DLine l) -> (forall pl, cv <> DPolyline pl) -> (forall b, cv = DBSpline3 b -> bs_degree b <> 3) ->
     segment_get_points fuel rnd (dyn_segment {| d_curve := cv; d_range := r; d_tolerance := tol; d_division := n |}) = Ok pts -> data' = svg_points data pts ->
     exists cs prims m' cur', data' = data ++ cs /\ expected fuel rnd cur {| d_curve := cv; d_range := r; d_tolerance := tol; d_division := n |} prims cur' /\ runs (m, cur) cs = Some (prims, (m', cur')) /\ (cur' = None <-> data' = [])).
  { intros pts H1 H2 H3 Ep ->. pose proof Ep as Ep'. apply C55_segment_points in Ep' as (p & q & mid & -> & _).
    set (pts := mid ++ [q]) in *. destruct data as [|c data].
    - assert (cur = None) as -> by now apply Hcur. exists (MoveTo (xy p) :: map LineTo (map xy pts)).
      destruct (runs_lines (map xy pts) MLine (xy p)) as [m' Er]. eexists _, m', _. split; [|split; [|split]].
      + cbn [app]. unfold svg_points. cbn [fold_left]. fold (svg_points [MoveTo (xy p)] pts). rewrite svg_points_nonempty by discriminate. reflexivity.
      + eapply exp_sampled; eauto.
      + cbn [runs run1]. rewrite Er. reflexivity.
      + split; [discriminate|]. cbn [svg_points fold_left]. change (fold_left _ pts ?d) with (svg_points d pts). rewrite svg_points_nonempty by discriminate. discriminate.
    - destruct cur as [c0|]; [|exfalso; destruct Hcur as [Hc _]; specialize (Hc eq_refl); discriminate].
      destruct (runs_lines (map xy (p :: pts)) m c0) as [m' Er]. exists (map LineTo (map xy (p :: pts))). eexists _, m', _. split; [|split; [|split]].
      + apply svg_points_nonempty. discriminate.
      + eapply exp_sampled; eauto.
      + rewrite Er. cbn [map path_prims app]. rewrite last_cons. reflexivity.
      + split; [discriminate|]. rewrite svg_points_nonempty by discriminate. discriminate. }
  destruct cv as [l|pl|b|c].
  - apply Ok_inj in E. subst data'. eexists _, _, MLine, _. split; [reflexivity|]. split; [eapply exp_line; reflexivity|]. split; [reflexivity|].
    split; [discriminate|]. intros H. apply app_eq_nil in H as [_ H]. discriminate.
  - apply Ok_inj in E. subst data'. unfold svg_polyline. destruct (pl_vertices pl) as [|v vs] eqn:Ev.
    + exists [], [], m, cur. split; [reflexivity|]. split; [now apply exp_polyline0|]. split; [reflexivity|]. cbn. now rewrite app_nil_r.
    + rewrite polyline_cmds. destruct (runs_lines (map xy vs) MLine (xy v)) as [m' Er]. eexists _, _, m', _. split; [reflexivity|]. split; [eapply exp_polyline; exact Ev|].
      split; [cbn [runs run1]; rewrite Er; reflexivity|]. split; [discriminate|]. intros H. apply app_eq_nil in H as [_ H]. discriminate.
  - destruct (Nat.eqb_spec (bs_degree b) 3) as [Hd|Hd].
    + obind_inv E. apply Ok_inj in E. subst data'. unfold svg_bspline in E0. obind_inv E0. obind_inv E0. apply Ok_inj in E0. subst a.
      match goal with H : to_piecewise_bezier b = Ok ?x |- _ => rename x into pieces; rename H into Ep end.
      match goal with H : mapM _ _ = Ok ?x |- _ => rename x into cs; rename H into Ec end.
      change (mapM piece_cmds (enumerate pieces) = Ok cs) in Ec. destruct pieces as [|p0 pieces].
      * apply Ok_inj in Ec. subst cs. exists [], [], m, cur. split; [reflexivity|]. split; [now apply exp_cubic0|]. split; [reflexivity|]. cbn. now rewrite app_nil_r.
      * unfold enumerate in Ec. cbn [length seq combine mapM] in Ec. obind_inv Ec. obind_inv Ec. apply Ok_inj in Ec. subst cs.
        match goal with H : piece_cmds (0, p0) = _ |- _ => apply piece_inv in H as (start & t & Hst & Ht & ->) end.
        match goal with H : mapM piece_cmds _ = Ok _ |- _ => apply later_pieces in H as (ts & HF & Ec); [|lia] end.
        cbn [Nat.eqb concat]. rewrite Ec. destruct t as [[a1 a2] a3]. destruct (runs_curves ts MCurve a3) as [m' Er].
        destruct p0 as [|q0 rest]; [discriminate|]. cbn in Hst. injection Hst as ->.
        exists ([MoveTo (xy start); CurveTo a1 a2 a3] ++ map (fun '(a, b, c) => CurveToCont a b c) ts), (cubic_prims (xy start) ((a1, a2, a3) :: ts)), m', (Some (last (map snd ((a1, a2, a3) :: ts)) (xy start))).
        split; [reflexivity|]. split; [eapply exp_cubic; [exact Hd|exact Ep|constructor; [exact Ht|exact HF]]|].
        split; [|split; [discriminate|intros H; apply app_eq_nil in H as [_ H]; discriminate]].
        cbn [app runs run1 map snd cubic_prims]. rewrite Er by now right. rewrite last_cons. reflexivity.
    + obind_inv E. apply Ok_inj in E. apply (Smp a); [discriminate|discriminate|intros b' Hb; injection Hb as <-; exact Hd|exact E0|now symmetry].
  - obind_inv E. apply Ok_inj in E. apply (Smp a); [discriminate|discriminate|discriminate|exact E0|now symmetry].
Qed.
Lemma svg_path_runs fuel rnd : forall segs k data m cur p0 cmds,
  foldM (fun data '(k, s) => svg_segment fuel (rnd k) data s) data (combine (seq k (length segs)) segs) = Ok cmds ->
  runs (MNone, None) data = Some (p0, (m, cur)) -> (cur = None <-> data = []) ->
  exists prims st, expected_all fuel rnd k cur segs prims /\ runs (MNone, None) cmds = Some (p0 ++ prims, st).
Proof.
  induction segs as [|s segs IH]; intros k data m cur p0 cmds E Er Hc; cbn [length seq combine foldM] in E.
  - apply Ok_inj in E. subst. eexists [], _. split; [constructor|]. rewrite app_nil_r. exact Er.
  - obind_inv E. destruct (svg_segment_spec _ _ _ _ _ m _ E0 Hc) as (cs & prims & m' & cur' & -> & Hexp & Er' & Hc').
    pose proof (runs_app _ _ _ _ _ _ _ Er Er') as Er2. destruct (IH _ _ _ _ _ _ E Er2 Hc') as (prims' & st & Hall & Er3).
    exists (prims ++ prims'), st. split; [econstructor; eassumption|]. now rewrite app_assoc.
Qed.

(** ** C56 *)
(** An SVG viewer reading the path of a polycurve draws exactly the expected primitives. *)
Theorem C56_drawing fuel rnd segs cmds : svg_path fuel rnd segs = Ok cmds -> Forall (plain_cmd fmt2) cmds ->
  exists prims, expected_all fuel rnd 0 None segs prims /\ drawing (path_chars fmt2 cmds) = Some (map (map_prim spt) prims).
Proof.
  intros E Hp. unfold svg_path, enumerate in E. destruct (svg_path_runs _ _ _ _ _ MNone None [] _ E eq_refl) as (prims & st & Hall & Er); [tauto|].
  exists prims. split; [exact Hall|]. unfold drawing. rewrite tokens_path by assumption. cbn [app] in Er. exact (draw_runs _ _ _ _ _ Er).
Qed.
End Runs.

(** The cubic arcs drawn for a cubic B-spline in exact arithmetic are the B-spline itself. *)
Open Scope R_scope.
Definition arc_at (x : prim (vec2 R)) (s : R) : vec2 R :=
  match x with
  | Seg a b => V2 ((1 - s) * x2 a + s * x2 b) ((1 - s) * y2 a + s * y2 b)
  | Cubic a b c d =>
      let f := fun a b c d => (1 - s) ^ 3 * a + 3 * s * (1 - s) ^ 2 * b + 3 * s ^ 2 * (1 - s) * c + s ^ 3 * d in
      V2 (f (x2 a) (x2 b) (x2 c) (x2 d)) (f (y2 a) (y2 b) (y2 c) (y2 d))
  end.
Lemma cubic_eval (p0 p1 p2 p3 : vec3 R) s : exists q, bezier3_get_point [p0; p1; p2; p3] s = Ok q /\ xy q = arc_at (Cubic (xy p0) (xy p1) (xy p2) (xy p3)) s.
Proof.
  rewrite C01_bezier_eval by (cbn; lia). eexists. split; [reflexivity|]. destruct p0, p1, p2, p3. unfold comb3, xy, arc_at, C, sumf. cbn. f_equal; field.
Qed.
Lemma cubic_prims_nth : forall tails (p : vec2 R) k x, nth_error (cubic_prims p tails) k = Some x ->
  exists start t, x = Cubic start (fst (fst t)) (snd (fst t)) (snd t) /\ nth_error tails k = Some t /\
    match k with O => start = p | S j => exists t', nth_error tails j = Some t' /\ start = snd t' end.
Proof.
  induction tails as [|[[a b] c] tails IH]; intros p k x E; [destruct k; discriminate|]. destruct k as [|k]; cbn in E.
  - injection E as <-. exists p, (a, b, c). repeat split.
  - destruct (IH _ _ _ E) as (st & t & -> & Et & Hst). exists st, t. split; [reflexivity|]. split; [exact Et|]. destruct k as [|j].
    + exists (a, b, c). split; [reflexivity|exact Hst].
    + destruct Hst as (t' & Et' & ->). exists t'. split; [exact Et'|reflexivity].
Qed.
Lemma cubic_prims_length : forall tails (p : vec2 R), length (cubic_prims p tails) = length tails.
Proof. induction tails as [|[[a b] c] tails IH]; intros p; [reflexivity|]. cbn. now rewrite IH. Qed.
Lemma Forall2_nth {A B} (P : A -> B -> Prop) l m : Forall2 P l m -> forall k b, nth_error m k = Some b -> exists a, nth_error l k = Some a /\ P a b.
Proof. induction 1; intros k b E; [destruct k; discriminate|]. destruct k; cbn in E; [injection E as <-; exists x; split; [reflexivity|assumption]|]. apply IHForall2. exact E. Qed.

Theorem C56_cubic_bspline (c : BSpline R (vec3 R)) fuel rnd cur r tol n prims cur' :
  let ks := bs_knots c in
  valid_bspline c -> bs_degree c = 3%nat -> first_knot ks < last_knot ks ->
  nth 3 ks 0 = first_knot ks -> nth (length (bs_cps c)) ks 0 = last_knot ks ->
  (forall x, (mult ks x <= 4)%nat) -> (forall x, first_knot ks < x < last_knot ks -> (mult ks x <= 3)%nat) ->
  (forall a b, In a ks -> In b ks -> a <> b -> Rabs (a - b) > / 10000000) ->
  expected fuel rnd cur {| d_curve := DBSpline3 c; d_range := r; d_tolerance := tol; d_division := n |} prims cur' ->
  exists ds, strictly_increasing ds /\ (forall a, In a ds <-> In a ks) /\ length ds = S (length prims) /\
    forall k x, nth_error prims k = Some x -> forall s, 0 <= s <= 1 ->
      exists p, bspline3_get_point c (nth k ds 0 + s * (nth (S k) ds 0 - nth k ds 0)) = Ok p /\ arc_at x s = xy p.
Proof.
  intros ks Hv Hd Hne Hst Hen Hm Hin Htol Hexp.
  destruct (C14_piecewise_bezier c Hv Hne) as (ds & pieces & Hinc & Hds & Epw & Hlen & Hp).
  { fold ks. rewrite Hd. exact Hst. } { exact Hen. } { rewrite Hd. exact Hm. } { exact Htol. }
  exists ds. split; [exact Hinc|]. split; [exact Hds|].
  assert (Hk4 : forall k cps, nth_error pieces k = Some cps -> exists p0 p1 p2 p3, cps = [p0; p1; p2; p3]).
  { intros k cps E. assert (Hk : (k < length pieces)%nat) by (apply nth_error_Some; congruence). destruct (Hp k Hk) as (HL & _). apply nth_error_nth with (d := []) in E. rewrite E in HL. rewrite Hd in HL.
    destruct cps as [|p0 [|p1 [|p2 [|p3 [|]]]]]; cbn in HL; try lia. eauto 10. }
  (* evaluation on the closed span *)
  assert (Hev : forall k cps s, nth_error pieces k = Some cps -> 0 <= s <= 1 -> bezier3_get_point cps s = bspline3_get_point c (nth k ds 0 + s * (nth (S k) ds 0 - nth k ds 0))).
  { intros k cps s E Hs. assert (Hk : (k < length pieces)%nat) by (apply nth_error_Some; congruence). destruct (Hp k Hk) as (_ & H1 & H2). apply nth_error_nth with (d := []) in E. rewrite E, Nat.add_1_r in *.
    destruct (Req_dec s 1) as [->|Hs1]; [|apply H1; lra]. replace (nth k ds 0 + 1 * (nth (S k) ds 0 - nth k ds 0)) with (nth (S k) ds 0) by ring. apply H2.
    assert (Hf : first_knot ks <= nth k ds 0). { apply Rnot_lt_le. intros Hlt. assert (Hi : In (nth k ds 0) ks) by (apply Hds, nth_In; lia). apply (In_nth _ _ 0) in Hi as (i & Hi & Ei).
      destruct Hv as [Hsort _ _ _]. specialize (Hsort 0%nat i ltac:(fold ks; lia)). fold ks in Hsort. unfold first_knot in Hlt. lra. }
    assert (Hl : nth (S k) ds 0 <= last_knot ks). { assert (Hi : In (nth (S k) ds 0) ks) by (apply Hds, nth_In; lia). apply (In_nth _ _ 0) in Hi as (i & Hi & Ei).
      destruct Hv as [Hsort _ _ _]. specialize (Hsort i (length ks - 1)%nat ltac:(fold ks; lia)). fold ks in Hsort. unfold last_knot. lra. }
    specialize (Hinc k (S k) ltac:(lia)). fold ks. rewrite Hd. destruct (Req_dec (nth (S k) ds 0) (last_knot ks)) as [He|He]; [now right|]. left. apply Hin. lra. }
  inversion Hexp as [| | |cur0 b r0 tol0 n0 _ E|cur0 b r0 tol0 n0 start rest pieces' tails _ E HF|cur0 s0 p pts _ _ H3]; subst.
  - rewrite E in Epw. apply Ok_inj in Epw. subst pieces. split; [exact Hlen|]. intros k x Ex. destruct k; discriminate.
  - rewrite E in Epw. apply Ok_inj in Epw. subst pieces. split. { rewrite cubic_prims_length. rewrite Hlen. f_equal. clear - HF. induction HF; cbn; congruence. }
    intros k x Ex s Hs. apply cubic_prims_nth in Ex as (stp & t & -> & Et & Hstp).
    destruct (Forall2_nth _ _ _ HF _ _ Et) as (cps & Ecps & q0 & q1 & q2 & q3 & l & Eq & ->). destruct (Hk4 _ _ Ecps) as (p0 & p1 & p2 & p3 & E4). rewrite E4 in Eq. injection Eq as <- <- <- <- <-.
    cbn [fst snd]. assert (Estp : stp = xy p0).
    { destruct k as [|j]; [cbn in Ecps; injection Ecps as E0; subst cps; injection E4 as -> _; exact Hstp|]. destruct Hstp as (t' & Et' & ->).
      destruct (Forall2_nth _ _ _ HF _ _ Et') as (cps' & Ecps' & r0' & r1 & r2 & r3 & l' & Eq' & ->). destruct (Hk4 _ _ Ecps') as (s0 & s1 & s2 & s3 & E4'). rewrite E4' in Eq'. injection Eq' as <- <- <- <- <-. cbn [snd].
      pose proof (Hev _ _ 1 Ecps' ltac:(lra)) as H1. pose proof (Hev _ _ 0 Ecps ltac:(lra)) as H0. subst cps cps'.
      replace (nth j ds 0 + 1 * (nth (S j) ds 0 - nth j ds 0)) with (nth (S j) ds 0) in H1 by ring.
      replace (nth (S j) ds 0 + 0 * (nth (S (S j)) ds 0 - nth (S j) ds 0)) with (nth (S j) ds 0) in H0 by ring.
      rewrite <- H1 in H0. destruct (C02_bezier_endpoints p0 [p1; p2; p3]) as [Ha _]. destruct (C02_bezier_endpoints s0 [s1; s2; s3]) as [_ Hb]. rewrite Ha, Hb in H0. apply Ok_inj in H0. cbn in H0. now subst. }
    subst stp. destruct (cubic_eval p0 p1 p2 p3 s) as (q & Eq & Exy). exists q. split; [|now symmetry]. rewrite <- Eq, <- E4. symmetry. now apply Hev.
  - exfalso. now apply (H3 c).
Qed.

(** Polylines and cubic B-splines are drawn whole, whatever the parameter range of the segment. *)
Theorem C56_range_ignored {F} {NF : Num F} fuel rnd data (cv : DynCurve F) r r' tol n :
  match cv with DPolyline _ => True | DBSpline3 b => bs_degree b = 3%nat | _ => False end ->
  svg_segment fuel rnd data {| d_curve := cv; d_range := r; d_tolerance := tol; d_division := n |} =
  svg_segment fuel rnd data {| d_curve := cv; d_range := r'; d_tolerance := tol; d_division := n |}.
Proof. unfold svg_segment. destruct cv; cbn [d_curve d_range]; try tauto. intros ->. reflexivity. Qed.

(** Example: a small decimal rendering, a line, a polyline cut to its first half, and a sampled
    curve that does not start where the polyline ends (which adds the segment (4,2)-(1,2)). *)
Definition fmt_digit (x : f64) : list N :=
  match filter (fun k => SFeqb x (f64_of_Z (Z.of_nat k))) (seq 0 10) with k :: _ => [48 + N.of_nat k; 46; 48; 48]%N | [] => [] end.
Definition pl64 : Polyline f64 := match polyline_new (NF := F64Num) [v64 1 0 0; v64 4 0 0; v64 4 2 0] with Ok pl => pl | _ => {| pl_vertices := []; pl_segment_lengths := []; pl_length := f0 |} end.
Definition svg_example : list (DynSegment f64) :=
  let seg c := {| d_curve := c; d_range := (f0, flit 1 2); d_tolerance := f64_of_Z 1; d_division := 4 |} in
  [seg (DLine {| l_origin := v64 0 0 0; l_direction := v64 2 0 0 |}); seg (DPolyline pl64); seg (DOther (bezier3_curve (NF := F64Num) [v64 1 2 0; v64 5 6 0]))].
Definition spt64 (a b : Z) : spoint := (fmt_digit (f64_of_Z a), fmt_digit (f64_of_Z b)).
Example C56_nonvacuous : exists cmds, svg_path (NF := F64Num) 5 (fun _ _ => f0) svg_example = Ok cmds /\ Forall (plain_cmd fmt_digit) cmds /\
  drawing (path_chars fmt_digit cmds) = Some [Seg (spt64 0 0) (spt64 1 0); Seg (spt64 1 0) (spt64 4 0); Seg (spt64 4 0) (spt64 4 2); Seg (spt64 4 2) (spt64 1 2); Seg (spt64 1 2) (spt64 3 4)].
Proof.
  eexists. split; [vm_compute; reflexivity|]. split; [|vm_compute; reflexivity].
  repeat (constructor; [repeat (constructor; [split; (split; [vm_compute; discriminate|apply Forall_forall; intros c Hc; revert c Hc; apply Forall_forall; vm_compute; repeat constructor])|]); constructor|]). constructor.
Qed.
(** so "only the segment's own part of the curve is drawn" fails *)
Theorem C56_only_segment_drawn_refuted : exists (s : DynSegment f64) cmds e, svg_path (NF := F64Num) 5 (fun _ _ => f0) [s] = Ok cmds /\
  c_get_point (dyn_curve (d_curve s)) (snd (d_range s)) = Ok e /\ last cmds (MoveTo (q64 0 0)) = LineTo (q64 4 2) /\ xy e <> q64 4 2.
Proof.
  exists (nth 1 svg_example {| d_curve := DPolyline pl64; d_range := (f0, f0); d_tolerance := f0; d_division := 0 |}). eexists _, _.
  split; [vm_compute; reflexivity|]. split; [vm_compute; reflexivity|]. split; [vm_compute; reflexivity|]. vm_compute. discriminate.
Qed.
Lemma cubic_expected {F} {NF : Num F} fuel rnd cur (c : BSpline F (vec3 F)) r tol n pieces : bs_degree c = 3%nat -> to_piecewise_bezier c = Ok pieces -> Forall (fun cps => length cps = 4%nat) pieces ->
  exists prims cur', expected fuel rnd cur {| d_curve := DBSpline3 c; d_range := r; d_tolerance := tol; d_division := n |} prims cur'.
Proof.
  intros Hd E HF. assert (T : exists tails, Forall2 cubic_tail pieces tails).
  { clear E. induction HF as [|cps pieces H _ [tails IH]]; [eexists; constructor|]. destruct cps as [|p0 [|p1 [|p2 [|p3 [|]]]]]; try discriminate. eexists. constructor; [|exact IH]. unfold cubic_tail. eauto 10. }
  destruct T as [tails T]. destruct pieces as [|[|start rest] pieces]; [eexists _, _; now apply exp_cubic0| |eexists _, _; eapply exp_cubic; eassumption].
  inversion HF. discriminate.
Qed.
Definition cubic_ex : BSpline R (vec3 R) :=
  mkBSpline [V3 0 0 0; V3 1 2 0; V3 2 2 1; V3 3 0 1; V3 4 1 2] [0; 0; 0; 0; 1; 2; 2; 2; 2] 3.
Example C56_cubic_nonvacuous : let c := cubic_ex in let ks := bs_knots c in
  valid_bspline c /\ bs_degree c = 3%nat /\ first_knot ks < last_knot ks /\
  nth 3 ks 0 = first_knot ks /\ nth (length (bs_cps c)) ks 0 = last_knot ks /\
  (forall x, (mult ks x <= 4)%nat) /\ (forall x, first_knot ks < x < last_knot ks -> (mult ks x <= 3)%nat) /\
  (forall a b, In a ks -> In b ks -> a <> b -> Rabs (a - b) > / 10000000) /\
  exists prims cur', expected 5 (fun _ => 0) None {| d_curve := DBSpline3 c; d_range := (0, 2); d_tolerance := 1; d_division := 4 |} prims cur'.
Proof.
  cbv zeta. assert (V : valid_bspline cubic_ex).
  { split; cbn [bs_knots bs_cps bs_degree cubic_ex].
    - apply sorted_by_pairs. intros i Hi. cbn [length] in Hi. do 8 (destruct i as [|i]; [cbn; lra|]). lia.
    - apply separated_ints. intros a Ha. cbn in Ha. repeat (destruct Ha as [<-|Ha]; [eexists; split; [reflexivity|lia]|]). destruct Ha.
    - reflexivity.
    - cbn; lia. }
  assert (H1 : first_knot (bs_knots cubic_ex) < last_knot (bs_knots cubic_ex)) by (unfold first_knot, last_knot; cbn; lra).
  assert (H4 : forall x, (mult (bs_knots cubic_ex) x <= 4)%nat) by (intros x; unfold mult; cbn; repeat (destruct (Req_EM_T _ _); try lra); lia).
  assert (H5 : forall a b, In a (bs_knots cubic_ex) -> In b (bs_knots cubic_ex) -> a <> b -> Rabs (a - b) > / 10000000).
  { intros a b Ha Hb NE. assert (G : forall d, d >= 1 \/ d <= -1 -> Rabs d > / 10000000).
    { intros d [H|H]; [rewrite Rabs_right by lra|rewrite Rabs_left by lra]; lra. }
    apply G. cbn in Ha, Hb. repeat (destruct Ha as [<-|Ha]; [|]); try destruct Ha; repeat (destruct Hb as [<-|Hb]; [|]); try destruct Hb; lra. }
  split; [exact V|]. split; [reflexivity|]. split; [exact H1|]. split; [reflexivity|]. split; [reflexivity|]. split; [exact H4|]. split.
  { intros x. unfold first_knot, last_knot, mult. cbn. intros Hx. repeat (destruct (Req_EM_T _ _); try lra); lia. }
  split; [exact H5|].
  destruct (C14_piecewise_bezier cubic_ex V H1 eq_refl eq_refl H4 H5) as (ds & pieces & _ & _ & E & _ & Hp).
  eapply cubic_expected; [reflexivity|exact E|]. apply Forall_forall. intros cps Hc. apply (In_nth _ _ []) in Hc as (k & Hk & <-). destruct (Hp k Hk) as (HL & _). exact HL.
Qed.
(** One path per curve of the model, in order. *)
Theorem C56_one_path_per_curve {F} {NF : Num F} fmt2 fuel rnd (curves : list (list (DynSegment F))) paths :
  model_svg_paths fmt2 fuel rnd curves = Ok paths ->
  length paths = length curves /\
  forall k segs, nth_error curves k = Some segs -> exists cmds, svg_path fuel (rnd k) segs = Ok cmds /\ nth_error paths k = Some (path_chars fmt2 cmds).
Proof.
  unfold model_svg_paths, model_save_as_svg, enumerate. intros E. obind_inv E. apply Ok_inj in E. subst paths. apply mapM_inv in E0.
  enough (G : forall curves o a, Forall2 (fun '(k, c) y => svg_path fuel (rnd k) c = Ok y) (combine (seq o (length curves)) curves) a -> length a = length curves /\
     forall k segs, nth_error curves k = Some segs -> exists cmds, svg_path fuel (rnd (o + k)%nat) segs = Ok cmds /\ nth_error a k = Some cmds).
  { destruct (G curves 0%nat a) as [G1 G2]. { eapply Forall2_weaken; [|exact E0]. now intros [k c] y. }
    split; [now rewrite map_length|]. intros k segs Es. destruct (G2 k segs Es) as (cmds & Ec & En). exists cmds. split; [exact Ec|]. now rewrite nth_error_map, En. }
  clear. induction curves as [|c curves IH]; intros o a H; cbn [length seq combine] in H; inversion H as [|? y ? ys Hy HF]; subst.
  - split; [reflexivity|]. intros k segs Es. destruct k; discriminate.
  - destruct (IH _ _ HF) as [G1 G2]. split; [cbn; now rewrite G1|]. intros [|k] segs Es; cbn in Es.
    + injection Es as <-. exists y. rewrite Nat.add_0_r. split; [exact Hy|reflexivity].
    + destruct (G2 k segs Es) as (cmds & Ec & En). exists cmds. rewrite Nat.add_succ_r. split; [exact Ec|exact En].
Qed.
