(** Property C57: the surfaces and curves of B-spline type that the STEP reader builds. *)
From Coq Require Import Reals Lra Lia Arith ZArith List.
From Verif Require Import Prelude Num M_vec M_utils M_curve M_surface M_files M_step L_base L_vec L_geom L_surface Props_step.
Open Scope R_scope.
(** ** Control nets *)
(** [r] rows of [c] entries *)
Definition net {A} (l : list (list A)) (r c : nat) : Prop := length l = r /\ Forall (fun row => length row = c) l.
Lemma net_length {A} (l : list (list A)) r c : net l r c -> length (concat l) = (r * c)%nat.
Proof. intros [<- H]. induction H as [|row l E _ IH]; [reflexivity|]. cbn [concat]. rewrite app_length, IH, E. reflexivity. Qed.
Lemma net_nth {A} (l : list (list A)) r c i j d : net l r c -> (i < r)%nat -> (j < c)%nat -> nth (i * c + j) (concat l) d = nth j (nth i l []) d.
Proof.
  intros [<- H] Hi Hj. revert i Hi. induction H as [|row l E _ IH]; intros i Hi; [cbn in Hi; lia|]. cbn [concat].
  destruct i as [|i]; cbn [nth].
  - cbn [Nat.mul Nat.add]. apply app_nth1. lia.
  - rewrite app_nth2 by nia. replace (S i * c + j - length row)%nat with (i * c + j)%nat by nia. apply IH. cbn [length] in Hi. lia.
Qed.
Lemma net_first {A} (l : list (list A)) r c : net l r c -> (1 <= r)%nat -> exists row, idx l 0 = Ok row /\ length row = c.
Proof. intros [<- H] Hr. destruct l as [|row l]; [cbn in Hr; lia|]. inversion H; subst. exists row. split; reflexivity. Qed.
Lemma net_combine {A B} (l : list (list A)) (w : list (list B)) r c : net l r c -> net w r c -> net (map (fun '(a, b) => combine a b) (combine l w)) r c.
Proof.
  intros [<- H] [E H']. split; [rewrite map_length, combine_length; lia|]. revert w E H'. induction H as [|row l Er _ IH]; intros [|rw w] E H'; cbn in E; try lia; [constructor|].
  inversion H'; subst. cbn [combine map]. constructor; [rewrite combine_length; lia|]. apply IH; [lia|assumption].
Qed.
Lemma nth_combine_rows {A B} (l : list (list A)) (w : list (list B)) r c i j (da : A) (db : B) : net l r c -> net w r c -> (i < r)%nat -> (j < c)%nat ->
  nth j (nth i (map (fun '(a, b) => combine a b) (combine l w)) []) (da, db) = (nth j (nth i l []) da, nth j (nth i w []) db).
Proof.
  intros [El Hl] [Ew Hw] Hi Hj. rewrite Forall_forall in Hl, Hw.
  set (f := fun '(a, b) => combine a b : list (A * B)). change (@nil (A * B)) with (f (@nil A, @nil B)). rewrite (map_nth f), (combine_nth l w) by lia.
  unfold f. apply combine_nth. rewrite Hl, Hw by (apply nth_In; lia). reflexivity.
Qed.
(** knots written with their multiplicities *)
Definition expanded (knots : list R) (mults : list Z) : list R := concat (map (fun '(k, m) => repeat k (Z.to_nat m)) (combine knots mults)).
Definition counts (mults : list Z) : Prop := Forall (fun m => (0 <= m < 2 ^ 64)%Z) mults.
Lemma knots_read knots mults : counts mults -> extract_knot_vector knots mults = expanded knots mults.
Proof.
  intros H. unfold extract_knot_vector, from_values_and_multiplicities, expanded. rewrite flat_map_concat_map. f_equal. revert knots.
  induction H as [|m ms Hm _ IH]; intros [|k ks]; try reflexivity. cbn [map combine]. rewrite IH. unfold z_usize. now rewrite Z.mod_small by lia.
Qed.
Lemma usize_read z : (0 <= z < 256)%Z -> z_usize z = Z.to_nat z /\ (Z.to_nat z mod 256 = Z.to_nat z)%nat.
Proof. intros H. unfold z_usize. rewrite Z.mod_small by lia. split; [reflexivity|]. apply Nat.mod_small. lia. Qed.

Section Surfaces.
Context (t : table R) (pos : nat -> vec3 R).
(** the ids of the net are points, with the given positions *)
Definition points_at (l : list (list nat)) : Prop := Forall (Forall (fun id => point_at t id (pos id))) l.
Lemma points_at_In l id : points_at l -> In id (concat l) -> point_at t id (pos id).
Proof. intros H I. apply in_concat in I as (row & Ir & Ii). unfold points_at in H. rewrite Forall_forall in H. specialize (H row Ir). rewrite Forall_forall in H. now apply H. Qed.

(** C57: a B-spline surface of the file becomes the surface with its net, knots and degrees. *)
Theorem C57_bspline_surface g ss ud vd l um vm uk vk r c :
  get t g = EBSplineSurfaceWithKnots ud vd l um vm uk vk -> points_at l -> net l r c -> (1 <= r)%nat -> (1 <= c)%nat ->
  (0 <= ud < 256)%Z -> (0 <= vd < 256)%Z -> counts um -> counts vm ->
  length (expanded uk um) = (r + Z.to_nat ud + 1)%nat -> length (expanded vk vm) = (c + Z.to_nat vd + 1)%nat ->
  exists s, extract_surface t g ss = Ok (Some (bss3_surface s)) /\ bss_knots s = (expanded uk um, expanded vk vm) /\ bss_degree s = (Z.to_nat ud, Z.to_nat vd) /\
    wf_grid (bss_cps s) r c /\ forall i j, (i < r)%nat -> (j < c)%nat -> grid_idx (bss_cps s) i j = Ok (pos (nth j (nth i l []) 0%nat)).
Proof.
  intros E HP HN Hr Hc Hu Hv Cu Cv Lu Lv. unfold extract_surface. rewrite E.
  assert (EC : extract_control_points t l = Ok (map pos (concat l))).
  { unfold extract_control_points. apply mapM_Ok_map. intros id I. now apply point_at_read, (points_at_In l). }
  rewrite EC. cbn [obind]. destruct (net_first l r c HN Hr) as (row & E0 & L0). unfold first_len. rewrite E0. cbn [obind]. rewrite L0.
  pose proof (net_length l r c HN) as LN. destruct (grid_from_vec_wf (map pos (concat l)) r c) as [EG HW]; [rewrite map_length; exact LN|exact Hr|exact Hc|]. rewrite EG. cbn [obind].
  rewrite !knots_read by assumption. destruct (usize_read ud Hu) as [-> Mu]. destruct (usize_read vd Hv) as [-> Mv].
  unfold bss_new. cbn [fst snd]. rewrite (wf_rows _ _ _ HW). unfold assert. cbn [g_cols]. rewrite Lu, Lv, !Nat.eqb_refl. cbn [obind]. unfold as_u8. rewrite Mu, Mv.
  eexists. split; [reflexivity|]. cbn [bss_knots bss_degree bss_cps]. split; [reflexivity|]. split; [reflexivity|]. split; [exact HW|].
  intros i j Hi Hj. rewrite (grid_idx_entry _ r c i j HW Hi Hj). f_equal. unfold entry. cbn [g_cols g_data].
  rewrite (nth_indep _ _ (pos 0%nat)) by (rewrite map_length; nia). rewrite map_nth. f_equal. now apply (net_nth l r c).
Qed.

(** parts of a complex entity that the reader skips *)
Definition skipped_part (e : entity R) : Prop :=
  match e with EBSplineSurface _ _ _ | EBSplineSurfaceWithKnots _ _ _ _ _ _ _ | ERationalBSplineSurface _ _ _ _ => False | _ => True end.
Lemma skip_parts st l : Forall skipped_part l -> foldM (complex_step t) st l = Ok st.
Proof. intros H. revert st. induction H as [|e l He _ IH]; intros st; [reflexivity|]. cbn [foldM]. destruct e; cbn [complex_step obind]; try apply IH; destruct He. Qed.
(** C57: a rational B-spline surface, written as a complex entity, becomes the surface whose control points carry the weights:
    the homogeneous control point projects to the point of the file. *)
Theorem C57_rational_surface g ss ud vd l um vm uk vk w p0 p1 p2 p3 ud' vd' ud'' vd'' l' l'' r c :
  get t g = EComplex (p0 ++ EBSplineSurface ud vd l :: p1 ++ EBSplineSurfaceWithKnots ud' vd' l' um vm uk vk :: p2 ++ ERationalBSplineSurface ud'' vd'' l'' w :: p3) ->
  Forall skipped_part p0 -> Forall skipped_part p1 -> Forall skipped_part p2 -> Forall skipped_part p3 ->
  points_at l -> net l r c -> net w r c -> (1 <= r)%nat -> (1 <= c)%nat ->
  (0 <= ud < 256)%Z -> (0 <= vd < 256)%Z -> counts um -> counts vm ->
  length (expanded uk um) = (r + Z.to_nat ud + 1)%nat -> length (expanded vk vm) = (c + Z.to_nat vd + 1)%nat ->
  exists s, extract_surface t g ss = Ok (Some (bss4_surface s)) /\ bss_knots s = (expanded uk um, expanded vk vm) /\ bss_degree s = (Z.to_nat ud, Z.to_nat vd) /\
    wf_grid (bss_cps s) r c /\ forall i j, (i < r)%nat -> (j < c)%nat -> let P := pos (nth j (nth i l []) 0%nat) in let wt := nth j (nth i w []) 0 in
      exists h, grid_idx (bss_cps s) i j = Ok h /\ h = V4 (wt * x3 P) (wt * y3 P) (wt * z3 P) wt /\ (wt <> 0 -> project_w h = P).
Proof.
  intros E S0 S1 S2 S3 HP HN HNw Hr Hc Hu Hv Cu Cv Lu Lv. unfold extract_surface. rewrite E.
  set (hom := fun '(id, wt) => V4 (x3 (pos id) * wt) (y3 (pos id) * wt) (z3 (pos id) * wt) wt : vec4 R).
  set (cw := concat (map (fun '(a, b) => combine a b) (combine l w))).
  assert (EC : extract_weighted_control_points t l w = Ok (map hom cw)).
  { unfold extract_weighted_control_points. rewrite flat_map_concat_map. fold cw. apply mapM_Ok_map. intros [id wt] I.
    assert (Il : In id (concat l)).
    { unfold cw in I. apply in_concat in I as (row & Ir & Ii). apply in_map_iff in Ir as ([a b] & <- & Iab). apply in_concat. exists a. split; [now apply in_combine_l in Iab|]. now apply in_combine_l in Ii. }
    destruct (points_at_In l id HP Il) as [rest Ep]. rewrite Ep. reflexivity. }
  rewrite foldM_app, (skip_parts _ p0 S0). cbn [obind foldM complex_step]. rewrite foldM_app, (skip_parts _ p1 S1). cbn [obind foldM complex_step].
  rewrite foldM_app, (skip_parts _ p2 S2). cbn [obind foldM complex_step cx_cps unwrap]. rewrite EC. cbn [obind]. rewrite (skip_parts _ p3 S3). cbn [obind cx_weighted cx_knots cx_cps cx_degree unwrap].
  destruct (net_first l r c HN Hr) as (row & E0 & L0). unfold first_len. rewrite E0. cbn [obind]. rewrite L0.
  pose proof (net_combine l w r c HN HNw) as HNc. pose proof (net_length _ r c HNc) as LN. fold cw in LN.
  destruct (grid_from_vec_wf (map hom cw) r c) as [EG HW]; [rewrite map_length; exact LN|exact Hr|exact Hc|]. rewrite EG. cbn [obind].
  rewrite !knots_read by assumption. destruct (usize_read ud Hu) as [-> Mu]. destruct (usize_read vd Hv) as [-> Mv].
  unfold bss_new. cbn [fst snd]. rewrite (wf_rows _ _ _ HW). unfold assert. cbn [g_cols]. rewrite Lu, Lv, !Nat.eqb_refl. cbn [obind]. unfold as_u8. rewrite Mu, Mv.
  eexists. split; [reflexivity|]. cbn [bss_knots bss_degree bss_cps]. split; [reflexivity|]. split; [reflexivity|]. split; [exact HW|].
  intros i j Hi Hj. cbv zeta. eexists. split; [apply (grid_idx_entry _ r c i j HW Hi Hj)|].
  assert (EE : entry (mkGrid c (map hom cw)) i j = hom (nth j (nth i l []) 0%nat, nth j (nth i w []) 0)).
  { unfold entry. cbn [g_cols g_data]. rewrite (nth_indep _ _ (hom (0%nat, 0))) by (rewrite map_length, LN; nia). rewrite (map_nth hom). f_equal. unfold cw. rewrite (net_nth _ r c) by auto. now apply (nth_combine_rows l w r c). }
  rewrite EE. cbn [hom]. set (P := pos _). set (wt := nth j _ 0). split; [f_equal; apply Rmult_comm|].
  intros Nz. unfold project_w, truncate4. cbn [x4 y4 z4 w4]. vsimp. destruct P as [px py pz]. cbn [x3 y3 z3]. rnum. f_equal; field; exact Nz.
Qed.

(** C57: a B-spline curve of the file keeps its control points, knots and degree. *)
Theorem C57_bspline_curve r degree cps mults knots : get t r = EBSplineCurveWithKnots degree cps mults knots -> Forall (fun id => point_at t id (pos id)) cps ->
  (0 <= degree < 256)%Z -> counts mults -> extract_curve t r = Ok (Some (DBSpline3 (mkBSpline (map pos cps) (expanded knots mults) (Z.to_nat degree)))).
Proof.
  intros E HP Hd Hm. unfold extract_curve. rewrite E. rewrite Forall_forall in HP.
  assert (EC : extract_points t cps = Ok (map pos cps)) by (apply mapM_Ok_map; intros id I; now apply point_at_read, HP).
  rewrite EC. cbn [obind]. rewrite knots_read by exact Hm. unfold z_u8. now rewrite Z.mod_small by lia.
Qed.
End Surfaces.
(** C57: where the weights are fewer than the points, both lists are cut to the shorter one, row by row. *)
Theorem C57_weights_by_row {F} {NF : Num F} (t : table F) l w out : extract_weighted_control_points t l w = Ok out ->
  length out = list_sum (map (fun '(a, b) => Nat.min (length a) (length b)) (combine l w)).
Proof.
  intros E. apply mapM_length in E. rewrite E. clear E. induction (combine l w) as [|[a b] k IH]; [reflexivity|]. cbn [flat_map map list_sum fold_right] in *.
  rewrite app_length, combine_length. unfold list_sum in IH. now rewrite IH.
Qed.

(** a square patch with one heavier corner; the rows of the second file are ragged *)
Definition wsample : table R :=
  [ (1, ECartesianPoint [0; 0; 0]%R); (2, ECartesianPoint [0; 1; 0]%R); (3, ECartesianPoint [1; 0; 0]%R); (4, ECartesianPoint [1; 1; 5]%R);
    (5, EComplex [EOther; EBSplineSurface 1 1 [[1; 2]; [3; 4]]%nat; EBSplineSurfaceWithKnots 0 0 [] [2; 2]%Z [2; 2]%Z [0; 1]%R [0; 1]%R; EOther;
                  ERationalBSplineSurface 0 0 [] [[1; 1]; [1; 2]]%R]) ]%nat.
Example C57_rational_surface_nonvacuous : exists s, extract_surface wsample 5 true = Ok (Some (bss4_surface s)) /\
  grid_idx (bss_cps s) 1 1 = Ok (V4 (2 * 1) (2 * 1) (2 * 5) 2).
Proof.
  set (pos := fun id : nat => match id with 2%nat => V3 0 1 0 | 3%nat => V3 1 0 0 | 4%nat => V3 1 1 5 | _ => V3 0 0 0 end : vec3 R).
  destruct (C57_rational_surface wsample pos 5 true 1 1 [[1; 2]; [3; 4]]%nat [2; 2]%Z [2; 2]%Z [0; 1]%R [0; 1]%R [[1; 1]; [1; 2]]%R [EOther] [] [EOther] [] 0%Z 0%Z 0%Z 0%Z [] [] 2 2) as (s & E & _ & _ & _ & H).
  all: try first [lia | reflexivity | solve [repeat constructor] | solve [repeat constructor; exists (@nil R); reflexivity]].
  1-2: repeat constructor; lia.
  exists s. split; [exact E|]. destruct (H 1%nat 1%nat) as (h & Eh & -> & _); [lia|lia|]. exact Eh.
Qed.
Example C57_weights_by_row_nonvacuous : exists out, extract_weighted_control_points wsample [[1]; [2; 3]]%nat [[1; 1]; [1; 2]]%R = Ok out /\ length out = 3%nat.
Proof. eexists. split; reflexivity. Qed.
