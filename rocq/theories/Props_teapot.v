(** Property C69, first part: the borders of a Bezier patch. *)
From Coq Require Import Reals Lra Psatz Lia Arith ZArith List SpecFloat.
From Verif Require Import Prelude Num M_vec M_utils M_curve M_surface L_base L_vec L_float L_grid L_err L_surface L_bezier L_cdb Props_utils Props_bezier Props_gridmesh Props_robust Props_accuracy.
Import ListNotations.
Open Scope R_scope.

(** ** Specification *)
(** the four sides of a grid of control points, in the order of the growing parameter *)
Inductive side := U0 | U1 | V0 | V1.
Definition side_cell (r c : nat) (s : side) (k : nat) : nat * nat :=
  match s with U0 => (0, k) | U1 => (r - 1, k) | V0 => (k, 0) | V1 => (k, c - 1) end%nat.
Definition side_length (r c : nat) (s : side) : nat := match s with U0 | U1 => c | V0 | V1 => r end.
(** [ps] are the control points along side [s] *)
Definition side_points {P} (g : Grid P) (r c : nat) (s : side) (ps : list P) : Prop :=
  length ps = side_length r c s /\
  forall k p, nth_error ps k = Some p -> grid_idx g (fst (side_cell r c s k)) (snd (side_cell r c s k)) = Ok p.
(** the parameters (u,v) of the point of side [s] with parameter [t] along the side *)
Definition side_param {F} {NF : Num F} (s : side) (t : F) : F * F :=
  match s with U0 => (f0, t) | U1 => (f1, t) | V0 => (t, f0) | V1 => (t, f1) end.

(** ** Sums in which cells have weight zero *)
Section Thin.
Context {F : Type} {NF : Num F}.
Local Open Scope num_scope.
Variable nice okw okp zw : F -> Prop.
Hypothesis nice0 : nice f0.
Hypothesis nice_add : forall a w x, nice a -> okw w -> okp x -> nice (a + w * x).
Hypothesis drop_zero : forall a w x, nice a -> zw w -> okp x -> a + w * x = a.
Hypothesis one_l : forall w, okw w -> f1 * w = w.
Hypothesis one_r : forall w, okw w -> w * f1 = w.
Hypothesis zero_l : forall w, okw w -> zw (f0 * w).
Hypothesis zero_r : forall w, okw w -> zw (w * f0).
Definition okp3 (p : vec3 F) : Prop := okp (x3 p) /\ okp (y3 p) /\ okp (z3 p).
Definition nice3 (p : vec3 F) : Prop := nice (x3 p) /\ nice (y3 p) /\ nice (z3 p).
Inductive thin : list (F * vec3 F) -> list (F * vec3 F) -> Prop :=
| TNil : thin [] []
| TKeep w p l m : okw w -> okp3 p -> thin l m -> thin ((w, p) :: l) ((w, p) :: m)
| TDrop w p l m : zw w -> okp3 p -> thin l m -> thin ((w, p) :: l) m.
Notation stepf := (fun point '(b, p) => vadd point (vmull b p)).
Lemma thin_fold l m : thin l m -> forall a : vec3 F, nice3 a -> fold_left stepf l a = fold_left stepf m a.
Proof.
  induction 1 as [|w p l m Hw (Px & Py & Pz) _ IH|w p l m Hw (Px & Py & Pz) _ IH]; intros [a b c] (Na & Nb & Nc); cbn [x3 y3 z3] in *; [reflexivity| |].
  - cbn [fold_left]. apply IH. repeat split; cbn [vadd vmull VecOps3 x3 y3 z3]; now apply nice_add.
  - cbn [fold_left]. replace (vadd (V3 a b c) (vmull w p)) with (V3 a b c).
    + apply IH. repeat split; assumption.
    + destruct p as [px py pz]. cbn [vadd vmull VecOps3 x3 y3 z3] in *. now rewrite !drop_zero.
Qed.
Lemma thin_app l m l' m' : thin l m -> thin l' m' -> thin (l ++ l') (m ++ m').
Proof. induction 1; cbn [app]; intros; [assumption|apply TKeep; auto|apply TDrop; auto]. Qed.
Lemma thin_concat (f h : nat -> list (F * vec3 F)) l : (forall i, In i l -> thin (f i) (h i)) -> thin (flat_map f l) (flat_map h l).
Proof. induction l as [|i l IH]; intros H; cbn [flat_map]; [constructor|]. apply thin_app; [apply H; now left|apply IH; intros; apply H; now right]. Qed.

Lemma unit_nth (b : list F) n k i : b = (repeat f0 k ++ f1 :: repeat f0 (n - 1 - k))%list -> (k < n)%nat -> (i < n)%nat -> nth i b f0 = if (i =? k)%nat then f1 else f0.
Proof.
  intros -> Hk Hi. destruct (Nat.eqb_spec i k) as [->|Hne].
  - rewrite app_nth2; rewrite repeat_length; [|lia]. now rewrite Nat.sub_diag.
  - destruct (Nat.lt_ge_cases i k).
    + rewrite app_nth1 by (rewrite repeat_length; lia). now apply nth_repeat.
    + rewrite app_nth2; rewrite repeat_length; [|lia]. destruct (i - k)%nat as [|j] eqn:E; [lia|]. cbn [nth]. apply nth_repeat.
Qed.
Lemma combine_flat {A B} (f : nat -> nat -> A) (h : nat -> nat -> B) r c :
  combine (flat_map (fun i => map (f i) (seq 0 c)) (seq 0 r)) (flat_map (fun i => map (h i) (seq 0 c)) (seq 0 r)) =
  flat_map (fun i => map (fun j => (f i j, h i j)) (seq 0 c)) (seq 0 r).
Proof.
  assert (M : forall (a : nat -> A) (b : nat -> B) l, combine (map a l) (map b l) = map (fun j => (a j, b j)) l).
  { intros a b l. induction l as [|x l IH]; cbn [map combine]; [reflexivity|]. now rewrite IH. }
  assert (Ap : forall (a a' : list A) (b b' : list B), length a = length b -> combine (a ++ a') (b ++ b') = (combine a b ++ combine a' b')%list).
  { induction a as [|x a IH]; intros a' [|y b] b' HL; try discriminate HL; cbn [app combine]; [reflexivity|]. f_equal. apply IH. now injection HL. }
  induction (seq 0 r) as [|i l IH]; cbn [flat_map]; [reflexivity|]. rewrite Ap by now rewrite !map_length. now rewrite M, IH.
Qed.
Lemma data_flat {P} (d : P) l r c : length l = (r * c)%nat -> l = flat_map (fun i => map (fun j => nth (i * c + j) l d) (seq 0 c)) (seq 0 r).
Proof.
  revert l. induction r as [|r IH]; intros l HL; cbn [seq flat_map]; [destruct l; [reflexivity|discriminate HL]|].
  rewrite <- seq_shift, flat_map_concat_map, map_map, <- flat_map_concat_map.
  rewrite <- (firstn_skipn c l) at 1. f_equal.
  - cbn [Nat.mul Nat.add]. apply nth_ext with d d; [rewrite map_length, seq_length, firstn_length; lia|].
    intros j Hj. rewrite firstn_length in Hj. rewrite (nth_map_default _ _ _ 0%nat) by (rewrite seq_length; lia). rewrite seq_nth by lia. cbn [Nat.add].
    rewrite <- (firstn_skipn c l) at 2. rewrite app_nth1; [reflexivity|rewrite firstn_length; lia].
  - rewrite (IH (skipn c l)) at 1 by (rewrite skipn_length; lia). apply flat_map_ext. intros i. apply map_ext. intros j.
    rewrite nth_skipn. f_equal. cbn [Nat.mul]. lia.
Qed.
Lemma flat_map_nil_in {A} (l : list nat) (f : nat -> list A) : (forall i, In i l -> f i = []) -> flat_map f l = [].
Proof. induction l as [|i l IH]; intros H; cbn [flat_map]; [reflexivity|]. rewrite H by now left. apply IH. intros; apply H; now right. Qed.
Lemma flat_single {A} (f : nat -> list A) n k : (k < n)%nat -> (forall i, (i < n)%nat -> i <> k -> f i = []) -> flat_map f (seq 0 n) = f k.
Proof.
  intros Hk H. assert (G : forall m s, (s <= k < s + m)%nat -> (s + m <= n)%nat -> flat_map f (seq s m) = f k).
  { induction m as [|m IH]; intros s H1 H2; [lia|]. cbn [seq flat_map]. destruct (Nat.eq_dec s k) as [->|Hne].
    - rewrite (flat_map_nil_in (seq (S k) m)); [apply app_nil_r|]. intros i Hi. apply in_seq in Hi. apply H; lia.
    - rewrite H by lia. apply IH; lia. }
  apply G; lia.
Qed.
(** the sum over a grid with a unit vector as one of the bases is the sum along one row or column *)
Lemma thin_row (w : nat -> F) (p : nat -> vec3 F) l : (forall j, In j l -> okw (w j)) -> (forall j, In j l -> okp3 (p j)) ->
  thin (map (fun j => (f1 * w j, p j)) l) (map (fun j => (w j, p j)) l) /\ thin (map (fun j => (f0 * w j, p j)) l) [].
Proof.
  intros Hw Hp. induction l as [|j l IH]; cbn [map]; [split; constructor|]. destruct IH as [A B]; [intros; apply Hw; now right|intros; apply Hp; now right|].
  rewrite one_l by (apply Hw; now left). split; [apply TKeep|apply TDrop]; auto; try (apply Hp; now left); try (apply Hw; now left). apply zero_l, Hw; now left.
Qed.
Lemma thin_col (w : F) (p : nat -> vec3 F) (b : list F) l k : okw w -> (forall j, In j l -> okp3 (p j)) -> NoDup l ->
  (forall j, In j l -> nth j b f0 = if (j =? k)%nat then f1 else f0) ->
  thin (map (fun j => (w * nth j b f0, p j)) l) (if in_dec Nat.eq_dec k l then [(w, p k)] else []).
Proof.
  intros Hw Hp ND Hb. induction l as [|j l IH]; [constructor|]. apply NoDup_cons_iff in ND. destruct ND as [Hj ND].
  specialize (IH (fun i Hi => Hp i (or_intror Hi)) ND (fun i Hi => Hb i (or_intror Hi))). cbn [map]. rewrite (Hb j (or_introl eq_refl)).
  pose proof (Hp j (or_introl eq_refl)) as Pj.
  destruct (Nat.eqb_spec j k) as [->|Hne].
  - destruct (in_dec Nat.eq_dec k (k :: l)) as [_|H]; [|exfalso; apply H; now left]. destruct (in_dec Nat.eq_dec k l) as [H|_]; [easy|]. rewrite one_r by assumption. now apply TKeep.
  - apply TDrop; [now apply zero_r|assumption|]. destruct (in_dec Nat.eq_dec k l) as [H|H]; destruct (in_dec Nat.eq_dec k (j :: l)) as [H'|H']; auto.
    + exfalso. apply H'. now right.
    + exfalso. destruct H' as [H'|H']; [now apply Hne|now apply H].
Qed.
Variable g : Grid (vec3 F).
Variable r c : nat.
Hypothesis Hg : wf_grid g r c.
Hypothesis Hr : (1 <= r)%nat.
Hypothesis Hp : Forall okp3 (g_data g).
Lemma cell_okp i j : (i < r)%nat -> (j < c)%nat -> okp3 (nth (i * c + j) (g_data g) vzero).
Proof. intros Hi Hj. rewrite Forall_forall in Hp. apply Hp, nth_In. destruct Hg as (_ & -> & _). nia. Qed.
Lemma cell_idx i j p : (i < r)%nat -> (j < c)%nat -> grid_idx g i j = Ok p -> nth (i * c + j) (g_data g) vzero = p.
Proof.
  intros Hi Hj E. unfold grid_idx in E. rewrite (wf_rows g r c Hg) in E. destruct Hg as (Ec & HL & _). rewrite Ec, (proj2 (Nat.ltb_lt _ _) Hi), (proj2 (Nat.ltb_lt _ _) Hj) in E. cbn [andb] in E.
  rewrite (idx_nth _ _ vzero) in E by nia. now apply Ok_inj in E.
Qed.
Lemma cells_combine bu bv : combine (cell_weights bu bv r c) (g_data g) =
  flat_map (fun i => map (fun j => (nth i bu f0 * nth j bv f0, nth (i * c + j) (g_data g) vzero)) (seq 0 c)) (seq 0 r).
Proof. destruct Hg as (_ & HL & _). rewrite (data_flat vzero (g_data g) r c HL) at 1. unfold cell_weights. apply combine_flat. Qed.
Lemma combine_points (bs : list F) (ps : list (vec3 F)) (q : nat -> vec3 F) n : length bs = n -> length ps = n -> (forall k p, nth_error ps k = Some p -> q k = p) ->
  combine bs ps = map (fun j => (nth j bs f0, q j)) (seq 0 n).
Proof.
  intros H1 H2 Hq. apply nth_ext with (f0, vzero) (f0, q n); [rewrite combine_length, map_length, seq_length; lia|].
  intros k Hk. rewrite combine_length in Hk. rewrite combine_nth by lia. rewrite (nth_map_default _ _ _ 0%nat) by (rewrite seq_length; lia). rewrite seq_nth by lia. cbn [Nat.add]. f_equal.
  symmetry. apply Hq. apply nth_error_nth'. lia.
Qed.
Lemma tensor_row (bu bv : list F) (ps : list (vec3 F)) k : length bu = r -> length bv = c -> Forall okw bv -> (k < r)%nat ->
  (forall i, (i < r)%nat -> nth i bu f0 = if (i =? k)%nat then f1 else f0) ->
  length ps = c -> (forall j p, nth_error ps j = Some p -> grid_idx g k j = Ok p) -> tensor_sum g bu bv = Ok (weighted_sum bv ps).
Proof.
  intros Lu Lv Hv Hk Hu Lp Hps. rewrite (tensor_sum_cells g bu bv r c) by (try assumption; lia). f_equal. unfold weighted_sum. rewrite cells_combine.
  rewrite (combine_points bv ps (fun j => nth (k * c + j) (g_data g) vzero) c); [|assumption..|].
  2:{ intros j p E. assert (j < c)%nat by (rewrite <- Lp; apply nth_error_Some; congruence). apply cell_idx; auto. }
  apply thin_fold; [|repeat split; apply nice0].
  pose proof (flat_single (fun i => if (i =? k)%nat then map (fun j => (nth j bv f0, nth (k * c + j) (g_data g) vzero)) (seq 0 c) else []) r k Hk) as Q. cbv beta in Q. rewrite Nat.eqb_refl in Q.
  rewrite <- Q by (intros i _ Hne; now rewrite (proj2 (Nat.eqb_neq i k) Hne)). clear Q.
  apply thin_concat. intros i Hi. apply in_seq in Hi. rewrite Hu by lia.
  destruct (thin_row (fun j => nth j bv f0) (fun j => nth (i * c + j) (g_data g) vzero) (seq 0 c)) as [A B].
  - intros j Hj. apply in_seq in Hj. rewrite Forall_forall in Hv. apply Hv, nth_In. lia.
  - intros j Hj. apply in_seq in Hj. apply cell_okp; lia.
  - destruct (Nat.eqb_spec i k) as [->|]; assumption.
Qed.
Lemma tensor_col (bu bv : list F) (ps : list (vec3 F)) k : length bu = r -> length bv = c -> Forall okw bu -> (k < c)%nat ->
  (forall j, (j < c)%nat -> nth j bv f0 = if (j =? k)%nat then f1 else f0) ->
  length ps = r -> (forall i p, nth_error ps i = Some p -> grid_idx g i k = Ok p) -> tensor_sum g bu bv = Ok (weighted_sum bu ps).
Proof.
  intros Lu Lv Hu Hk Hv Lp Hps. rewrite (tensor_sum_cells g bu bv r c) by (try assumption; lia). f_equal. unfold weighted_sum. rewrite cells_combine.
  rewrite (combine_points bu ps (fun i => nth (i * c + k) (g_data g) vzero) r); [|assumption..|].
  2:{ intros i p E. assert (i < r)%nat by (rewrite <- Lp; apply nth_error_Some; congruence). apply cell_idx; auto. }
  apply thin_fold; [|repeat split; apply nice0].
  replace (map (fun i => (nth i bu f0, nth (i * c + k) (g_data g) vzero)) (seq 0 r)) with (flat_map (fun i => [(nth i bu f0, nth (i * c + k) (g_data g) vzero)]) (seq 0 r)).
  2:{ generalize (seq 0 r). intros l. induction l as [|i l IH]; cbn [flat_map map app]; [reflexivity|]. now rewrite IH. }
  apply thin_concat. intros i Hi. apply in_seq in Hi.
  pose proof (thin_col (nth i bu f0) (fun j => nth (i * c + j) (g_data g) vzero) bv (seq 0 c) k) as A.
  destruct (in_dec Nat.eq_dec k (seq 0 c)) as [_|H]; [|exfalso; apply H, in_seq; lia]. apply A.
  - rewrite Forall_forall in Hu. apply Hu, nth_In. lia.
  - intros j Hj. apply in_seq in Hj. apply cell_okp; lia.
  - apply seq_NoDup.
  - intros j Hj. apply in_seq in Hj. apply Hv. lia.
Qed.
(** a side of a Bezier patch is the Bezier curve of the control points along it *)
Lemma border (s : side) (ps : list (vec3 F)) (t : F) (bt : list F) :
  (forall n, (1 <= n)%nat -> bernstein n (f0 : F) = Ok (f1 :: repeat f0 (n - 1)) /\ bernstein n (f1 : F) = Ok (repeat f0 (n - 1) ++ [f1])%list) ->
  side_points g r c s ps -> bernstein (side_length r c s) t = Ok bt -> length bt = side_length r c s -> Forall okw bt ->
  bezier_surface3_get_point g (fst (side_param s t)) (snd (side_param s t)) = bezier3_get_point ps t.
Proof.
  intros Hb [Lp Hps] Et Lt Ht. pose proof Hg as (Ec & _ & Hc). pose proof (wf_rows g r c Hg) as Er.
  unfold bezier_surface3_get_point, bezier3_get_point. rewrite Lp, Et, Er, Ec. cbn [obind].
  assert (Z0 : forall n i, (i < n)%nat -> nth i (f1 :: repeat f0 (n - 1)) f0 = if (i =? 0)%nat then (f1 : F) else f0).
  { intros n i Hi. apply (unit_nth _ n 0 i); [|lia|exact Hi]. cbn [repeat app]. do 2 f_equal. lia. }
  assert (Z1 : forall n i, (i < n)%nat -> nth i (repeat f0 (n - 1) ++ [f1]) f0 = if (i =? n - 1)%nat then (f1 : F) else f0).
  { intros n i Hi. apply (unit_nth _ n (n - 1) i); [|lia|exact Hi]. do 3 f_equal. rewrite Nat.sub_diag. reflexivity. }
  destruct s; cbn [side_param fst snd side_length side_cell] in *.
  - rewrite (proj1 (Hb r Hr)), Et. cbn [obind]. apply (tensor_row _ _ _ 0); auto; try lia. cbn [length]. rewrite repeat_length. lia.
  - rewrite (proj2 (Hb r Hr)), Et. cbn [obind]. apply (tensor_row _ _ _ (r - 1)); auto; try lia. rewrite app_length, repeat_length. cbn [length]. lia.
  - rewrite (proj1 (Hb c Hc)), Et. cbn [obind]. apply (tensor_col _ _ _ 0); auto; try lia. cbn [length]. rewrite repeat_length. lia.
  - rewrite (proj2 (Hb c Hc)), Et. cbn [obind]. apply (tensor_col _ _ _ (c - 1)); auto; try lia. rewrite app_length, repeat_length. cbn [length]. lia.
Qed.
End Thin.

(** ** Doubles *)
Lemma normalize_not_neg0 m e : (emin p64 e64 <= e)%Z -> binary_normalize p64 e64 m e false <> S754_zero true.
Proof.
  intros He E. destruct (Z.eq_dec m 0) as [->|Hm]; [discriminate E|].
  pose proof (normalize_rounded p64 e64 p64_pos p64_lt m e false) as [H _]. rewrite E in H. destruct H as (_ & H & _). cbn [B2R] in H.
  rewrite Rminus_0_l, Rabs_Ropp in H.
  assert (P : pow2 (emin p64 e64) <= Rabs (IZR m * pow2 e)).
  { rewrite Rabs_mult, (Rabs_pos_eq (pow2 e)) by (left; apply pow2_pos). pose proof (pow2_le _ _ He) as Q. pose proof (pow2_pos e).
    assert (1 <= Rabs (IZR m)) by (rewrite <- abs_IZR; apply IZR_le; lia). nra. }
  pose proof (pow2_pos (emin p64 e64)) as P0.
  assert (P1 : pow2 (emin p64 e64 - 1) = pow2 (emin p64 e64) / 2) by (change (emin p64 e64 - 1)%Z with (emin p64 e64 + -1)%Z; rewrite pow2_add, pow2_m1; lra).
  assert (P2 : pow2 (- p64) <= / 2) by (rewrite <- pow2_m1; apply pow2_le; unfold p64; lia). pose proof (pow2_pos (- p64)).
  revert H. unfold Rmax. destruct (Rle_dec _ _); intros H; nra.
Qed.
Definition nice64 (a : f64) : Prop := a <> S754_zero true /\ valid_binary p64 e64 a = true.
Definition zero64 (a : f64) : Prop := exists s, a = S754_zero s.
Lemma rounded_valid res x : rounded p64 e64 res x -> valid_binary p64 e64 res = true.
Proof. intros [H _]. destruct res as [s|s| |s m e]; try reflexivity. now destruct H. Qed.
Lemma nice64_add_any (a y : f64) : nice64 a -> valid_binary p64 e64 y = true -> nice64 (fadd a y).
Proof.
  intros [Ha Va] Vy. cbn [fadd F64Num]. destruct a as [sa|sa| |sa ma ea], y as [sy|sy| |sy my ey]; cbn [SFadd]; try (split; [discriminate|reflexivity]).
  - destruct sa; [easy|]. destruct sy; split; (discriminate || reflexivity).
  - split; [discriminate|exact Vy].
  - destruct (Bool.eqb sa sy); split; (discriminate || reflexivity).
  - split; [discriminate|exact Va].
  - set (N := binary_normalize _ _ _ _ _). assert (E : N = SFadd p64 e64 (S754_finite sa ma ea) (S754_finite sy my ey)) by reflexivity. split.
    + unfold N. apply normalize_not_neg0.
      destruct (number_mantissa p64 e64 sa ma ea) as (_ & Ba & _); [split; [reflexivity|exact Va]|]. destruct (number_mantissa p64 e64 sy my ey) as (_ & By & _); [split; [reflexivity|exact Vy]|]. lia.
    + rewrite E. apply (rounded_valid _ _ (SFadd_rounded p64 e64 p64_pos p64_lt (S754_finite sa ma ea) (S754_finite sy my ey) (conj eq_refl Va) (conj eq_refl Vy))).
Qed.
Lemma num64_mul_valid (w x : f64) : num64 w -> num64 x -> valid_binary p64 e64 (fmul w x) = true.
Proof. intros Hw Hx. apply (rounded_valid _ _ (SFmul_rounded p64 e64 p64_pos p64_lt w x Hw Hx)). Qed.
Lemma nice64_add (a w x : f64) : nice64 a -> num64 w -> num64 x -> nice64 (fadd a (fmul w x)).
Proof. intros Ha Hw Hx. apply nice64_add_any; [exact Ha|now apply num64_mul_valid]. Qed.
Lemma drop64 (a w x : f64) : nice64 a -> zero64 w -> num64 x -> fadd a (fmul w x) = a.
Proof.
  intros [Ha _] [s ->] [Fx _]. destruct x as [sx|sx| |sx mx ex]; try discriminate Fx; cbn [fmul fadd F64Num SFmul]; (destruct a as [[|]|sa| |sa ma ea]; [easy| | | |]; cbn [SFadd]; try reflexivity).
  - now destruct (xorb s sx).
  - now destruct (xorb s sx).
Qed.
Lemma same_val (x y : f64) : num64 x -> num64 y -> val x = val y -> val x <> 0 -> x = y.
Proof.
  intros Hx Hy E Hn. pose proof (proj2 (SFeqb_correct p64 e64 p64_pos x y Hx Hy) E) as Q. unfold SFeqb in Q.
  destruct x as [sx|sx| |sx mx ex]; try (destruct Hx; discriminate); [now elim Hn|]. destruct y as [sy|sy| |sy my ey]; try (destruct Hy; discriminate); [now elim Hn; rewrite E|].
  cbn [SFcompare] in Q. destruct sx, sy; try discriminate Q; (destruct (Z.compare_spec ex ey) as [->|?|?]; try discriminate Q); (destruct (Pos.compare_cont Eq mx my) eqn:K; try discriminate Q; apply Pos.compare_eq in K; now subst).
Qed.
Lemma one_times (w : f64) : num64 w -> fmul f1 w = w /\ fmul w f1 = w.
Proof.
  intros Hw. pose proof f1_num as H1. pose proof f1_val as E1.
  destruct w as [s|s| |s m e]; try (destruct Hw; discriminate); [now destruct s|].
  assert (G : forall z : f64, rounded p64 e64 z (val (S754_finite s m e)) -> z = S754_finite s m e).
  { intros z Hz. destruct (number_mantissa p64 e64 s m e Hw) as (Hm & He & _).
    destruct (rounded_exact p64 e64 z _ (cond_Zopp s (Zpos m)) e Hz) as [Nz Vz]; [destruct s; cbn [cond_Zopp]; lia|exact He| |].
    - rewrite cond_Zopp_R. destruct s; cbn [signed val B2R]; lra.
    - apply same_val; auto. rewrite Vz. pose proof (finite_pos m e). cbn [val B2R]. destruct s; lra. }
  split; apply G.
  - pose proof (SFmul_rounded p64 e64 p64_pos p64_lt f1 (S754_finite s m e) H1 Hw) as Q. change (B2R f1) with (val (f1 : f64)) in Q. rewrite E1, Rmult_1_l in Q. exact Q.
  - pose proof (SFmul_rounded p64 e64 p64_pos p64_lt (S754_finite s m e) f1 Hw H1) as Q. change (B2R f1) with (val (f1 : f64)) in Q. rewrite E1, Rmult_1_r in Q. exact Q.
Qed.
Lemma zero_times (w : f64) : num64 w -> zero64 (fmul f0 w) /\ zero64 (fmul w f0).
Proof. intros [Fw _]. destruct w; try discriminate Fw; split; eexists; reflexivity. Qed.

(** ** The borders of a patch *)
Lemma map_const_seq {A} (a : A) n : forall k, map (fun _ => a) (seq k n) = repeat a n.
Proof. induction n as [|n IH]; intros k; cbn [seq map repeat]; [reflexivity|]. now rewrite IH. Qed.
Theorem C69_border (g : Grid (vec3 R)) (r c : nat) (s : side) (ps : list (vec3 R)) (t : R) : wf_grid g r c -> (1 <= r)%nat -> side_points g r c s ps ->
  bezier_surface3_get_point g (fst (side_param s t)) (snd (side_param s t)) = bezier3_get_point ps t.
Proof.
  intros Hg Hr Hs. assert (Hn : (1 <= side_length r c s)%nat) by (destruct Hg as (_ & _ & Hc); destruct s; assumption).
  apply (border (fun _ => True) (fun _ => True) (fun _ => True) (fun w => w = 0)) with (r := r) (c := c) (bt := map (fun k => Bern (side_length r c s - 1) k t) (seq 0 (side_length r c s))); auto; rnum; try (intros; subst; ring).
  - apply Forall_forall. intros p _. repeat split.
  - intros n Hn'. rewrite !bernstein_R by exact Hn'. rnum. destruct n as [|n]; [lia|]. cbn [Nat.sub]. rewrite Nat.sub_0_r. split; f_equal.
    + cbn [seq map]. rewrite Bern_at_0. cbn [Nat.eqb]. apply (f_equal (cons 1)). rewrite <- seq_shift, map_map. rewrite (map_ext _ (fun _ => 0)) by (intros; now rewrite Bern_at_0).
      apply map_const_seq.
    + rewrite seq_S, map_app. cbn [map Nat.add]. rewrite Bern_at_1, Nat.eqb_refl. apply (f_equal (fun l => l ++ [1])%list).
      rewrite (map_ext_in _ (fun _ => 0)) by (intros i Hi; apply in_seq in Hi; rewrite Bern_at_1; now rewrite (proj2 (Nat.eqb_neq i n)) by lia).
      apply map_const_seq.
  - now apply bernstein_R.
  - now rewrite map_length, seq_length.
  - apply Forall_forall. intros; exact I.
Qed.
(** In double arithmetic the two are equal bit for bit. *)
Definition num3 (p : vec3 f64) : Prop := num64 (x3 p) /\ num64 (y3 p) /\ num64 (z3 p).
Theorem C69_border64 (g : Grid (vec3 f64)) (r c : nat) (s : side) (ps : list (vec3 f64)) (t : f64) :
  wf_grid g r c -> (1 <= r)%nat -> moderate r -> moderate c -> Forall num3 (g_data g) -> side_points g r c s ps -> num64 t -> 0 <= val t <= 1 ->
  bezier_surface3_get_point g (fst (side_param s t)) (snd (side_param s t)) = bezier3_get_point ps t.
Proof.
  intros Hg Hr Mr Mc Hp Hs Nt Vt. assert (Hn : (1 <= side_length r c s)%nat) by (destruct Hg as (_ & _ & Hc); destruct s; assumption).
  destruct (C62_bernstein_f64 (side_length r c s) t Hn) as (bs & Eb & Lb & Nb & _); [destruct s; assumption|exact Nt|exact Vt|].
  apply (border nice64 num64 num64 zero64) with (r := r) (c := c) (bt := bs); auto.
  - split; [discriminate|reflexivity].
  - exact nice64_add.
  - exact drop64.
  - intros w Hw. now apply one_times.
  - intros w Hw. now apply one_times.
  - intros w Hw. now apply zero_times.
  - intros w Hw. now apply zero_times.
  - intros n Hn'. apply (C02_bernstein_endpoints_f64 n Hn').
  - apply Forall_forall. intros b Hb. now apply Nb.
Qed.
