(** Grids, tensor product sums, and the reduction of surfaces to curves. *)
From Coq Require Import Reals Lra Psatz Lia Arith.
From Verif Require Import Prelude Num M_vec M_utils M_curve M_surface L_base L_vec L_knot.
Open Scope R_scope.

(** A grid of r rows and c columns. *)
Definition wf_grid {P} (g : Grid P) (r c : nat) : Prop :=
  g_cols g = c /\ length (g_data g) = (r * c)%nat /\ (1 <= c)%nat.
(** entry (i,j) *)
Definition entry {P} {VP : VecOps R P} (g : Grid P) (i j : nat) : P := nth (i * g_cols g + j) (g_data g) vzero.

Lemma wf_rows {P} (g : Grid P) r c : wf_grid g r c -> g_rows g = r.
Proof.
  intros (Hc & HL & H1). unfold g_rows. rewrite Hc. destruct c as [|c]; [lia|]. rewrite HL. apply Nat.div_mul. lia.
Qed.
Lemma grid_idx_entry {P} {VP : VecOps R P} (g : Grid P) r c i j : wf_grid g r c -> (i < r)%nat -> (j < c)%nat ->
  grid_idx g i j = Ok (entry g i j).
Proof.
  intros Hw Hi Hj. unfold grid_idx. rewrite (wf_rows g r c Hw). destruct Hw as (Hc & HL & H1).
  rewrite Hc, (proj2 (Nat.ltb_lt _ _) Hi), (proj2 (Nat.ltb_lt _ _) Hj). cbn [andb].
  unfold entry. rewrite Hc. apply idx_nth. nia.
Qed.
Lemma grid_from_vec_wf {P} (v : list P) r c : length v = (r * c)%nat -> (1 <= r)%nat -> (1 <= c)%nat ->
  grid_from_vec v c = Ok (mkGrid c v) /\ wf_grid (mkGrid c v) r c.
Proof.
  intros HL Hr Hc. unfold grid_from_vec. destruct v as [|p v]; [cbn in HL; nia|].
  destruct c as [|c]; [lia|]. rewrite HL, Nat.mod_mul by lia. cbn [Nat.eqb]. repeat split; auto.
Qed.

(** the double loop of tensor-product evaluation *)
Lemma tensor_sum_coord {P} {VP : VecOps R P} (g : Grid P) (bu bv : list R) r c :
  wf_grid g r c -> (r <= length bu)%nat -> (c <= length bv)%nat ->
  exists q, tensor_sum g bu bv = Ok q /\
    forall l, linear l -> l q = sumf (fun i => sumf (fun j => nth i bu 0 * nth j bv 0 * l (entry g i j)) c) r.
Proof.
  intros Hw Hr Hc. unfold tensor_sum. rewrite (wf_rows g r c Hw). pose proof Hw as (Ec & HL & H1). rewrite Ec.
  apply (foldM_range (fun k q => forall l, linear l -> l q = sumf (fun i => sumf (fun j => nth i bu 0 * nth j bv 0 * l (entry g i j)) c) k)).
  - lia.
  - intros l Hl. cbn. apply (lin_zero Hl).
  - intros i q Hi HP.
    destruct (foldM_range (fun m q' => forall l, linear l -> l q' = l q + sumf (fun j => nth i bu 0 * nth j bv 0 * l (entry g i j)) m)
      (fun point j => p <- grid_idx g i j ;; bu <- idx bu i ;; bv <- idx bv j ;; Ok (vadd point (vmull (fmul bu bv) p))) 0 c q) as [q' [E H]].
    + lia.
    + intros l Hl. cbn. lra.
    + intros j q0 Hj H. rewrite (grid_idx_entry g r c) by (auto; lia). cbn [obind]. rewrite (idx_nth bu i 0), (idx_nth bv j 0) by lia. cbn [obind].
      eexists. split; [reflexivity|]. intros l Hl. rewrite (lin_add Hl), (lin_mull Hl), (H l Hl), Nat.add_1_r, sumf_S. rnum. lra.
    + exists q'. split; [exact E|]. intros l Hl. rewrite (H l Hl), (HP l Hl), Nat.add_1_r, sumf_S. reflexivity.
Qed.

(** the double index of a row-major enumeration *)
Lemma cells_length n m : length (flat_map (fun i => map (fun j => (i, j)) (Prelude.range 0 m)) (Prelude.range 0 n)) = (n * m)%nat.
Proof.
  induction n; [reflexivity|]. rewrite range_snoc, flat_map_app, app_length, IHn by lia. cbn [flat_map]. rewrite app_nil_r, map_length, range_length. lia.
Qed.
Lemma cells_nth n m i j d : (i < n)%nat -> (j < m)%nat ->
  nth (i * m + j) (flat_map (fun i => map (fun j => (i, j)) (Prelude.range 0 m)) (Prelude.range 0 n)) d = (i, j).
Proof.
  intros Hi Hj. induction n; [lia|]. rewrite range_snoc, flat_map_app by lia.
  destruct (Nat.eq_dec i n) as [->|NE].
  - rewrite app_nth2; rewrite cells_length; [|lia]. replace (n * m + j - n * m)%nat with j by lia. cbn [flat_map]. rewrite app_nil_r.
    rewrite (nth_map_default _ _ _ 0%nat) by (rewrite range_length; lia). rewrite nth_range by lia. reflexivity.
  - rewrite app_nth1; [apply IHn; lia|]. rewrite cells_length. nia.
Qed.
Lemma cells_In n m i j : In (i, j) (flat_map (fun i => map (fun j => (i, j)) (Prelude.range 0 m)) (Prelude.range 0 n)) <-> (i < n)%nat /\ (j < m)%nat.
Proof.
  rewrite in_flat_map. split.
  - intros [x [Hx H]]. apply in_map_iff in H. destruct H as [y [E Hy]]. injection E as -> ->. apply range_In in Hx, Hy. lia.
  - intros [Hi Hj]. exists i. split; [apply range_In; lia|]. apply in_map_iff. exists j. split; [reflexivity|]. apply range_In. lia.
Qed.
(** a grid computed cell by cell *)
Lemma mapM_cells {P} {VP : VecOps R P} (f : nat -> nat -> outcome P) (v : nat -> nat -> P) n m : (1 <= n)%nat -> (1 <= m)%nat ->
  (forall i j, (i < n)%nat -> (j < m)%nat -> f i j = Ok (v i j)) ->
  exists data, mapM (fun '(i, j) => f i j) (flat_map (fun i => map (fun j => (i, j)) (Prelude.range 0 m)) (Prelude.range 0 n)) = Ok data /\
    grid_from_vec data m = Ok (mkGrid m data) /\ wf_grid (mkGrid m data) n m /\
    forall i j, (i < n)%nat -> (j < m)%nat -> entry (mkGrid m data) i j = v i j.
Proof.
  intros Hn Hm H. destruct (mapM_total (fun '(i, j) => f i j) (flat_map (fun i => map (fun j => (i, j)) (Prelude.range 0 m)) (Prelude.range 0 n))) as [data E].
  - intros [i j] Hin. apply cells_In in Hin. eexists. apply H; apply Hin.
  - exists data. split; [exact E|]. pose proof (mapM_length _ _ _ E) as HL. rewrite cells_length in HL.
    destruct (grid_from_vec_wf data n m HL Hn Hm) as [E' W]. split; [exact E'|]. split; [exact W|].
    intros i j Hi Hj. unfold entry. cbn [g_cols g_data].
    pose proof (mapM_nth _ _ _ (i * m + j) (0, 0)%nat vzero E) as K. rewrite cells_length in K. rewrite cells_nth in K by assumption.
    specialize (K ltac:(nia)). cbn beta iota in K. rewrite H in K by assumption. now apply Ok_inj in K.
Qed.
