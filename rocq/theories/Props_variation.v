(** Property C79: a plane crosses a Bezier curve at most as often as the control polygon. *)
From Coq Require Import Reals Lra Psatz Lia Arith ZArith List SpecFloat.
From Verif Require Import Prelude Num M_vec M_utils M_curve L_base L_vec L_bezier L_cdb L_insert L_knot L_bspline L_split Props_knot Props_bspline Props_split Props_bezier Props_utils Props_sampling Props_meshdist.
Import ListNotations.
Open Scope R_scope.

(** ** Specification *)
(** the places [l] are in increasing order, and [f] has there alternately the sign of [s] and of [- s], starting with [s] *)
Fixpoint zigzag {A} (lt : A -> A -> Prop) (f : A -> R) (s : R) (l : list A) : Prop :=
  match l with [] => True | x :: l' => 0 < s * f x /\ match l' with y :: _ => lt x y | [] => True end /\ zigzag lt f (- s) l' end.
(** on which side of the plane with normal [a] at height [d], and how far, is the point of the curve at [t] *)
Definition side (gp : R -> outcome (vec3 R)) (a : vec3 R) (d t : R) : R := match gp t with Ok p => dot3 a p - d | _ => 0 end.
(** the curve with evaluation [gp] and the list of control points (places in space) [cps]: whenever the curve goes over to and fro a plane, so does the control polygon, in the same sense *)
Definition crossings_bounded (gp : R -> outcome (vec3 R)) (cps : list (vec3 R)) (lo hi : R) : Prop := forall a d s ts, Forall (fun t => lo <= t <= hi) ts -> zigzag Rlt (side gp a d) s ts ->
  exists is, length is = length ts /\ Forall (fun i => (i < length cps)%nat) is /\ zigzag lt (fun i => dot3 a (nth i cps vzero) - d) s is.

(** ** Exponential sums *)
Lemma zigzag_ext {A} lt (f g : A -> R) (P : A -> Prop) : (forall x s, P x -> 0 < s * f x -> 0 < s * g x) -> forall l s, Forall P l -> zigzag lt f s l -> zigzag lt g s l.
Proof.
  intros H l. induction l as [|x l IH]; intros s F Z; [exact I|]. inversion F; subst. destruct Z as (Z1 & Z2 & Z3). cbn [zigzag]. split; [now apply H|]. split; [exact Z2|]. now apply IH.
Qed.
Lemma zigzag_map {A B} (lt : A -> A -> Prop) (lt' : B -> B -> Prop) (f : A -> R) (g : B -> R) (phi : A -> B) (P : A -> Prop) : (forall x s, P x -> 0 < s * f x -> 0 < s * g (phi x)) -> (forall x y, P x -> P y -> lt x y -> lt' (phi x) (phi y)) ->
  forall l s, Forall P l -> zigzag lt f s l -> zigzag lt' g s (map phi l).
Proof.
  intros H M l. induction l as [|x l IH]; intros s F Z; [exact I|]. inversion F as [|? ? Px Fl]; subst. destruct Z as (Z1 & Z2 & Z3). cbn [zigzag map]. split; [now apply H|]. split; [|now apply IH].
  destruct l as [|y l]; [exact I|]. inversion Fl; subst. cbn [map]. now apply M.
Qed.
Lemma zigzag_above (c : nat -> R) l : forall i s, zigzag lt c s (i :: l) -> Forall (fun j => (i < j)%nat) l.
Proof.
  induction l as [|j l IH]; intros i s Z; constructor; [apply Z|]. destruct Z as (_ & L & Z). apply IH in Z. eapply Forall_impl; [|exact Z]. cbn beta. intros. lia.
Qed.
Lemma zigzag_rolle (f f' : R -> R) : (forall x, derivable_pt_lim f x (f' x)) -> forall l x s, zigzag Rlt f s (x :: l) ->
  exists l', length l' = length l /\ zigzag Rlt f' (- s) l' /\ match l', l with z :: _, y :: _ => x < z < y | _, _ => True end.
Proof.
  intros D l. induction l as [|y l IH]; intros x s Z; [exists []; repeat split|]. destruct Z as (Z1 & L & Z). pose proof Z as Z'. destruct Z' as (Z2 & _ & _).
  destruct (IH y (- s) Z) as (l' & El & Zl & Hl). destruct (MVT_cor2 f f' x y L (fun c _ => D c)) as (z & Ez & Bz).
  exists (z :: l'). split; [cbn [length]; now rewrite El|]. split; [|exact Bz]. cbn [zigzag]. split; [|split; [|exact Zl]].
  - apply Rmult_lt_reg_r with (y - x); [lra|]. rewrite Rmult_0_l. replace (- s * f' z * (y - x)) with (- s * (f' z * (y - x))) by ring. rewrite <- Ez. lra.
  - destruct l' as [|z' l']; [exact I|]. destruct l; [discriminate|]. lra.
Qed.
Definition esum (n : nat) (c : nat -> R) (a s : R) : R := sumf (fun i => c i * exp ((INR i - a) * s)) n.
Lemma esum_lim n c a s : derivable_pt_lim (esum n c a) s (esum n (fun i => c i * (INR i - a)) a s).
Proof.
  unfold esum. induction n as [|n IH].
  - apply (derivable_pt_lim_ext (fun _ => 0)); [intros; now rewrite sumf_0|]. rewrite sumf_0. apply derivable_pt_lim_const.
  - apply (derivable_pt_lim_ext (fun s => sumf (fun i => c i * exp ((INR i - a) * s)) n + c n * exp ((INR n - a) * s))); [intros; now rewrite sumf_S|]. rewrite sumf_S.
    apply (derivable_pt_lim_plus (fun s => sumf (fun i => c i * exp ((INR i - a) * s)) n) (fun s => c n * exp ((INR n - a) * s))); [exact IH|].
    apply (lim_val _ _ (c n * (exp ((INR n - a) * s) * (INR n - a)))); [ring|]. apply (derivable_pt_lim_scal (fun s => exp ((INR n - a) * s))).
    apply (derivable_pt_lim_comp (fun s => (INR n - a) * s) exp); [|apply derivable_pt_lim_exp].
    apply (lim_val _ _ ((INR n - a) * 1)); [ring|]. apply (derivable_pt_lim_scal id), derivable_pt_lim_id.
Qed.
Lemma esum_shift n c a b s : esum n c b s = exp ((a - b) * s) * esum n c a s.
Proof. unfold esum. rewrite <- sumf_scal. apply sumf_ext. intros i _. replace ((INR i - b) * s) with ((a - b) * s + (INR i - a) * s) by ring. rewrite exp_plus. ring. Qed.
Lemma esum_nonneg n c a s : (forall i, (i < n)%nat -> 0 <= c i) -> 0 <= esum n c a s.
Proof. intros H. apply sumf_nonneg. intros i Hi. apply Rmult_le_pos; [now apply H|apply Rlt_le, exp_pos]. Qed.
Lemma esum_scal n c a s k : esum n (fun i => k * c i) a s = k * esum n c a s.
Proof. unfold esum. rewrite <- sumf_scal. apply sumf_ext. intros; ring. Qed.
Lemma some_term n c : (exists i, (i < n)%nat /\ 0 < c i) \/ (forall i, (i < n)%nat -> c i <= 0).
Proof.
  induction n as [|n [(i & Hi & P)|H]]; [right; intros; lia|left; exists i; split; [lia|exact P]|].
  destruct (Rlt_dec 0 (c n)) as [L|L]; [left; exists n; split; [lia|exact L]|right]. intros i Hi. destruct (Nat.eq_dec i n) as [->|]; [lra|apply H; lia].
Qed.
Lemma split_sign c n : (forall i, (i < n)%nat -> 0 <= c i) \/ (forall i, (i < n)%nat -> c i <= 0) \/
  exists p k, (p <= k)%nat /\ (S k < n)%nat /\ c p * c (S k) < 0 /\ forall i, (i <= k)%nat -> 0 <= c p * c i.
Proof.
  induction n as [|n IH]; [left; intros; lia|]. destruct IH as [H|[H|(p & k & H1 & H2 & H3)]]; [| |right; right; exists p, k; repeat split; try apply H3; lia].
  - destruct (Rle_dec 0 (c n)) as [L|L]; [left; intros i Hi; destruct (Nat.eq_dec i n) as [->|]; [exact L|apply H; lia]|]. right.
    destruct (some_term n c) as [(p & Hp & P)|N]; [right; exists p, (n - 1)%nat; replace (S (n - 1)) with n by lia|left].
    + repeat split; try lia; [nra|]. intros i Hi. apply Rmult_le_pos; [lra|apply H; lia].
    + intros i Hi. destruct (Nat.eq_dec i n) as [->|]; [lra|apply N; lia].
  - destruct (Rle_dec (c n) 0) as [L|L]; [right; left; intros i Hi; destruct (Nat.eq_dec i n) as [->|]; [exact L|apply H; lia]|].
    destruct (some_term n (fun i => - c i)) as [(p & Hp & P)|N]; [right; right; exists p, (n - 1)%nat; replace (S (n - 1)) with n by lia|left].
    + repeat split; try lia; [nra|]. intros i Hi. specialize (H i ltac:(lia)). nra.
    + intros i Hi. destruct (Nat.eq_dec i n) as [->|]; [lra|]. specialize (N i ltac:(lia)). lra.
Qed.
Lemma opposite s x y : 0 < s * x -> x * y < 0 -> 0 < - s * y.
Proof. intros H1 H2. assert (0 < (s * x) * - (x * y)) by (apply Rmult_lt_0_compat; lra). destruct (Rlt_dec 0 (- s * y)) as [|N]; [assumption|]. nra. Qed.
Lemma same_side s x y : 0 < s * x -> 0 <= x * y -> y <> 0 -> 0 < s * y.
Proof.
  intros H1 H2 H3. destruct (Rtotal_order x 0) as [L|[->|L]]; [|lra|]; destruct (Rtotal_order y 0) as [M|[M|M]]; try contradiction; nra.
Qed.
Lemma no_flip s x y : 0 < s * x -> 0 < - s * y -> 0 <= x -> 0 <= y -> False.
Proof.
  intros H1 H2 H3 H4. destruct (Rle_dec s 0) as [L|L].
  - assert (0 <= - s * x) by (apply Rmult_le_pos; lra). lra.
  - assert (0 <= s * y) by (apply Rmult_le_pos; lra). lra.
Qed.
Lemma esum_zigzag m : forall l n c a s, length l = m -> zigzag Rlt (esum n c a) s l -> exists is, length is = length l /\ Forall (fun i => (i < n)%nat) is /\ zigzag lt c s is.
Proof.
  induction m as [|m IH]; intros l n c a s Hm Z; [destruct l; [|discriminate]; exists []; repeat split; constructor|].
  destruct l as [|x [|y l]]; [discriminate| |].
  - destruct Z as (Z & _ & _). rewrite <- esum_scal in Z. destruct (some_term n (fun i => s * c i)) as [(i & Hi & P)|N].
    + exists [i]. split; [reflexivity|]. split; [constructor; [exact Hi|constructor]|]. cbn [zigzag]. auto.
    + exfalso. assert (0 <= esum n (fun i => - (s * c i)) a x) by (apply esum_nonneg; intros i Hi; specialize (N i Hi); cbn beta in N; lra).
      replace (esum n (fun i => - (s * c i)) a x) with (- esum n (fun i => s * c i) a x) in H; [lra|]. replace (- esum n (fun i => s * c i) a x) with (-1 * esum n (fun i => s * c i) a x) by ring. rewrite <- esum_scal. apply sumf_ext. intros; ring.
  - destruct (split_sign c n) as [H|[H|(p & k & H1 & H2 & H3 & H4)]].
    + exfalso. destruct Z as (Z1 & _ & Z2 & _). exact (no_flip _ _ _ Z1 Z2 (esum_nonneg n c a x H) (esum_nonneg n c a y H)).
    + exfalso. destruct Z as (Z1 & _ & Z2 & _). assert (N : forall i, (i < n)%nat -> 0 <= -1 * c i) by (intros i Hi; specialize (H i Hi); lra). pose proof (esum_nonneg n _ a x N) as N1. pose proof (esum_nonneg n _ a y N) as N2. rewrite esum_scal in N1, N2. apply (no_flip (- s) (-1 * esum n c a x) (-1 * esum n c a y)); lra.
    + set (b := INR k + 1 / 2).
      assert (Zb : zigzag Rlt (esum n c b) s (x :: y :: l)).
      { apply (zigzag_ext Rlt (esum n c a) _ (fun _ => True)); [|now apply Forall_forall|exact Z]. intros t w _ P. rewrite (esum_shift n c a b t). replace (w * (exp ((a - b) * t) * esum n c a t)) with (exp ((a - b) * t) * (w * esum n c a t)) by ring. apply Rmult_lt_0_compat; [apply exp_pos|exact P]. }
      destruct (zigzag_rolle _ _ (esum_lim n c b) _ _ _ Zb) as (l' & El & Zl & _).
      destruct (IH l' n _ b (- s) ltac:(cbn [length] in *; lia) Zl) as (is & Ei & Fi & Zi). rewrite El in Ei. destruct is as [|i0 is]; [discriminate|].
      assert (below : forall w i, (i <= k)%nat -> 0 < w * (c i * (INR i - b)) -> 0 < - w * c i).
      { intros w i Hi P. apply le_INR in Hi. assert (0 < b - INR i) by (unfold b; lra). apply Rmult_lt_reg_r with (b - INR i); [assumption|]. rewrite Rmult_0_l. replace (- w * c i * (b - INR i)) with (w * (c i * (INR i - b))) by ring. exact P. }
      assert (over : forall i w, (k < i)%nat -> 0 < w * (c i * (INR i - b)) -> 0 < w * c i).
      { intros i w Hi P. apply le_INR in Hi. rewrite S_INR in Hi. assert (0 < INR i - b) by (unfold b; lra). apply Rmult_lt_reg_r with (INR i - b); [assumption|]. rewrite Rmult_0_l. replace (w * c i * (INR i - b)) with (w * (c i * (INR i - b))) by ring. exact P. }
      pose proof (zigzag_above _ _ _ _ Zi) as Ab. inversion Fi as [|? ? Hi0 Fis]; subst. destruct Zi as (Z0 & Zlt & Zi). rewrite Ropp_involutive in Zi.
      destruct (le_lt_dec i0 k) as [L|L].
      * pose proof (below _ _ L Z0) as P0. rewrite Ropp_involutive in P0.
        assert (Cp : c p <> 0) by (intros E; rewrite E in H3; lra).
        assert (Pp : 0 < s * c p). { apply (same_side s (c i0)); [exact P0| |exact Cp]. rewrite Rmult_comm. now apply H4. }
        pose proof (opposite _ _ _ Pp H3) as Pk.
        assert (Far : Forall (fun j => (S k < j)%nat) is).
        { destruct is as [|i1 is]; [constructor|]. destruct Zi as (Y1 & Y2 & Y3).
          assert (K1 : (S k < i1)%nat).
          { destruct (le_lt_dec i1 k) as [L1|L1]; [exfalso; pose proof (below _ _ L1 Y1) as Q; pose proof (H4 i1 L1) as Q'; assert (c i1 <> 0) by (intros E; rewrite E in Q; lra); pose proof (same_side s (c p) (c i1) Pp Q' H); lra|].
            pose proof (over _ _ L1 Y1) as Q. destruct (Nat.eq_dec i1 (S k)) as [->|]; [exfalso; lra|lia]. }
          constructor; [exact K1|]. pose proof (zigzag_above _ is i1 s (conj Y1 (conj Y2 Y3))) as A2. eapply Forall_impl; [|exact A2]. cbn beta. intros. lia. }
        exists (p :: S k :: is). split; [cbn [length] in *; lia|]. split; [constructor; [lia|]; constructor; [exact H2|exact Fis]|].
        cbn [zigzag]. rewrite Ropp_involutive. split; [exact Pp|]. split; [lia|]. split; [exact Pk|]. split; [destruct is; [exact I|now inversion Far]|].
        apply (zigzag_ext lt (fun i => c i * (INR i - b)) _ (fun j => (S k < j)%nat)); [|exact Far|exact Zi]. intros j w Hj P. apply over; [lia|exact P].
      * pose proof (over _ _ L Z0) as P0.
        assert (Zc : zigzag lt c (- s) (i0 :: is)).
        { cbn [zigzag]. rewrite Ropp_involutive. split; [exact P0|]. split; [exact Zlt|]. apply (zigzag_ext lt (fun i => c i * (INR i - b)) _ (fun j => (i0 < j)%nat)); [|exact Ab|exact Zi]. intros j w Hj P. apply over; [lia|exact P]. }
        destruct (Rlt_dec 0 (s * c p)) as [Q|Q].
        -- exists (p :: i0 :: is). split; [cbn [length] in *; lia|]. split; [constructor; [lia|exact Fi]|]. split; [exact Q|]. split; [lia|exact Zc].
        -- assert (Pk : 0 < s * c (S k)).
           { assert (c p <> 0) by (intros E; rewrite E in H3; lra). assert (s <> 0) by (intros E; rewrite E in P0; lra). assert (s * c p <> 0) by (now apply Rmult_integral_contrapositive_currified). pose proof (opposite (- s) (c p) (c (S k)) ltac:(lra) H3). lra. }
           assert (i0 <> S k) by (intros ->; lra).
           exists (S k :: i0 :: is). split; [cbn [length] in *; lia|]. split; [constructor; [exact H2|exact Fi]|]. split; [exact Pk|]. split; [lia|exact Zc].
Qed.

(** ** Bernstein sums *)
Definition bsum (n : nat) (c : nat -> R) (t : R) : R := sumf (fun i => Bern (n - 1) i t * c i) n.
Lemma exp_multiple i s : exp (INR i * s) = exp s ^ i.
Proof. induction i as [|i IH]; [cbn [INR pow]; rewrite Rmult_0_l; apply exp_0|]. rewrite S_INR. replace ((INR i + 1) * s) with (s + INR i * s) by ring. rewrite exp_plus, IH. reflexivity. Qed.
Lemma bsum_esum n c t : 0 < t < 1 -> bsum n c t = (1 - t) ^ (n - 1) * esum n (fun i => C (n - 1) i * c i) 0 (ln (t / (1 - t))).
Proof.
  intros Ht. unfold bsum, esum. rewrite <- sumf_scal. apply sumf_ext. intros i Hi. unfold Bern. rewrite (proj2 (Nat.leb_le _ _)) by lia. rewrite Rminus_0_r, exp_multiple, exp_ln by (apply Rdiv_lt_0_compat; lra).
  unfold Rdiv. rewrite Rpow_mult_distr. replace ((1 - t) ^ (n - 1)) with ((1 - t) ^ i * (1 - t) ^ (n - 1 - i)) by (rewrite <- pow_add; f_equal; lia).
  rewrite pow_inv. field. apply pow_nonzero. lra.
Qed.
Lemma Bern_continuous d i t : continuity_pt (Bern d i) t.
Proof.
  destruct d as [|d].
  - destruct i as [|i]; apply derivable_continuous_pt; exists 0.
    + apply (derivable_pt_lim_ext (fun _ => 1)); [intros; now rewrite Bern_00|apply derivable_pt_lim_const].
    + apply (derivable_pt_lim_ext (fun _ => 0)); [intros; now rewrite Bern_above by lia|apply derivable_pt_lim_const].
  - apply derivable_continuous_pt. eexists. apply Bern_deriv.
Qed.
Lemma bsum_continuous n c t : continuity_pt (bsum n c) t.
Proof.
  unfold bsum. generalize (n - 1)%nat as d. intros d. induction n as [|n IH]; intros e He.
  - exists 1. split; [lra|]. intros x _. rewrite !sumf_0. unfold dist; cbn; unfold R_dist. rewrite Rminus_0_r, Rabs_R0. exact He.
  - assert (K : continuity_pt (fun t => sumf (fun i => Bern d i t * c i) n + Bern d n t * c n) t).
    { apply (continuity_pt_plus (fun t => sumf (fun i => Bern d i t * c i) n) (fun t => Bern d n t * c n)); [exact IH|]. apply (continuity_pt_mult (Bern d n) (fun _ => c n)); [apply Bern_continuous|apply continuity_pt_const; intros ? ?; reflexivity]. }
    destruct (K e He) as (al & Ha & K'). exists al. split; [exact Ha|]. intros x Hx. rewrite !sumf_S. exact (K' x Hx).
Qed.
(** places in the closed interval can be moved into the open one *)
Lemma zigzag_inside (f : R -> R) : (forall t, continuity_pt f t) -> forall l s, Forall (fun t => 0 <= t <= 1) l -> zigzag Rlt f s l ->
  exists e0, 0 < e0 /\ forall e, 0 < e < e0 -> zigzag Rlt f s (map (fun t => t + e * (1 / 2 - t)) l).
Proof.
  intros HC l. induction l as [|x l IH]; intros s F Z; [exists 1; split; [lra|]; intros; exact I|].
  inversion F as [|? ? Bx Fl]; subst. destruct Z as (Z1 & Z2 & Z3). destruct (IH _ Fl Z3) as (e1 & P1 & H1).
  assert (Hs : s <> 0) by (intros ->; lra). assert (Hf : f x <> 0) by (intros E; rewrite E in Z1; lra).
  destruct (HC x (Rabs (f x) / 2)) as (al & Ha & K). { apply Rabs_pos_lt in Hf. lra. }
  exists (Rmin 1 (Rmin e1 al)). split; [repeat apply Rmin_glb_lt; lra|]. intros e He. pose proof (Rmin_l 1 (Rmin e1 al)). pose proof (Rmin_r 1 (Rmin e1 al)). pose proof (Rmin_l e1 al). pose proof (Rmin_r e1 al).
  cbn [map zigzag]. split; [|split; [|apply H1; lra]].
  - assert (D : Rabs (f (x + e * (1 / 2 - x)) - f x) < Rabs (f x) / 2).
    { destruct (Req_dec (x + e * (1 / 2 - x)) x) as [E|E]; [rewrite E, Rminus_eq_0, Rabs_R0; apply Rabs_pos_lt in Hf; lra|]. apply K. split; [split; [exact I|intros E'; now apply E]|].
      unfold dist; cbn; unfold R_dist. replace (x + e * (1 / 2 - x) - x) with (e * (1 / 2 - x)) by ring. rewrite Rabs_mult, (Rabs_pos_eq e) by lra. assert (Rabs (1 / 2 - x) <= 1) by (apply Rabs_le; lra). nra. }
    revert D. set (y := f (x + e * (1 / 2 - x))). intros D. apply (same_side s (f x)); [exact Z1| |].
    + destruct (Rle_dec 0 (f x)) as [L|L]; [rewrite (Rabs_pos_eq (f x)) in D by exact L|rewrite (Rabs_left (f x)) in D by lra]; apply Rabs_def2 in D; nra.
    + intros E. rewrite E in D. replace (0 - f x) with (- f x) in D by ring. rewrite Rabs_Ropp in D. pose proof (Rabs_pos (f x)). lra.
  - destruct l as [|y l]; [exact I|]. cbn [map]. nra.
Qed.
Theorem bsum_zigzag n c s ts : (1 <= n)%nat -> Forall (fun t => 0 <= t <= 1) ts -> zigzag Rlt (bsum n c) s ts -> exists is, length is = length ts /\ Forall (fun i => (i < n)%nat) is /\ zigzag lt c s is.
Proof.
  intros Hn F Z. destruct (zigzag_inside _ (bsum_continuous n c) _ _ F Z) as (e0 & He & K). set (e := Rmin 1 e0 / 2). assert (M : 0 < Rmin 1 e0) by (apply Rmin_glb_lt; lra). pose proof (Rmin_l 1 e0). pose proof (Rmin_r 1 e0).
  specialize (K e ltac:(unfold e; lra)). set (ts' := map _ ts) in K.
  assert (F' : Forall (fun t => 0 < t < 1) ts'). { apply Forall_map. eapply Forall_impl; [|exact F]. cbn beta. intros t Ht. assert (0 < e < 1) by (unfold e; lra). nra. }
  assert (Z' : zigzag Rlt (esum n (fun i => C (n - 1) i * c i) 0) s (map (fun t => ln (t / (1 - t))) ts')).
  { apply (zigzag_map Rlt Rlt (bsum n c) _ _ (fun t => 0 < t < 1)); [| |exact F'|exact K].
    - intros t w Ht P. rewrite (bsum_esum n c t Ht) in P. apply Rmult_lt_reg_l with ((1 - t) ^ (n - 1)); [apply pow_lt; lra|]. rewrite Rmult_0_r. replace ((1 - t) ^ (n - 1) * (w * esum n (fun i => C (n - 1) i * c i) 0 (ln (t / (1 - t))))) with (w * ((1 - t) ^ (n - 1) * esum n (fun i => C (n - 1) i * c i) 0 (ln (t / (1 - t))))) by ring. exact P.
    - intros x y Hx Hy L. apply ln_increasing; [apply Rdiv_lt_0_compat; lra|]. apply Rmult_lt_reg_r with ((1 - x) * (1 - y)); [nra|]. replace (x / (1 - x) * ((1 - x) * (1 - y))) with (x * (1 - y)) by (field; lra). replace (y / (1 - y) * ((1 - x) * (1 - y))) with (y * (1 - x)) by (field; lra). lra. }
  destruct (esum_zigzag _ _ _ _ _ _ eq_refl Z') as (is & E & Fi & Zi). exists is. split; [rewrite E; unfold ts'; now rewrite !map_length|]. split; [exact Fi|].
  apply (zigzag_ext lt (fun i => C (n - 1) i * c i) _ (fun i => (i < n)%nat)); [|exact Fi|exact Zi]. intros i w Hi P. apply Rmult_lt_reg_l with (C (n - 1) i); [apply C_pos; lia|]. rewrite Rmult_0_r. replace (C (n - 1) i * (w * c i)) with (w * (C (n - 1) i * c i)) by ring. exact P.
Qed.

(** ** Bezier curves *)
Lemma bezier_side cps a d t : (1 <= length cps)%nat -> side (bezier3_get_point cps) a d t = bsum (length cps) (fun i => dot3 a (nth i cps vzero) - d) t.
Proof.
  intros H. unfold side. rewrite bezier_eval_Bern by exact H. unfold bsum, comb3, dot3. cbn [x3 y3 z3]. rnum.
  transitivity (x3 a * sumf (fun i => Bern (length cps - 1) i t * x3 (nth i cps vzero)) (length cps) + y3 a * sumf (fun i => Bern (length cps - 1) i t * y3 (nth i cps vzero)) (length cps) + z3 a * sumf (fun i => Bern (length cps - 1) i t * z3 (nth i cps vzero)) (length cps) - d * sumf (fun i => Bern (length cps - 1) i t) (length cps)).
  - rewrite (Bern_sum_len (length cps) t H). ring.
  - rewrite <- !sumf_scal, <- !sumf_plus, <- sumf_minus. apply sumf_ext. intros i _. ring.
Qed.
Theorem C79_bezier_crossings (cps : list (vec3 R)) : crossings_bounded (bezier3_get_point cps) cps 0 1.
Proof.
  intros a d s ts F Z. destruct cps as [|p cps].
  - destruct ts as [|t ts]; [exists []; repeat split; constructor|]. exfalso. destruct Z as (Z & _). unfold side in Z. change (bezier3_get_point [] t) with (@Panic (vec3 R)) in Z. cbn beta iota in Z. lra.
  - set (l := p :: cps) in *. assert (H : (1 <= length l)%nat) by (cbn; lia). apply bsum_zigzag; [exact H|exact F|].
    apply (zigzag_ext Rlt (side (bezier3_get_point l) a d) _ (fun _ => True)); [|now apply Forall_forall|exact Z]. intros t w _ P. now rewrite <- bezier_side.
Qed.

(** ** Knot insertion on knot functions *)
Lemma zigzag_pick {A B} (lt : A -> A -> Prop) (le' lt' : B -> B -> Prop) (f : A -> R) (g : B -> R) (pick : A -> B -> Prop) (P : A -> Prop) : (forall y y', le' y y' -> y <> y' -> lt' y y') ->
  (forall x s, P x -> 0 < s * f x -> exists y, pick x y /\ 0 < s * g y) -> (forall x x' y y', lt x x' -> pick x y -> pick x' y' -> le' y y') ->
  forall l s, Forall P l -> zigzag lt f s l -> exists l', length l' = length l /\ zigzag lt' g s l' /\ match l, l' with x :: _, y :: _ => pick x y | _, _ => True end.
Proof.
  intros Hl H M l. induction l as [|x l IH]; intros s F Z; [exists []; repeat split|]. inversion F as [|? ? Px Fl]; subst. destruct Z as (Z1 & Z2 & Z3).
  destruct (H x s Px Z1) as (y & Py & Y1). destruct (IH _ Fl Z3) as (l' & El & Zl & Hd). exists (y :: l'). split; [cbn [length]; now rewrite El|]. split; [|exact Py]. cbn [zigzag]. split; [exact Y1|]. split; [|exact Zl].
  destruct l' as [|y' l']; [exact I|]. destruct l as [|x' l]; [discriminate|]. apply Hl; [now apply (M x x')|]. intros <-. destruct Zl as (Y2 & _). lra.
Qed.
(** each new value is between two neighbouring old ones *)
Lemma corner_cutting (w c c' : nat -> R) : (forall i, 0 <= w i <= 1) -> (forall i, c' i = w i * c i + (1 - w i) * c (i - 1)%nat) ->
  forall l s, zigzag lt c' s l -> exists l', length l' = length l /\ zigzag lt c s l'.
Proof.
  intros Hw Hc l s Z.
  destruct (zigzag_pick lt le lt c' c (fun i i' => i' = i \/ i' = (i - 1)%nat) (fun _ => True)) with (l := l) (s := s) as (l' & E & Zl & _); try assumption.
  - intros; lia.
  - intros i r _ P. destruct (Rlt_dec 0 (r * c i)) as [L|L]; [exists i; auto|]. exists (i - 1)%nat. split; [now right|]. rewrite Hc in P. specialize (Hw i).
    destruct (Rlt_dec 0 (r * c (i - 1)%nat)) as [|N]; [assumption|]. exfalso. replace (r * (w i * c i + (1 - w i) * c (i - 1)%nat)) with (w i * (r * c i) + (1 - w i) * (r * c (i - 1)%nat)) in P by ring.
    assert (w i * (r * c i) <= 0) by nra. assert ((1 - w i) * (r * c (i - 1)%nat) <= 0) by nra. lra.
  - intros x x' y y' Hx [->| ->] [->| ->]; lia.
  - now apply Forall_forall.
  - exists l'. auto.
Qed.
Definition unbounded (t : nat -> R) : Prop := forall x, exists i, x < t i.
(** the spline with knots [t] and coefficients [c] has at [u] the value [v] *)
Definition hits (p : nat) (t c : nat -> R) (u v : R) : Prop := exists s, t s <= u < t (s + 1)%nat /\ forall M, (s < M)%nat -> sumf (fun i => cdb t s p i u * c i) M = v.
Lemma place_of t p x : unbounded t -> mono t -> t p <= x -> exists j, (p < j)%nat /\ (forall i, (i < j)%nat -> t i <= x) /\ (forall i, (j <= i)%nat -> x < t i).
Proof.
  intros U Ht Hx. destruct (U x) as (m & Hm).
  assert (K : forall m, x < t m -> exists j, (forall i, (i < j)%nat -> t i <= x) /\ x < t j).
  { clear m Hm. intros m. induction m as [m IH] using lt_wf_ind. intros Hm. destruct (Nat.eq_dec m 0) as [->|N]; [exists 0%nat; split; [intros; lia|exact Hm]|].
    destruct (Rlt_dec x (t (m - 1)%nat)) as [L|L]; [apply (IH (m - 1)%nat); [lia|exact L]|]. exists m. split; [|exact Hm]. intros i Hi. pose proof (Ht i (m - 1)%nat ltac:(lia)). lra. }
  destruct (K m Hm) as (j & H1 & H2). exists j. split; [|split; [exact H1|]].
  - destruct (le_lt_dec j p) as [L|L]; [|exact L]. pose proof (Ht j p L). lra.
  - intros i Hi. pose proof (Ht j i Hi). lra.
Qed.
Definition cut (t : nat -> R) (j : nat) (x : R) (p : nat) (c : nat -> R) (i : nat) : R := omega t j x p i * c i + (1 - omega t j x p i) * c (i - 1)%nat.
Lemma hits_insert p t c j x u v : mono t -> (p < j)%nat -> (forall i, (i < j)%nat -> t i <= x) -> (forall i, (j <= i)%nat -> x < t i) -> hits p t c u v -> hits p (ins t j x) (cut t j x p c) u v.
Proof.
  intros Ht Hj Hlo Hhi (s & Hs & Hsum).
  assert (Hs' : exists s', (s <= s' <= S s)%nat /\ ((j <= s)%nat -> s' = S s) /\ ((S s < j)%nat -> s' = s) /\ (j = S s -> s' = s \/ s' = S s) /\ ins t j x s' <= u < ins t j x (s' + 1)%nat).
  { destruct (Rle_dec x u) as [L|L].
    - assert (Hjs : (j <= S s)%nat). { destruct (le_lt_dec j (S s)) as [|N]; [assumption|]. specialize (Hlo (S s) N). replace (s + 1)%nat with (S s) in Hs by lia. lra. }
      exists (S s). repeat split; try lia.
      + destruct (Nat.eq_dec (S s) j) as [E|E]; [rewrite ins_eq by exact E; exact L|]. rewrite ins_gt by lia. replace (S s - 1)%nat with s by lia. lra.
      + rewrite ins_gt by lia. replace (S s + 1 - 1)%nat with (s + 1)%nat by lia. lra.
    - assert (Hjs : (s < j)%nat). { destruct (le_lt_dec j s) as [N|]; [|assumption]. specialize (Hhi s N). lra. }
      exists s. repeat split; try lia.
      + rewrite ins_lt by exact Hjs. lra.
      + destruct (Nat.eq_dec (s + 1) j) as [E|E]; [rewrite ins_eq by exact E; lra|]. rewrite ins_lt by lia. lra. }
  destruct Hs' as (s' & Bs & H1 & H2 & H3 & H4). exists s'. split; [exact H4|]. intros M HM. rewrite <- (Hsum M ltac:(lia)).
  set (g := fun i => (1 - omega t j x p i) * c (i - 1)%nat * cdb (ins t j x) s' p i u).
  transitivity (sumf (fun i => omega t j x p i * c i * cdb (ins t j x) s' p i u) M + sumf g M).
  - rewrite <- sumf_plus. apply sumf_ext. intros i _. unfold cut, g. ring.
  - transitivity (sumf (fun i => omega t j x p i * c i * cdb (ins t j x) s' p i u) M + sumf (fun i => g (S i)) M).
    + f_equal. pose proof (sumf_S g M) as E1. rewrite sumf_S_first in E1.
      assert (G0 : g 0%nat = 0) by (unfold g; rewrite omega_1 by (cbn; lia); ring). assert (GM : g M = 0) by (unfold g; rewrite cdb_support by lia; ring). lra.
    + rewrite <- sumf_plus. apply sumf_ext. intros i _. rewrite (cdb_insert t j x s s' Ht Hlo Hhi H1 H2 H3 ltac:(lra) p i u). unfold g. replace (S i - 1)%nat with i by lia. replace (S i) with (i + 1)%nat by lia. ring.
Qed.
Lemma omega_range t j x p i : mono t -> (forall i, (i < j)%nat -> t i <= x) -> (forall i, (j <= i)%nat -> x < t i) -> 0 <= omega t j x p i <= 1.
Proof.
  intros Ht Hlo Hhi. destruct (le_lt_dec j i) as [L|L]; [rewrite omega_0 by exact L; lra|]. destruct (le_lt_dec j (i + p)) as [L'|L']; [|rewrite omega_1 by exact L'; lra].
  rewrite omega_mid by lia. pose proof (Hlo i L). pose proof (Hhi (i + p)%nat L'). split; [apply Rmult_le_pos; [lra|apply Rlt_le, Rinv_0_lt_compat; lra]|].
  apply Rmult_le_reg_r with (t (i + p)%nat - t i); [lra|]. unfold Rdiv. rewrite Rmult_assoc, Rinv_l by lra. lra.
Qed.
Definition copies (t : nat -> R) (x : R) (m : nat) : Prop := exists q, forall i, (i < m)%nat -> t (q + i)%nat = x.
Lemma copies_insert t j x m : mono t -> (forall i, (i < j)%nat -> t i <= x) -> (forall i, (j <= i)%nat -> x < t i) -> copies t x m -> copies (ins t j x) x (S m).
Proof.
  intros Ht Hlo Hhi (q & Hq). exists (j - m)%nat. intros i Hi.
  destruct (Nat.eq_dec m 0) as [->|Hm]; [apply ins_eq; lia|].
  assert (Hqm : (q + m <= j)%nat). { destruct (le_lt_dec j (q + (m - 1))) as [N|]; [|lia]. specialize (Hhi _ N). rewrite (Hq (m - 1)%nat ltac:(lia)) in Hhi. lra. }
  destruct (Nat.eq_dec (j - m + i) j) as [E|E]; [now apply ins_eq|]. rewrite ins_lt by lia. apply Rle_antisym; [apply Hlo; lia|]. rewrite <- (Hq 0%nat ltac:(lia)). apply Ht. lia.
Qed.
Lemma copies_other t j x y m : mono t -> (forall i, (i < j)%nat -> t i <= x) -> (forall i, (j <= i)%nat -> x < t i) -> copies t y m -> copies (ins t j x) y m.
Proof.
  intros Ht Hlo Hhi (q & Hq). destruct (le_lt_dec j q) as [L|L].
  - exists (S q). intros i Hi. rewrite ins_gt by lia. replace (S q + i - 1)%nat with (q + i)%nat by lia. now apply Hq.
  - exists q. intros i Hi. rewrite ins_lt; [now apply Hq|]. destruct (le_lt_dec j (q + i)) as [N|]; [|assumption]. exfalso.
    pose proof (Hhi _ N) as A. rewrite (Hq i Hi) in A. pose proof (Hlo q L) as B. replace q with (q + 0)%nat in B by lia. rewrite (Hq 0%nat ltac:(lia)) in B. lra.
Qed.
Lemma ins_increasing t j x : mono t -> (forall i, (i < j)%nat -> t i <= x) -> (forall i, (j <= i)%nat -> x < t i) -> mono (ins t j x).
Proof.
  intros Ht Hlo Hhi a b Hab.
  destruct (lt_eq_lt_dec a j) as [[Ha|Ha]|Ha]; [rewrite (ins_lt _ _ _ a Ha)|rewrite (ins_eq _ _ _ a Ha)|rewrite (ins_gt _ _ _ a Ha)];
  (destruct (lt_eq_lt_dec b j) as [[Hb|Hb]|Hb]; [rewrite (ins_lt _ _ _ b Hb)|rewrite (ins_eq _ _ _ b Hb)|rewrite (ins_gt _ _ _ b Hb)]);
  try lia; try lra; try (apply Ht; lia).
  - now apply Hlo.
  - left. apply Hhi. lia.
Qed.
Lemma ins_unbounded t j x : unbounded t -> unbounded (ins t j x).
Proof.
  intros U y. destruct (U (Rmax x y)) as (i & Hi). pose proof (Rmax_l x y). pose proof (Rmax_r x y). destruct (le_lt_dec j i) as [L|L].
  - exists (S i). rewrite ins_gt by lia. replace (S i - 1)%nat with i by lia. lra.
  - exists i. rewrite ins_lt by exact L. lra.
Qed.
(** knots inserted at all places of [xs] *)
Lemma insert_all p xs : forall t c, mono t -> unbounded t -> Forall (fun x => t p <= x) xs -> exists t' c', mono t' /\ unbounded t' /\ t' p = t p /\
  (forall u v, hits p t c u v -> hits p t' c' u v) /\ (forall l s, zigzag lt c' s l -> exists l', length l' = length l /\ zigzag lt c s l') /\ (forall y m, copies t y m -> copies t' y m) /\
  (forall y m, copies t y m -> copies t' y (m + count_occ Req_EM_T xs y)).
Proof.
  induction xs as [|x xs IH]; intros t c Ht U F.
  - exists t, c. repeat split; auto. + intros l s Z. exists l. auto. + intros y m H. cbn [count_occ]. now rewrite Nat.add_0_r.
  - inversion F as [|? ? Hx Fx]; subst. destruct (place_of t p x U Ht Hx) as (j & Hj & Hlo & Hhi).
    pose proof (ins_increasing t j x Ht Hlo Hhi) as Ht'. assert (Ep : ins t j x p = t p) by now apply ins_lt.
    destruct (IH (ins t j x) (cut t j x p c) Ht' (ins_unbounded t j x U)) as (t' & c' & K1 & K2 & K3 & K4 & K5 & K6 & K7); [now rewrite Ep|].
    exists t', c'. split; [exact K1|]. split; [exact K2|]. split; [now rewrite K3|]. split; [|split; [|split]].
    + intros u v H. apply K4. now apply hits_insert.
    + intros l s Z. destruct (K5 l s Z) as (l1 & E1 & Z1). destruct (corner_cutting (omega t j x p) c (cut t j x p c) (fun i => omega_range t j x p i Ht Hlo Hhi) (fun i => eq_refl) l1 s Z1) as (l2 & E2 & Z2). exists l2. split; [congruence|exact Z2].
    + intros y m H. apply K6. now apply copies_other.
    + intros y m H. cbn [count_occ]. destruct (Req_EM_T x y) as [<-|N].
      * replace (m + S (count_occ Req_EM_T xs x))%nat with (S m + count_occ Req_EM_T xs x)%nat by lia. apply K7. now apply copies_insert.
      * apply K7. now apply copies_other.
Qed.
(** at a knot that occurs as often as the degree the curve meets a control point *)
Lemma cdb_at_knot t s u k : (k <= s)%nat -> (forall i, (i < k)%nat -> t (s - i)%nat = u) -> u < t (s + 1)%nat -> forall i, cdb t s k i u = if (i =? s - k)%nat then 1 else 0.
Proof.
  induction k as [|k IH]; intros Hk Hu Hs i; [cbn [cdb]; now replace (s - 0)%nat with s by lia|].
  cbn [cdb]. rewrite !IH by (intros; try apply Hu; lia || exact Hs).
  destruct (Nat.eqb_spec i (s - k)) as [->|N1].
  - rewrite (proj2 (Nat.eqb_neq _ _)) by lia. rewrite (proj2 (Nat.eqb_neq _ _)) by lia. rewrite (Hu k) by lia. rewrite Rminus_eq_0, ratio_0_l. ring.
  - destruct (Nat.eqb_spec (i + 1) (s - k)) as [E|N2].
    + rewrite (proj2 (Nat.eqb_eq _ _)) by lia. replace (i + S k + 1)%nat with (s + 1)%nat by lia. replace (t (i + 1)%nat) with u by (rewrite E; symmetry; apply Hu; lia). replace (ratio (t (s + 1)%nat - u) (t (s + 1)%nat - u)) with 1 by (rewrite ratio_nz by (apply Rgt_not_eq; lra); field; apply Rgt_not_eq; lra). ring.
    + rewrite (proj2 (Nat.eqb_neq _ _)) by lia. ring.
Qed.
Lemma hits_at_knot p t c u v : mono t -> t p <= u -> copies t u p -> hits p t c u v -> exists s, (p <= s)%nat /\ t s <= u < t (s + 1)%nat /\ v = c (s - p)%nat.
Proof.
  intros Ht Hp (q & Hq) (s & Hs & Hsum). assert (Ps : (p <= s)%nat). { destruct (le_lt_dec p s) as [|N]; [assumption|]. pose proof (Ht (s + 1)%nat p ltac:(lia)). lra. }
  exists s. split; [exact Ps|]. split; [exact Hs|]. rewrite <- (Hsum (S s) ltac:(lia)).
  assert (K : forall i, (i < p)%nat -> t (s - i)%nat = u).
  { intros i Hi. assert (Q : (q + (p - 1) <= s)%nat). { destruct (le_lt_dec (q + (p - 1)) s) as [|N]; [assumption|]. pose proof (Ht (s + 1)%nat (q + (p - 1))%nat ltac:(lia)) as A. rewrite (Hq (p - 1)%nat ltac:(lia)) in A. lra. }
    apply Rle_antisym; [apply Rle_trans with (t s); [apply Ht; lia|lra]|]. rewrite <- (Hq 0%nat ltac:(lia)) at 1. apply Ht. lia. }
  rewrite (sumf_single _ _ (s - p)%nat) by (try lia; intros i Hi N; rewrite cdb_at_knot by (assumption || lra); rewrite (proj2 (Nat.eqb_neq _ _) N); ring).
  rewrite cdb_at_knot by (assumption || lra). rewrite Nat.eqb_refl. ring.
Qed.
Theorem spline_zigzag p t c f s us : mono t -> unbounded t -> Forall (fun u => t p <= u /\ hits p t c u (f u)) us -> zigzag Rlt f s us -> exists is, length is = length us /\ zigzag lt c s is.
Proof.
  intros Ht U F Z.
  destruct (insert_all p (concat (map (fun u => repeat u p) us)) t c Ht U) as (t' & c' & K1 & K2 & K3 & K4 & K5 & K6 & K7).
  { apply Forall_forall. intros x Hx. apply in_concat in Hx as (l & Hl & Hx). apply in_map_iff in Hl as (u & <- & Hu). apply repeat_spec in Hx as ->. rewrite Forall_forall in F. now apply F. }
  assert (KC : forall u, In u us -> copies t' u p).
  { intros u Hu. destruct (K7 u 0%nat) as (q & Hq); [exists 0%nat; intros; lia|]. exists q. intros i Hi. apply Hq. cbn [Nat.add].
    apply Nat.lt_le_trans with p; [exact Hi|]. clear - Hu. induction us as [|a us IH]; [destruct Hu|]. cbn [map concat]. rewrite count_occ_app. destruct Hu as [->|Hu]; [|specialize (IH Hu); lia]. rewrite count_occ_repeat_eq by reflexivity. lia. }
  destruct (zigzag_pick Rlt le lt f c' (fun u i => t' (i + p)%nat <= u < t' (i + p + 1)%nat) (fun u => In u us /\ t p <= u /\ hits p t c u (f u))) with (l := us) (s := s) as (l & E & Zl & _); try assumption.
  - intros; lia.
  - intros u r (Hu & B & H) P. destruct (hits_at_knot p t' c' u (f u) K1 ltac:(lra) (KC u Hu) (K4 _ _ H)) as (k & Pk & Bk & Ev). exists (k - p)%nat. replace (k - p + p)%nat with k by lia. split; [exact Bk|]. now rewrite <- Ev.
  - intros u u' i i' L H H'. destruct (le_lt_dec i i') as [|N]; [assumption|]. pose proof (K1 (i' + p + 1)%nat (i + p)%nat ltac:(lia)). lra.
  - rewrite Forall_forall in *. intros u Hu. split; [exact Hu|]. now apply F.
  - destruct (K5 l s Zl) as (l' & E' & Z'). exists l'. split; [congruence|exact Z'].
Qed.

(** ** B-splines *)
Lemma sumf_support f m M : (m <= M)%nat -> (forall i, (m <= i)%nat -> f i = 0) -> sumf f M = sumf f m.
Proof. intros H Z. replace M with (m + (M - m))%nat by lia. rewrite sumf_app, (sumf_zero (fun i => f (m + i)%nat)) by (intros; apply Z; lia). ring. Qed.
(** the knots, continued by ever larger ones *)
Definition onward (ks : list R) (i : nat) : R := if (i <? length ks)%nat then nth i ks 0 else last_knot ks + INR (i - length ks + 1).
Lemma onward_in ks i : (i < length ks)%nat -> onward ks i = nth i ks 0.
Proof. intros H. unfold onward. now rewrite (proj2 (Nat.ltb_lt _ _) H). Qed.
Lemma onward_out ks i : (length ks <= i)%nat -> onward ks i = last_knot ks + INR (i - length ks + 1).
Proof. intros H. unfold onward. now rewrite (proj2 (Nat.ltb_ge _ _) H). Qed.
Lemma onward_mono ks : sorted ks -> mono (onward ks).
Proof.
  intros Hs i j Hij. destruct (le_lt_dec (length ks) i) as [L|L]; [rewrite !onward_out by lia; assert (INR (i - length ks + 1) <= INR (j - length ks + 1)) by (apply le_INR; lia); lra|]. rewrite (onward_in ks i) by exact L.
  destruct (le_lt_dec (length ks) j) as [L'|L']; [|rewrite onward_in by exact L'; now apply Hs]. rewrite onward_out by exact L'. pose proof (Hs i (length ks - 1)%nat ltac:(lia)) as H. fold (last_knot ks) in H. pose proof (pos_INR (j - length ks + 1)). lra.
Qed.
Lemma onward_unbounded ks : unbounded (onward ks).
Proof.
  intros x. destruct (archimed (x - last_knot ks)) as [Ha _]. set (n := Z.to_nat (Z.max 0 (up (x - last_knot ks)))).
  assert (Hn : x - last_knot ks < INR n). { unfold n. rewrite INR_IZR_INZ, Z2Nat.id by lia. apply Rlt_le_trans with (IZR (up (x - last_knot ks))); [lra|apply IZR_le; lia]. }
  exists (length ks + n)%nat. rewrite onward_out by lia. replace (length ks + n - length ks + 1)%nat with (S n) by lia. rewrite S_INR. lra.
Qed.
Lemma sum_continuous (N : nat -> R -> R) (c : nat -> R) n t : (forall i, continuity_pt (N i) t) -> continuity_pt (fun t => sumf (fun i => N i t * c i) n) t.
Proof.
  intros H. induction n as [|n IH]; intros e He.
  - exists 1. split; [lra|]. intros x _. rewrite !sumf_0. unfold dist; cbn; unfold R_dist. rewrite Rminus_0_r, Rabs_R0. exact He.
  - assert (K : continuity_pt (fun t => sumf (fun i => N i t * c i) n + N n t * c n) t).
    { apply (continuity_pt_plus (fun t => sumf (fun i => N i t * c i) n) (fun t => N n t * c n)); [exact IH|]. apply (continuity_pt_mult (N n) (fun _ => c n)); [apply H|apply continuity_pt_const; intros ? ?; reflexivity]. }
    destruct (K e He) as (al & Ha & K'). exists al. split; [exact Ha|]. intros x Hx. rewrite !sumf_S. exact (K' x Hx).
Qed.
(** a sample at the right end can be moved inwards *)
Lemma zigzag_before (f g : R -> R) lo b hi : lo <= b < hi -> (forall u, b <= u <= hi -> f u = g u) -> continuity_pt g hi -> forall l y s, y < hi -> Forall (fun u => y < u /\ lo <= u <= hi) l -> zigzag Rlt f s l ->
  exists l', length l' = length l /\ Forall (fun u => y < u /\ lo <= u < hi) l' /\ zigzag Rlt f s l'.
Proof.
  intros Hb Hfg HC l. induction l as [|x l IH]; intros y s Hy F Z; [exists []; repeat split; constructor|]. inversion F as [|? ? Bx Fl]; subst. destruct Z as (Z1 & Z2 & Z3).
  destruct (Rlt_dec x hi) as [L|L].
  - destruct (IH x (- s) L) as (l' & E & F' & Z'); [|exact Z3|].
    { destruct l as [|z l]; [constructor|]. inversion Fl as [|? ? Bz Fz]; subst. clear - Z2 Z3 Bz Fz. constructor; [lra|]. assert (K : forall l z s, zigzag Rlt f s (z :: l) -> Forall (fun u => z < u) l).
      { clear. intros l. induction l as [|w l IH]; intros z s Z; constructor; [apply Z|]. destruct Z as (_ & L & Z). apply IH in Z. eapply Forall_impl; [|exact Z]. cbn beta. intros. lra. }
      apply K in Z3. rewrite Forall_forall in *. intros u Hu. specialize (Fz u Hu). specialize (Z3 u Hu). lra. }
    exists (x :: l'). split; [cbn [length]; now rewrite E|]. split; [constructor; [lra|]; eapply Forall_impl; [|exact F']; cbn beta; intros; lra|]. cbn [zigzag]. split; [exact Z1|]. split; [|exact Z']. destruct l' as [|z l']; [exact I|]. inversion F'; subst. lra.
  - assert (x = hi) by lra. subst x. destruct l as [|z l]; [|exfalso; inversion Fl; subst; lra].
    rewrite Hfg in Z1 by lra. assert (Hf : g hi <> 0) by (intros E; rewrite E in Z1; lra). assert (Hf' : 0 < Rabs (g hi)) by now apply Rabs_pos_lt.
    destruct (HC (Rabs (g hi) / 2) ltac:(lra)) as (al & Ha & K).
    set (dl := Rmin al (Rmin (hi - b) (hi - y)) / 2). assert (M : 0 < Rmin al (Rmin (hi - b) (hi - y))) by (repeat apply Rmin_glb_lt; lra). pose proof (Rmin_l al (Rmin (hi - b) (hi - y))). pose proof (Rmin_r al (Rmin (hi - b) (hi - y))). pose proof (Rmin_l (hi - b) (hi - y)). pose proof (Rmin_r (hi - b) (hi - y)).
    assert (D : Rabs (g (hi - dl) - g hi) < Rabs (g hi) / 2).
    { apply K. split; [split; [exact I|intros E; unfold dl in E; lra]|]. unfold dist; cbn; unfold R_dist. replace (hi - dl - hi) with (- dl) by ring. rewrite Rabs_Ropp, Rabs_pos_eq; unfold dl; lra. }
    exists [hi - dl]. split; [reflexivity|]. split; [constructor; [unfold dl; lra|constructor]|]. split; [|split; exact I]. rewrite Hfg by (unfold dl; lra).
    revert D. set (w := g (hi - dl)). intros D. apply (same_side s (g hi)); [exact Z1| |].
    + destruct (Rle_dec 0 (g hi)) as [P|P]; [rewrite (Rabs_pos_eq (g hi)) in D by exact P|rewrite (Rabs_left (g hi)) in D by lra]; apply Rabs_def2 in D; nra.
    + intros E. rewrite E in D. replace (0 - g hi) with (- g hi) in D by ring. rewrite Rabs_Ropp in D. lra.
Qed.
Section Spline.
Variables (c : BSpline R (vec3 R)) (a : vec3 R) (d : R).
Let ks := bs_knots c.
Let p := bs_degree c.
Let n := length (bs_cps c).
Hypothesis Hv : valid_bspline c.
Hypothesis Hend : nth n ks 0 = last_knot ks.
Let height (i : nat) : R := if (i <? n)%nat then dot3 a (nth i (bs_cps c) vzero) - d else 0.
Lemma side_span u s : is_span ks u s -> (p <= s)%nat -> (s < n)%nat -> forall M, (s < M)%nat -> sumf (fun i => cdb (onward ks) s p i u * height i) M = side (bspline3_get_point c) a d u.
Proof using Hv.
  intros Hs Hp Hn M HM. destruct Hv as [Hso Hsep HL Hne]. fold ks p n in HL, Hso.
  rewrite (sumf_support _ (S s) M) by (try lia; intros i Hi; rewrite cdb_support by lia; ring). rewrite <- (sumf_support _ (S s) n) by (try lia; intros i Hi; rewrite cdb_support by lia; ring).
  unfold side. rewrite (bspline_eval c u s Hv Hs). fold p ks. unfold comb3, dot3. cbn [x3 y3 z3]. rnum. fold n.
  assert (E : forall i, (i < n)%nat -> cdb (fun i => nth i ks 0) s p i u = cdb (onward ks) s p i u). { intros i Hi. apply cdb_ext. intros k Hk. symmetry. apply onward_in. lia. }
  assert (W : sumf (fun i => cdb (onward ks) s p i u) n = 1). { destruct Hs as (S1 & S2 & _). apply cdb_sum; [now apply onward_mono|rewrite !onward_in by lia; exact S2|exact Hp|exact Hn]. }
  transitivity (x3 a * sumf (fun i => cdb (onward ks) s p i u * x3 (nth i (bs_cps c) vzero)) n + y3 a * sumf (fun i => cdb (onward ks) s p i u * y3 (nth i (bs_cps c) vzero)) n + z3 a * sumf (fun i => cdb (onward ks) s p i u * z3 (nth i (bs_cps c) vzero)) n - d * sumf (fun i => cdb (onward ks) s p i u) n).
  - rewrite <- !sumf_scal, <- !sumf_plus, <- sumf_minus. apply sumf_ext. intros i Hi. unfold height, dot3. rewrite (proj2 (Nat.ltb_lt _ _) Hi). rnum. ring.
  - rewrite W, Rmult_1_r. f_equal. f_equal; [f_equal|]; f_equal; apply sumf_ext; intros i Hi; now rewrite E.
Qed.
Lemma span_place u s : is_span ks u s -> nth p ks 0 <= u -> nth p ks 0 < last_knot ks -> (p <= s < n)%nat.
Proof using Hv Hend.
  destruct Hv as [Hso Hsep HL Hne]. fold ks p n in HL, Hso. intros (S1 & S2 & S3 & S4) Hu Hne'. split.
  - destruct (le_lt_dec p s) as [|N]; [assumption|exfalso]. pose proof (Hso (s + 1)%nat p ltac:(lia)). fold (last_knot ks) in S4. lra.
  - destruct (le_lt_dec n s) as [N|]; [exfalso|assumption]. pose proof (Hso n s ltac:(lia)) as Q. rewrite Hend in Q. pose proof (Hso (s + 1)%nat (length ks - 1)%nat ltac:(lia)) as Q'. fold (last_knot ks) in Q'. lra.
Qed.
Lemma spline_hits u : nth p ks 0 <= u < last_knot ks -> hits p (onward ks) height u (side (bspline3_get_point c) a d u).
Proof using Hv Hend.
  intros Hu. pose proof Hv as [Hso Hsep HL Hne]. fold ks p n in HL, Hso.
  assert (F0 : nth 0 ks 0 <= nth p ks 0) by (apply Hso; lia).
  destruct (span_exists ks u Hso ltac:(lia)) as [s Hs]; [fold (last_knot ks); lra|lra|].
  pose proof (span_place u s Hs ltac:(lra) ltac:(lra)) as Ps. exists s. split.
  - destruct Hs as (S1 & S2 & S3 & S4). fold (last_knot ks) in S4. rewrite !onward_in by lia. lra.
  - intros M HM. apply side_span; [exact Hs|lia|lia|exact HM].
Qed.
Lemma spline_end : nth p ks 0 < last_knot ks -> exists b g, nth p ks 0 <= b < last_knot ks /\ (forall u, b <= u <= last_knot ks -> side (bspline3_get_point c) a d u = g u) /\ continuity_pt g (last_knot ks).
Proof using Hv Hend.
  intros Hl. pose proof Hv as [Hso Hsep HL Hne]. fold ks p n in HL, Hso.
  assert (F0 : nth 0 ks 0 <= nth p ks 0) by (apply Hso; lia).
  destruct (span_exists ks (last_knot ks) Hso ltac:(lia)) as [s Hs]; [fold (last_knot ks); lra|lra|].
  pose proof (span_place _ s Hs ltac:(lra) ltac:(lra)) as Ps. pose proof Hs as (S1 & S2 & S3 & S4). fold (last_knot ks) in S4.
  assert (E1 : nth (s + 1) ks 0 = last_knot ks). { pose proof (Hso (s + 1)%nat (length ks - 1)%nat ltac:(lia)) as Q. fold (last_knot ks) in Q. lra. }
  exists (nth s ks 0), (fun u => sumf (fun i => cdb (onward ks) s p i u * height i) n). split; [pose proof (Hso p s ltac:(lia)); lra|]. split.
  - intros u Hu. symmetry. apply side_span; [|lia|lia|lia]. split; [exact S1|]. split; [exact S2|]. split; [lra|]. fold (last_knot ks). destruct (Rlt_dec u (nth (s + 1) ks 0)); [left; assumption|right; lra].
  - apply (sum_continuous (fun i => cdb (onward ks) s p i)). intros i. destruct p as [|k].
    + apply continuity_pt_const. intros x y. reflexivity.
    + apply derivable_continuous_pt. eexists. apply cdb_deriv; [now apply onward_mono|rewrite !onward_in by lia; exact S2].
Qed.
Theorem spline_crossings s ts : nth p ks 0 < last_knot ks -> Forall (fun t => nth p ks 0 <= t <= last_knot ks) ts -> zigzag Rlt (side (bspline3_get_point c) a d) s ts ->
  exists is, length is = length ts /\ Forall (fun i => (i < n)%nat) is /\ zigzag lt (fun i => dot3 a (nth i (bs_cps c) vzero) - d) s is.
Proof using Hv Hend.
  intros Hl F Z. pose proof Hv as [Hso Hsep HL Hne]. fold ks p n in HL, Hso. destruct (spline_end Hl) as (b & g & Hb & Hg & HC).
  destruct (zigzag_before _ g (nth p ks 0) b (last_knot ks) Hb Hg HC ts (nth p ks 0 - 1) s ltac:(lra)) as (us & E & F' & Z'); [|exact Z|].
  { eapply Forall_impl; [|exact F]. cbn beta. intros; lra. }
  destruct (spline_zigzag p (onward ks) height (side (bspline3_get_point c) a d) s us (onward_mono ks Hso) (onward_unbounded ks)) as (is & Ei & Zi); [|exact Z'|].
  { eapply Forall_impl; [|exact F']. cbn beta. intros u Hu. rewrite onward_in by lia. split; [lra|]. apply spline_hits. lra. }
  assert (Fi : Forall (fun i => (i < n)%nat) is).
  { clear - Zi. revert s Zi. induction is as [|i is IH]; intros s Z; constructor; [|destruct Z as (_ & _ & Z); exact (IH _ Z)]. destruct Z as (Z & _). unfold height in Z. destruct (Nat.ltb_spec i n); [assumption|lra]. }
  exists is. split; [congruence|]. split; [exact Fi|]. apply (zigzag_ext lt height _ (fun i => (i < n)%nat)); [|exact Fi|exact Zi]. intros i w Hi P. unfold height in P. now rewrite (proj2 (Nat.ltb_lt _ _) Hi) in P.
Qed.
End Spline.
Theorem C79_bspline_crossings (c : BSpline R (vec3 R)) : let ks := bs_knots c in valid_bspline c -> nth (length (bs_cps c)) ks 0 = last_knot ks -> nth (bs_degree c) ks 0 < last_knot ks ->
  crossings_bounded (bspline3_get_point c) (bs_cps c) (nth (bs_degree c) ks 0) (last_knot ks).
Proof. intros ks Hv He Hl a d s ts F Z. exact (spline_crossings c a d Hv He s ts Hl F Z). Qed.

(** ** Rational Bezier curves, and a consequence *)
Definition place (q : vec4 R) : vec3 R := V3 (x4 q / w4 q) (y4 q / w4 q) (z4 q / w4 q).
Theorem C79_rational_bezier_crossings (cps : list (vec4 R)) : (forall q, In q cps -> 0 < w4 q) -> crossings_bounded (bezier4_get_point cps) (map place cps) 0 1.
Proof.
  intros Hw a d s ts F Z. destruct cps as [|q0 l0].
  - destruct ts as [|t ts]; [exists []; repeat split; constructor|]. exfalso. destruct Z as (Z & _). unfold side in Z. change (bezier4_get_point [] t) with (@Panic (vec3 R)) in Z. cbn beta iota in Z. lra.
  - set (l := q0 :: l0) in *. assert (H : (1 <= length l)%nat) by (cbn; lia). rewrite map_length.
    set (c := fun i => let q := nth i l vzero in x3 a * x4 q + y3 a * y4 q + z3 a * z4 q - d * w4 q).
    destruct (bsum_zigzag (length l) c s ts H F) as (is & E & Fi & Zi).
    { apply (zigzag_ext Rlt (side (bezier4_get_point l) a d) _ (fun t => 0 <= t <= 1)); [|exact F|exact Z]. intros t w Ht P. unfold side in P.
      destruct (C05_rational_bezier l t H Hw Ht) as [W E]. rewrite E in P. set (S := fun co => bern_dot (length l - 1) t co l) in *. cbn beta in W.
      replace (bsum (length l) c t) with (S w4 * (dot3 a (V3 (S x4 / S w4) (S y4 / S w4) (S z4 / S w4)) - d)).
      - replace (w * (S w4 * (dot3 a (V3 (S x4 / S w4) (S y4 / S w4) (S z4 / S w4)) - d))) with (S w4 * (w * (dot3 a (V3 (S x4 / S w4) (S y4 / S w4) (S z4 / S w4)) - d))) by ring. apply Rmult_lt_0_compat; [exact W|exact P].
      - unfold dot3. cbn [x3 y3 z3]. rnum. transitivity (x3 a * S x4 + y3 a * S y4 + z3 a * S z4 - d * S w4); [field; unfold S; lra|].
        unfold S, bern_dot, bsum, c. cbv zeta. rewrite <- !sumf_scal, <- !sumf_plus, <- sumf_minus. apply sumf_ext. intros i _. ring. }
    exists is. split; [exact E|]. split; [exact Fi|]. apply (zigzag_ext lt c _ (fun i => (i < length l)%nat)); [|exact Fi|exact Zi]. intros i w Hi P.
    assert (EN : nth i (map place l) vzero = place (nth i l vzero)) by (rewrite (nth_indep _ _ (place vzero)) by (now rewrite map_length); apply map_nth). rewrite EN.
    pose proof (Hw (nth i l vzero) (nth_In l vzero Hi)) as W. unfold c in P. cbv zeta in P. set (q := nth i l vzero) in *. apply Rmult_lt_reg_l with (w4 q); [exact W|]. rewrite Rmult_0_r.
    replace (w4 q * (w * (dot3 a (place q) - d))) with (w * (x3 a * x4 q + y3 a * y4 q + z3 a * z4 q - d * w4 q)); [exact P|]. unfold place, dot3. cbn [x3 y3 z3]. rnum. field. lra.
Qed.
(** if the control points proceed in a direction, so does the curve *)
Theorem C79_monotone gp cps lo hi a : crossings_bounded gp cps lo hi -> (forall i j, (i < j < length cps)%nat -> dot3 a (nth i cps vzero) <= dot3 a (nth j cps vzero)) ->
  forall u v p q, lo <= u -> u < v -> v <= hi -> gp u = Ok p -> gp v = Ok q -> dot3 a p <= dot3 a q.
Proof.
  intros H M u v p q Hu Huv Hv Ep Eq. destruct (Rle_dec (dot3 a p) (dot3 a q)) as [|N]; [assumption|exfalso].
  destruct (H a ((dot3 a p + dot3 a q) / 2) 1 [u; v]) as (is & E & F & Z).
  - constructor; [lra|]. constructor; [lra|constructor].
  - cbn [zigzag]. unfold side. rewrite Ep, Eq. repeat split; lra.
  - destruct is as [|i [|j [|]]]; try discriminate. inversion F as [|? ? Fi Fj]; subst. inversion Fj; subst. destruct Z as (Z1 & L & Z2 & _). pose proof (M i j ltac:(lia)). lra.
Qed.
(** a cubic that goes three times over the plane y = 0, as its control polygon does; and a monotone one *)
Definition wave : list (vec3 R) := [V3 0 (-1) 0; V3 1 3 0; V3 2 (-3) 0; V3 3 1 0].
Example C79_nonvacuous : zigzag Rlt (side (bezier3_get_point wave) (V3 0 1 0) 0) (-1) [0; 1 / 4; 3 / 4; 1] /\ zigzag lt (fun i => dot3 (V3 0 1 0) (nth i wave vzero) - 0) (-1) [0; 1; 2; 3]%nat /\
  crossings_bounded (bspline3_get_point c_ex) (bs_cps c_ex) (nth (bs_degree c_ex) (bs_knots c_ex) 0) (last_knot (bs_knots c_ex)).
Proof.
  split; [|split].
  - assert (V : forall t, side (bezier3_get_point wave) (V3 0 1 0) 0 t = - (1 - t) ^ 3 + 9 * t * (1 - t) ^ 2 - 9 * t ^ 2 * (1 - t) + t ^ 3).
    { intros t. rewrite bezier_side by (cbn; lia). unfold bsum, wave, dot3. cbn [length Nat.sub]. rewrite !sumf_S, sumf_0. unfold Bern, C. cbn [Nat.leb nth x3 y3 z3 Nat.sub pow fact Nat.mul Nat.add INR]. rnum. field. }
    cbn [zigzag]. rewrite !V. repeat split; lra.
  - cbn [zigzag nth wave]. unfold dot3. cbn [x3 y3 z3]. rnum. repeat split; try lra; lia.
  - apply C79_bspline_crossings; [exact c_ex_valid|cbn; reflexivity|cbn; lra].
Qed.
