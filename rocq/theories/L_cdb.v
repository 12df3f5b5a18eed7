(** The Cox-de Boor functions over a non-decreasing knot sequence, independent of the model. *)
From Coq Require Import Reals Lra Psatz Lia Arith.
From Verif Require Import Prelude Num L_base.
Open Scope R_scope.

(** The quotient of the recurrence, with 0/0 = 0. *)
Definition ratio (a b : R) : R := if Req_EM_T b 0 then 0 else a / b.

(** [cdb t s k i u]: the basis function of degree k number i over the knots t, on the knot
    span number s (as a polynomial in u). *)
Fixpoint cdb (t : nat -> R) (s k i : nat) (u : R) : R :=
  match k with
  | O => if (i =? s)%nat then 1 else 0
  | S k' => ratio (u - t i) (t (i + k)%nat - t i) * cdb t s k' i u
            + ratio (t (i + k + 1)%nat - u) (t (i + k + 1)%nat - t (i + 1)%nat) * cdb t s k' (i + 1) u
  end.

Definition mono (t : nat -> R) : Prop := forall i j, (i <= j)%nat -> t i <= t j.

Lemma ratio_0_l b : ratio 0 b = 0.
Proof. unfold ratio. destruct (Req_EM_T b 0); unfold Rdiv; ring. Qed.
Lemma ratio_nz a b : b <> 0 -> ratio a b = a / b.
Proof. unfold ratio. destruct (Req_EM_T b 0); [contradiction|reflexivity]. Qed.
Lemma ratio_z a b : b = 0 -> ratio a b = 0.
Proof. unfold ratio. destruct (Req_EM_T b 0); [reflexivity|contradiction]. Qed.
Lemma ratio_nonneg a b : 0 <= a -> 0 <= b -> 0 <= ratio a b.
Proof.
  intros Ha Hb. unfold ratio. destruct (Req_EM_T b 0); [lra|].
  apply Rmult_le_pos; [assumption|]. left. apply Rinv_0_lt_compat. lra.
Qed.

Lemma cdb_support t s k i u : (s < i \/ i + k < s)%nat -> cdb t s k i u = 0.
Proof.
  revert i. induction k as [|k IH]; intros i H; cbn [cdb].
  - now rewrite (proj2 (Nat.eqb_neq i s)) by lia.
  - rewrite !IH by lia. lra.
Qed.

Lemma cdb_ext t t' s k i u : (forall j, (i <= j <= i + k + 1)%nat -> t j = t' j) -> cdb t s k i u = cdb t' s k i u.
Proof.
  revert i. induction k as [|k IH]; intros i H; cbn [cdb]; [reflexivity|].
  rewrite !H by lia. rewrite !IH by (intros; apply H; lia). reflexivity.
Qed.

Lemma cdb_shift t s k i u m :
  cdb (fun j => t (j + m)%nat) s k i u = cdb t (s + m) k (i + m) u.
Proof.
  revert i. induction k as [|k IH]; intros i; cbn [cdb].
  - destruct (Nat.eqb_spec i s), (Nat.eqb_spec (i + m) (s + m)); try reflexivity; lia.
  - rewrite !IH.
    replace (i + S k + m)%nat with (i + m + S k)%nat by lia.
    replace (i + S k + 1 + m)%nat with (i + m + S k + 1)%nat by lia.
    replace (i + 1 + m)%nat with (i + m + 1)%nat by lia. reflexivity.
Qed.

Section Mono.
Variables (t : nat -> R) (s : nat).
Hypothesis Ht : mono t.
Hypothesis Hs : t s < t (s + 1)%nat.

Lemma cdb_zero_width k i u : t (i + k + 1)%nat = t i -> cdb t s k i u = 0.
Proof.
  intros E. apply cdb_support.
  destruct (le_lt_dec i s) as [H1|H1]; [|now left]. right.
  destruct (le_lt_dec s (i + k)) as [H2|H2]; [exfalso|assumption].
  pose proof (Ht i s H1). pose proof (Ht (s + 1)%nat (i + k + 1)%nat ltac:(lia)). lra.
Qed.

Lemma cdb_nonneg k i u : t s <= u <= t (s + 1)%nat -> 0 <= cdb t s k i u.
Proof.
  intros Hu. revert i. induction k as [|k IH]; intros i; cbn [cdb].
  - destruct (i =? s)%nat; lra.
  - apply Rplus_le_le_0_compat.
    + destruct (le_lt_dec i s) as [H1|H1].
      * apply Rmult_le_pos; [|apply IH]. apply ratio_nonneg.
        -- pose proof (Ht i s H1). lra.
        -- pose proof (Ht i (i + S k)%nat ltac:(lia)). lra.
      * rewrite (cdb_support t s k i u) by lia. lra.
    + destruct (le_lt_dec s (i + S k)) as [H1|H1].
      * apply Rmult_le_pos; [|apply IH]. apply ratio_nonneg.
        -- pose proof (Ht (s + 1)%nat (i + S k + 1)%nat ltac:(lia)). lra.
        -- pose proof (Ht (i + 1)%nat (i + S k + 1)%nat ltac:(lia)). lra.
      * rewrite (cdb_support t s k (i + 1) u) by lia. lra.
Qed.

(** the two coefficients of the recurrence add up to one on the support *)
Lemma cdb_coeffs k i u :
  ratio (u - t i) (t (i + S k)%nat - t i) * cdb t s k i u
  + ratio (t (i + S k)%nat - u) (t (i + S k)%nat - t i) * cdb t s k i u = cdb t s k i u.
Proof.
  destruct (Req_EM_T (t (i + S k)%nat - t i) 0) as [E|E].
  - rewrite (cdb_zero_width k i u); [lra|]. replace (i + k + 1)%nat with (i + S k)%nat by lia. lra.
  - rewrite !ratio_nz by assumption. field. assumption.
Qed.

Lemma cdb_sum_gen k M u : (s < M)%nat ->
  sumf (fun i => cdb t s (S k) i u) M =
  sumf (fun i => cdb t s k i u) M - ratio (t (0 + S k)%nat - u) (t (0 + S k)%nat - t 0%nat) * cdb t s k 0 u.
Proof.
  intros HM. cbn [cdb].
  rewrite sumf_plus.
  assert (E : sumf (fun i => ratio (t (i + S k + 1)%nat - u) (t (i + S k + 1)%nat - t (i + 1)%nat) * cdb t s k (i + 1) u) M
    = sumf (fun i => ratio (t (i + S k)%nat - u) (t (i + S k)%nat - t i) * cdb t s k i u) M
      - ratio (t (0 + S k)%nat - u) (t (0 + S k)%nat - t 0%nat) * cdb t s k 0 u).
  { pose proof (sumf_S_first (fun i => ratio (t (i + S k)%nat - u) (t (i + S k)%nat - t i) * cdb t s k i u) M) as E1.
    rewrite sumf_S in E1. rewrite (cdb_support t s k M u) in E1 by lia.
    rewrite (sumf_ext _ (fun i => ratio (t (S i + S k)%nat - u) (t (S i + S k)%nat - t (S i)) * cdb t s k (S i) u)).
    2:{ intros i _. replace (i + S k + 1)%nat with (S i + S k)%nat by lia. replace (i + 1)%nat with (S i) by lia. reflexivity. }
    lra. }
  rewrite E. rewrite <- (sumf_ext _ _ M (fun i _ => cdb_coeffs k i u)).
  rewrite sumf_plus. lra.
Qed.

Lemma cdb_sum k M u : (k <= s)%nat -> (s < M)%nat -> sumf (fun i => cdb t s k i u) M = 1.
Proof.
  induction k as [|k IH]; intros Hk HM.
  - rewrite (sumf_single _ _ s HM); cbn [cdb]; [now rewrite Nat.eqb_refl|].
    intros i _ NE. now rewrite (proj2 (Nat.eqb_neq i s)).
  - rewrite cdb_sum_gen by assumption. rewrite IH by lia. rewrite (cdb_support t s k 0 u) by lia. lra.
Qed.

(** first-level values at any parameter: for clamped starts the sum is one on every span *)
Lemma cdb_sum_clamped k M u : (forall i, (i <= k)%nat -> t i = t 0%nat) -> (s < M)%nat -> sumf (fun i => cdb t s k i u) M = 1.
Proof.
  intros Hc HM. apply cdb_sum; [|assumption].
  destruct (le_lt_dec k s) as [H|H]; [assumption|exfalso].
  rewrite (Hc s), (Hc (s + 1)%nat) in Hs by lia. lra.
Qed.

(** ** derivative *)
Lemma cdb_deriv k i u :
  derivable_pt_lim (cdb t s (S k) i) u
    (INR (S k) * (ratio 1 (t (i + S k)%nat - t i) * cdb t s k i u
                  - ratio 1 (t (i + S k + 1)%nat - t (i + 1)%nat) * cdb t s k (i + 1) u)).
Proof.
  assert (Hlin : forall a d, derivable_pt_lim (fun u => ratio (u - a) d) u (ratio 1 d)).
  { intros a d. unfold ratio. destruct (Req_EM_T d 0); [apply derivable_pt_lim_const|].
    unfold Rdiv. replace (1 * / d) with ((1 - 0) * / d + (u - a) * 0) by ring.
    apply (derivable_pt_lim_mult (fun u => u - a) (fun _ => / d)); [|apply derivable_pt_lim_const].
    apply (derivable_pt_lim_minus (fun u => u) (fun _ => a)); [apply derivable_pt_lim_id|apply derivable_pt_lim_const]. }
  assert (Hlin' : forall a d, derivable_pt_lim (fun u => ratio (a - u) d) u (- ratio 1 d)).
  { intros a d. unfold ratio. destruct (Req_EM_T d 0); [rewrite Ropp_0; apply derivable_pt_lim_const|].
    unfold Rdiv. replace (- (1 * / d)) with ((0 - 1) * / d + (a - u) * 0) by ring.
    apply (derivable_pt_lim_mult (fun u => a - u) (fun _ => / d)); [|apply derivable_pt_lim_const].
    apply (derivable_pt_lim_minus (fun _ => a) (fun u => u)); [apply derivable_pt_lim_const|apply derivable_pt_lim_id]. }
  revert i. induction k as [|k IH]; intros i.
  - cbn [cdb].
    replace (INR 1 * _) with
      ((ratio 1 (t (i + 1)%nat - t i) * cdb t s 0 i u + ratio (u - t i) (t (i + 1)%nat - t i) * 0)
       + ((- ratio 1 (t (i + 1 + 1)%nat - t (i + 1)%nat)) * cdb t s 0 (i + 1) u + ratio (t (i + 1 + 1)%nat - u) (t (i + 1 + 1)%nat - t (i + 1)%nat) * 0))
      by (cbn [cdb INR]; ring).
    apply (derivable_pt_lim_plus (fun u => ratio (u - t i) (t (i + 1)%nat - t i) * cdb t s 0 i u)
             (fun u => ratio (t (i + 1 + 1)%nat - u) (t (i + 1 + 1)%nat - t (i + 1)%nat) * cdb t s 0 (i + 1) u)).
    + apply (derivable_pt_lim_mult (fun u => ratio (u - t i) (t (i + 1)%nat - t i)) (cdb t s 0 i)); [apply Hlin|cbn [cdb]; apply derivable_pt_lim_const].
    + apply (derivable_pt_lim_mult (fun u => ratio (t (i + 1 + 1)%nat - u) (t (i + 1 + 1)%nat - t (i + 1)%nat)) (cdb t s 0 (i + 1))); [apply Hlin'|cbn [cdb]; apply derivable_pt_lim_const].
  - change (derivable_pt_lim (fun u => ratio (u - t i) (t (i + S (S k))%nat - t i) * cdb t s (S k) i u
       + ratio (t (i + S (S k) + 1)%nat - u) (t (i + S (S k) + 1)%nat - t (i + 1)%nat) * cdb t s (S k) (i + 1) u) u
       (INR (S (S k)) * (ratio 1 (t (i + S (S k))%nat - t i) * cdb t s (S k) i u
        - ratio 1 (t (i + S (S k) + 1)%nat - t (i + 1)%nat) * cdb t s (S k) (i + 1) u))).
    set (D0 := INR (S k) * (ratio 1 (t (i + S k)%nat - t i) * cdb t s k i u
                  - ratio 1 (t (i + S k + 1)%nat - t (i + 1)%nat) * cdb t s k (i + 1) u)).
    set (D1 := INR (S k) * (ratio 1 (t (i + 1 + S k)%nat - t (i + 1)%nat) * cdb t s k (i + 1) u
                  - ratio 1 (t (i + 1 + S k + 1)%nat - t (i + 1 + 1)%nat) * cdb t s k (i + 1 + 1) u)).
    replace (INR (S (S k)) * _) with
      ((ratio 1 (t (i + S (S k))%nat - t i) * cdb t s (S k) i u + ratio (u - t i) (t (i + S (S k))%nat - t i) * D0)
       + ((- ratio 1 (t (i + S (S k) + 1)%nat - t (i + 1)%nat)) * cdb t s (S k) (i + 1) u
          + ratio (t (i + S (S k) + 1)%nat - u) (t (i + S (S k) + 1)%nat - t (i + 1)%nat) * D1)).
    + apply (derivable_pt_lim_plus (fun u => ratio (u - t i) (t (i + S (S k))%nat - t i) * cdb t s (S k) i u)
        (fun u => ratio (t (i + S (S k) + 1)%nat - u) (t (i + S (S k) + 1)%nat - t (i + 1)%nat) * cdb t s (S k) (i + 1) u)).
      * apply (derivable_pt_lim_mult (fun u => ratio (u - t i) (t (i + S (S k))%nat - t i)) (cdb t s (S k) i)); [apply Hlin|apply IH].
      * apply (derivable_pt_lim_mult (fun u => ratio (t (i + S (S k) + 1)%nat - u) (t (i + S (S k) + 1)%nat - t (i + 1)%nat)) (cdb t s (S k) (i + 1))); [apply Hlin'|apply IH].
    + (* the algebraic identity *)
      rewrite (S_INR (S k)).
      enough (K : ratio (u - t i) (t (i + S (S k))%nat - t i) * D0
         + ratio (t (i + S (S k) + 1)%nat - u) (t (i + S (S k) + 1)%nat - t (i + 1)%nat) * D1
         = INR (S k) * (ratio 1 (t (i + S (S k))%nat - t i) * cdb t s (S k) i u
           - ratio 1 (t (i + S (S k) + 1)%nat - t (i + 1)%nat) * cdb t s (S k) (i + 1) u)) by lra.
      unfold D0, D1. clear D0 D1. cbn [cdb].
      replace (i + 1 + S k)%nat with (i + S (S k))%nat by lia.
      replace (i + S k + 1)%nat with (i + S (S k))%nat by lia.
      replace (i + 1 + 1)%nat with (i + 2)%nat by lia.
      replace (i + S (S k) + 1)%nat with (i + S (S (S k)))%nat by lia.
      set (N0 := cdb t s k i u). set (N2 := cdb t s k (i + 2) u).
      assert (Hm : forall a b, (a <= b)%nat -> t a <= t b) by exact Ht.
      assert (HA : t i <= t (i + 1)%nat) by (apply Hm; lia).
      assert (HB : t (i + 1)%nat <= t (i + 2)%nat) by (apply Hm; lia).
      assert (HC : t (i + 1)%nat <= t (i + S (S k))%nat) by (apply Hm; lia).
      assert (HC' : t (i + S k)%nat <= t (i + S (S k))%nat) by (apply Hm; lia).
      assert (HC'' : t i <= t (i + S k)%nat) by (apply Hm; lia).
      assert (HD : t (i + S (S k))%nat <= t (i + S (S (S k)))%nat) by (apply Hm; lia).
      assert (HE : t (i + 2)%nat <= t (i + S (S (S k)))%nat) by (apply Hm; lia).
      assert (Z0 : t (i + S k)%nat - t i = 0 -> N0 = 0).
      { intros E. apply cdb_zero_width. replace (i + k + 1)%nat with (i + S k)%nat by lia. lra. }
      assert (Z1 : t (i + S (S k))%nat - t (i + 1)%nat = 0 -> cdb t s k (i + 1) u = 0).
      { intros E. apply cdb_zero_width. replace (i + 1 + k + 1)%nat with (i + S (S k))%nat by lia. lra. }
      assert (Z2 : t (i + S (S (S k)))%nat - t (i + 2)%nat = 0 -> N2 = 0).
      { intros E. apply cdb_zero_width. replace (i + 2 + k + 1)%nat with (i + S (S (S k)))%nat by lia. lra. }
      set (N1 := cdb t s k (i + 1) u) in *.
      set (a0 := t i) in *. set (a1 := t (i + 1)%nat) in *. set (a2 := t (i + 2)%nat) in *.
      set (b0 := t (i + S k)%nat) in *. set (b1 := t (i + S (S k))%nat) in *. set (b2 := t (i + S (S (S k)))%nat) in *.
      clearbody N0 N1 N2 a0 a1 a2 b0 b1 b2. clear IH Hlin Hlin' Hm. generalize (INR (S k)); intros c.
      destruct (Req_EM_T (b1 - a1) 0) as [E1|E1].
      * rewrite (Z1 E1).
        destruct (Req_EM_T (b0 - a0) 0) as [E0|E0]; [rewrite (Z0 E0)|];
        (destruct (Req_EM_T (b2 - a2) 0) as [E2|E2]; [rewrite (Z2 E2)|]);
        (destruct (Req_EM_T (b1 - a0) 0) as [E3|E3]; [rewrite !(ratio_z _ (b1 - a0)) by assumption|rewrite !(ratio_nz _ (b1 - a0)) by assumption]);
        (destruct (Req_EM_T (b2 - a1) 0) as [E4|E4]; [rewrite !(ratio_z _ (b2 - a1)) by assumption|rewrite !(ratio_nz _ (b2 - a1)) by assumption]);
        rewrite ?(ratio_nz _ (b0 - a0)) by assumption; rewrite ?(ratio_nz _ (b2 - a2)) by assumption;
        try lra; try (field; repeat split; assumption); try (exfalso; lra).
      * assert (E3 : b1 - a0 <> 0) by lra. assert (E4 : b2 - a1 <> 0) by lra.
        rewrite !(ratio_nz _ (b1 - a0)), !(ratio_nz _ (b2 - a1)), !(ratio_nz _ (b1 - a1)) by assumption.
        destruct (Req_EM_T (b0 - a0) 0) as [E0|E0]; [rewrite (Z0 E0)|];
        (destruct (Req_EM_T (b2 - a2) 0) as [E2|E2]; [rewrite (Z2 E2)|]);
        rewrite ?(ratio_nz _ (b0 - a0)) by assumption; rewrite ?(ratio_nz _ (b2 - a2)) by assumption;
        field; repeat split; assumption.
Qed.
End Mono.
