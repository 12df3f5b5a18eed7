(** Lemmas about bernstein and Bezier evaluation. *)
From Coq Require Import Reals Lra.
From Verif Require Import Prelude Num M_vec M_utils M_curve L_base.

(** ** The recurrence computed by the loop, in any arithmetic *)
Section Rec.
Context {F : Type} {NF : Num F}.
Local Open Scope num_scope.
Fixpoint bernF (j k : nat) (u : F) : F :=
  match j with
  | O => if (k =? 0)%nat then f1 else f0
  | S j' =>
      match k with
      | O => f0 + (f1 - u) * bernF j' 0 u
      | S k' => if (k <? j)%nat then u * bernF j' k' u + (f1 - u) * bernF j' k u
                else if (k =? j)%nat then u * bernF j' k' u
                else f0
      end
  end.

Lemma bernF_above j k u : (j < k)%nat -> bernF j k u = f0.
Proof.
  destruct j; intros H; cbn [bernF].
  - destruct k; [lia|reflexivity].
  - destruct k; [lia|].
    rewrite (proj2 (Nat.ltb_ge _ _)) by lia.
    now rewrite (proj2 (Nat.eqb_neq _ _)) by lia.
Qed.

Lemma bernstein_rec n u : (1 <= n)%nat ->
  bernstein n u = Ok (map (fun k => bernF (n - 1) k u) (seq 0 n)).
Proof.
  intros Hn. unfold bernstein. rewrite upd_Ok by (rewrite repeat_length; lia). cbn [obind].
  set (P := fun (j : nat) (values : list F) =>
    length values = n /\ forall k, (k < n)%nat -> nth k values f0 = bernF (j - 1) k u).
  match goal with |- foldM ?f ?s ?r = _ => destruct (foldM_range P f 1 n s) as [values [E HP]] end.
  - assumption.
  - split; [now rewrite set_nth_length, repeat_length|].
    intros k Hk. rewrite nth_set_nth, repeat_length. cbn [Nat.sub bernF].
    rewrite (proj2 (Nat.ltb_lt 0 n)) by lia. rewrite andb_true_r, (Nat.eqb_sym 0 k).
    destruct (k =? 0)%nat; [reflexivity|apply nth_repeat].
  - intros j values Hj [HL HV].
    set (Q := fun (k : nat) (st : list F * F) =>
      length (fst st) = n /\
      (forall i, (i < n)%nat -> nth i (fst st) f0 = if (i <? k)%nat then bernF j i u else bernF (j - 1) i u) /\
      snd st = match k with O => f0 | S k' => u * bernF (j - 1) k' u end).
    match goal with |- context [foldM ?f ?s (Prelude.range 0 j)] => destruct (foldM_range Q f 0 j s) as [[values' saved] [E [HL' [HV' HS']]]] end.
    + lia.
    + split; [assumption|]. split; [|reflexivity]. intros i Hi. cbn. now apply HV.
    + intros k [vals saved] Hk [HL1 [HV1 HS1]]. cbn [fst snd] in *.
      rewrite (idx_nth _ _ f0) by lia. cbn [obind].
      rewrite upd_Ok by lia. cbn [obind].
      eexists. split; [reflexivity|]. split; [cbn [fst]; now rewrite set_nth_length|]. split.
      * intros i Hi. cbn [fst]. rewrite nth_set_nth.
        rewrite (proj2 (Nat.ltb_lt k (length vals))) by lia. rewrite andb_true_r.
        destruct (Nat.eqb_spec k i).
        -- subst i. rewrite (proj2 (Nat.ltb_lt k (k + 1))) by lia.
           rewrite (HV1 k) by lia. rewrite Nat.ltb_irrefl. rewrite HS1.
           destruct j as [|j']; [lia|]. cbn [Nat.sub]. rewrite Nat.sub_0_r.
           cbn [bernF]. destruct k as [|k']; [reflexivity|].
           now rewrite (proj2 (Nat.ltb_lt (S k') (S j'))) by lia.
        -- rewrite HV1 by lia. destruct (Nat.ltb_spec i k); destruct (Nat.ltb_spec i (k + 1)); try reflexivity; lia.
      * cbn [snd]. rewrite HV1 by lia. rewrite Nat.ltb_irrefl. rewrite Nat.add_1_r. reflexivity.
    + cbn [fst snd] in *. rewrite E. cbn [obind].
      rewrite upd_Ok by lia. eexists. split; [reflexivity|]. split; [now rewrite set_nth_length|].
      intros k Hk. rewrite Nat.add_sub. rewrite nth_set_nth.
      rewrite (proj2 (Nat.ltb_lt j (length values'))) by lia. rewrite andb_true_r.
      destruct (Nat.eqb_spec j k).
      * subst k. rewrite HS'. destruct j as [|j']; [lia|]. cbn [Nat.sub bernF]. rewrite Nat.sub_0_r.
        rewrite Nat.ltb_irrefl, Nat.eqb_refl. reflexivity.
      * rewrite HV' by lia. destruct (Nat.ltb_spec k j); [reflexivity|].
        rewrite !bernF_above; [reflexivity|lia|lia].
  - rewrite E. f_equal. destruct HP as [HL HV].
    apply (nth_ext_len _ _ f0); [now rewrite map_length, seq_length|].
    intros i Hi. rewrite HV by lia.
    rewrite (nth_indep _ f0 (bernF (n - 1) 0 u)) by (rewrite map_length, seq_length; lia).
    rewrite (map_nth (fun k => bernF (n - 1) k u)). now rewrite seq_nth by lia.
Qed.

Lemma bernstein_0 u : bernstein 0 u = Panic.
Proof. reflexivity. Qed.
End Rec.

(** ** Specification: the Bernstein polynomials, binomial form *)
Open Scope R_scope.
Definition Bern (d i : nat) (u : R) : R :=
  if (i <=? d)%nat then C d i * u ^ i * (1 - u) ^ (d - i) else 0.

Lemma C_n_0 n : C n 0 = 1.
Proof. unfold C. rewrite Nat.sub_0_r. cbn [fact INR]. field. apply INR_fact_neq_0. Qed.
Lemma C_n_n n : C n n = 1.
Proof. unfold C. rewrite Nat.sub_diag. cbn [fact INR]. field. apply INR_fact_neq_0. Qed.
Lemma C_pos n i : (i <= n)%nat -> 0 < C n i.
Proof.
  intros _. unfold C. apply Rdiv_lt_0_compat; [apply lt_0_INR, lt_O_fact|].
  apply Rmult_lt_0_compat; apply lt_0_INR, lt_O_fact.
Qed.

Lemma Bern_00 u : Bern 0 0 u = 1.
Proof. unfold Bern. cbn. rewrite C_n_0. lra. Qed.
Lemma Bern_above d i u : (d < i)%nat -> Bern d i u = 0.
Proof. intros H. unfold Bern. now rewrite (proj2 (Nat.leb_gt _ _) H). Qed.
Lemma Bern_S0 d u : Bern (S d) 0 u = (1 - u) * Bern d 0 u.
Proof. unfold Bern. cbn [Nat.leb]. rewrite !C_n_0, !Nat.sub_0_r. cbn [pow]. lra. Qed.
Lemma Bern_SS d i u : Bern (S d) (S i) u = u * Bern d i u + (1 - u) * Bern d (S i) u.
Proof.
  unfold Bern. destruct (Nat.leb_spec (S i) (S d)); destruct (Nat.leb_spec i d); destruct (Nat.leb_spec (S i) d); try lia.
  - rewrite <- pascal by lia. cbn [Nat.sub]. replace (d - i)%nat with (S (d - S i)) by lia. cbn [pow]. ring.
  - replace d with i by lia. rewrite !C_n_n, !Nat.sub_diag. cbn [pow]. ring.
  - ring.
Qed.

Lemma bernF_Bern j k u : bernF j k u = Bern j k u.
Proof.
  revert k. induction j as [|j IH]; intros k; cbn [bernF]; rnum.
  - destruct k as [|k]; cbn [Nat.eqb]; [now rewrite Bern_00|]. now rewrite Bern_above by lia.
  - destruct k as [|k].
    + rewrite IH, Bern_S0. lra.
    + rewrite !IH. destruct (Nat.ltb_spec (S k) (S j)); [now rewrite Bern_SS|].
      destruct (Nat.eqb_spec (S k) (S j)).
      * rewrite Bern_SS. rewrite (Bern_above j (S k)) by lia. lra.
      * now rewrite Bern_above by lia.
Qed.

Lemma bernstein_R n u : (1 <= n)%nat -> bernstein n u = Ok (map (fun k => Bern (n - 1) k u) (seq 0 n)).
Proof.
  intros H. rewrite bernstein_rec by assumption. f_equal. apply map_ext. intros k. apply bernF_Bern.
Qed.

(** sum, sign and end values *)
Lemma Bern_sum d u : sumf (fun i => Bern d i u) (S d) = 1.
Proof.
  induction d as [|d IH].
  - rewrite sumf_S, sumf_0, Bern_00. lra.
  - rewrite sumf_S_first, Bern_S0.
    rewrite (sumf_ext _ (fun i => u * Bern d i u + (1 - u) * Bern d (S i) u)) by (intros; apply Bern_SS).
    rewrite sumf_plus, !sumf_scal, IH.
    rewrite sumf_S, (Bern_above d (S d)) by lia.
    rewrite sumf_S_first in IH. nra.
Qed.
Lemma Bern_nonneg d i u : 0 <= u <= 1 -> 0 <= Bern d i u.
Proof.
  intros H. unfold Bern. destruct (Nat.leb_spec i d); [|lra].
  apply Rmult_le_pos; [apply Rmult_le_pos|].
  - left. now apply C_pos.
  - apply pow_le. lra.
  - apply pow_le. lra.
Qed.

(** derivative *)
Lemma Bern_deriv d i u : derivable_pt_lim (Bern (S d) i) u
  (INR (S d) * ((match i with O => 0 | S i' => Bern d i' u end) - Bern d i u)).
Proof.
  revert i. induction d as [|d IH]; intros i.
  - destruct i as [|i].
    + apply (derivable_pt_lim_ext (fun u => 1 - u) (Bern 1 0)).
      * intros x. rewrite Bern_S0, Bern_00. lra.
      * replace (INR 1 * (0 - Bern 0 0 u)) with (0 - 1) by (rewrite Bern_00; cbn; lra).
        apply derivable_pt_lim_minus; [apply derivable_pt_lim_const|apply derivable_pt_lim_id].
    + destruct i as [|i].
      * apply (derivable_pt_lim_ext (fun u => u) (Bern 1 1)).
        -- intros x. rewrite Bern_SS, Bern_00, Bern_above by lia. lra.
        -- replace (INR 1 * (Bern 0 0 u - Bern 0 1 u)) with 1 by (rewrite Bern_00, Bern_above by lia; cbn; lra).
           apply derivable_pt_lim_id.
      * apply (derivable_pt_lim_ext (fun _ => 0) (Bern 1 (S (S i)))).
        -- intros x. now rewrite Bern_above by lia.
        -- replace (INR 1 * (Bern 0 (S i) u - Bern 0 (S (S i)) u)) with 0 by (rewrite !Bern_above by lia; cbn; lra).
           apply derivable_pt_lim_const.
  - destruct i as [|i].
    + apply (derivable_pt_lim_ext (fun u => (1 - u) * Bern (S d) 0 u) (Bern (S (S d)) 0)).
      * intros x. now rewrite (Bern_S0 (S d)).
      * replace (INR (S (S d)) * (0 - Bern (S d) 0 u)) with
          ((0 - 1) * Bern (S d) 0 u + (1 - u) * (INR (S d) * (0 - Bern d 0 u))).
        -- apply (derivable_pt_lim_mult (fun u => 1 - u) (Bern (S d) 0)).
           ++ apply (derivable_pt_lim_minus (fun _ => 1) id); [apply derivable_pt_lim_const|apply derivable_pt_lim_id].
           ++ apply (IH 0%nat).
        -- rewrite (S_INR (S d)). rewrite Bern_S0. ring.
    + apply (derivable_pt_lim_ext (fun u => u * Bern (S d) i u + (1 - u) * Bern (S d) (S i) u) (Bern (S (S d)) (S i))).
      * intros x. now rewrite (Bern_SS (S d)).
      * replace (INR (S (S d)) * (Bern (S d) i u - Bern (S d) (S i) u)) with
          ((1 * Bern (S d) i u + u * (INR (S d) * ((match i with O => 0 | S i' => Bern d i' u end) - Bern d i u)))
           + ((0 - 1) * Bern (S d) (S i) u + (1 - u) * (INR (S d) * (Bern d i u - Bern d (S i) u)))).
        -- apply derivable_pt_lim_plus.
           ++ apply (derivable_pt_lim_mult id (Bern (S d) i)); [apply derivable_pt_lim_id|apply IH].
           ++ apply (derivable_pt_lim_mult (fun u => 1 - u) (Bern (S d) (S i))).
              ** apply (derivable_pt_lim_minus (fun _ => 1) id); [apply derivable_pt_lim_const|apply derivable_pt_lim_id].
              ** apply (IH (S i)).
        -- rewrite (S_INR (S d)). rewrite (Bern_SS d i).
           destruct i as [|i]; [rewrite (Bern_S0 d)|rewrite (Bern_SS d i)]; ring.
Qed.
