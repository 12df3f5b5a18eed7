(** B-spline basis functions in double arithmetic: the recurrence the loops compute, and its rounding error. *)
From Coq Require Import ZArith Reals Lra Lia List Bool Floats.SpecFloat Psatz.
From Verif Require Import Prelude Num M_vec M_utils M_curve L_base L_vec L_cdb L_knot L_float L_grid L_err.

(** ** The recurrence computed by the loops, in any arithmetic, on a span with enough knots on both sides *)
Section Rec.
Context {F : Type} {NF : Num F}.
Local Open Scope num_scope.
Variables (ks : list F) (u : F) (s : nat).
Local Notation T i := (nth i ks f0).
Definition bsB (k i : nat) : F := inv_or_zero (T (i + k + 1) - T (i + 1)) * (T (i + k + 1) - u).
Definition bsA (k i : nat) : F := if (i =? s - k)%nat then inv_or_zero (T (s - k + k) - T (s - k)) * (u - T (s - k)) else f1 - bsB k (i - 1).
Fixpoint bsN (k i : nat) : F :=
  match k with
  | O => if (i =? s)%nat then f1 else f0
  | S k' => if ((s - k <=? i) && (i <=? s))%nat then bsA k i * bsN k' i + bsB k i * bsN k' (i + 1) else f0
  end.
Lemma bsN_outside k i : (i + k < s \/ s < i)%nat -> bsN k i = f0.
Proof.
  intros H. destruct k; cbn [bsN].
  - now rewrite (proj2 (Nat.eqb_neq i s)) by lia.
  - destruct (Nat.leb_spec (s - S k) i); [|reflexivity]. destruct (Nat.leb_spec i s); [|reflexivity]. lia.
Qed.
Lemma basis_recF p : span_index ks u = Ok s -> (p <= s)%nat -> (s + p < length ks - 1)%nat ->
  bspline_basis ks p u = Ok (map (bsN p) (seq 0 (length ks - 1 - p))).
Proof.
  intros Hspan Hp1 Hp2. unfold bspline_basis. rewrite usub_Ok by lia. cbn [obind]. rewrite Hspan. cbn [obind].
  remember (length ks - 1)%nat as n eqn:En. rewrite upd_Ok by (rewrite repeat_length; lia). cbn [obind].
  match goal with |- context [foldM ?f ?st (range_incl 1 p)] =>
    assert (HF : exists values, foldM f st (range_incl 1 p) = Ok values /\ length values = n /\ forall i, (i < n)%nat -> nth i values f0 = bsN (p + 1 - 1) i) end.
  { rewrite range_incl_range. replace (S p) with (p + 1)%nat by lia.
    apply (foldM_range (fun k values => length values = n /\ forall i, (i < n)%nat -> nth i values f0 = bsN (k - 1) i)).
    - lia.
    - split; [now rewrite set_nth_length, repeat_length|]. intros i Hi. cbn [Nat.sub bsN]. rewrite nth_set_nth, repeat_length.
      rewrite (proj2 (Nat.ltb_lt s n)) by lia. rewrite andb_true_r, (Nat.eqb_sym s i). destruct (i =? s)%nat; [reflexivity|apply nth_repeat].
    - intros k values Hk [HL HV]. cbn zeta. rewrite (proj2 (Nat.ltb_ge s k)) by lia. rewrite (proj2 (Nat.ltb_lt (s + k) n)) by lia.
      rewrite !(idx_nth ks _ f0) by lia. cbn [obind].
      match goal with |- context [foldM ?f ?st (range_incl (s - k) s)] =>
        assert (HG : exists st', foldM f st (range_incl (s - k) s) = Ok st' /\ length (fst st') = n /\
          (forall m, (m < n)%nat -> nth m (fst st') f0 = if (m <? s + 1)%nat then bsN k m else bsN (k - 1) m) /\ snd st' = bsA k (s + 1)) end.
      { rewrite range_incl_range. replace (S s) with (s + 1)%nat by lia.
        apply (foldM_range (fun i st => length (fst st) = n /\ (forall m, (m < n)%nat -> nth m (fst st) f0 = if (m <? i)%nat then bsN k m else bsN (k - 1) m) /\ snd st = bsA k i)).
        - lia.
        - cbn [fst snd]. split; [exact HL|]. split; [|unfold bsA; now rewrite Nat.eqb_refl].
          intros m Hm. rewrite HV by exact Hm. destruct (Nat.ltb_spec m (s - k)); [|reflexivity]. now rewrite !bsN_outside by lia.
        - intros i [vals a] Hi (HL1 & HV1 & HA). cbn [fst snd] in *. subst a.
          rewrite !(idx_nth ks _ f0) by lia. cbn [obind]. rewrite !(idx_nth vals _ f0) by lia. cbn [obind]. rewrite upd_Ok by lia. cbn [obind].
          eexists. split; [reflexivity|]. cbn [fst snd]. split; [now rewrite set_nth_length|]. split.
          + intros m Hm. rewrite nth_set_nth, HL1, (proj2 (Nat.ltb_lt i n)) by lia. rewrite andb_true_r. destruct (Nat.eqb_spec i m) as [<-|NE].
            * rewrite (proj2 (Nat.ltb_lt i (i + 1))) by lia. rewrite !HV1 by lia. rewrite Nat.ltb_irrefl. rewrite (proj2 (Nat.ltb_ge (i + 1) i)) by lia.
              destruct k as [|k']; [lia|]. cbn [bsN Nat.sub]. rewrite Nat.sub_0_r, (proj2 (Nat.leb_le (s - S k') i)), (proj2 (Nat.leb_le i s)) by lia. reflexivity.
            * rewrite HV1 by exact Hm. destruct (Nat.ltb_spec m i), (Nat.ltb_spec m (i + 1)); try reflexivity; lia.
          + unfold bsA at 1. rewrite (proj2 (Nat.eqb_neq (i + 1) (s - k))) by lia. rewrite Nat.add_sub. reflexivity. }
      destruct HG as (st' & HG & HL1 & HV1 & _). rewrite HG. cbn [obind]. eexists. split; [reflexivity|]. split; [exact HL1|].
      intros i Hi. rewrite HV1, Nat.add_sub by exact Hi. destruct (Nat.ltb_spec i (s + 1)); [reflexivity|]. now rewrite !bsN_outside by lia. }
  destruct HF as (values & HF & HL & HV). rewrite HF. cbn [obind]. rewrite usub_Ok by lia. cbn [obind]. f_equal.
  apply (nth_ext_len _ _ f0).
  - rewrite firstn_length, map_length, seq_length. lia.
  - intros i Hi. rewrite firstn_length in Hi. rewrite nth_firstn by lia. rewrite HV, Nat.add_sub by lia.
    rewrite (nth_map_default _ _ _ 0%nat) by (rewrite seq_length; lia). now rewrite seq_nth by lia.
Qed.
End Rec.

(** ** Comparisons of knots in double arithmetic *)
Open Scope R_scope.
Lemma abs_between x y e : Rabs (x - y) <= e -> y - e <= x <= y + e.
Proof. intros H. pose proof (Rle_abs (x - y)). pose proof (Rle_abs (- (x - y))) as K. rewrite Rabs_Ropp in K. lra. Qed.
Lemma feps_num : num64 feps. Proof. split; vm_compute; reflexivity. Qed.
Lemma feps_val : val (feps : f64) = / 4503599627370496.
Proof.
  assert (E : (feps : f64) = S754_finite false 4503599627370496 (-104)) by (vm_compute; reflexivity). rewrite E. cbn [B2R].
  change (-104)%Z with (-52 + -52)%Z. rewrite pow2_add. assert (K : pow2 52 * pow2 (-52) = 1) by (rewrite <- pow2_add; apply pow2_0). rewrite <- (pow2_Z 52) in K by lia. change (IZR (2 ^ 52)) with 4503599627370496 in K.
  cbn [signed]. change (IZR (Z.pos 4503599627370496)) with 4503599627370496. rewrite <- Rmult_assoc, K. lra.
Qed.
(** the magnitude bits of a finite number *)
Lemma mag_bits s m e : num64 (S754_finite s m e) -> f64_mag_bits (S754_finite s m e) = ((e + 1074) * 2 ^ 52 + Zpos m)%Z.
Proof.
  intros N. apply (number_mantissa p64 e64) in N. destruct N as (A & B & D & _). cbn [f64_mag_bits].
  destruct (Z.leb_spec (2 ^ 52) (Zpos m)) as [H|H]; [lia|]. change (SpecFloat.emin p64 e64) with (-1074)%Z in *. change (2 ^ (p64 - 1))%Z with (2 ^ 52)%Z in D.
  assert (e = -1074)%Z by lia. subst e. lia.
Qed.
Lemma ulps_gap sa ma ea sb mb eb : num64 (S754_finite sa ma ea) -> num64 (S754_finite sb mb eb) ->
  (f64_mag_bits (S754_finite sa ma ea) <= f64_mag_bits (S754_finite sb mb eb) <= f64_mag_bits (S754_finite sa ma ea) + 4)%Z ->
  0 <= IZR (Zpos mb) * pow2 eb - IZR (Zpos ma) * pow2 ea <= 4 * pow2 eb.
Proof.
  intros Na Nb H. rewrite !mag_bits in H by assumption.
  apply (number_mantissa p64 e64) in Na, Nb. destruct Na as (A1 & A2 & A3 & _). destruct Nb as (B1 & B2 & B3 & _).
  change (SpecFloat.emin p64 e64) with (-1074)%Z in *. change (2 ^ (p64 - 1))%Z with (2 ^ 52)%Z in *. change (2 ^ p64)%Z with (2 ^ 53)%Z in *.
  assert (Cs : (eb = ea \/ eb = ea + 1)%Z).
  { destruct (Z.lt_trichotomy eb ea) as [L|[L|L]]; [exfalso|now left|].
    - specialize (A3 ltac:(lia)). lia.
    - specialize (B3 ltac:(lia)). assert (eb < ea + 2)%Z by lia. lia. }
  pose proof (pow2_pos ea) as P. destruct Cs as [->| ->].
  - assert (0 <= Zpos mb - Zpos ma <= 4)%Z by lia. assert (L : 0 <= IZR (Zpos mb) - IZR (Zpos ma) <= 4) by (rewrite <- minus_IZR; split; [apply (IZR_le 0)|apply IZR_le]; lia).
    rewrite <- Rmult_minus_distr_r. split; [apply Rmult_le_pos; lra|apply Rmult_le_compat_r; lra].
  - specialize (B3 ltac:(lia)). rewrite pow2_add, pow2_1. assert (L : 0 <= 2 * IZR (Zpos mb) - IZR (Zpos ma) <= 8).
    { rewrite <- mult_IZR, <- minus_IZR. split; [apply (IZR_le 0)|apply IZR_le]; lia. }
    replace (IZR (Zpos mb) * (pow2 ea * 2) - IZR (Zpos ma) * pow2 ea) with ((2 * IZR (Zpos mb) - IZR (Zpos ma)) * pow2 ea) by ring. split; [apply Rmult_le_pos; lra|]. nra.
Qed.
Lemma ulp_small s m e : num64 (S754_finite s m e) -> 4 * pow2 e <= / 1125899906842624 * Rmax 1 (IZR (Zpos m) * pow2 e).
Proof.
  intros N. apply (number_mantissa p64 e64) in N. destruct N as (A & B & D & _). change (SpecFloat.emin p64 e64) with (-1074)%Z in *. change (2 ^ (p64 - 1))%Z with (2 ^ 52)%Z in *.
  pose proof (pow2_pos e) as P. destruct (Z.eq_dec e (-1074)) as [->|NE].
  - eapply Rle_trans; [|apply Rmult_le_compat_l; [lra|apply Rmax_l]]. assert (pow2 (-1074) <= pow2 (-53)) by (apply pow2_le; lia). rewrite eps_pow2 in H. unfold eps in H. lra.
  - specialize (D ltac:(lia)). eapply Rle_trans; [|apply Rmult_le_compat_l; [lra|apply Rmax_r]]. apply IZR_le in D. change (IZR (2 ^ 52)) with 4503599627370496 in D. nra.
Qed.
Lemma ulps4_close (a b : f64) : num64 a -> num64 b -> fulps4 a b = true -> Rabs (val a - val b) <= / 1125899906842624 * Rmax 1 (Rmax (Rabs (val a)) (Rabs (val b))).
Proof.
  intros Na Nb H. cbn [fulps4 F64Num] in H. unfold f64_ulps4 in H. apply andb_true_iff in H. destruct H as [H L]. apply andb_true_iff in H. destruct H as [_ S]. apply Z.leb_le in L. apply Bool.eqb_prop in S.
  assert (M0 : forall x : f64, Rmax 1 (Rabs (val x)) <= Rmax 1 (Rmax (Rabs (val a)) (Rabs (val b))) <-> Rmax 1 (Rabs (val x)) <= Rmax 1 (Rmax (Rabs (val a)) (Rabs (val b)))) by tauto.
  assert (M1 : 1 <= Rmax 1 (Rmax (Rabs (val a)) (Rabs (val b)))) by apply Rmax_l.
  assert (Ma : Rabs (val a) <= Rmax 1 (Rmax (Rabs (val a)) (Rabs (val b)))) by (eapply Rle_trans; [apply Rmax_l|apply Rmax_r]).
  assert (Mb : Rabs (val b) <= Rmax 1 (Rmax (Rabs (val a)) (Rabs (val b)))) by (eapply Rle_trans; [apply Rmax_r|apply Rmax_r]).
  clear M0. set (MM := Rmax 1 (Rmax (Rabs (val a)) (Rabs (val b)))) in *.
  assert (Fin : forall s m e, Rabs (val (S754_finite s m e)) = IZR (Zpos m) * pow2 e).
  { intros s m e. rewrite B2R_signed. pose proof (finite_pos m e). destruct s; cbn [signed]; [rewrite Rabs_Ropp|]; apply Rabs_right; lra. }
  assert (Big : forall s m e, num64 (S754_finite s m e) -> (f64_mag_bits (S754_finite s m e) <= 4)%Z -> IZR (Zpos m) * pow2 e <= / 1125899906842624).
  { intros s m e N Hm. rewrite mag_bits in Hm by exact N. pose proof N as N'. apply (number_mantissa p64 e64) in N'. destruct N' as (A & B & _). change (SpecFloat.emin p64 e64) with (-1074)%Z in *.
    assert (e = -1074)%Z by lia. subst e. assert (Zpos m <= 4)%Z by lia. apply IZR_le in H. assert (K : pow2 (-1074) <= pow2 (-53)) by (apply pow2_le; lia). rewrite eps_pow2 in K. unfold eps in K. pose proof (pow2_pos (-1074)). nra. }
  destruct a as [sa|sa| |sa ma ea]; try (destruct Na; discriminate); destruct b as [sb|sb| |sb mb eb]; try (destruct Nb; discriminate).
  - cbn [B2R]. rewrite Rminus_0_r, Rabs_R0. lra.
  - change (f64_mag_bits (S754_zero sa)) with 0%Z in L. replace (val (S754_zero sa)) with 0 by reflexivity. rewrite Rabs_minus_sym, Rminus_0_r, Fin. pose proof (Big sb mb eb Nb ltac:(cbn [f64_mag_bits] in *; lia)). lra.
  - change (f64_mag_bits (S754_zero sb)) with 0%Z in L. replace (val (S754_zero sb)) with 0 by reflexivity. rewrite Rminus_0_r, Fin. pose proof (Big sa ma ea Na ltac:(cbn [f64_mag_bits] in *; lia)). lra.
  - cbn [f64_sign] in S. subst sb. rewrite Fin in Ma, Mb.
    assert (E : Rabs (val (S754_finite sa ma ea) - val (S754_finite sa mb eb)) = Rabs (IZR (Zpos ma) * pow2 ea - IZR (Zpos mb) * pow2 eb)).
    { rewrite !B2R_signed. destruct sa; cbn [signed]; [|reflexivity]. rewrite <- Rabs_Ropp. f_equal. ring. }
    rewrite E. pose proof (ulp_small _ _ _ Na) as Ua. pose proof (ulp_small _ _ _ Nb) as Ub.
    destruct (Z.le_ge_cases (f64_mag_bits (S754_finite sa ma ea)) (f64_mag_bits (S754_finite sa mb eb))) as [C|C].
    + pose proof (ulps_gap _ _ _ _ _ _ Na Nb ltac:(lia)) as G. rewrite Rabs_minus_sym, Rabs_right by lra.
      assert (Rmax 1 (IZR (Zpos mb) * pow2 eb) <= MM) by (apply Rmax_lub; assumption). lra.
    + pose proof (ulps_gap _ _ _ _ _ _ Nb Na ltac:(lia)) as G. rewrite Rabs_right by lra.
      assert (Rmax 1 (IZR (Zpos ma) * pow2 ea) <= MM) by (apply Rmax_lub; assumption). lra.
Qed.
Definition moderate_knot (x : f64) : Prop := num64 x /\ Rabs (val x) <= pow2 500.
Lemma pow2_500 : 1 < pow2 500 /\ pow2 500 * 8 < pow2 1000 /\ pow2 500 * 9007199254740992 < pow2 1000.
Proof.
  split; [rewrite <- pow2_0; apply pow2_lt; lia|]. split.
  - replace 8 with (pow2 3) by (rewrite <- pow2_Z by lia; reflexivity). rewrite <- pow2_add. apply pow2_lt. lia.
  - replace 9007199254740992 with (pow2 53) by (rewrite <- pow2_Z by lia; reflexivity). rewrite <- pow2_add. apply pow2_lt. lia.
Qed.
Lemma pow2_1000_1023 : pow2 1000 < pow2 1023. Proof. apply pow2_lt. lia. Qed.
Lemma diff64 (a b : f64) : moderate_knot a -> moderate_knot b -> num64 (fsub a b) /\ near64 (val (fsub a b)) (val a - val b).
Proof.
  intros [Na Ba] [Nb Bb]. apply sub64; auto. pose proof pow2_500. pose proof pow2_1000_1023. pose proof (Rabs_triang (val a) (- val b)) as K. rewrite Rabs_Ropp in K. unfold Rminus. lra.
Qed.
Lemma diff64_zero (a b : f64) : num64 a -> num64 b -> val a = val b -> num64 (fsub a b) /\ val (fsub a b) = 0.
Proof.
  intros Na Nb E. assert (R0 : rounded p64 e64 (fsub a b) (val a - val b)) by (apply SFsub_rounded; auto; reflexivity). rewrite E, Rminus_eq_0 in R0.
  destruct (rounded_exact p64 e64 (fsub a b) 0 0 0 R0) as [N V]; [reflexivity|cbn; lia|ring|]. split; [exact N|exact V].
Qed.
Definition apart (a b : R) : Prop := Rabs (a - b) > / 1125899906842624 * Rmax 1 (Rmax (Rabs a) (Rabs b)).
Lemma fabs_num (x : f64) : num64 x -> num64 (fabs x). Proof. apply number_abs. Qed.
Lemma fabs_val (x : f64) : val (fabs x) = Rabs (val x). Proof. apply B2R_abs. Qed.
Lemma ulps_eq_64 (a b : f64) : moderate_knot a -> moderate_knot b -> (val a <> val b -> apart (val a) (val b)) -> ulps_eq a b = Reqb (val a) (val b).
Proof.
  intros Ka Kb Hs. unfold ulps_eq. destruct (Req_dec (val a) (val b)) as [E|NE].
  - rewrite E, Reqb_refl. apply orb_true_iff. left. unfold abs_diff_eq. destruct (diff64_zero a b (proj1 Ka) (proj1 Kb) E) as [N V].
    rewrite leb_val; [|now apply fabs_num|exact feps_num]. rewrite fabs_val, V, Rabs_R0, feps_val. apply Rleb_true. lra.
  - specialize (Hs NE). unfold apart in Hs. assert (Eq : Reqb (val a) (val b) = false) by (destruct (Reqb (val a) (val b)) eqn:E; [apply Reqb_true in E; contradiction|reflexivity]). rewrite Eq.
    pose proof eta_pos as H0. pose proof eta_small as H1. assert (M1 : 1 <= Rmax 1 (Rmax (Rabs (val a)) (Rabs (val b)))) by apply Rmax_l.
    apply orb_false_iff. split.
    + unfold abs_diff_eq. destruct (diff64 a b Ka Kb) as [N [V _]]. rewrite leb_val; [|now apply fabs_num|exact feps_num]. rewrite fabs_val, feps_val. apply Rleb_false.
      pose proof (Rabs_triang_inv (val a - val b) (val a - val b - val (fsub a b))) as K. replace (val a - val b - (val a - val b - val (fsub a b))) with (val (fsub a b)) in K by ring.
      rewrite (Rabs_minus_sym (val a - val b) (val (fsub a b))) in K. unfold eps in *. lra.
    + destruct (fulps4 a b) eqn:E; [exfalso|reflexivity]. pose proof (ulps4_close a b (proj1 Ka) (proj1 Kb) E). lra.
Qed.
Lemma rposition_map {A B} (f : A -> B) (p : B -> bool) (q : A -> bool) (l : list A) : (forall x, In x l -> p (f x) = q x) -> rposition p (map f l) = rposition q l.
Proof.
  induction l as [|a l IH]; intros H; [reflexivity|]. cbn [map rposition]. rewrite IH by (intros; apply H; now right). rewrite (H a) by now left. reflexivity.
Qed.
Lemma filter_map_length {A B} (f : A -> B) (p : B -> bool) (q : A -> bool) (l : list A) : (forall x, In x l -> p (f x) = q x) -> length (filter p (map f l)) = length (filter q l).
Proof.
  induction l as [|a l IH]; intros H; [reflexivity|]. cbn [map filter]. rewrite (H a) by now left. destruct (q a); cbn [length]; now rewrite IH by (intros; apply H; now right).
Qed.
Definition val_list (l : list f64) : list R := map (fun x : f64 => val x) l.
Lemma multiplicity_64 (ks : list f64) i : (forall k, In k ks -> moderate_knot k) -> separated (val_list ks) -> multiplicity ks i = multiplicity (val_list ks) i.
Proof.
  intros Hk Hs. unfold multiplicity. destruct ks as [|k0 l] eqn:Ek; [reflexivity|]. rewrite <- Ek in *. unfold val_list in *. destruct (map (fun x : f64 => val x) ks) as [|v0 l'] eqn:Em; [rewrite Ek in Em; discriminate|]. rewrite <- Em in *. clear Ek Em.
  destruct (Nat.ltb_spec i (length ks)) as [Hi|Hi].
  - rewrite (idx_nth ks i f0 Hi), (idx_nth _ i 0) by (rewrite map_length; exact Hi). cbn [obind]. f_equal. symmetry. rewrite (nth_map_default _ _ _ f0) by exact Hi.
    apply filter_map_length. intros x Hx. assert (Hn : In (nth i ks f0) ks) by now apply nth_In.
    assert (I1 : In (val (nth i ks f0)) (map (fun x : f64 => val x) ks)) by (apply in_map_iff; eauto). assert (I2 : In (val x) (map (fun x : f64 => val x) ks)) by (apply in_map_iff; eauto).
    rewrite (ulps_eq_64 (nth i ks f0) x) by (auto; intros NE; now apply Hs). etransitivity; [apply (separated_eq _ _ _ Hs I1 I2)|reflexivity].
  - rewrite (idx_Panic ks i Hi), idx_Panic by (rewrite map_length; exact Hi). reflexivity.
Qed.
Lemma span_index_64 (ks : list f64) (u : f64) : (forall k, In k ks -> moderate_knot k) -> num64 u -> separated (val_list ks) -> span_index ks u = span_index (val_list ks) (val u).
Proof.
  intros Hk Hu Hs. unfold span_index. rewrite !multiplicity_64 by assumption.
  assert (E : rposition (fun t => fleb t (val u)) (val_list ks) = rposition (fun t => fleb t u) ks).
  { apply rposition_map. intros x Hx. symmetry. apply leb_val; [apply (Hk x Hx)|exact Hu]. }
  rewrite E. unfold val_list at 2. rewrite map_length. destruct (rposition (fun t => fleb t u) ks) as [i|]; [|reflexivity].
  destruct (usub (length ks) 1) as [n| |]; cbn [obind]; [|reflexivity..]. destruct (i =? n)%nat; [|reflexivity]. now rewrite multiplicity_64.
Qed.
Lemma ulps4_zero (x : f64) : num64 x -> fulps4 x f0 = true -> Rabs (val x) <= / 9007199254740992.
Proof.
  intros N H. cbn [fulps4 F64Num] in H. unfold f64_ulps4 in H. apply andb_true_iff in H. destruct H as [_ L]. apply Z.leb_le in L.
  destruct x as [s|s| |s m e]; try (destruct N; discriminate); [cbn [B2R]; rewrite Rabs_R0; lra|].
  change (f64_mag_bits (f0 : f64)) with 0%Z in L. rewrite mag_bits in L by exact N. pose proof N as N'. apply (number_mantissa p64 e64) in N'. destruct N' as (A & B & _). change (SpecFloat.emin p64 e64) with (-1074)%Z in *.
  assert (e = -1074)%Z by lia. subst e. assert (Hm : (Zpos m <= 4)%Z) by lia. apply IZR_le in Hm.
  assert (K : pow2 (-1074) <= eps * eps) by (rewrite <- eps_pow2, <- pow2_add; apply pow2_le; lia). unfold eps in K. pose proof (pow2_pos (-1074)) as P.
  rewrite B2R_signed. pose proof (finite_pos m (-1074)) as Q. assert (E : Rabs (signed s (IZR (Z.pos m) * pow2 (-1074))) = IZR (Z.pos m) * pow2 (-1074)) by (destruct s; cbn [signed]; [rewrite Rabs_Ropp|]; apply Rabs_right; lra).
  rewrite E. nra.
Qed.
(** the reciprocal of a knot difference *)
Lemma inv64 (a b : f64) : moderate_knot a -> moderate_knot b -> val b <= val a -> (val a <> val b -> apart (val a) (val b)) ->
  num64 (inv_or_zero (fsub a b)) /\ Rabs (val (inv_or_zero (fsub a b))) <= 2251799813685248 /\
  (val b < val a -> Rabs (val (inv_or_zero (fsub a b)) - / (val a - val b)) <= 5 * eps * / (val a - val b)).
Proof.
  intros Ka Kb Hab Hs. pose proof eta_pos as H0. pose proof eta_small as H1. pose proof pow2_500 as P5. pose proof pow2_1000_1023 as P6. pose proof big_pow2 as P7. unfold inv_or_zero. destruct (Req_dec (val a) (val b)) as [E|NE].
  - destruct (diff64_zero a b (proj1 Ka) (proj1 Kb) E) as [N V].
    assert (U : ulps_eq (fsub a b) f0 = true).
    { rewrite ulps_eq_64; [rewrite V, f0_val; apply Reqb_refl| | |rewrite V, f0_val; lra].
      - split; [exact N|]. rewrite V, Rabs_R0. lra.
      - split; [exact f0_num|]. rewrite f0_val, Rabs_R0. lra. }
    rewrite U, f0_val, Rabs_R0. split; [exact f0_num|]. split; lra.
  - assert (L : val b < val a) by lra. specialize (Hs NE). unfold apart in Hs. assert (M1 : 1 <= Rmax 1 (Rmax (Rabs (val a)) (Rabs (val b)))) by apply Rmax_l.
    set (d := val a - val b) in *. assert (Pd0 : 0 < d) by (unfold d; lra). assert (Hd : / 1125899906842624 < d) by (rewrite Rabs_right in Hs by lra; lra).
    destruct (diff64 a b Ka Kb) as [N [V _]]. fold d in V. rewrite (Rabs_right d) in V by lra. set (dh := val (fsub a b)) in *.
    assert (V' : Rabs (dh - d) <= 2 * eps * d) by (unfold eps in *; lra).
    assert (Hdh : d * (1 - 2 * eps) <= dh <= d * (1 + 2 * eps)) by (pose proof (abs_between _ _ _ V'); lra).
    assert (Dp : / 2251799813685248 < dh) by (unfold eps in *; lra).
    assert (Bd : d <= 2 * pow2 500) by (destruct Ka as [_ Ka]; destruct Kb as [_ Kb]; pose proof (Rle_abs (val a)); pose proof (Rle_abs (- val b)) as K; rewrite Rabs_Ropp in K; unfold d; lra).
    assert (U : ulps_eq (fsub a b) f0 = false).
    { unfold ulps_eq. apply orb_false_iff. split.
      - unfold abs_diff_eq. destruct (sub64 (fsub a b) f0 N f0_num) as [N2 [V2 _]]; [rewrite f0_val, Rminus_0_r; fold dh; rewrite Rabs_right by lra; unfold eps in *; lra|].
        rewrite f0_val, Rminus_0_r in V2. fold dh in V2. rewrite (Rabs_right dh) in V2 by lra. rewrite leb_val; [|now apply fabs_num|exact feps_num]. rewrite fabs_val, feps_val. apply Rleb_false.
        pose proof (Rabs_triang_inv dh (dh - val (fsub (fsub a b) f0))) as K. replace (dh - (dh - val (fsub (fsub a b) f0))) with (val (fsub (fsub a b) f0)) in K by ring.
        rewrite (Rabs_minus_sym dh) in K. rewrite (Rabs_right dh) in K by lra. unfold eps in *. lra.
      - destruct (fulps4 (fsub a b) f0) eqn:E; [exfalso|reflexivity]. pose proof (ulps4_zero _ N E) as K. fold dh in K. rewrite Rabs_right in K by lra. lra. }
    rewrite U.
    assert (Id : / dh <= 2251799813685248 / (1 + 4 * eps)).
    { apply Rle_trans with (/ (/ 1125899906842624 * (1 - 2 * eps))); [apply Rinv_le_contravar; unfold eps in *; lra|]. unfold eps. lra. }
    assert (Ip : 0 < / dh) by (apply Rinv_0_lt_compat; lra).
    destruct (div64 f1 (fsub a b) f1_num N) as [N3 [V3 _]]; [fold dh; lra|rewrite f1_val; fold dh; unfold Rdiv; rewrite Rmult_1_l, Rabs_right by lra; unfold eps in *; lra|].
    rewrite f1_val in V3. fold dh in V3. unfold Rdiv in V3. rewrite Rmult_1_l, (Rabs_right (/ dh)) in V3 by lra. set (ih := val (fdiv f1 (fsub a b))) in *.
    split; [exact N3|]. split; [pose proof (abs_between _ _ _ V3); apply Rabs_le; unfold eps in *; lra|]. intros _.
    assert (Dd : Rabs (/ dh - / d) <= 2 * eps * / dh).
    { replace (/ dh - / d) with ((d - dh) * / dh * / d) by (field; lra). rewrite !Rabs_mult, (Rabs_right (/ dh)), (Rabs_right (/ d)) by (left; apply Rinv_0_lt_compat; lra).
      rewrite Rabs_minus_sym. replace (2 * eps * / dh) with (2 * eps * d * / dh * / d) by (field; lra). apply Rmult_le_compat_r; [left; apply Rinv_0_lt_compat; lra|]. apply Rmult_le_compat_r; lra. }
    assert (Pd : 0 < / d) by (apply Rinv_0_lt_compat; lra). assert (Hi : / dh <= / d * (1 + 3 * eps)) by (pose proof (abs_between _ _ _ Dd); unfold eps in *; lra).
    assert (He : eta <= eps * / d).
    { assert (/ (2 * pow2 500) <= / d) by (apply Rinv_le_contravar; lra). assert (K : eta <= eps * / (2 * pow2 500)); [|unfold eps in *; lra].
      replace (/ (2 * pow2 500)) with (pow2 (-501)).
      - rewrite <- eps_pow2, <- pow2_add. apply pow2_le. lia.
      - apply (Rmult_eq_reg_r (2 * pow2 500)); [|lra]. rewrite Rinv_l by lra. replace 2 with (pow2 1) by apply pow2_1. rewrite <- !pow2_add. apply pow2_0. }
    replace (ih - / d) with ((ih - / dh) + (/ dh - / d)) by ring. eapply Rle_trans; [apply Rabs_triang|]. unfold eps in *. lra.
Qed.
(** the coefficient (a - u) / (a - b) of the recurrence *)
Lemma coef64 (a b u : f64) : moderate_knot a -> moderate_knot b -> moderate_knot u -> val b <= val a -> (val a <> val b -> apart (val a) (val b)) ->
  num64 (fmul (inv_or_zero (fsub a b)) (fsub a u)) /\
  (val b < val a -> val b <= val u <= val a -> Rabs (val (fmul (inv_or_zero (fsub a b)) (fsub a u)) - (val a - val u) / (val a - val b)) <= 8 * eps).
Proof.
  intros Ka Kb Ku Hab Hs. pose proof eta_pos as H0. pose proof eta_small as H1. pose proof pow2_500 as P5. pose proof pow2_1000_1023 as P6. pose proof big_pow2 as P7.
  destruct (inv64 a b Ka Kb Hab Hs) as (Ni & Bi & Ei). destruct (diff64 a u Ka Ku) as [Nn [En _]].
  set (ih := val (inv_or_zero (fsub a b))) in *. set (nh := val (fsub a u)) in *. set (n := val a - val u) in *.
  assert (Bn : Rabs n <= 2 * pow2 500).
  { destruct Ka as [_ Ka]. destruct Ku as [_ Ku]. unfold n. pose proof (Rabs_triang (val a) (- val u)) as K. rewrite Rabs_Ropp in K. unfold Rminus. lra. }
  assert (Bnh : Rabs nh <= 3 * pow2 500).
  { replace nh with (n + (nh - n)) by ring. eapply Rle_trans; [apply Rabs_triang|]. unfold eps in *. lra. }
  assert (Pr : Rabs (ih * nh) < pow2 1023).
  { rewrite Rabs_mult. apply Rle_lt_trans with (2251799813685248 * (3 * pow2 500)); [apply Rmult_le_compat; auto using Rabs_pos|]. lra. }
  destruct (mul64 _ _ Ni Nn Pr) as [Nm [Em _]]. fold ih nh in Em. split; [exact Nm|]. intros L Hu. specialize (Ei L).
  set (d := val a - val b) in *. set (id := / d) in *. assert (Pd : 0 < d) by (unfold d; lra). assert (Pid : 0 < id) by (apply Rinv_0_lt_compat; exact Pd).
  assert (Bid : id <= 1125899906842624).
  { assert (NE : val a <> val b) by lra. specialize (Hs NE). unfold apart in Hs. assert (M1 : 1 <= Rmax 1 (Rmax (Rabs (val a)) (Rabs (val b)))) by apply Rmax_l. fold d in Hs. rewrite Rabs_right in Hs by lra.
    replace 1125899906842624 with (/ / 1125899906842624) by lra. apply Rinv_le_contravar; lra. }
  assert (Hn : 0 <= n <= d) by (unfold n, d; lra). rewrite (Rabs_right n) in En by lra.
  assert (Hr : 0 <= n * id <= 1).
  { split; [apply Rmult_le_pos; lra|]. apply Rle_trans with (d * id); [apply Rmult_le_compat_r; lra|]. unfold id. rewrite Rinv_r by lra. lra. }
  assert (HE : eta * id <= eps / 4).
  { apply Rle_trans with (eps * eps * 1125899906842624); [apply Rmult_le_compat; lra|]. unfold eps. lra. }
  assert (HE0 : 0 <= eta * id) by (apply Rmult_le_pos; lra).
  assert (Bn2 : Rabs nh <= n * (1 + eps) + eta) by (pose proof (abs_between _ _ _ En); apply Rabs_le; unfold eps in *; lra).
  assert (D : Rabs (ih * nh - n * id) <= 13 / 2 * eps).
  { replace (ih * nh - n * id) with ((ih - id) * nh + (nh - n) * id) by ring. eapply Rle_trans; [apply Rabs_triang|]. rewrite !Rabs_mult, (Rabs_right id) by lra.
    assert (T1 : Rabs (ih - id) * Rabs nh <= 5 * eps * id * (n * (1 + eps) + eta)) by (apply Rmult_le_compat; auto using Rabs_pos).
    assert (T2 : Rabs (nh - n) * id <= (eps * n + eta) * id) by (apply Rmult_le_compat_r; lra).
    replace (5 * eps * id * (n * (1 + eps) + eta)) with (5 * eps * ((1 + eps) * (n * id) + eta * id)) in T1 by ring. replace ((eps * n + eta) * id) with (eps * (n * id) + eta * id) in T2 by ring.
    unfold eps in *. lra. }
  assert (Mg : Rabs (ih * nh) <= 1 + 13 / 2 * eps).
  { replace (ih * nh) with (n * id + (ih * nh - n * id)) by ring. eapply Rle_trans; [apply Rabs_triang|]. rewrite (Rabs_right (n * id)) by lra. lra. }
  unfold Rdiv. fold id. match goal with |- Rabs (?x - _) <= _ => replace (x - n * id) with ((x - ih * nh) + (ih * nh - n * id)) by ring end.
  eapply Rle_trans; [apply Rabs_triang|]. unfold eps in *. lra.
Qed.

(** ** The basis functions *)
Lemma prod_err (c x : f64) g : num64 c -> num64 x -> Rabs (val x) <= 2 -> 0 <= g <= 1 -> (val x = 0 \/ Rabs (val c - g) <= 10 * eps) ->
  num64 (fmul c x) /\ Rabs (val (fmul c x) - g * val x) <= 12 * eps * Rabs (val x) + eta.
Proof.
  intros Nc Nx Bx Hg H. pose proof eta_pos as H0. pose proof (Rabs_pos (val x)) as Px. destruct H as [Z|H].
  - destruct (mul64 c x Nc Nx) as [N [E _]]; [rewrite Z, Rmult_0_r, Rabs_R0; apply pow2_pos|]. split; [exact N|]. rewrite Z, Rmult_0_r, Rabs_R0 in *. lra.
  - assert (Bc : Rabs (val c) <= 9 / 8) by (pose proof (abs_between _ _ _ H); apply Rabs_le; unfold eps in *; lra).
    destruct (mul64 c x Nc Nx) as [N [E _]]; [apply (small_bound _ (9 / 8 * 2)); [rewrite Rabs_mult; apply Rmult_le_compat; auto using Rabs_pos|lra]|]. split; [exact N|].
    replace (val (fmul c x) - g * val x) with ((val (fmul c x) - val c * val x) + (val c - g) * val x) by ring. eapply Rle_trans; [apply Rabs_triang|]. rewrite Rabs_mult in E. rewrite Rabs_mult.
    assert (Rabs (val c - g) * Rabs (val x) <= 10 * eps * Rabs (val x)) by (apply Rmult_le_compat_r; lra).
    assert (Rabs (val c) * Rabs (val x) <= 9 / 8 * Rabs (val x)) by (apply Rmult_le_compat_r; lra). unfold eps in *. lra.
Qed.
Lemma sum_err (p q : f64) a b X : num64 p -> num64 q -> Rabs (val p - a) + Rabs (val q - b) <= 12 * eps * X + 2 * eta -> Rabs a + Rabs b <= X -> X <= 3 ->
  num64 (fadd p q) /\ Rabs (val (fadd p q) - (a + b)) <= 14 * eps * X + 4 * eta.
Proof.
  intros Np Nq E B HX. pose proof eta_pos as H0. pose proof eta_small as H1. pose proof (Rabs_pos a). pose proof (Rabs_pos b).
  assert (D : Rabs (val p + val q - (a + b)) <= 12 * eps * X + 2 * eta).
  { replace (val p + val q - (a + b)) with ((val p - a) + (val q - b)) by ring. eapply Rle_trans; [apply Rabs_triang|]. lra. }
  assert (M : Rabs (val p + val q) <= (1 + 12 * eps) * X + 2 * eta).
  { replace (val p + val q) with ((val p + val q - (a + b)) + (a + b)) by ring. eapply Rle_trans; [apply Rabs_triang|]. pose proof (Rabs_triang a b). lra. }
  destruct (add64 p q Np Nq) as [N [F _]]; [apply (small_bound _ 4); [unfold eps in *; lra|lra]|]. split; [exact N|].
  replace (val (fadd p q) - (a + b)) with ((val (fadd p q) - (val p + val q)) + (val p + val q - (a + b))) by ring. eapply Rle_trans; [apply Rabs_triang|]. unfold eps in *. lra.
Qed.
Lemma one_minus_err (b : f64) g : num64 b -> 0 <= g <= 1 -> Rabs (val b - g) <= 8 * eps -> num64 (fsub f1 b) /\ Rabs (val (fsub f1 b) - (1 - g)) <= 10 * eps.
Proof.
  intros Nb Hg H. pose proof eta_pos as H0. pose proof eta_small as H1. pose proof (abs_between _ _ _ H) as K.
  destruct (sub64 f1 b f1_num Nb) as [N [E _]]; rewrite f1_val in *; [apply (small_bound _ 2); [apply Rabs_le; unfold eps in *; lra|lra]|]. split; [exact N|].
  assert (M : Rabs (1 - val b) <= 9 / 8) by (apply Rabs_le; unfold eps in *; lra).
  replace (val (fsub f1 b) - (1 - g)) with ((val (fsub f1 b) - (1 - val b)) + - (val b - g)) by ring. eapply Rle_trans; [apply Rabs_triang|]. rewrite Rabs_Ropp. unfold eps in *. lra.
Qed.
Lemma coef_num (a b c d : f64) : moderate_knot a -> moderate_knot b -> moderate_knot c -> moderate_knot d -> val b <= val a -> (val a <> val b -> apart (val a) (val b)) ->
  num64 (fmul (inv_or_zero (fsub a b)) (fsub c d)).
Proof.
  intros Ka Kb Kc Kd Hab Hs. pose proof eta_pos as H0. pose proof eta_small as H1. pose proof pow2_500 as P5. pose proof pow2_1000_1023 as P6.
  destruct (inv64 a b Ka Kb Hab Hs) as (Ni & Bi & _). destruct (diff64 c d Kc Kd) as [Nn [En _]].
  destruct (mul64 _ _ Ni Nn) as [Nm _]; [|exact Nm].
  assert (Bn : Rabs (val c - val d) <= 2 * pow2 500).
  { destruct Kc as [_ Kc]. destruct Kd as [_ Kd]. pose proof (Rabs_triang (val c) (- val d)) as K. rewrite Rabs_Ropp in K. unfold Rminus. lra. }
  assert (Bnh : Rabs (val (fsub c d)) <= 3 * pow2 500).
  { replace (val (fsub c d)) with ((val c - val d) + (val (fsub c d) - (val c - val d))) by ring. eapply Rle_trans; [apply Rabs_triang|]. unfold eps in *. lra. }
  rewrite Rabs_mult. apply Rle_lt_trans with (2251799813685248 * (3 * pow2 500)); [apply Rmult_le_compat; auto using Rabs_pos|]. lra.
Qed.

Section Basis.
Variables (ks : list f64) (u : f64) (s p : nat).
Hypothesis Hk : forall k, In k ks -> moderate_knot k.
Hypothesis Hu : moderate_knot u.
Hypothesis Hsort : sorted (val_list ks).
Hypothesis Hsep : separated (val_list ks).
Hypothesis Hp1 : (p <= s)%nat.
Hypothesis Hp2 : (s + p < length ks - 1)%nat.
Hypothesis Hsmall : small_n (s + 1).
Local Notation T i := (nth i (val_list ks) (nth (length ks - 1) (val_list ks) 0)).
Hypothesis Hspan : T s < T (s + 1)%nat.
Hypothesis Hin : T s <= val u <= T (s + 1)%nat.
Local Notation v := (val u).
Lemma T_val i : (i < length ks)%nat -> T i = val (nth i ks f0).
Proof. intros H. unfold val_list. now rewrite (nth_map_default _ _ _ f0) by exact H. Qed.
Lemma T_mono : mono (fun i => T i).
Proof.
  apply sorted_mono; [exact Hsort|]. intros a Ha. assert (E : length (val_list ks) = length ks) by apply map_length. rewrite <- E. now apply sorted_le_last.
Qed.
Lemma knot_mod i : (i < length ks)%nat -> moderate_knot (nth i ks f0). Proof. intros H. apply Hk. now apply nth_In. Qed.
Lemma knot_apart i j : (i < length ks)%nat -> (j < length ks)%nat -> val (nth i ks f0) <> val (nth j ks f0) -> apart (val (nth i ks f0)) (val (nth j ks f0)).
Proof. intros Hi Hj NE. apply Hsep; [apply (in_map (fun x : f64 => val x)); now apply nth_In..|exact NE]. Qed.
Lemma knot_le i j : (i <= j < length ks)%nat -> val (nth i ks f0) <= val (nth j ks f0).
Proof. intros H. rewrite <- !T_val by lia. apply T_mono. lia. Qed.
Local Notation cd k i := (cdb (fun j => T j) s k i v).
Local Notation x k i := (val (bsN ks u s k i)).
Definition rho (k i : nat) : R := ratio (T (i + k)%nat - v) (T (i + k)%nat - T i).
Lemma rho_range k i : (s - k < i <= s)%nat -> (k <= s)%nat -> 0 <= rho k i <= 1 /\ T i < T (i + k)%nat /\ T i <= v <= T (i + k)%nat.
Proof.
  intros Hi Hks. pose proof (T_mono i s ltac:(lia)) as M1. pose proof (T_mono (s + 1)%nat (i + k)%nat ltac:(lia)) as M2. cbv beta in M1, M2.
  assert (D : T i < T (i + k)%nat) by lra. split; [|split; [exact D|lra]]. unfold rho. rewrite ratio_nz by lra. set (d := T (i + k)%nat - T i). assert (0 < / d) by (apply Rinv_0_lt_compat; unfold d; lra). unfold Rdiv. split; [apply Rmult_le_pos; lra|].
  apply Rle_trans with (d * / d); [apply Rmult_le_compat_r; [lra|unfold d; lra]|]. rewrite Rinv_r by (unfold d; lra). lra.
Qed.
Lemma bsB_close k i : (k <= p)%nat -> (s - k <= i <= s)%nat -> num64 (bsB ks u k i) /\ ((i < s)%nat -> Rabs (val (bsB ks u k i) - rho k (i + 1)) <= 8 * eps).
Proof.
  intros Hkp Hi. unfold bsB. destruct (coef64 (nth (i + k + 1) ks f0) (nth (i + 1) ks f0) u) as [N E]; auto.
  - apply knot_mod; lia.
  - apply knot_mod; lia.
  - apply knot_le; lia.
  - apply knot_apart; lia.
  - split; [exact N|]. intros His. destruct (rho_range k (i + 1)) as (R1 & R2 & R3); [lia|lia|]. replace (i + 1 + k)%nat with (i + k + 1)%nat in * by lia. rewrite !T_val in R2, R3 by lia.
    unfold rho. replace (i + 1 + k)%nat with (i + k + 1)%nat by lia. rewrite !T_val by lia. rewrite ratio_nz by lra. apply E; lra.
Qed.
Lemma bsA_close k i : (1 <= k <= p)%nat -> (s - k <= i <= s)%nat -> num64 (bsA ks u s k i) /\ ((s - k < i)%nat -> Rabs (val (bsA ks u s k i) - (1 - rho k i)) <= 10 * eps).
Proof.
  intros Hkp Hi. unfold bsA. destruct (Nat.eqb_spec i (s - k)) as [E|E].
  - split; [|lia]. apply coef_num; auto; try (apply knot_mod; lia); [apply knot_le; lia|apply knot_apart; lia].
  - destruct (bsB_close k (i - 1)) as [N B]; [lia|lia|]. specialize (B ltac:(lia)). replace (i - 1 + 1)%nat with i in B by lia. destruct (rho_range k i) as (R1 & _); [lia|lia|].
    destruct (one_minus_err (bsB ks u k (i - 1)) (rho k i) N R1 B). auto.
Qed.
Lemma bs_error k : (k <= p)%nat -> (forall i, num64 (bsN ks u s k i)) /\ sumf (fun i => Rabs (x k i - cd k i)) (S s) <= 32 * eps * INR k.
Proof.
  pose proof eta_pos as H0. pose proof eta_small as H1.
  induction k as [|k IH]; intros Hkp.
  - split.
    + intros i. cbn [bsN]. destruct (i =? s)%nat; [exact f1_num|exact f0_num].
    + rewrite sumf_zero; [cbn [INR]; lra|]. intros i _. cbn [bsN cdb]. destruct (i =? s)%nat; rewrite ?f1_val, ?f0_val, Rminus_eq_0; apply Rabs_R0.
  - destruct IH as [N L]; [lia|].
    assert (Bs : INR (S s) <= 1099511627776) by (rewrite <- Nat.add_1_r; apply small_INR; exact Hsmall). pose proof (pos_INR k) as Pk.
    assert (Bk : INR k <= 1099511627776) by (eapply Rle_trans; [apply le_INR|exact Bs]; lia).
    assert (Half : sumf (fun i => Rabs (x k i - cd k i)) (S s) <= 1 / 100) by (unfold eps in *; lra).
    assert (Tot : sumf (fun i => Rabs (x k i)) (S s) <= 101 / 100).
    { apply Rle_trans with (sumf (fun i => cd k i + Rabs (x k i - cd k i)) (S s)).
      - apply sumf_le. intros i _. replace (x k i) with (cd k i + (x k i - cd k i)) at 1 by ring. eapply Rle_trans; [apply Rabs_triang|]. rewrite (Rabs_right (cd k i)); [lra|]. apply Rle_ge. apply (cdb_nonneg (fun i => T i) s T_mono k i v Hin).
      - rewrite sumf_plus. assert (ES : sumf (fun i => cd k i) (S s) = 1) by (apply (cdb_sum (fun i => T i) s T_mono Hspan); lia). rewrite ES. lra. }
    assert (Tot2 : sumf (fun i => Rabs (x k (i + 1))) (S s) <= sumf (fun i => Rabs (x k i)) (S s)).
    { rewrite sumf_S, Nat.add_1_r, (bsN_outside ks u s k (S s)) by lia. rewrite f0_val, Rabs_R0, sumf_S_first. rewrite (sumf_ext _ (fun i => Rabs (x k (S i))) s) by (intros; now rewrite Nat.add_1_r). pose proof (Rabs_pos (x k 0)). lra. }
    assert (Two : forall i, Rabs (x k i) + Rabs (x k (i + 1)) <= 101 / 50 /\ Rabs (x k i) <= 2).
    { assert (Each : forall i, Rabs (x k i) <= 101 / 100).
      { intros i. destruct (Nat.leb_spec i s) as [Hi|Hi]; [|rewrite bsN_outside by lia; rewrite f0_val, Rabs_R0; lra].
        eapply Rle_trans; [|exact Tot]. assert (G : forall n, (i < n)%nat -> Rabs (x k i) <= sumf (fun i => Rabs (x k i)) n).
        { induction n as [|n IHn]; intros Hn; [lia|]. rewrite sumf_S. pose proof (Rabs_pos (x k n)). destruct (Nat.eq_dec i n) as [->|]; [|specialize (IHn ltac:(lia)); lra].
          assert (0 <= sumf (fun i => Rabs (x k i)) n) by (apply sumf_nonneg; intros; apply Rabs_pos). lra. }
        apply G. lia. }
      intros i. pose proof (Each i). pose proof (Each (i + 1)%nat). lra. }
    (* the exact step applied to computed values *)
    set (g := fun i => if (s - k <=? i)%nat && (i <=? s)%nat then rho (S k) i else 0).
    assert (Gr : forall i, 0 <= g i <= 1).
    { intros i. unfold g. destruct (Nat.leb_spec (s - k) i); cbn [andb]; [|lra]. destruct (Nat.leb_spec i s); [|lra]. apply rho_range; lia. }
    set (st := fun i => (1 - g i) * x k i + g (i + 1)%nat * x k (i + 1)).
    assert (St : forall i, (i <= s)%nat -> num64 (bsN ks u s (S k) i) /\ Rabs (x (S k) i - st i) <= 14 * eps * (Rabs (x k i) + Rabs (x k (i + 1))) + 4 * eta).
    { intros i Hi. destruct (Nat.leb_spec (s - S k) i) as [Hb|Hb].
      2:{ rewrite bsN_outside by lia. split; [exact f0_num|]. unfold st. rewrite !(bsN_outside ks u s k) by lia. rewrite !f0_val, !Rmult_0_r, Rplus_0_r, Rminus_0_r, Rabs_R0. lra. }
      cbn [bsN]. rewrite (proj2 (Nat.leb_le _ _) Hb), (proj2 (Nat.leb_le _ _) Hi). cbn [andb].
      destruct (bsA_close (S k) i) as [NA EA]; [lia|lia|]. destruct (bsB_close (S k) i) as [NB EB]; [lia|lia|].
      destruct (Two i) as [T1 T2]. destruct (Two (i + 1)%nat) as [_ T3].
      destruct (prod_err (bsA ks u s (S k) i) (bsN ks u s k i) (1 - g i)) as [NP EP]; auto.
      { pose proof (Gr i). lra. }
      { destruct (Nat.eq_dec i (s - S k)) as [Eq|Eq]; [left; rewrite bsN_outside by lia; apply f0_val|right].
        unfold g. rewrite (proj2 (Nat.leb_le (s - k) i)), (proj2 (Nat.leb_le i s)) by lia. cbn [andb]. apply EA. lia. }
      destruct (prod_err (bsB ks u (S k) i) (bsN ks u s k (i + 1)) (g (i + 1)%nat)) as [NQ EQ]; auto.
      { destruct (Nat.eq_dec i s) as [Eq|Eq]; [left; rewrite bsN_outside by lia; apply f0_val|right].
        unfold g. rewrite (proj2 (Nat.leb_le (s - k) (i + 1))), (proj2 (Nat.leb_le (i + 1) s)) by lia. cbn [andb]. specialize (EB ltac:(lia)). unfold eps in *. lra. }
      apply sum_err; auto; [lra| |lra].
      rewrite !Rabs_mult. pose proof (Gr i). pose proof (Gr (i + 1)%nat). rewrite (Rabs_right (1 - g i)), (Rabs_right (g (i + 1)%nat)) by lra.
      pose proof (Rabs_pos (x k i)). pose proof (Rabs_pos (x k (i + 1))). apply Rplus_le_compat; [rewrite <- (Rmult_1_l (Rabs (x k i))) at 2|rewrite <- (Rmult_1_l (Rabs (x k (i + 1)))) at 2]; apply Rmult_le_compat_r; lra. }
    split; [intros i; destruct (Nat.leb_spec i s); [now apply St|rewrite bsN_outside by lia; exact f0_num]|].
    set (d := fun i => Rabs (x k i - cd k i)).
    assert (Ex : forall i, (i <= s)%nat -> cd (S k) i = (1 - g i) * cd k i + g (i + 1)%nat * cd k (i + 1)).
    { intros i Hi. cbn [cdb]. pose proof (cdb_coeffs (fun i => T i) s T_mono Hspan k i v) as Cf. cbv beta in Cf.
      assert (G1 : (1 - g i) * cd k i = ratio (v - T i) (T (i + S k)%nat - T i) * cd k i).
      { unfold g. destruct (Nat.leb_spec (s - k) i) as [Hb|Hb]; cbn [andb]; [|rewrite (cdb_support _ s k i) by lia; ring]. rewrite (proj2 (Nat.leb_le _ _) Hi). unfold rho. lra. }
      assert (G2 : g (i + 1)%nat * cd k (i + 1) = ratio (T (i + S k + 1)%nat - v) (T (i + S k + 1)%nat - T (i + 1)%nat) * cd k (i + 1)).
      { unfold g. destruct (Nat.leb_spec (s - k) (i + 1)) as [Hb|Hb]; cbn [andb]; [|rewrite (cdb_support _ s k (i + 1)) by lia; ring]. destruct (Nat.leb_spec (i + 1) s) as [Hb'|Hb']; [|rewrite (cdb_support _ s k (i + 1)) by lia; ring].
        unfold rho. replace (i + 1 + S k)%nat with (i + S k + 1)%nat by lia. reflexivity. }
      rewrite G1, G2. reflexivity. }
    apply Rle_trans with (sumf (fun i => (14 * eps * (Rabs (x k i) + Rabs (x k (i + 1))) + 4 * eta) + ((1 - g i) * d i + g (i + 1)%nat * d (i + 1)%nat)) (S s)).
    { apply sumf_le. intros i Hi. destruct (St i) as [_ E]; [lia|]. rewrite (Ex i) by lia.
      match goal with |- Rabs (?a - ?b) <= _ => replace (a - b) with ((a - st i) + (st i - b)) by ring end. eapply Rle_trans; [apply Rabs_triang|]. apply Rplus_le_compat; [exact E|]. unfold st, d.
      replace ((1 - g i) * x k i + g (i + 1)%nat * x k (i + 1) - ((1 - g i) * cd k i + g (i + 1)%nat * cd k (i + 1))) with ((1 - g i) * (x k i - cd k i) + g (i + 1)%nat * (x k (i + 1) - cd k (i + 1))) by ring.
      eapply Rle_trans; [apply Rabs_triang|]. rewrite !Rabs_mult. pose proof (Gr i). pose proof (Gr (i + 1)%nat). rewrite (Rabs_right (1 - g i)), (Rabs_right (g (i + 1)%nat)) by lra. lra. }
    rewrite sumf_plus, sumf_plus, sumf_const, sumf_scal, sumf_plus.
    assert (Sh : sumf (fun i => (1 - g i) * d i + g (i + 1)%nat * d (i + 1)%nat) (S s) <= sumf d (S s)).
    { assert (E : sumf (fun i => (1 - g i) * d i + g (i + 1)%nat * d (i + 1)%nat) (S s) = sumf d (S s) - sumf (fun i => g i * d i) (S s) + sumf (fun i => g (i + 1)%nat * d (i + 1)%nat) (S s)).
      { rewrite <- sumf_minus, <- sumf_plus. apply sumf_ext. intros i _. ring. }
      rewrite E. assert (E2 : sumf (fun i => g (i + 1)%nat * d (i + 1)%nat) (S s) <= sumf (fun i => g i * d i) (S s)); [|lra].
      rewrite sumf_S, Nat.add_1_r. assert (Z : d (S s) = 0) by (unfold d; rewrite bsN_outside, cdb_support by lia; rewrite f0_val, Rminus_0_r; apply Rabs_R0). rewrite Z, Rmult_0_r, sumf_S_first.
      rewrite (sumf_ext _ (fun i => g (S i) * d (S i)) s) by (intros; now rewrite Nat.add_1_r). assert (0 <= g 0%nat * d 0%nat) by (apply Rmult_le_pos; [apply Gr|apply Rabs_pos]). lra. }
    unfold d in Sh at 3. rewrite S_INR in *. assert (INR (S s) * (4 * eta) <= eps).
    { rewrite S_INR. unfold eps in *. nra. }
    rewrite !S_INR in *. unfold eps in *. lra.
Qed.
End Basis.
