(** Binary floating point numbers of the standard library's SpecFloat: results of the rounding
    function are valid numbers of the format, and within half a unit in the last place of the
    exact value.  The format is any with 1 < prec < emax. *)
From Coq Require Import ZArith Reals Lra Lia Floats.SpecFloat Bool.
From Coq Require Import Psatz.
Open Scope Z_scope.

(** ** Digits *)
Lemma digits_log2 p : Zpos (digits2_pos p) = Z.log2 (Zpos p) + 1.
Proof.
  induction p as [p IH|p IH|]; [| |reflexivity]; cbn [digits2_pos]; rewrite Pos2Z.inj_succ, IH.
  - change (Zpos p~1) with (2 * Zpos p + 1). rewrite Z.log2_succ_double by lia. lia.
  - change (Zpos p~0) with (2 * Zpos p). rewrite Z.log2_double by lia. lia.
Qed.
Lemma digits_bounds p : 2 ^ (Zpos (digits2_pos p) - 1) <= Zpos p < 2 ^ Zpos (digits2_pos p).
Proof. rewrite digits_log2. replace (Z.log2 (Zpos p) + 1 - 1) with (Z.log2 (Zpos p)) by lia. apply Z.log2_spec. lia. Qed.
Lemma digits_unique p k : 0 < k -> 2 ^ (k - 1) <= Zpos p < 2 ^ k -> Zpos (digits2_pos p) = k.
Proof. intros Hk H. rewrite digits_log2. rewrite (Z.log2_unique (Zpos p) (k - 1)); [lia|lia|]. replace (Z.succ (k - 1)) with k by lia. exact H. Qed.
Lemma digits_le p k : 0 <= k -> Zpos p < 2 ^ k -> Zpos (digits2_pos p) <= k.
Proof. intros Hk H. rewrite digits_log2. assert (Z.log2 (Zpos p) < k) by (apply Z.log2_lt_pow2; lia). lia. Qed.
Lemma digits_mono p q : Zpos p <= Zpos q -> Zpos (digits2_pos p) <= Zpos (digits2_pos q).
Proof. intros H. rewrite !digits_log2. pose proof (Z.log2_le_mono (Zpos p) (Zpos q) H). lia. Qed.

(** ** Powers of two *)
Definition pow2 (e : Z) : R := powerRZ 2 e.
Lemma pow2_pos e : (0 < pow2 e)%R.
Proof. apply powerRZ_lt. lra. Qed.
Lemma pow2_add a b : pow2 (a + b) = (pow2 a * pow2 b)%R.
Proof. apply powerRZ_add. lra. Qed.
Lemma pow2_Z k : 0 <= k -> IZR (2 ^ k) = pow2 k.
Proof.
  intros H. unfold pow2. rewrite <- (Z2Nat.id k) by exact H. rewrite <- pow_powerRZ. generalize (Z.to_nat k) as n. clear. intros n. rewrite pow_IZR. reflexivity.
Qed.
Lemma pow2_1 : pow2 1 = 2%R. Proof. apply powerRZ_1. Qed.
Lemma pow2_0 : pow2 0 = 1%R. Proof. reflexivity. Qed.
Lemma pow2_m1 : pow2 (-1) = (/ 2)%R. Proof. unfold pow2, powerRZ. change (Pos.to_nat 1) with 1%nat. now rewrite pow_1. Qed.
Lemma pow2_le a b : a <= b -> (pow2 a <= pow2 b)%R.
Proof. intros H. replace b with (a + (b - a)) by lia. rewrite pow2_add, <- (pow2_Z (b - a)) by lia. pose proof (pow2_pos a). assert (1 <= 2 ^ (b - a)) by (pose proof (Z.pow_pos_nonneg 2 (b - a)); lia). apply IZR_le in H1. nra. Qed.
Lemma pow2_lt a b : a < b -> (pow2 a < pow2 b)%R.
Proof. intros H. pose proof (pow2_le (a + 1) b ltac:(lia)) as L. rewrite pow2_add, pow2_1 in L. pose proof (pow2_pos a). lra. Qed.

(** ** The position of a real number in the records of the rounding function *)
Definition at_rec (r : shr_record) (y : R) : Prop :=
  0 <= shr_m r /\
  match shr_r r, shr_s r with
  | false, false => y = IZR (shr_m r)
  | false, true => (IZR (shr_m r) < y < IZR (shr_m r) + / 2)%R
  | true, false => y = (IZR (shr_m r) + / 2)%R
  | true, true => (IZR (shr_m r) + / 2 < y < IZR (shr_m r) + 1)%R
  end.
Lemma at_rec_bounds r y : at_rec r y -> (IZR (shr_m r) <= y < IZR (shr_m r) + 1)%R.
Proof. intros [_ H]. destruct (shr_r r), (shr_s r); lra. Qed.
Lemma shr_1_at r y : at_rec r y -> at_rec (shr_1 r) (y / 2).
Proof.
  destruct r as [m rr s]. intros [Hm H]. cbn [shr_m shr_r shr_s] in *. unfold shr_1.
  destruct m as [|[p|p|]|p]; [| | | |lia].
  - split; [cbn; lia|]. destruct rr, s; cbn [orb shr_m shr_r shr_s]; lra.
  - split; [cbn; lia|]. change (Zpos p~1) with (2 * Zpos p + 1) in H. rewrite plus_IZR, mult_IZR in H. destruct rr, s; cbn [orb shr_m shr_r shr_s]; lra.
  - split; [cbn; lia|]. change (Zpos p~0) with (2 * Zpos p) in H. rewrite mult_IZR in H. destruct rr, s; cbn [orb shr_m shr_r shr_s]; lra.
  - split; [cbn; lia|]. destruct rr, s; cbn [orb shr_m shr_r shr_s]; lra.
Qed.
Lemma iter_plus {A} (f : A -> A) n m x : Nat.iter (n + m) f x = Nat.iter n f (Nat.iter m f x).
Proof. induction n as [|n IH]; [reflexivity|]. change (f (Nat.iter (n + m) f x) = f (Nat.iter n f (Nat.iter m f x))). now rewrite IH. Qed.
Lemma iter_pos_iter {A} (f : A -> A) p x : iter_pos f p x = Nat.iter (Pos.to_nat p) f x.
Proof.
  revert x. induction p as [p IH|p IH|]; intros x; cbn [iter_pos].
  - rewrite Pos2Nat.inj_xI, !IH. replace (S (2 * Pos.to_nat p)) with (Pos.to_nat p + Pos.to_nat p + 1)%nat by lia. rewrite !iter_plus. reflexivity.
  - rewrite Pos2Nat.inj_xO, !IH. replace (2 * Pos.to_nat p)%nat with (Pos.to_nat p + Pos.to_nat p)%nat by lia. now rewrite iter_plus.
  - reflexivity.
Qed.
Lemma iter_shr n : forall r y, at_rec r y -> at_rec (Nat.iter n shr_1 r) (y * pow2 (- Z.of_nat n)).
Proof.
  induction n as [|n IH]; intros r y H; [cbn [Nat.iter]; change (- Z.of_nat 0) with 0; rewrite pow2_0, Rmult_1_r; exact H|].
  change (Nat.iter (S n) shr_1 r) with (shr_1 (Nat.iter n shr_1 r)). replace (- Z.of_nat (S n)) with (- Z.of_nat n + -1) by lia. rewrite pow2_add, pow2_m1, <- Rmult_assoc.
  apply (shr_1_at _ _ (IH r y H)).
Qed.
Lemma shr_at r y e n : at_rec r y -> 0 <= n -> at_rec (fst (shr r e n)) (y * pow2 (- n)) /\ snd (shr r e n) = e + n.
Proof.
  intros H Hn. unfold shr. destruct n as [|p|p]; [|cbn [fst snd]|lia].
  - cbn [fst snd]. change (- 0) with 0. rewrite pow2_0, Rmult_1_r. split; [exact H|lia].
  - split; [|reflexivity]. rewrite iter_pos_iter. rewrite <- positive_nat_Z. now apply iter_shr.
Qed.
Lemma shr_neg r e n : n <= 0 -> shr r e n = (r, e).
Proof. intros H. destruct n; [reflexivity|lia|reflexivity]. Qed.
Lemma round_ne_near r y : at_rec r y -> let m1 := round_nearest_even (shr_m r) (loc_of_shr_record r) in
  (Rabs (IZR m1 - y) <= / 2)%R /\ (m1 = shr_m r \/ m1 = shr_m r + 1).
Proof.
  destruct r as [m rr s]. intros [Hm H]. cbn [shr_m shr_r shr_s] in *. unfold loc_of_shr_record, round_nearest_even.
  destruct rr, s; cbn zeta.
  - split; [|now right]. rewrite plus_IZR. unfold Rabs; destruct (Rcase_abs _); lra.
  - destruct (Z.even m); (split; [|auto]); rewrite ?plus_IZR; unfold Rabs; destruct (Rcase_abs _); lra.
  - split; [|now left]. unfold Rabs; destruct (Rcase_abs _); lra.
  - split; [|now left]. unfold Rabs; destruct (Rcase_abs _); lra.
Qed.

Lemma Zdigits2_bounds m : 0 <= m -> 0 <= Zdigits2 m /\ m < 2 ^ Zdigits2 m /\ (0 < m -> 2 ^ (Zdigits2 m - 1) <= m /\ 0 < Zdigits2 m).
Proof. destruct m as [|p|p]; intros H; [cbn; lia| |lia]. cbn [Zdigits2]. pose proof (digits_bounds p). lia. Qed.
Lemma y_bounds mx lx y : at_rec (shr_record_of_loc mx lx) y -> (0 <= y < pow2 (Zdigits2 mx))%R /\ (0 < mx -> (pow2 (Zdigits2 mx - 1) <= y)%R).
Proof.
  intros Hat. assert (Hr : shr_m (shr_record_of_loc mx lx) = mx) by (destruct lx as [|[]]; reflexivity).
  assert (Hmx : 0 <= mx) by (rewrite <- Hr; apply Hat). pose proof (Zdigits2_bounds mx Hmx) as (Hd & Db & Dl).
  pose proof (at_rec_bounds _ _ Hat) as B. rewrite Hr in B. assert (D3 : mx + 1 <= 2 ^ Zdigits2 mx) by lia. apply IZR_le in D3, Hmx. rewrite plus_IZR, pow2_Z in D3 by lia. split; [lra|].
  intros M. destruct (Dl M) as [D1 D2]. apply IZR_le in D1. rewrite pow2_Z in D1 by lia. lra.
Qed.

Section Format.
Variable prec emax : Z.
Hypothesis Hp : 1 < prec.
Hypothesis He : prec < emax.
Notation fexp := (fexp prec emax).
Notation emin := (emin prec emax).

(** the real value of a finite number *)
Definition B2R (x : spec_float) : R :=
  match x with S754_finite s m e => (if s then - (IZR (Zpos m) * pow2 e) else IZR (Zpos m) * pow2 e)%R | _ => 0%R end.
Definition signed (s : bool) (y : R) : R := if s then (- y)%R else y.

(** Rounding a number [y * 2^ex], known by its integer part [mx >= 0] and the position of
    the rest.  [fe] is the exponent of the last place of the result. *)
Lemma round_aux_spec sx mx ex lx y :
  at_rec (shr_record_of_loc mx lx) y -> ex <= fexp (Zdigits2 mx + ex) ->
  let fe := fexp (Zdigits2 mx + ex) in
  exists m1, 0 <= m1 <= 2 ^ prec /\ (Rabs (IZR m1 * pow2 fe - y * pow2 ex) <= / 2 * pow2 fe)%R /\
    (emin < fe -> 2 ^ (prec - 1) <= m1) /\
    match binary_round_aux prec emax sx mx ex lx with
    | S754_zero s => s = sx /\ m1 = 0
    | S754_finite s m e => s = sx /\ bounded prec emax m e = true /\ 0 < m1 /\ (IZR (Zpos m) * pow2 e = IZR m1 * pow2 fe)%R
    | S754_infinity s => s = sx /\ (pow2 emax <= IZR m1 * pow2 fe)%R
    | S754_nan => False
    end.
Proof.
  intros Hat Hex fe. set (d := Zdigits2 mx) in *.
  assert (Hr : shr_m (shr_record_of_loc mx lx) = mx) by (destruct lx as [|[]]; reflexivity).
  assert (Hmx : 0 <= mx) by (rewrite <- Hr; apply Hat).
  pose proof (Zdigits2_bounds mx Hmx) as (Hd & Db & Dl). fold d in Hd, Db, Dl.
  assert (Efe : fe = Z.max (d + ex - prec) emin) by reflexivity.
  set (r0 := shr_record_of_loc mx lx) in *.
  assert (E1 : shr_fexp prec emax mx ex lx = shr r0 ex (fe - ex)) by reflexivity.
  destruct (shr_at r0 y ex (fe - ex) Hat ltac:(lia)) as [A1 A2].
  destruct (shr r0 ex (fe - ex)) as [r1 e1] eqn:Es. cbn [fst snd] in A1, A2.
  assert (Ee : e1 = fe) by lia. clear A2. subst e1.
  destruct (round_ne_near r1 _ A1) as [Nr Nm]. set (m1 := round_nearest_even (shr_m r1) (loc_of_shr_record r1)) in *.
  pose proof (at_rec_bounds _ _ A1) as B1. destruct A1 as [M0 _].
  assert (Yb : (0 <= y < pow2 d)%R /\ (0 < mx -> (pow2 (d - 1) <= y)%R)) by now apply (y_bounds mx lx).
  destruct Yb as [Yb Yl].
  assert (Ys : (y * pow2 (- (fe - ex)) < pow2 (d + ex - fe))%R).
  { replace (d + ex - fe) with (d + - (fe - ex)) by lia. rewrite pow2_add. pose proof (pow2_pos (- (fe - ex))). nra. }
  assert (Hub : m1 <= 2 ^ prec).
  { assert (K : (pow2 (d + ex - fe) <= pow2 prec)%R) by (apply pow2_le; lia). rewrite <- (pow2_Z prec) in K by lia.
    assert (shr_m r1 < 2 ^ prec) by (apply lt_IZR; lra). lia. }
  assert (Hlb : emin < fe -> 2 ^ (prec - 1) <= shr_m r1).
  { intros Hl. assert (Ef : fe = d + ex - prec) by lia. assert (M1 : 0 < mx) by (destruct mx; [unfold d in *; cbn in *; lia|lia|lia]). specialize (Yl M1). assert (K : (pow2 (prec - 1) <= y * pow2 (- (fe - ex)))%R).
    { replace (prec - 1) with ((d - 1) + - (fe - ex)) by lia. rewrite pow2_add. pose proof (pow2_pos (- (fe - ex))). nra. }
    rewrite <- pow2_Z in K by lia. assert (2 ^ (prec - 1) < shr_m r1 + 1) by (apply lt_IZR; rewrite plus_IZR; lra). lia. }
  exists m1. split; [lia|]. split; [|split; [intros Hl; specialize (Hlb Hl); lia|]].
  { replace (IZR m1 * pow2 fe - y * pow2 ex)%R with ((IZR m1 - y * pow2 (- (fe - ex))) * pow2 fe)%R.
    - rewrite Rabs_mult, (Rabs_right (pow2 fe)) by (pose proof (pow2_pos fe); lra). apply Rmult_le_compat_r; [pose proof (pow2_pos fe); lra|exact Nr].
    - rewrite Rmult_minus_distr_r, Rmult_assoc, <- pow2_add. do 3 f_equal. lia. }
  unfold binary_round_aux. rewrite E1. cbn zeta. fold m1. cbn [fst snd].
  destruct (Z.eq_dec m1 0) as [Z0|NZ].
  { rewrite Z0. unfold shr_fexp. cbn [Zdigits2 shr_record_of_loc].
    rewrite shr_neg; [cbn; auto|]. unfold SpecFloat.fexp. lia. }
  assert (P1 : 0 < m1) by lia. destruct m1 as [|q|] eqn:Eq; [lia| |lia]. clear NZ P1.
  destruct (Z.eq_dec (Zpos q) (2 ^ prec)) as [Top|NT].
  - (* carry into the next binade *)
    assert (Dq : Zpos (digits2_pos q) = prec + 1) by (apply digits_unique; [lia|]; replace (prec + 1 - 1) with prec by lia; rewrite Top, Z.pow_add_r by lia; split; [lia|]; pose proof (Z.pow_pos_nonneg 2 prec ltac:(lia) ltac:(lia)); lia).
    unfold shr_fexp. cbn [Zdigits2 shr_record_of_loc]. rewrite Dq.
    assert (Fx : fexp (prec + 1 + fe) - fe = 1) by (unfold SpecFloat.fexp; lia). rewrite Fx. cbn [shr iter_pos].
    assert (exists q', q = xO q' /\ Zpos q' = 2 ^ (prec - 1)) as (q' & -> & Eq').
    { replace prec with (1 + (prec - 1)) in Top by lia. rewrite Z.pow_add_r in Top by lia. change (2 ^ 1) with 2 in Top. destruct q as [q'|q'|]; [lia|exists q'; split; [reflexivity|]|].
      - change (Zpos q'~0) with (2 * Zpos q') in Top. lia.
      - pose proof (Z.pow_pos_nonneg 2 (prec - 1) ltac:(lia) ltac:(lia)). lia. }
    cbn [shr_1 shr_m]. assert (Vq : (IZR (Zpos q') * pow2 (fe + 1) = IZR (Zpos q'~0) * pow2 fe)%R) by (change (Zpos q'~0) with (2 * Zpos q'); rewrite mult_IZR, pow2_add, pow2_1; lra).
    destruct (Z.leb_spec (fe + 1) (emax - prec)) as [Hle|Hgt].
    + split; [reflexivity|]. split; [|split; [lia|exact Vq]]. unfold bounded, canonical_mantissa.
      assert (Dq' : Zpos (digits2_pos q') = prec) by (apply digits_unique; [lia|]; rewrite Eq'; split; [lia|]; apply Z.pow_lt_mono_r; lia).
      rewrite Dq'. apply andb_true_intro. split; [|apply Z.leb_le; lia]. apply Zeq_is_eq_bool. unfold SpecFloat.fexp. lia.
    + split; [reflexivity|]. rewrite Top, pow2_Z, <- pow2_add by lia. apply pow2_le. lia.
  - (* no carry *)
    assert (Dq : Zpos (digits2_pos q) <= prec) by (apply digits_le; lia).
    unfold shr_fexp. cbn [Zdigits2 shr_record_of_loc].
    assert (Fx : fexp (Zpos (digits2_pos q) + fe) - fe <= 0) by (unfold SpecFloat.fexp; lia). rewrite shr_neg by exact Fx. cbn [shr_m].
    destruct (Z.leb_spec fe (emax - prec)) as [Hle|Hgt].
    + split; [reflexivity|]. split; [|split; [lia|reflexivity]]. unfold bounded, canonical_mantissa. apply andb_true_intro. split; [|apply Z.leb_le; lia]. apply Zeq_is_eq_bool.
      unfold SpecFloat.fexp. destruct (Z.eq_dec fe emin) as [->|Ne]; [lia|].
      assert (Hl : 2 ^ (prec - 1) <= Zpos q) by (specialize (Hlb ltac:(lia)); lia).
      assert (Zpos (digits2_pos q) = prec) by (apply digits_unique; [lia|]; lia). lia.
    + split; [reflexivity|]. assert (emin < fe) by (unfold SpecFloat.emin in *; lia). assert (Hl : 2 ^ (prec - 1) <= Zpos q) by (specialize (Hlb H); lia).
      apply IZR_le in Hl. rewrite pow2_Z in Hl by lia. replace emax with ((prec - 1) + (emax - prec + 1)) by lia. rewrite pow2_add. apply Rmult_le_compat; try (left; apply pow2_pos); [exact Hl|]. apply pow2_le. lia.
Qed.

(** ** Correct rounding *)
(** [rounded res x]: [res] is a number of the format next to the real [x]. *)
Definition rounded (res : spec_float) (x : R) : Prop :=
  match res with
  | S754_nan => False
  | S754_infinity s => (pow2 (emax - 1) <= signed s x)%R
  | _ => valid_binary prec emax res = true /\
         (Rabs (B2R res - x) <= Rmax (pow2 (- prec) * Rabs x) (pow2 (emin - 1)))%R /\ (0 <= B2R res * x)%R
  end /\
  (forall k a, Z.abs k < 2 ^ prec -> emin <= a <= emax - prec -> x = (IZR k * pow2 a)%R -> (match res with S754_finite _ _ _ | S754_zero _ => True | _ => False end) /\ B2R res = x).
Definition B2R_signed s m e : B2R (S754_finite s m e) = signed s (IZR (Zpos m) * pow2 e)%R := eq_refl.
Lemma signed_abs s y : (0 <= y)%R -> Rabs (signed s y) = y.
Proof. intros H. destruct s; cbn; [rewrite Rabs_Ropp|]; apply Rabs_right; lra. Qed.
Lemma signed_minus s y z : (signed s y - signed s z = signed s (y - z))%R.
Proof. destruct s; cbn; lra. Qed.
Lemma signed_invol s y : signed s (signed s y) = y.
Proof. destruct s; cbn; lra. Qed.
Lemma Rabs_signed s y : Rabs (signed s y) = Rabs y.
Proof. destruct s; cbn; [apply Rabs_Ropp|reflexivity]. Qed.
Lemma emin_neg : emin < 0. Proof. unfold SpecFloat.emin. lia. Qed.

Lemma round_aux_rounded sx mx ex lx y :
  at_rec (shr_record_of_loc mx lx) y -> ex <= fexp (Zdigits2 mx + ex) ->
  rounded (binary_round_aux prec emax sx mx ex lx) (signed sx (y * pow2 ex)).
Proof.
  intros Hat Hex. destruct (round_aux_spec sx mx ex lx y Hat Hex) as (m1 & Hm & Herr & Hlow & Hres).
  set (fe := fexp (Zdigits2 mx + ex)) in *. set (d := Zdigits2 mx) in *.
  destruct (y_bounds mx lx y Hat) as [Yb Yl]. fold d in Yb, Yl.
  assert (Hr : shr_m (shr_record_of_loc mx lx) = mx) by (destruct lx as [|[]]; reflexivity).
  assert (Hmx : 0 <= mx) by (rewrite <- Hr; apply Hat).
  assert (Xp : (0 <= y * pow2 ex)%R) by (pose proof (pow2_pos ex); nra).
  assert (Xl : emin < fe -> (pow2 (d - 1 + ex) <= y * pow2 ex)%R).
  { intros Hl. assert (M1 : 0 < mx) by (destruct mx; [unfold fe, d, SpecFloat.fexp in *; cbn in *; lia|lia|lia]). specialize (Yl M1). rewrite pow2_add. pose proof (pow2_pos ex). nra. }
  assert (Efe : fe = Z.max (d + ex - prec) emin) by reflexivity.
  assert (Ebound : (/ 2 * pow2 fe <= Rmax (pow2 (- prec) * (y * pow2 ex)) (pow2 (emin - 1)))%R).
  { destruct (Z.eq_dec fe emin) as [->|Ne].
    - eapply Rle_trans; [|apply Rmax_r]. replace (emin - 1) with (emin + -1) by lia. rewrite pow2_add, pow2_m1. lra.
    - eapply Rle_trans; [|apply Rmax_l]. replace fe with (- prec + (d - 1 + ex) + 1) by lia. rewrite !(pow2_add _ 1), pow2_1, (pow2_add (- prec)). pose proof (pow2_pos (- prec)). specialize (Xl ltac:(lia)). nra. }
  assert (M0 : (0 <= IZR m1)%R) by (apply IZR_le; lia).
  (* exactly representable values *)
  assert (Exact : forall k a, Z.abs k < 2 ^ prec -> emin <= a <= emax - prec -> signed sx (y * pow2 ex) = (IZR k * pow2 a)%R -> (IZR m1 * pow2 fe)%R = (y * pow2 ex)%R /\ fe <= a).
  { intros k a Hk Ha E.
    assert (E' : (y * pow2 ex = IZR (Z.abs k) * pow2 a)%R).
    { rewrite <- (signed_abs sx (y * pow2 ex)) by lra. rewrite E, Rabs_mult, (Rabs_right (pow2 a)) by (pose proof (pow2_pos a); lra). now rewrite <- abs_IZR. }
    assert (Hfa : fe <= a).
    { destruct (Z.le_gt_cases fe a) as [|Hgt]; [assumption|exfalso]. assert (Ef : fe = d + ex - prec) by lia. specialize (Xl ltac:(lia)).
      assert (K : (pow2 (prec + a) <= pow2 (d - 1 + ex))%R) by (apply pow2_le; lia). rewrite pow2_add in K. apply IZR_lt in Hk. rewrite pow2_Z in Hk by lia. pose proof (pow2_pos a). nra. }
    split; [|exact Hfa].
    assert (E2 : (IZR (Z.abs k) * pow2 a = IZR (Z.abs k * 2 ^ (a - fe)) * pow2 fe)%R) by (rewrite mult_IZR, pow2_Z, Rmult_assoc, <- pow2_add by lia; do 2 f_equal; lia).
    rewrite E', E2 in Herr. rewrite E', E2. f_equal. f_equal.
    rewrite <- Rmult_minus_distr_r, <- minus_IZR, Rabs_mult, (Rabs_right (pow2 fe)) in Herr by (pose proof (pow2_pos fe); lra).
    assert (Hh : (Rabs (IZR (m1 - Z.abs k * 2 ^ (a - fe))) <= / 2)%R) by (pose proof (pow2_pos fe); nra).
    rewrite <- abs_IZR in Hh. assert (Z.abs (m1 - Z.abs k * 2 ^ (a - fe)) < 1) by (apply lt_IZR; lra). lia. }
  unfold rounded. destruct (binary_round_aux prec emax sx mx ex lx) as [s|s| |s m e]; [| |destruct Hres|].
  - (* zero *)
    destruct Hres as [-> ->]. rewrite Rmult_0_l in Herr. split; [split; [reflexivity|split]|].
    + cbn [B2R]. rewrite Rabs_signed. rewrite (Rabs_right (y * pow2 ex)) by lra. unfold Rminus. rewrite Rplus_0_l, Rabs_Ropp, Rabs_signed, Rabs_right by lra.
      unfold Rminus in Herr. rewrite Rplus_0_l, Rabs_Ropp, Rabs_right in Herr by lra. lra.
    + cbn [B2R]. lra.
    + intros k a Hk Ha E. destruct (Exact k a Hk Ha E) as [E1 _]. split; [exact I|]. cbn [B2R]. assert (Z : (y * pow2 ex = 0)%R) by lra. rewrite Z. destruct sx; cbn; lra.
  - (* infinity *)
    destruct Hres as [-> Hov]. rewrite signed_invol. split.
    + assert (M2 : (IZR m1 <= pow2 prec)%R) by (rewrite <- pow2_Z by lia; apply IZR_le; lia).
      assert (K : (pow2 emax <= pow2 (prec + fe))%R) by (rewrite pow2_add; pose proof (pow2_pos fe); nra).
      assert (emax <= prec + fe) by (destruct (Z.le_gt_cases emax (prec + fe)) as [|G]; [assumption|pose proof (pow2_lt _ _ G); lra]).
      assert (Ef : fe = d + ex - prec) by (unfold SpecFloat.emin in *; lia). eapply Rle_trans; [|apply Xl; unfold SpecFloat.emin in *; lia]. apply pow2_le. lia.
    + intros k a Hk Ha E. exfalso. destruct (Exact k a Hk Ha E) as [E1 Hfa]. rewrite E1 in Hov.
      assert (E' : (y * pow2 ex = IZR (Z.abs k) * pow2 a)%R).
      { rewrite <- (signed_abs sx (y * pow2 ex)) by lra. rewrite E, Rabs_mult, (Rabs_right (pow2 a)) by (pose proof (pow2_pos a); lra). now rewrite <- abs_IZR. }
      apply IZR_lt in Hk. rewrite pow2_Z in Hk by lia. pose proof (pow2_pos a). assert (K : (pow2 (prec + a) <= pow2 emax)%R) by (apply pow2_le; lia). rewrite pow2_add in K. nra.
  - (* finite *)
    destruct Hres as (-> & Hb & Hm0 & Ev). rewrite B2R_signed, Ev. split; [split; [exact Hb|split]|].
    + rewrite signed_minus, !Rabs_signed, (Rabs_right (y * pow2 ex)) by lra. lra.
    + assert (0 <= IZR m1 * pow2 fe)%R by (pose proof (pow2_pos fe); nra). destruct sx; cbn; nra.
    + intros k a Hk Ha E. destruct (Exact k a Hk Ha E) as [E1 _]. split; [exact I|]. now rewrite E1.
Qed.
Lemma at_rec_exact m : 0 <= m -> at_rec (shr_record_of_loc m loc_Exact) (IZR m).
Proof. intros H. split; [exact H|reflexivity]. Qed.
Lemma shift_pos_Z d m : Zpos (shift_pos d m) = Zpos m * 2 ^ Zpos d.
Proof. rewrite shift_pos_correct. rewrite Z.mul_comm. reflexivity. Qed.
Lemma shift_pos_digits d m : Zpos (digits2_pos (shift_pos d m)) = Zpos (digits2_pos m) + Zpos d.
Proof.
  pose proof (digits_bounds m) as [A B]. apply digits_unique; [lia|]. rewrite shift_pos_Z. replace (Zpos (digits2_pos m) + Zpos d - 1) with (Zpos (digits2_pos m) - 1 + Zpos d) by lia.
  rewrite !(Z.pow_add_r 2 _ (Zpos d)) by lia. pose proof (Z.pow_pos_nonneg 2 (Zpos d) ltac:(lia) ltac:(lia)). split; [apply Z.mul_le_mono_nonneg_r; lia|apply Z.mul_lt_mono_pos_r; lia].
Qed.
Lemma shl_align_val m e e' : (IZR (Zpos (fst (shl_align m e e'))) * pow2 (snd (shl_align m e e')) = IZR (Zpos m) * pow2 e)%R /\ snd (shl_align m e e') = Z.min e e'.
Proof.
  unfold shl_align. destruct (e' - e) as [|d|d] eqn:Ed; cbn [fst snd]; [split; [reflexivity|lia]..|].
  split; [|lia]. rewrite shift_pos_Z, mult_IZR, pow2_Z, Rmult_assoc, <- pow2_add by lia. do 2 f_equal. lia.
Qed.
Lemma binary_round_rounded s m e : rounded (binary_round prec emax s m e) (signed s (IZR (Zpos m) * pow2 e)).
Proof.
  unfold binary_round. set (fe := fexp (Zpos (digits2_pos m) + e)). pose proof (shl_align_val m e fe) as [Ev Es]. unfold shl_align in *.
  destruct (fe - e) as [|d|d] eqn:Ed; cbn [fst snd] in *.
  - apply round_aux_rounded; [apply at_rec_exact; lia|]. cbn [Zdigits2]. fold fe. lia.
  - apply round_aux_rounded; [apply at_rec_exact; lia|]. cbn [Zdigits2]. fold fe. lia.
  - rewrite <- Ev. apply round_aux_rounded; [apply at_rec_exact; lia|]. cbn [Zdigits2]. rewrite shift_pos_digits. replace (Zpos (digits2_pos m) + Zpos d + fe) with (Zpos (digits2_pos m) + e) by lia. fold fe. lia.
Qed.
Lemma rounded_zero s : rounded (S754_zero s) 0.
Proof.
  split; [split; [reflexivity|]|intros; split; [exact I|reflexivity]]. cbn [B2R]. rewrite Rminus_0_r, Rabs_R0. split; [|lra]. eapply Rle_trans; [|apply Rmax_r]. left. apply pow2_pos.
Qed.
Definition is_fin (x : spec_float) : bool := match x with S754_zero _ | S754_finite _ _ _ => true | _ => false end.
(** a finite number of the format *)
Definition number (x : spec_float) : Prop := is_fin x = true /\ valid_binary prec emax x = true.
Lemma number_zero s : number (S754_zero s). Proof. split; reflexivity. Qed.
Lemma valid_finite s m e : valid_binary prec emax (S754_finite s m e) = true <-> fexp (Zpos (digits2_pos m) + e) = e /\ e <= emax - prec.
Proof. cbn. unfold bounded, canonical_mantissa. rewrite andb_true_iff, <- Zeq_is_eq_bool, Z.leb_le. reflexivity. Qed.
Lemma number_mantissa s m e : number (S754_finite s m e) -> Zpos m < 2 ^ prec /\ emin <= e <= emax - prec /\ (emin < e -> 2 ^ (prec - 1) <= Zpos m) /\ Zpos (digits2_pos m) <= prec.
Proof.
  intros [_ H]. apply valid_finite in H. destruct H as [Hf Hx]. unfold SpecFloat.fexp in Hf. pose proof (digits_bounds m) as [A B].
  assert (Hd : Zpos (digits2_pos m) <= prec) by lia. split; [|split; [lia|split; [|exact Hd]]].
  - eapply Z.lt_le_trans; [exact B|]. apply Z.pow_le_mono_r; lia.
  - intros Hl. replace (prec - 1) with (Zpos (digits2_pos m) - 1) by lia. exact A.
Qed.
Lemma rounded_self x : number x -> rounded x (B2R x).
Proof.
  intros [Hf Hv]. destruct x as [s|s| |s m e]; try discriminate; [apply rounded_zero|].
  split; [|intros; split; [exact I|reflexivity]]. split; [exact Hv|]. split; [|nra]. rewrite Rminus_diag_eq, Rabs_R0 by reflexivity. eapply Rle_trans; [|apply Rmax_r]. left. apply pow2_pos.
Qed.
Lemma rounded_exact res x k a : rounded res x -> Z.abs k < 2 ^ prec -> emin <= a <= emax - prec -> x = (IZR k * pow2 a)%R -> number res /\ B2R res = x.
Proof. intros [H1 H2] Hk Ha E. destruct (H2 k a Hk Ha E) as [H3 H4]. split; [|exact H4]. destruct res; try easy; destruct H1 as [H1 _]; split; auto. Qed.
Lemma rounded_number res x : rounded res x -> (Rabs x < pow2 (emax - 1))%R ->
  number res /\ (Rabs (B2R res - x) <= Rmax (pow2 (- prec) * Rabs x) (pow2 (emin - 1)))%R /\ (0 <= B2R res * x)%R.
Proof.
  intros [H _] Hx. destruct res as [s|s| |s m e]; [destruct H as (A & B & C); repeat split; auto; fail| |destruct H|destruct H as (A & B & C); repeat split; auto; fail].
  exfalso. pose proof (Rle_abs (signed s x)) as K. rewrite Rabs_signed in K. lra.
Qed.
Lemma normalize_rounded m e sz : rounded (binary_normalize prec emax m e sz) (IZR m * pow2 e).
Proof.
  destruct m as [|m|m]; cbn [binary_normalize]; [rewrite Rmult_0_l; apply rounded_zero|apply (binary_round_rounded false)|].
  replace (IZR (Zneg m) * pow2 e)%R with (signed true (IZR (Zpos m) * pow2 e)); [apply binary_round_rounded|]. cbn [signed]. change (Zneg m) with (- Zpos m). rewrite opp_IZR. lra.
Qed.
Lemma cond_Zopp_R b m : IZR (cond_Zopp b m) = signed b (IZR m).
Proof. destruct b; cbn; [apply opp_IZR|reflexivity]. Qed.
Lemma signed_mult s y z : (signed s y * z = signed s (y * z))%R.
Proof. destruct s; cbn; lra. Qed.
Lemma align_sum sx mx ex sy my ey (op : Z -> Z -> Z) (rop : R -> R -> R) :
  (forall a b, IZR (op a b) = rop (IZR a) (IZR b)) -> (forall a b c, rop a b * c = rop (a * c) (b * c))%R ->
  let ez := Z.min ex ey in
  (IZR (op (cond_Zopp sx (Zpos (fst (shl_align mx ex ez)))) (cond_Zopp sy (Zpos (fst (shl_align my ey ez))))) * pow2 ez = rop (signed sx (IZR (Zpos mx) * pow2 ex)) (signed sy (IZR (Zpos my) * pow2 ey)))%R.
Proof.
  intros H1 H2 ez. rewrite H1, H2, !cond_Zopp_R, !signed_mult.
  pose proof (shl_align_val mx ex ez) as [A A']. pose proof (shl_align_val my ey ez) as [B B'].
  replace (snd (shl_align mx ex ez)) with ez in A by (unfold ez in *; lia). replace (snd (shl_align my ey ez)) with ez in B by (unfold ez in *; lia). now rewrite A, B.
Qed.
Theorem SFadd_rounded x y : number x -> number y -> rounded (SFadd prec emax x y) (B2R x + B2R y).
Proof.
  intros Hx Hy. destruct x as [sx|sx| |sx mx ex]; try (destruct Hx; discriminate); destruct y as [sy|sy| |sy my ey]; try (destruct Hy; discriminate); cbn [SFadd].
  - cbn [B2R]. rewrite Rplus_0_r. destruct (Bool.eqb sx sy); apply rounded_zero.
  - replace (B2R (S754_zero sx)) with 0%R by reflexivity. rewrite Rplus_0_l. now apply rounded_self.
  - replace (B2R (S754_zero sy)) with 0%R by reflexivity. rewrite Rplus_0_r. now apply rounded_self.
  - rewrite !B2R_signed, <- (align_sum sx mx ex sy my ey Z.add Rplus plus_IZR) by (intros; lra). apply normalize_rounded.
Qed.
Lemma B2R_opp x : B2R (SFopp x) = (- B2R x)%R.
Proof. destruct x as [s|s| |s m e]; cbn; try lra. destruct s; cbn; lra. Qed.
Lemma number_opp x : number x -> number (SFopp x).
Proof. destruct x; intros [A B]; split; auto. Qed.
Lemma B2R_abs x : B2R (SFabs x) = Rabs (B2R x).
Proof. destruct x as [s|s| |s m e]; try (cbn [SFabs B2R]; now rewrite Rabs_R0). cbn [SFabs]. rewrite !B2R_signed, signed_abs; [reflexivity|]. pose proof (pow2_pos e). assert (0 < IZR (Zpos m))%R by (apply IZR_lt; lia). nra. Qed.
Lemma number_abs x : number x -> number (SFabs x).
Proof. destruct x; intros [A B]; split; auto. Qed.
Theorem SFsub_rounded x y : number x -> number y -> rounded (SFsub prec emax x y) (B2R x - B2R y).
Proof.
  intros Hx Hy. destruct x as [sx|sx| |sx mx ex]; try (destruct Hx; discriminate); destruct y as [sy|sy| |sy my ey]; try (destruct Hy; discriminate); cbn [SFsub].
  - cbn [B2R]. rewrite Rminus_0_r. destruct (Bool.eqb sx (negb sy)); apply rounded_zero.
  - replace (B2R (S754_zero sx)) with 0%R by reflexivity. rewrite Rminus_0_l, <- B2R_opp. apply rounded_self. apply (number_opp _ Hy).
  - replace (B2R (S754_zero sy)) with 0%R by reflexivity. rewrite Rminus_0_r. now apply rounded_self.
  - rewrite !B2R_signed, <- (align_sum sx mx ex sy my ey Z.sub Rminus minus_IZR) by (intros; lra). apply normalize_rounded.
Qed.
Theorem SFmul_rounded x y : number x -> number y -> rounded (SFmul prec emax x y) (B2R x * B2R y).
Proof.
  intros Hx Hy. destruct x as [sx|sx| |sx mx ex]; try (destruct Hx; discriminate); destruct y as [sy|sy| |sy my ey]; try (destruct Hy; discriminate); cbn [SFmul].
  - cbn [B2R]. rewrite Rmult_0_r. apply rounded_zero.
  - replace (B2R (S754_zero sx)) with 0%R by reflexivity. rewrite Rmult_0_l. apply rounded_zero.
  - replace (B2R (S754_zero sy)) with 0%R by reflexivity. rewrite Rmult_0_r. apply rounded_zero.
  - rewrite !B2R_signed. replace (signed sx (IZR (Zpos mx) * pow2 ex) * signed sy (IZR (Zpos my) * pow2 ey))%R with (signed (xorb sx sy) (IZR (Zpos (mx * my)) * pow2 (ex + ey))).
    2:{ rewrite Pos2Z.inj_mul, mult_IZR, pow2_add. destruct sx, sy; cbn; lra. }
    apply round_aux_rounded; [apply at_rec_exact; lia|]. cbn [Zdigits2].
    destruct Hx as [_ Hx]. destruct Hy as [_ Hy]. apply valid_finite in Hx, Hy. unfold SpecFloat.fexp in *.
    assert (Dg : Zpos (digits2_pos mx) + Zpos (digits2_pos my) - 1 <= Zpos (digits2_pos (mx * my))).
    { rewrite !digits_log2, Pos2Z.inj_mul. pose proof (Z.log2_mul_below (Zpos mx) (Zpos my)). lia. }
    pose proof emin_neg. lia.
Qed.

(** ** Division and square root *)
Lemma fexp_mono a b : a <= b -> fexp a <= fexp b.
Proof. unfold SpecFloat.fexp. lia. Qed.
Lemma new_location_at q r m : 0 <= q -> 0 < m -> 0 <= r < m -> at_rec (shr_record_of_loc q (new_location m r)) (IZR q + IZR r / IZR m).
Proof.
  intros Hq Hm Hr. assert (Pm : (0 < IZR m)%R) by now apply IZR_lt.
  assert (Hv : (IZR r / IZR m = IZR r * / IZR m)%R) by reflexivity. pose proof (Rinv_0_lt_compat _ Pm) as Pi. pose proof (Rinv_r (IZR m) ltac:(lra)) as Ei.
  assert (Lt1 : (IZR r / IZR m < 1)%R) by (destruct Hr as [_ K]; apply IZR_lt in K; rewrite Hv; nra).
  unfold new_location, new_location_even, new_location_odd.
  destruct (Zeq_bool r 0) eqn:E0.
  { apply Zeq_bool_eq in E0. subst r. assert (G : at_rec (shr_record_of_loc q loc_Exact) (IZR q + IZR 0 / IZR m)) by (split; [exact Hq|cbn; unfold Rdiv; rewrite Rmult_0_l; lra]). destruct (Z.even m); exact G. }
  pose proof E0 as E0b. apply Zeq_bool_neq in E0. assert (P0 : (0 < IZR r / IZR m)%R) by (assert (K : 0 < r) by lia; apply IZR_lt in K; rewrite Hv; nra).
  assert (GL : 2 * r < m -> at_rec (shr_record_of_loc q (loc_Inexact Lt)) (IZR q + IZR r / IZR m)).
  { intros K. apply IZR_lt in K. rewrite mult_IZR in K. split; [exact Hq|]. cbn. assert (IZR r / IZR m < / 2)%R by (rewrite Hv; nra). lra. }
  assert (GG : m < 2 * r -> at_rec (shr_record_of_loc q (loc_Inexact Gt)) (IZR q + IZR r / IZR m)).
  { intros K. apply IZR_lt in K. rewrite mult_IZR in K. split; [exact Hq|]. cbn. assert (/ 2 < IZR r / IZR m)%R by (rewrite Hv; nra). lra. }
  destruct (Z.even m) eqn:Ev; rewrite ?E0b.
  - destruct (Z.compare_spec (2 * r) m) as [K|K|K]; [|now apply GL|now apply GG]. split; [exact Hq|]. cbn. assert (Em : (IZR m = 2 * IZR r)%R) by (rewrite <- K, mult_IZR; reflexivity). rewrite Em. f_equal. field. lra.
  - assert (2 * r <> m) by (intros <-; rewrite Z.even_mul in Ev; discriminate).
    destruct (Z.compare_spec (2 * r + 1) m) as [K|K|K]; [apply GL; lia|apply GL; lia|apply GG; lia].
Qed.
Theorem SFdiv_rounded x y : number x -> number y -> B2R y <> 0%R -> rounded (SFdiv prec emax x y) (B2R x / B2R y).
Proof.
  intros Hx Hy Ny. destruct y as [sy|sy| |sy my ey]; try (destruct Hy; discriminate); [now contradict Ny|].
  destruct x as [sx|sx| |sx mx ex]; try (destruct Hx; discriminate).
  { cbn [SFdiv]. replace (B2R (S754_zero sx)) with 0%R by reflexivity. unfold Rdiv. rewrite Rmult_0_l. apply rounded_zero. }
  unfold SFdiv, SFdiv_core_binary. cbn [Zdigits2].
  set (d1 := Zpos (digits2_pos mx)). set (d2 := Zpos (digits2_pos my)). set (D := d1 + ex - (d2 + ey)). set (e' := Z.min (fexp D) (ex - ey)).
  set (s := ex - ey - e'). assert (Hs : 0 <= s) by lia.
  assert (Em : (match s with Z0 => Zpos mx | Zpos _ => Z.shiftl (Zpos mx) s | Zneg _ => 0 end) = Zpos mx * 2 ^ s).
  { destruct s as [|k|k] eqn:Ek; [change (2 ^ 0) with 1; lia| |lia]. apply Z.shiftl_mul_pow2. lia. }
  rewrite Em. set (m' := Zpos mx * 2 ^ s). pose proof (Z_div_mod m' (Zpos my) ltac:(lia)) as Hdm. destruct (Z.div_eucl m' (Zpos my)) as [q r]. destruct Hdm as [Eq Hr].
  assert (Pm' : 0 < m') by (unfold m'; pose proof (Z.pow_pos_nonneg 2 s ltac:(lia) Hs); nia).
  assert (Hq : 0 <= q) by nia.
  assert (Py : (0 < IZR (Zpos my))%R) by (apply IZR_lt; lia).
  replace (B2R (S754_finite sx mx ex) / B2R (S754_finite sy my ey))%R with (signed (xorb sx sy) ((IZR q + IZR r / IZR (Zpos my)) * pow2 e')).
  2:{ rewrite !B2R_signed. assert (Ev : (IZR q + IZR r / IZR (Zpos my) = IZR (Zpos mx) * pow2 s / IZR (Zpos my))%R).
      { rewrite <- pow2_Z, <- mult_IZR by lia. fold m'. rewrite Eq, plus_IZR, mult_IZR. field. lra. }
      rewrite Ev. assert (Ee : pow2 ex = (pow2 s * pow2 e' * pow2 ey)%R) by (rewrite <- !pow2_add; f_equal; lia). rewrite Ee. pose proof (pow2_pos ey). destruct sx, sy; cbn [xorb signed]; field; split; lra. }
  apply round_aux_rounded; [now apply new_location_at|].
  assert (Dg : D - e' <= Zdigits2 q).
  { replace (D - e') with (d1 - d2 + s) by lia. pose proof (digits_bounds mx) as [A1 _]. pose proof (digits_bounds my) as [_ B2]. fold d1 in A1. fold d2 in B2.
    destruct (Zdigits2_bounds q Hq) as (Q0 & Q1 & _). destruct (Z.le_gt_cases (d1 - d2 + s) (Zdigits2 q)) as [|Hgt]; [assumption|exfalso].
    assert (K1 : 2 ^ (d1 - 1 + s) <= m') by (unfold m'; rewrite Z.pow_add_r by (unfold d1; lia); apply Z.mul_le_mono_nonneg_r; [apply Z.pow_nonneg; lia|exact A1]).
    assert (K2 : m' < (q + 1) * Zpos my) by nia.
    assert (K3 : (q + 1) * Zpos my <= 2 ^ Zdigits2 q * 2 ^ d2) by (apply Z.mul_le_mono_nonneg; lia).
    rewrite <- Z.pow_add_r in K3 by (unfold d2; lia). assert (K4 : 2 ^ (Zdigits2 q + d2) <= 2 ^ (d1 - 1 + s)) by (apply Z.pow_le_mono_r; lia). lia. }
  pose proof (fexp_mono D (Zdigits2 q + e') ltac:(lia)). lia.
Qed.
Theorem SFsqrt_rounded x : number x -> (0 <= B2R x)%R -> rounded (SFsqrt prec emax x) (sqrt (B2R x)).
Proof.
  intros Hx Hn. destruct x as [sx|sx| |sx mx ex]; try (destruct Hx; discriminate).
  { cbn [SFsqrt B2R]. rewrite sqrt_0. apply rounded_zero. }
  destruct sx. { exfalso. rewrite B2R_signed in Hn. cbn in Hn. pose proof (pow2_pos ex). assert (0 < IZR (Zpos mx))%R by (apply IZR_lt; lia). nra. }
  unfold SFsqrt, SFsqrt_core_binary. cbn [Zdigits2]. set (d := Zpos (digits2_pos mx)). set (e' := Z.min (fexp (Z.div2 (d + ex + 1))) (Z.div2 ex)). set (s := ex - 2 * e').
  assert (Hs : 0 <= s) by (unfold s; pose proof (Z.div2_odd ex); destruct (Z.odd ex); cbn [Z.b2z] in *; lia).
  assert (Em : (match s with Z0 => Zpos mx | Zpos _ => Z.shiftl (Zpos mx) s | Zneg _ => 0 end) = Zpos mx * 2 ^ s).
  { destruct s as [|k|k] eqn:Ek; [change (2 ^ 0) with 1; lia| |lia]. apply Z.shiftl_mul_pow2. lia. }
  rewrite Em. set (m' := Zpos mx * 2 ^ s).
  assert (Pm' : 0 < m') by (unfold m'; pose proof (Z.pow_pos_nonneg 2 s ltac:(lia) Hs); nia).
  pose proof (Z.sqrtrem_spec m' ltac:(lia)) as Hsp. destruct (Z.sqrtrem m') as [q r]. destruct Hsp as [Eq Hr].
  assert (Hq : 0 < q) by nia.
  assert (Rq : (0 < IZR q)%R) by now apply IZR_lt.
  assert (Vs : sqrt (B2R (S754_finite false mx ex)) = (sqrt (IZR m') * pow2 e')%R).
  { rewrite B2R_signed. cbn [signed]. replace (IZR (Zpos mx) * pow2 ex)%R with (IZR m' * (pow2 e' * pow2 e'))%R.
    - rewrite sqrt_mult_alt by (apply IZR_le; lia). rewrite sqrt_square by (left; apply pow2_pos). reflexivity.
    - unfold m'. rewrite mult_IZR, pow2_Z, Rmult_assoc, <- !pow2_add by lia. do 2 f_equal. lia. }
  assert (Sq : (sqrt (IZR m') * sqrt (IZR m') = IZR q * IZR q + IZR r)%R) by (rewrite sqrt_sqrt by (apply IZR_le; lia); rewrite Eq, plus_IZR, mult_IZR; reflexivity).
  pose proof (sqrt_pos (IZR m')) as Sp. set (v := sqrt (IZR m')) in *.
  rewrite Vs. change (v * pow2 e')%R with (signed false (v * pow2 e')).
  destruct Hr as [Hr1 Hr2]. pose proof Hr1 as R1. pose proof Hr2 as R2. apply IZR_le in R1, R2. rewrite mult_IZR in R2.
  apply round_aux_rounded.
  - split; [destruct (Zeq_bool r 0); [cbn; lia|destruct (Zle_bool r q); cbn; lia]|].
    destruct (Zeq_bool r 0) eqn:E0.
    + apply Zeq_bool_eq in E0. subst r. cbn. nra.
    + apply Zeq_bool_neq in E0. assert (R3 : 1 <= r) by lia. apply IZR_le in R3. destruct (Z.leb_spec r q) as [K|K].
      * apply IZR_le in K. cbn. split; nra.
      * assert (K' : q + 1 <= r) by lia. apply IZR_le in K'. rewrite plus_IZR in K'. cbn. split; nra.
  - assert (Dg : Z.div2 (d + ex + 1) - e' <= Zdigits2 q).
    { destruct (Zdigits2_bounds q ltac:(lia)) as (Q0 & Q1 & _). pose proof (digits_bounds mx) as [A1 _]. fold d in A1.
      assert (K1 : 2 ^ (d - 1 + s) <= m') by (unfold m'; rewrite Z.pow_add_r by (unfold d; lia); apply Z.mul_le_mono_nonneg_r; [apply Z.pow_nonneg; lia|exact A1]).
      assert (K2 : m' < (q + 1) * (q + 1)) by nia. assert (K3 : (q + 1) * (q + 1) <= 2 ^ Zdigits2 q * 2 ^ Zdigits2 q) by (apply Z.mul_le_mono_nonneg; lia).
      rewrite <- Z.pow_add_r in K3 by lia. assert (K4 : d - 1 + s < Zdigits2 q + Zdigits2 q) by (apply (Z.pow_lt_mono_r_iff 2); lia).
      pose proof (Z.div2_odd (d + ex + 1)) as Ho. destruct (Z.odd (d + ex + 1)); cbn [Z.b2z] in Ho; unfold s in K4; lia. }
    pose proof (fexp_mono (Z.div2 (d + ex + 1)) (Zdigits2 q + e') ltac:(lia)). lia.
Qed.

(** ** Comparisons *)
Lemma finite_pos m e : (0 < IZR (Zpos m) * pow2 e)%R.
Proof. apply Rmult_lt_0_compat; [apply IZR_lt; lia|apply pow2_pos]. Qed.
Lemma exp_lt_value s1 m1 e1 s2 m2 e2 : number (S754_finite s1 m1 e1) -> number (S754_finite s2 m2 e2) -> e1 < e2 -> (IZR (Zpos m1) * pow2 e1 < IZR (Zpos m2) * pow2 e2)%R.
Proof.
  intros H1 H2 L. apply number_mantissa in H1, H2. destruct H1 as (A & B & _). destruct H2 as (_ & _ & C & _). specialize (C ltac:(lia)).
  apply IZR_lt in A. apply IZR_le in C. rewrite pow2_Z in A, C by lia.
  assert (K : (pow2 (prec + e1) <= pow2 (prec - 1 + e2))%R) by (apply pow2_le; lia). rewrite !pow2_add in K. pose proof (pow2_pos e1). pose proof (pow2_pos e2). nra.
Qed.
Lemma SFcompare_correct x y : number x -> number y ->
  exists c, SFcompare x y = Some c /\ match c with Lt => (B2R x < B2R y)%R | Eq => B2R x = B2R y | Gt => (B2R y < B2R x)%R end.
Proof.
  intros Hx Hy. destruct x as [sx|sx| |sx mx ex]; try (destruct Hx; discriminate); destruct y as [sy|sy| |sy my ey]; try (destruct Hy; discriminate); cbn [SFcompare].
  - exists Eq. auto.
  - pose proof (finite_pos my ey). destruct sy; [exists Gt|exists Lt]; (split; [reflexivity|]); rewrite B2R_signed; cbn [B2R signed]; lra.
  - pose proof (finite_pos mx ex). destruct sx; [exists Lt|exists Gt]; (split; [reflexivity|]); rewrite B2R_signed; cbn [B2R signed]; lra.
  - assert (Hm : forall c, (ex ?= ey) = c -> match c with Lt => (IZR (Zpos mx) * pow2 ex < IZR (Zpos my) * pow2 ey)%R | Gt => (IZR (Zpos my) * pow2 ey < IZR (Zpos mx) * pow2 ex)%R | Eq => ex = ey end).
    { intros c Hc. destruct (Z.compare_spec ex ey); subst c; [assumption|now apply (exp_lt_value sx mx ex sy my ey)|now apply (exp_lt_value sy my ey sx mx ex)]. }
    assert (Hp' : forall c, Pos.compare_cont Eq mx my = c -> ex = ey -> match c with Lt => (IZR (Zpos mx) * pow2 ex < IZR (Zpos my) * pow2 ey)%R | Gt => (IZR (Zpos my) * pow2 ey < IZR (Zpos mx) * pow2 ex)%R | Eq => (IZR (Zpos mx) * pow2 ex = IZR (Zpos my) * pow2 ey)%R end).
    { intros c Hc <-. pose proof (pow2_pos ex). change (Pos.compare_cont Eq mx my) with (Pos.compare mx my) in Hc. destruct (Pos.compare_spec mx my) as [E|E|E]; subst c; [now subst|apply Rmult_lt_compat_r; [assumption|apply IZR_lt; lia]..]. }
    specialize (Hm _ eq_refl). specialize (Hp' _ eq_refl). pose proof (finite_pos mx ex). pose proof (finite_pos my ey). rewrite !B2R_signed.
    destruct sx, sy; cbn [signed].
    + destruct (ex ?= ey); [specialize (Hp' Hm); destruct (Pos.compare_cont Eq mx my); cbn [CompOpp]| |]; eexists; (split; [reflexivity|]); cbn; lra.
    + exists Lt. split; [reflexivity|]. lra.
    + exists Gt. split; [reflexivity|]. lra.
    + destruct (ex ?= ey); [specialize (Hp' Hm); destruct (Pos.compare_cont Eq mx my); cbn [CompOpp]| |]; eexists; (split; [reflexivity|]); cbn; lra.
Qed.
Lemma SFltb_correct x y : number x -> number y -> SFltb x y = true <-> (B2R x < B2R y)%R.
Proof. intros Hx Hy. destruct (SFcompare_correct x y Hx Hy) as (c & E & H). unfold SFltb. rewrite E. destruct c; split; intros; try discriminate; auto; lra. Qed.
Lemma SFleb_correct x y : number x -> number y -> SFleb x y = true <-> (B2R x <= B2R y)%R.
Proof. intros Hx Hy. destruct (SFcompare_correct x y Hx Hy) as (c & E & H). unfold SFleb. rewrite E. destruct c; split; intros; try discriminate; auto; lra. Qed.
Lemma SFeqb_correct x y : number x -> number y -> SFeqb x y = true <-> (B2R x = B2R y)%R.
Proof. intros Hx Hy. destruct (SFcompare_correct x y Hx Hy) as (c & E & H). unfold SFeqb. rewrite E. destruct c; split; intros; try discriminate; auto; lra. Qed.
End Format.
