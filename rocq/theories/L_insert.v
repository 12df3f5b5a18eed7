(** Knot insertion for Cox-de Boor functions (Boehm's identity), independent of the model. *)
From Coq Require Import Reals Lra Psatz Lia Arith.
From Verif Require Import Prelude Num L_base L_cdb.
Open Scope R_scope.

(** the knots with x inserted as number j *)
Definition ins (t : nat -> R) (j : nat) (x : R) (i : nat) : R :=
  if (i <? j)%nat then t i else if (i =? j)%nat then x else t (i - 1)%nat.

(** insertion weight *)
Definition omega (t : nat -> R) (j : nat) (x : R) (k i : nat) : R :=
  if (i + k <? j)%nat then 1 else if (j <=? i)%nat then 0 else (x - t i) / (t (i + k)%nat - t i).

Lemma ins_lt t j x i : (i < j)%nat -> ins t j x i = t i.
Proof. intros H. unfold ins. now rewrite (proj2 (Nat.ltb_lt _ _) H). Qed.
Lemma ins_eq t j x i : i = j -> ins t j x i = x.
Proof. intros ->. unfold ins. now rewrite Nat.ltb_irrefl, Nat.eqb_refl. Qed.
Lemma ins_gt t j x i : (j < i)%nat -> ins t j x i = t (i - 1)%nat.
Proof.
  intros H. unfold ins. rewrite (proj2 (Nat.ltb_ge _ _)) by lia. now rewrite (proj2 (Nat.eqb_neq _ _)) by lia.
Qed.
Lemma omega_1 t j x k i : (i + k < j)%nat -> omega t j x k i = 1.
Proof. intros H. unfold omega. now rewrite (proj2 (Nat.ltb_lt _ _) H). Qed.
Lemma omega_0 t j x k i : (j <= i)%nat -> omega t j x k i = 0.
Proof.
  intros H. unfold omega. rewrite (proj2 (Nat.ltb_ge _ _)) by lia. now rewrite (proj2 (Nat.leb_le _ _)) by lia.
Qed.
Lemma omega_mid t j x k i : (i < j <= i + k)%nat -> omega t j x k i = (x - t i) / (t (i + k)%nat - t i).
Proof.
  intros H. unfold omega. rewrite (proj2 (Nat.ltb_ge _ _)) by lia. now rewrite (proj2 (Nat.leb_gt _ _)) by lia.
Qed.

Section Insert.
Variables (t : nat -> R) (j : nat) (x : R) (s s' : nat).
Hypothesis Ht : mono t.
Hypothesis Hlo : forall i, (i < j)%nat -> t i <= x.
Hypothesis Hhi : forall i, (j <= i)%nat -> x < t i.
Hypothesis Hlt : (j <= s)%nat -> s' = S s.
Hypothesis Hgt : (S s < j)%nat -> s' = s.
Hypothesis Heq : j = S s -> s' = s \/ s' = S s.
Hypothesis Hne : ins t j x s' < ins t j x (s' + 1)%nat.

Lemma ins_mono : mono (ins t j x).
Proof.
  intros a b Hab.
  destruct (lt_eq_lt_dec a j) as [[Ha|Ha]|Ha]; [rewrite (ins_lt _ _ _ a Ha)|rewrite (ins_eq _ _ _ a Ha)|rewrite (ins_gt _ _ _ a Ha)];
  (destruct (lt_eq_lt_dec b j) as [[Hb|Hb]|Hb]; [rewrite (ins_lt _ _ _ b Hb)|rewrite (ins_eq _ _ _ b Hb)|rewrite (ins_gt _ _ _ b Hb)]);
  try lia; try lra; try (apply Ht; lia).
  - now apply Hlo.
  - left. apply Hhi. lia.
Qed.

Lemma cdb_insert k i u :
  cdb t s k i u = omega t j x k i * cdb (ins t j x) s' k i u
                  + (1 - omega t j x k (i + 1)) * cdb (ins t j x) s' k (i + 1) u.
Proof.
  revert i. induction k as [|k IH]; intros i.
  - cbn [cdb]. destruct (lt_eq_lt_dec (i + 1) j) as [[H|H]|H].
    + rewrite !omega_1 by lia. assert (E : (i =? s)%nat = (i =? s')%nat).
      { destruct (lt_eq_lt_dec j (S s)) as [[H1|H1]|H1].
        - rewrite Hlt by lia. rewrite !(proj2 (Nat.eqb_neq _ _)) by lia. reflexivity.
        - destruct (Heq H1); subst s'; destruct (Nat.eqb_spec i s); try lia; try reflexivity. now rewrite (proj2 (Nat.eqb_neq _ _)) by lia.
        - now rewrite Hgt by lia. }
      rewrite E. lra.
    + rewrite omega_1, omega_0 by lia.
      destruct (lt_eq_lt_dec j (S s)) as [[H1|H1]|H1].
      * rewrite Hlt by lia. rewrite !(proj2 (Nat.eqb_neq _ _)) by lia. lra.
      * assert (i = s) by lia. subst i. rewrite Nat.eqb_refl.
        destruct (Heq H1) as [E|E]; rewrite E.
        -- rewrite Nat.eqb_refl. rewrite (proj2 (Nat.eqb_neq _ _)) by lia. lra.
        -- rewrite (proj2 (Nat.eqb_neq s (S s))) by lia. rewrite (proj2 (Nat.eqb_eq (s + 1) (S s))) by lia. lra.
      * rewrite Hgt by lia. rewrite !(proj2 (Nat.eqb_neq _ _)) by lia. lra.
    + rewrite !omega_0 by lia. assert (E : (i =? s)%nat = (i + 1 =? s')%nat).
      { destruct (lt_eq_lt_dec j (S s)) as [[H1|H1]|H1].
        - rewrite Hlt by lia. destruct (Nat.eqb_spec i s); [subst; symmetry; apply Nat.eqb_eq; lia|symmetry; apply Nat.eqb_neq; lia].
        - destruct (Heq H1); subst s'; rewrite !(proj2 (Nat.eqb_neq _ _)) by lia; reflexivity.
        - rewrite Hgt by lia. rewrite !(proj2 (Nat.eqb_neq _ _)) by lia. reflexivity. }
      rewrite E. lra.
  - assert (Hm' := ins_mono).
    assert (ZW : forall i u, ins t j x (i + k + 1)%nat = ins t j x i -> cdb (ins t j x) s' k i u = 0).
    { intros i0 u0. now apply cdb_zero_width. }
    cbn [cdb]. rewrite (IH i), (IH (i + 1)%nat).
    replace (i + 1 + 1)%nat with (i + 2)%nat by lia.
    pose proof (ZW i u) as Z0. pose proof (ZW (i + 1)%nat u) as Z1. pose proof (ZW (i + 2)%nat u) as Z2.
    set (N0 := cdb (ins t j x) s' k i u) in *. set (N1 := cdb (ins t j x) s' k (i + 1) u) in *.
    set (N2 := cdb (ins t j x) s' k (i + 2) u) in *.
    clearbody N0 N1 N2. clear IH ZW.
    replace (i + S k + 1)%nat with (i + k + 2)%nat by lia.
    replace (i + 1 + S k)%nat with (i + k + 2)%nat by lia.
    replace (i + k + 2 + 1)%nat with (i + k + 3)%nat by lia.
    replace (i + S k)%nat with (i + k + 1)%nat by lia.
    replace (i + 1 + k + 1)%nat with (i + k + 2)%nat in Z1 by lia.
    replace (i + 2 + k + 1)%nat with (i + k + 3)%nat in Z2 by lia.
    destruct (le_lt_dec j i) as [C1|C1]; [|destruct (le_lt_dec j (i + k + 2)) as [C2|C2]].
    + (* everything shifted *)
      rewrite !omega_0 by lia.
      rewrite (ins_gt _ _ _ (i + k + 2)), (ins_gt _ _ _ (i + 1)), (ins_gt _ _ _ (i + k + 3)), (ins_gt _ _ _ (i + 2)) by lia.
      replace (i + k + 2 - 1)%nat with (i + k + 1)%nat by lia. replace (i + 1 - 1)%nat with i by lia.
      replace (i + k + 3 - 1)%nat with (i + k + 2)%nat by lia. replace (i + 2 - 1)%nat with (i + 1)%nat by lia.
      lra.
    + assert (M1 : t i <= t (i + 1)%nat) by (apply Ht; lia).
      assert (M2 : t (i + 1)%nat <= t (i + k + 1)%nat) by (apply Ht; lia).
      assert (M3 : t (i + k + 1)%nat <= t (i + k + 2)%nat) by (apply Ht; lia).
      assert (L0 : t i <= x) by (apply Hlo; lia).
      assert (H2 : x < t (i + k + 2)%nat) by (apply Hhi; lia).
      rewrite (ins_lt _ _ _ i) in * by lia.
      destruct (Nat.eq_dec j (i + 1)) as [C3|C3].
      * (* j = i+1 *)
        rewrite (omega_0 _ _ _ _ (i + 1)), (omega_0 _ _ _ _ (i + 2)), (omega_0 _ _ _ _ (i + 1)) by lia.
        rewrite (ins_eq _ _ _ (i + 1)) in * by lia. rewrite (ins_gt _ _ _ (i + k + 2)) in * by lia.
        rewrite (ins_gt _ _ _ (i + k + 3)) in * by lia. rewrite (ins_gt _ _ _ (i + 2)) in * by lia.
        replace (i + k + 2 - 1)%nat with (i + k + 1)%nat in * by lia.
        replace (i + k + 3 - 1)%nat with (i + k + 2)%nat in * by lia. replace (i + 2 - 1)%nat with (i + 1)%nat in * by lia.
        assert (H1 : x < t (i + 1)%nat) by (apply Hhi; lia).
        rewrite (omega_mid _ _ _ (S k) i) by lia. replace (i + S k)%nat with (i + k + 1)%nat by lia.
        rewrite !(ratio_nz _ (t (i + k + 1)%nat - t i)) by lra.
        rewrite !(ratio_nz _ (t (i + k + 1)%nat - x)) by lra.
        destruct k as [|k].
        -- rewrite (omega_1 _ _ _ 0 i) by lia.
           rewrite (ins_eq _ _ _ (i + 0 + 1)) in * by lia.
           destruct (Req_EM_T (x - t i) 0) as [E|E].
           ++ rewrite (Z0 ltac:(lra)). replace x with (t i) by lra. field. lra.
           ++ rewrite (ratio_nz _ (x - t i)) by assumption. field. split; lra.
        -- rewrite (omega_mid _ _ _ (S k) i) by lia.
           rewrite (ins_gt _ _ _ (i + S k + 1)) in * by lia.
           replace (i + S k + 1 - 1)%nat with (i + S k)%nat in * by lia.
           assert (x < t (i + S k)%nat) by (apply Hhi; lia).
           rewrite (ratio_nz _ (t (i + S k)%nat - t i)) by lra. field. repeat split; lra.
      * assert (L1 : t (i + 1)%nat <= x) by (apply Hlo; lia).
        rewrite (ins_lt _ _ _ (i + 1)) in * by lia.
        rewrite (ins_gt _ _ _ (i + k + 3)) in * by lia. replace (i + k + 3 - 1)%nat with (i + k + 2)%nat in * by lia.
        rewrite (omega_mid _ _ _ (S k) (i + 1)) by lia.
        replace (i + 1 + S k)%nat with (i + k + 2)%nat by lia.
        rewrite !(ratio_nz _ (t (i + k + 2)%nat - t (i + 1)%nat)) by lra.
        (* coefficient of N2 *)
        assert (K2 : (t (i + k + 2)%nat - u) / (t (i + k + 2)%nat - t (i + 1)%nat) * ((1 - omega t j x k (i + 2)) * N2)
          = (1 - (x - t (i + 1)%nat) / (t (i + k + 2)%nat - t (i + 1)%nat)) *
            (ratio (t (i + k + 2)%nat - u) (t (i + k + 2)%nat - ins t j x (i + 2)) * N2)).
        { destruct (Nat.eq_dec j (i + 2)) as [C5|C5].
          - rewrite omega_0 by lia. rewrite (ins_eq _ _ _ (i + 2)) by lia. rewrite ratio_nz by lra. field. split; lra.
          - rewrite (ins_lt _ _ _ (i + 2)) in * by lia.
            assert (t (i + 2)%nat <= x) by (apply Hlo; lia).
            destruct k as [|k].
            + lia.
            + rewrite omega_mid by lia. replace (i + 2 + S k)%nat with (i + S k + 2)%nat by lia.
              rewrite ratio_nz by lra. field. split; lra. }
        rewrite (Rmult_plus_distr_l ((t (i + k + 2)%nat - u) / (t (i + k + 2)%nat - t (i + 1)%nat))).
        rewrite K2. clear K2.
        destruct (Nat.eq_dec j (i + k + 2)) as [C4|C4].
        -- (* j = i+k+2 *)
           rewrite !(omega_1 _ _ _ k) by lia. rewrite (omega_1 _ _ _ (S k) i) by lia.
           rewrite (ins_lt _ _ _ (i + k + 1)) in * by lia.
           rewrite (ins_eq _ _ _ (i + k + 2)) in * by lia.
           destruct (Req_EM_T (x - t (i + 1)%nat) 0) as [E|E].
           ++ rewrite (Z1 ltac:(lra)). lra.
           ++ rewrite !(ratio_nz _ (x - t (i + 1)%nat)) by assumption. field. repeat split; lra.
        -- assert (H1 : x < t (i + k + 1)%nat) by (apply Hhi; lia).
           rewrite (ins_gt _ _ _ (i + k + 2)) in * by lia. replace (i + k + 2 - 1)%nat with (i + k + 1)%nat in * by lia.
           rewrite (omega_mid _ _ _ (S k) i) by lia. replace (i + S k)%nat with (i + k + 1)%nat by lia.
           rewrite !(ratio_nz _ (t (i + k + 1)%nat - t i)) by lra.
           assert (K0 : (u - t i) / (t (i + k + 1)%nat - t i) * (omega t j x k i * N0)
             = (x - t i) / (t (i + k + 1)%nat - t i) * (ratio (u - t i) (ins t j x (i + k + 1) - t i) * N0)).
           { destruct (Nat.eq_dec j (i + k + 1)) as [C5|C5].
             - rewrite omega_1 by lia. rewrite (ins_eq _ _ _ (i + k + 1)) in * by lia.
               destruct (Req_EM_T (x - t i) 0) as [E|E].
               + rewrite (Z0 ltac:(lra)). lra.
               + rewrite ratio_nz by assumption. field. split; lra.
             - rewrite omega_mid by lia. rewrite (ins_gt _ _ _ (i + k + 1)) in * by lia.
               replace (i + k + 1 - 1)%nat with (i + k)%nat in * by lia.
               assert (x < t (i + k)%nat) by (apply Hhi; lia).
               rewrite ratio_nz by lra. field. split; lra. }
           rewrite (Rmult_plus_distr_l ((u - t i) / (t (i + k + 1)%nat - t i))).
           rewrite K0. clear K0.
           destruct k as [|k]; [lia|].
           rewrite (omega_mid _ _ _ (S k) (i + 1)) by lia.
           replace (i + 1 + S k)%nat with (i + S k + 1)%nat by lia.
           rewrite !(ratio_nz _ (t (i + S k + 1)%nat - t (i + 1)%nat)) by lra.
           field. repeat split; lra.
    + (* nothing changed *)
      rewrite !omega_1 by lia. rewrite !ins_lt by lia.
      lra.
Qed.
End Insert.
