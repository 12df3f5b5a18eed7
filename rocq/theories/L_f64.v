(** Facts about IEEE-754 comparison and a few operations, needed where a property is about
    double arithmetic itself. *)
From Coq Require Import ZArith Lia Bool Floats.SpecFloat.
From Verif Require Import Prelude Num.
Open Scope Z_scope.

(** ** The order: a float that is not NaN is ranked lexicographically. *)
Definition rank (x : f64) : Z * Z * Z :=
  match x with
  | S754_infinity true => (-2, 0, 0)
  | S754_finite true m e => (-1, - e, - Zpos m)
  | S754_zero _ => (0, 0, 0)
  | S754_finite false m e => (1, e, Zpos m)
  | S754_infinity false => (2, 0, 0)
  | S754_nan => (0, 0, 0)
  end.
Definition lex_lt (a b : Z * Z * Z) : Prop :=
  let '(a1, a2, a3) := a in let '(b1, b2, b3) := b in
  a1 < b1 \/ (a1 = b1 /\ (a2 < b2 \/ (a2 = b2 /\ a3 < b3))).
Definition not_nan (x : f64) : Prop := x <> S754_nan.

Lemma SFcompare_rank x y : not_nan x -> not_nan y ->
  match SFcompare x y with
  | Some Lt => lex_lt (rank x) (rank y)
  | Some Eq => rank x = rank y
  | Some Gt => lex_lt (rank y) (rank x)
  | None => False
  end.
Proof.
  unfold not_nan. destruct x as [s1|s1| |s1 m1 e1], y as [s2|s2| |s2 m2 e2]; try contradiction;
    try destruct s1; try destruct s2; intros H1 H2; cbn; try reflexivity; try lia; try congruence.
  - destruct (Z.compare_spec e1 e2) as [E|E|E]; cbn; try lia.
    rewrite Pos.compare_cont_spec. destruct (Pos.compare_spec m1 m2) as [M|M|M]; cbn; subst; try reflexivity; lia.
  - destruct (Z.compare_spec e1 e2) as [E|E|E]; cbn; try lia.
    rewrite Pos.compare_cont_spec. destruct (Pos.compare_spec m1 m2) as [M|M|M]; cbn; subst; try reflexivity; lia.
Qed.
Lemma SFcompare_nan_l y : SFcompare S754_nan y = None. Proof. reflexivity. Qed.
Lemma SFcompare_nan_r x : SFcompare x S754_nan = None. Proof. now destruct x as [[]|[]| |[]]. Qed.

Lemma lex_lt_trans a b c : lex_lt a b -> lex_lt b c -> lex_lt a c.
Proof. destruct a as [[a1 a2] a3], b as [[b1 b2] b3], c as [[c1 c2] c3]. cbn. lia. Qed.
Lemma lex_lt_irrefl a : ~ lex_lt a a.
Proof. destruct a as [[a1 a2] a3]. cbn. lia. Qed.
Lemma lex_total a b : lex_lt a b \/ a = b \/ lex_lt b a.
Proof.
  destruct a as [[a1 a2] a3], b as [[b1 b2] b3]. cbn.
  destruct (Z.lt_trichotomy a1 b1) as [H|[->|H]]; [lia| |lia].
  destruct (Z.lt_trichotomy a2 b2) as [H|[->|H]]; [lia| |lia].
  destruct (Z.lt_trichotomy a3 b3) as [H|[->|H]]; [lia| |lia]. right; left; reflexivity.
Qed.

Lemma SFltb_spec (x y : f64) : SFltb x y = true <-> not_nan x /\ not_nan y /\ lex_lt (rank x) (rank y).
Proof.
  unfold SFltb, not_nan. destruct (SFcompare x y) as [c|] eqn:E.
  - assert (Hx : x <> S754_nan) by (intros ->; discriminate).
    assert (Hy : y <> S754_nan) by (intros ->; rewrite SFcompare_nan_r in E; discriminate).
    pose proof (SFcompare_rank x y Hx Hy) as H. rewrite E in H.
    destruct c; split; intros G; try discriminate; try reflexivity; auto.
    + destruct G as (_ & _ & G). rewrite H in G. now apply lex_lt_irrefl in G.
    + destruct G as (_ & _ & G). exfalso. apply (lex_lt_irrefl (rank x)). eapply lex_lt_trans; eauto.
  - split; [discriminate|]. intros (Hx & Hy & _). pose proof (SFcompare_rank x y Hx Hy) as H. now rewrite E in H.
Qed.
Lemma SFleb_spec (x y : f64) : SFleb x y = true <-> not_nan x /\ not_nan y /\ ~ lex_lt (rank y) (rank x).
Proof.
  unfold SFleb, not_nan. destruct (SFcompare x y) as [c|] eqn:E.
  - assert (Hx : x <> S754_nan) by (intros ->; discriminate).
    assert (Hy : y <> S754_nan) by (intros ->; rewrite SFcompare_nan_r in E; discriminate).
    pose proof (SFcompare_rank x y Hx Hy) as H. rewrite E in H.
    destruct c; split; intros G; try discriminate; try reflexivity; auto.
    + repeat split; auto. rewrite H. apply lex_lt_irrefl.
    + repeat split; auto. intros G'. apply (lex_lt_irrefl (rank x)). eapply lex_lt_trans; eauto.
    + destruct G as (_ & _ & G). contradiction.
  - split; [discriminate|]. intros (Hx & Hy & _). pose proof (SFcompare_rank x y Hx Hy) as H. now rewrite E in H.
Qed.
Lemma SFltb_trans (x y z : f64) : SFltb x y = true -> SFltb y z = true -> SFltb x z = true.
Proof. rewrite !SFltb_spec. intros (H1 & H2 & H3) (H4 & H5 & H6). repeat split; auto. eapply lex_lt_trans; eauto. Qed.
Lemma SFltb_irrefl (x : f64) : SFltb x x = false.
Proof. destruct (SFltb x x) eqn:E; [|reflexivity]. apply SFltb_spec in E. destruct E as (_ & _ & E). now apply lex_lt_irrefl in E. Qed.
Lemma SFleb_ltb_trans (x y z : f64) : SFleb x y = true -> SFltb y z = true -> SFltb x z = true.
Proof.
  rewrite SFleb_spec, !SFltb_spec. intros (H1 & H2 & H3) (H4 & H5 & H6). repeat split; auto.
  destruct (lex_total (rank x) (rank y)) as [H|[H|H]]; [eapply lex_lt_trans; eauto|now rewrite H|contradiction].
Qed.
(** for numbers, "not less" is "greater or equal" *)
Lemma SFltb_false_leb (x y : f64) : not_nan x -> not_nan y -> SFltb x y = false -> SFleb y x = true.
Proof.
  intros Hx Hy H. apply SFleb_spec. repeat split; auto. intros G.
  assert (SFltb x y = true) by (apply SFltb_spec; auto). congruence.
Qed.

(** the square root is never below zero *)
Definition nonneg (x : f64) : Prop := match x with S754_nan => True | S754_infinity s => s = false | S754_finite s _ _ => s = false | S754_zero _ => True end.
Lemma binary_round_aux_nonneg m e l : nonneg (binary_round_aux p64 e64 false m e l).
Proof.
  unfold binary_round_aux. destruct (shr_fexp _ _ _ _ _) as [mrs e']. destruct (shr_fexp _ _ _ _ _) as [mrs' e''].
  destruct (shr_m mrs'); cbn; auto. destruct (_ <=? _)%Z; cbn; auto.
Qed.
Lemma SFsqrt_nonneg x : nonneg (SFsqrt p64 e64 x).
Proof.
  unfold SFsqrt. destruct x as [s|s| |s m e]; cbn; auto; destruct s; cbn; auto.
  destruct (SFsqrt_core_binary _ _ _ _) as [[m' e'] l]. apply binary_round_aux_nonneg.
Qed.
(** a tolerance of zero, below zero, or NaN *)
Definition not_positive (x : f64) : Prop := match x with S754_nan => True | S754_zero _ => True | S754_infinity s => s = true | S754_finite s _ _ => s = true end.
Lemma nonneg_not_below x tol : nonneg x -> not_positive tol -> SFltb x tol = false.
Proof.
  intros Hx Ht. destruct (SFltb x tol) eqn:E; [|reflexivity]. apply SFltb_spec in E. destruct E as (N1 & N2 & E). exfalso.
  destruct x as [s1|s1| |s1 m1 e1], tol as [s2|s2| |s2 m2 e2]; cbn in *; subst; try contradiction; cbn in E; lia.
Qed.
