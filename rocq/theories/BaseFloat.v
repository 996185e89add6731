(** IEEE 754 double precision numbers (Flocq's [binary_float 53 1024], a single
    NaN) satisfy the comparison laws used for time points. *)
From Coq Require Import ZArith Bool Reals Lra Lia Floats.SpecFloat.
From Flocq Require Import IEEE754.BinarySingleNaN Core.
From Verif Require Import BaseOrd.

Definition float64 := binary_float 53 1024.

#[global] Instance TOrd_float64 : TOrd float64 :=
  { tltb := @Bltb 53 1024; teqb := @Beqb 53 1024 }.

Definition f_nan (x : float64) : bool := is_nan x.

(** position of a number: tag -1 (minus infinity), 0 (finite), 1 (infinity). *)
Definition f_tag (x : float64) : Z :=
  match x with
  | B754_infinity true => -1
  | B754_infinity false => 1
  | _ => 0
  end%Z.
Definition f_val (x : float64) : R := B2R x.

Lemma Bltb_spec (x y : float64) :
  Bltb x y = true <->
  (f_nan x = false /\ f_nan y = false /\
   ((f_tag x < f_tag y)%Z \/ (f_tag x = f_tag y /\ f_val x < f_val y)%R)).
Proof.
  destruct (is_finite x && is_finite y) eqn:F.
  - apply andb_true_iff in F; destruct F as [Fx Fy].
    rewrite (Bltb_correct _ _ _ _ Fx Fy).
    assert (Tx : f_tag x = 0%Z) by (destruct x as [?|[]| |]; simpl in *; congruence).
    assert (Ty : f_tag y = 0%Z) by (destruct y as [?|[]| |]; simpl in *; congruence).
    assert (Nx : f_nan x = false) by (destruct x; simpl in *; congruence).
    assert (Ny : f_nan y = false) by (destruct y; simpl in *; congruence).
    rewrite Tx, Ty, Nx, Ny; unfold f_val.
    case Rlt_bool_spec; intro; split; intro H0; auto; try discriminate.
    destruct H0 as [_ [_ [H0|[_ H0]]]]; [lia | lra].
  - destruct x as [[]|[]| |[] ? ? ?], y as [[]|[]| |[] ? ? ?]; simpl in F; try discriminate F;
      unfold Bltb, SFltb; simpl; unfold f_val; simpl; split; intro H;
      try discriminate; auto;
      try (exfalso; intuition (discriminate || lia || lra));
      try (repeat split; try reflexivity; left; lia).
Qed.

Lemma Beqb_spec (x y : float64) :
  Beqb x y = true <->
  (f_nan x = false /\ f_nan y = false /\ f_tag x = f_tag y /\ f_val x = f_val y).
Proof.
  destruct (is_finite x && is_finite y) eqn:F.
  - apply andb_true_iff in F; destruct F as [Fx Fy].
    rewrite (Beqb_correct _ _ _ _ Fx Fy).
    assert (Tx : f_tag x = 0%Z) by (destruct x as [?|[]| |]; simpl in *; congruence).
    assert (Ty : f_tag y = 0%Z) by (destruct y as [?|[]| |]; simpl in *; congruence).
    assert (Nx : f_nan x = false) by (destruct x; simpl in *; congruence).
    assert (Ny : f_nan y = false) by (destruct y; simpl in *; congruence).
    rewrite Tx, Ty, Nx, Ny; unfold f_val.
    case Req_bool_spec; intro; split; intro H0; auto; try discriminate.
    destruct H0 as [_ [_ [_ H0]]]; contradiction.
  - destruct x as [[]|[]| |[] ? ? ?], y as [[]|[]| |[] ? ? ?]; simpl in F; try discriminate F;
      unfold Beqb, SFeqb; simpl; unfold f_val; simpl; split; intro H;
      try discriminate; auto;
      try (exfalso; intuition discriminate).
Qed.

Lemma isnum_float (x : float64) : isnum x <-> f_nan x = false.
Proof.
  unfold isnum; change (teqb x x) with (Beqb x x); rewrite Beqb_spec; tauto.
Qed.

#[global] Instance TOrdLaws_float64 : TOrdLaws float64.
Proof.
  assert (LT : forall a b : float64, tltb a b = Bltb a b) by reflexivity.
  assert (EQ : forall a b : float64, teqb a b = Beqb a b) by reflexivity.
  split; intros.
  - rewrite EQ in *; apply Beqb_spec in H; apply Beqb_spec; intuition congruence.
  - rewrite EQ in *; apply Beqb_spec in H, H0; apply Beqb_spec; intuition congruence.
  - rewrite LT in *; apply Bltb_spec in H; rewrite !isnum_float; tauto.
  - rewrite LT, EQ in *; apply Beqb_spec in H.
    destruct (Bltb a b) eqn:E; auto. apply Bltb_spec in E.
    destruct H as [_ [_ [H1 H2]]], E as [_ [_ [E|[_ E]]]]; [lia | lra].
  - rewrite LT in *; apply Bltb_spec in H, H0; apply Bltb_spec.
    destruct H as [Na [Nb H]], H0 as [_ [Nc H0]]; repeat split; auto.
    destruct H as [H|[H1 H2]], H0 as [H0|[H3 H4]]; try (left; lia).
    right; split; [lia | lra].
  - rewrite !LT, EQ in *; apply Beqb_spec in H.
    destruct H as [Na [Nb [H1 H2]]].
    apply eq_iff_eq_true; rewrite !Bltb_spec, Na, Nb, H1, H2; tauto.
  - rewrite !LT, EQ in *; apply Beqb_spec in H.
    destruct H as [Na [Nb [H1 H2]]].
    apply eq_iff_eq_true; rewrite !Bltb_spec, Na, Nb, H1, H2; tauto.
  - rewrite !LT, EQ, !Bltb_spec, Beqb_spec; rewrite isnum_float in *.
    destruct (Z.lt_trichotomy (f_tag a) (f_tag b)) as [L|[E|L]].
    + left; auto.
    + destruct (Rtotal_order (f_val a) (f_val b)) as [L1|[E1|L1]].
      * left; auto 6.
      * right; left; auto.
      * right; right; auto 6.
    + right; right; auto.
Qed.
