(** Ordered time points, with IEEE-like comparison. *)
From Coq Require Import List Bool ZArith Lia Reals.
From Verif Require Import Base.
Import ListNotations.

(** Comparison operators [<] and [==] of a numeric type. *)
Class TOrd (T : Type) := { tltb : T -> T -> bool; teqb : T -> T -> bool }.

Definition tleb {T} `{TOrd T} (a b : T) : bool := tltb a b || teqb a b.

(** NaN is the only double different from itself. *)
Definition isnum {T} `{TOrd T} (a : T) : Prop := teqb a a = true.

(** Laws of IEEE 754 comparison.  [teqb] need not be Leibniz equality
    (0.0 == -0.0), and NaN compares false with everything. *)
Class TOrdLaws (T : Type) `{TOrd T} := {
  teq_sym : forall a b, teqb a b = true -> teqb b a = true;
  teq_trans : forall a b c, teqb a b = true -> teqb b c = true -> teqb a c = true;
  tlt_num : forall a b, tltb a b = true -> isnum a /\ isnum b;
  tlt_irrefl : forall a b, teqb a b = true -> tltb a b = false;
  tlt_trans : forall a b c, tltb a b = true -> tltb b c = true -> tltb a c = true;
  tlt_eq_l : forall a b c, teqb a b = true -> tltb a c = tltb b c;
  tlt_eq_r : forall a b c, teqb a b = true -> tltb c a = tltb c b;
  ttotal : forall a b, isnum a -> isnum b ->
             tltb a b = true \/ teqb a b = true \/ tltb b a = true
}.

(** Instances. *)
#[global] Instance TOrd_Z : TOrd Z := { tltb := Z.ltb; teqb := Z.eqb }.
#[global] Instance TOrdLaws_Z : TOrdLaws Z.
Proof.
  split; unfold isnum; simpl; intros;
    repeat match goal with
           | H : (_ =? _)%Z = true |- _ => apply Z.eqb_eq in H
           | H : (_ <? _)%Z = true |- _ => apply Z.ltb_lt in H
           end; subst; auto;
    try (apply Z.eqb_refl); try (apply Z.ltb_ge; lia); try (apply Z.ltb_lt; lia).
  - split; apply Z.eqb_refl.
  - destruct (Z.lt_trichotomy a b) as [L|[E|L]];
      [left; apply Z.ltb_lt | right; left; apply Z.eqb_eq
       | right; right; apply Z.ltb_lt]; assumption.
Qed.

(** Reals: the comparison is classical, hence not executable. *)
#[global] Instance TOrd_R : TOrd R :=
  { tltb := fun a b => if Rlt_dec a b then true else false;
    teqb := fun a b => if Req_EM_T a b then true else false }.

Lemma tltb_R_true a b : tltb a b = true <-> (a < b)%R.
Proof. simpl; destruct (Rlt_dec a b); split; intro; auto; discriminate || contradiction. Qed.
Lemma teqb_R_true a b : teqb a b = true <-> a = b.
Proof. simpl; destruct (Req_EM_T a b); split; intro; auto; discriminate || contradiction. Qed.
Lemma tltb_R_false a b : tltb a b = false <-> (b <= a)%R.
Proof.
  simpl; destruct (Rlt_dec a b); split; intro; auto; try discriminate.
  - exfalso; apply (Rlt_not_le _ _ r); assumption.
  - apply Rnot_lt_le; assumption.
Qed.

#[global] Instance TOrdLaws_R : TOrdLaws R.
Proof.
  split; unfold isnum; intros.
  - rewrite teqb_R_true in *; auto.
  - rewrite teqb_R_true in *; congruence.
  - rewrite !teqb_R_true; auto.
  - rewrite teqb_R_true in H; rewrite tltb_R_false; subst; apply Rle_refl.
  - rewrite tltb_R_true in *; eapply Rlt_trans; eauto.
  - rewrite teqb_R_true in H; subst; auto.
  - rewrite teqb_R_true in H; subst; auto.
  - rewrite !tltb_R_true, teqb_R_true.
    destruct (Rtotal_order a b) as [L|[E|L]]; auto.
Qed.

(** [np.unique]: sorted distinct elements.  Elements that compare equal are
    represented by one of them.  (NaN entries, if any, go last; the code only
    calls it on data that may contain NaN to reject it.) *)
Fixpoint uinsert {T} `{TOrd T} (x : T) (l : list T) : list T :=
  match l with
  | [] => [x]
  | y :: l' => if tltb x y then x :: l
               else if teqb x y then l
               else y :: uinsert x l'
  end.

Definition unique {T} `{TOrd T} (l : list T) : list T := fold_right uinsert [] l.

(** [np.array_equal] on one dimensional arrays. *)
Fixpoint array_equal {T} `{TOrd T} (a b : list T) : bool :=
  match a, b with
  | [], [] => true
  | x :: a', y :: b' => teqb x y && array_equal a' b'
  | _, _ => false
  end.
