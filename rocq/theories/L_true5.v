(** Matrices as functions: algebra up to equality of the entries below n. *)
From Coq Require Import List Arith Bool Lia ZArith Reals Lra Setoid Morphisms.
From Verif Require Import Base BaseNum BaseArr S_true2.
Import ListNotations.
Local Open Scope R_scope.

Lemma msum_S n f : msum (S n) f = msum n f + f n.
Proof. unfold msum. rewrite seq_S, fold_right_app. cbn [fold_right Nat.add]. generalize (seq 0 n). induction l; simpl; lra. Qed.
Lemma msum_0 f : msum 0 f = 0.
Proof. reflexivity. Qed.
Lemma msum_ext n f h : (forall i, (i < n)%nat -> f i = h i) -> msum n f = msum n h.
Proof. induction n; intro H; [auto|]. rewrite !msum_S, IHn by auto. rewrite H by lia. auto. Qed.
Lemma msum_add n f h : msum n (fun i => f i + h i) = msum n f + msum n h.
Proof. induction n; [rewrite !msum_0; ring|]. rewrite !msum_S, IHn. ring. Qed.
Lemma msum_scale n a f : msum n (fun i => a * f i) = a * msum n f.
Proof. induction n; [rewrite !msum_0; ring|]. rewrite !msum_S, IHn. ring. Qed.
Lemma msum_scale_r n a f : msum n (fun i => f i * a) = msum n f * a.
Proof. induction n; [rewrite !msum_0; ring|]. rewrite !msum_S, IHn. ring. Qed.
Lemma msum_zero n : msum n (fun _ => 0) = 0.
Proof. induction n; auto. rewrite msum_S, IHn. ring. Qed.
Lemma msum_swap n m (f : nat -> nat -> R) : msum n (fun i => msum m (f i)) = msum m (fun j => msum n (fun i => f i j)).
Proof.
  induction n; [rewrite msum_0; symmetry; apply msum_zero|]. rewrite msum_S, IHn, <- msum_add. apply msum_ext. intros. rewrite msum_S. auto.
Qed.
Lemma msum_one n i f : (i < n)%nat -> msum n (fun k => (if (i =? k)%nat then 1 else 0) * f k) = f i.
Proof.
  induction n; intro L; [lia|]. rewrite msum_S. destruct (Nat.eqb_spec i n) as [->|NE].
  - rewrite (msum_ext n _ (fun _ => 0)); [rewrite msum_zero; ring|]. intros k Lk. destruct (Nat.eqb_spec n k); [lia|ring].
  - rewrite IHn by lia. ring.
Qed.

Global Instance meq_equiv n : Equivalence (meq n).
Proof. split; [intros X i j _ _; auto|intros X Y H i j Li Lj; symmetry; auto|]. intros X Y Z H1 H2 i j Li Lj. rewrite H1, H2; auto. Qed.
Global Instance mplus_proper n : Proper (meq n ==> meq n ==> meq n) mplus.
Proof. intros X X' HX Y Y' HY i j Li Lj. unfold mplus. rewrite HX, HY; auto. Qed.
Global Instance mscale_proper n a : Proper (meq n ==> meq n) (mscale a).
Proof. intros X X' HX i j Li Lj. unfold mscale. rewrite HX; auto. Qed.
Global Instance mprod_proper n : Proper (meq n ==> meq n ==> meq n) (mprod n).
Proof. intros X X' HX Y Y' HY i j Li Lj. apply msum_ext. intros k Lk. rewrite HX, HY; auto. Qed.
Global Instance mtrans_proper n : Proper (meq n ==> meq n) mtrans.
Proof. intros X X' HX i j Li Lj. apply HX; auto. Qed.
Section Algebra.
Variable n : nat.
Local Notation "X == Y" := (meq n X Y) (at level 70).
Local Notation "X * Y" := (mprod n X Y).
Local Notation "X + Y" := (mplus X Y).
Lemma mprod_assoc X Y Z : X * (Y * Z) == (X * Y) * Z.
Proof.
  intros i j _ _. unfold mprod. rewrite (msum_ext n _ (fun k => msum n (fun l => (X i k * (Y k l * Z l j))%R))) by (intros; rewrite <- msum_scale; auto).
  rewrite msum_swap. apply msum_ext. intros l _. rewrite <- msum_scale_r. apply msum_ext. intros. ring.
Qed.
Lemma mprod_plus_l X Y Z : (X + Y) * Z == X * Z + Y * Z.
Proof. intros i j _ _. unfold mprod, mplus. rewrite <- msum_add. apply msum_ext. intros. ring. Qed.
Lemma mprod_plus_r X Y Z : Z * (X + Y) == Z * X + Z * Y.
Proof. intros i j _ _. unfold mprod, mplus. rewrite <- msum_add. apply msum_ext. intros. ring. Qed.
Lemma mprod_one_l X : mone * X == X.
Proof. intros i j Li Lj. apply (msum_one n i (fun k => X k j) Li). Qed.
Lemma mtrans_prod X Y : mtrans (X * Y) == mtrans Y * mtrans X.
Proof. intros i j _ _. unfold mtrans, mprod. apply msum_ext. intros. ring. Qed.
Lemma mtrans_one : mtrans mone == mone.
Proof. intros i j _ _. unfold mtrans, mone. rewrite Nat.eqb_sym. auto. Qed.
Lemma mtrans_plus X Y : mtrans (X + Y) == mtrans X + mtrans Y.
Proof. intros i j _ _. auto. Qed.
Lemma mtrans_invol X : mtrans (mtrans X) == X.
Proof. intros i j _ _. auto. Qed.
Lemma mtrans_scale a X : mtrans (mscale a X) == mscale a (mtrans X).
Proof. intros i j _ _. auto. Qed.
Lemma mprod_one_r X : X * mone == X.
Proof. rewrite <- (mtrans_invol (X * mone)), mtrans_prod, mtrans_one, mprod_one_l, mtrans_invol. reflexivity. Qed.
Lemma mprod_scale_l a X Y : mscale a X * Y == mscale a (X * Y).
Proof. intros i j _ _. unfold mprod, mscale. rewrite <- msum_scale. apply msum_ext. intros. ring. Qed.
Lemma mprod_scale_r a X Y : X * mscale a Y == mscale a (X * Y).
Proof. intros i j _ _. unfold mprod, mscale. rewrite <- msum_scale. apply msum_ext. intros. ring. Qed.
(** the inverse of a symmetric matrix is symmetric *)
Lemma inverse_symmetric X J : symmetric n X -> inverse_of n X J -> symmetric n J.
Proof.
  intros S [H1 H2]. unfold symmetric in *. symmetry. rewrite <- (mprod_one_r (mtrans J)), <- H1, mprod_assoc. rewrite S at 1. rewrite <- mtrans_prod, H1, mtrans_one, mprod_one_l. reflexivity.
Qed.
Variables A B J : matrix.
Hypothesis SA : symmetric n A.
Hypothesis SB : symmetric n B.
Hypothesis Inv : inverse_of n (A + B) J.
Local Notation Z := (B * J).
Let SA' : A == mtrans A := SA.
Let SB' : B == mtrans B := SB.
Lemma sum_symmetric : symmetric n (A + B).
Proof using SA SB. unfold symmetric in *. rewrite mtrans_plus, <- SA, <- SB. reflexivity. Qed.
Lemma J_symmetric : J == mtrans J.
Proof using SA SB Inv. apply (inverse_symmetric (A + B)); auto. apply sum_symmetric. Qed.
Lemma Z_sum : Z * (A + B) == B.
Proof using Inv. rewrite <- mprod_assoc, (proj2 Inv), mprod_one_r. reflexivity. Qed.
(** the identity minus Z is A times the inverse *)
Lemma A_J : A * J + Z == mone.
Proof using Inv. rewrite <- mprod_plus_l. apply Inv. Qed.
Lemma A_J_sum : A * J * (A + B) == A.
Proof using Inv. rewrite <- mprod_assoc, (proj2 Inv), mprod_one_r. reflexivity. Qed.
Lemma Z_trans : mtrans Z == J * B.
Proof using SA SB Inv. rewrite mtrans_prod. rewrite <- J_symmetric, <- SB'. reflexivity. Qed.
Lemma AJ_trans : mtrans (A * J) == J * A.
Proof using SA SB Inv. rewrite mtrans_prod. rewrite <- J_symmetric, <- SA'. reflexivity. Qed.
(** B J A = A J B *)
Lemma ZA_swap : Z * A == A * J * B.
Proof using Inv.
  assert (H1 : Z * A + Z * B == B) by (rewrite <- mprod_plus_r; apply Z_sum).
  assert (H2 : A * J * B + Z * B == B) by (rewrite <- mprod_plus_l, A_J, mprod_one_l; reflexivity).
  intros i j Li Lj. specialize (H1 i j Li Lj). specialize (H2 i j Li Lj). unfold mplus in H1, H2. lra.
Qed.
Lemma ZA_symmetric : symmetric n (Z * A).
Proof using SA SB Inv. unfold symmetric. rewrite mtrans_prod, Z_trans, <- SA', ZA_swap, mprod_assoc. reflexivity. Qed.
(** (1-Z)(A+B)(1-Z)' + ZA = A,  Z(A+B)Z' + ZA = B,  Z(A+B)(1-Z)' = ZA *)
Lemma first_part : A * J * (A + B) * mtrans (A * J) + Z * A == A.
Proof using SA SB Inv. rewrite A_J_sum, AJ_trans, mprod_assoc, <- mprod_plus_l, A_J, mprod_one_l. reflexivity. Qed.
Lemma second_part : Z * (A + B) * mtrans Z + Z * A == B.
Proof using SA SB Inv. rewrite Z_sum, Z_trans, ZA_swap, mprod_assoc. intros i j Li Lj. unfold mplus. rewrite Rplus_comm. fold (mplus (A * J * B) (Z * B) i j). rewrite <- (mprod_plus_l (A * J) Z B i j Li Lj). rewrite (mprod_proper n _ _ A_J _ _ (reflexivity B) i j Li Lj). apply mprod_one_l; auto. Qed.
Lemma cross_part : Z * (A + B) * mtrans (A * J) == Z * A.
Proof using SA SB Inv. rewrite Z_sum, AJ_trans, mprod_assoc. reflexivity. Qed.
End Algebra.
