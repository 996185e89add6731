(** Specifications for true_wiener_source with time dependent correlations (C22): matrices. *)
From Coq Require Import List Arith ZArith Reals.
From Verif Require Import Base BaseNum BaseArr.
Import ListNotations.
Local Open Scope R_scope.

(** square matrices of size n, as functions of the indices below n *)
Definition matrix : Type := nat -> nat -> R.
Definition msum (n : nat) (f : nat -> R) : R := fold_right (fun k s => f k + s) 0 (seq 0 n).
Definition mprod (n : nat) (X Y : matrix) : matrix := fun i j => msum n (fun k => X i k * Y k j).
Definition mplus (X Y : matrix) : matrix := fun i j => X i j + Y i j.
Definition mscale (a : R) (X : matrix) : matrix := fun i j => a * X i j.
Definition mtrans (X : matrix) : matrix := fun i j => X j i.
Definition mone : matrix := fun i j => if (i =? j)%nat then 1 else 0.
Definition mzero : matrix := fun _ _ => 0.
Definition meq (n : nat) (X Y : matrix) : Prop := forall i j, (i < n)%nat -> (j < n)%nat -> X i j = Y i j.
Definition symmetric (n : nat) (X : matrix) : Prop := meq n X (mtrans X).
Definition inverse_of (n : nat) (X Y : matrix) : Prop := meq n (mprod n X Y) mone /\ meq n (mprod n Y X) mone.
(** the matrix of an array *)
Definition entries (a : arr R) : matrix := fun i j => dat a [i; j].
(** np.linalg.inv, of matrices of size n: the inverse, if there is one *)
Definition inv_ok (n : nat) (inv : arr R -> res (arr R)) : Prop :=
  forall x J, shp x = [n; n] -> inverse_of n (entries x) J -> exists y, inv x = Ok y /\ shp y = [n; n] /\ inverse_of n (entries x) (entries y).
(** linear functionals, expectations among them *)
Definition linear {Omega} (E : (Omega -> R) -> R) : Prop :=
  (forall X Y, (forall o, X o = Y o) -> E X = E Y) /\ (forall X Y, E (fun o => X o + Y o) = E X + E Y) /\ (forall a X, E (fun o => a * X o) = a * E X).
(** E(X_i Y_j) = C_ij *)
Definition second_moments {Omega} (E : (Omega -> R) -> R) (n : nat) (X Y : nat -> Omega -> R) (C : matrix) : Prop :=
  forall i j, (i < n)%nat -> (j < n)%nat -> E (fun o => X i o * Y j o) = C i j.
