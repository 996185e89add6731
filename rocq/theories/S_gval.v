(** Specification of Gaussian values, and of correlated normal variates. *)
From Coq Require Import List Arith ZArith Reals.
From Coquelicot Require Import Coquelicot.
From Verif Require Import Base BaseNum BaseArr BaseNd M_source S_source M_analytical S_law.
Import ListNotations.
Local Open Scope R_scope.

(** sums over a list *)
Definition rsum {A} (f : A -> R) (l : list A) : R := fold_right Rplus 0 (map f l).
Definition qsum {A} (c : A -> A -> R) (l : list A) (u : A -> C) : C :=
  csum (fun x => csum (fun y => RtoC (c x y) * (u x * u y))%C l) l.

(** The values X a, for a in l, are jointly Gaussian, with means m and covariances c: means of exponentials of their
    combinations, times any constant k. *)
Definition gaussian {G A} (E : (G -> R) -> R) (l : list A) (X : G -> A -> R) (m : A -> R) (c : A -> A -> R) : Prop :=
  forall (theta : A -> C) (k : C),
    has_mean E (fun g => k * cexp (csum (fun a => theta a * RtoC (X g a)) l))%C
      (k * cexp (csum (fun a => theta a * RtoC (m a)) l + RtoC (/2) * qsum c l theta))%C.
(** entries of N arrays of shape w *)
Definition entries (N : nat) (w : list nat) : list (nat * list nat) := list_prod (seq 0 N) (ndindex w).

(** Draws of arrays of normal variates of shape s + (M,), given a covariance matrix with the entries c: all have mean zero,
    c gives the covariances along the last axis, entries that differ in other places are independent, and all are
    independent of the state left by the draw. *)
Definition mvnormal_law {G} (L : nat -> (G -> R) -> R) (mvnormal : arr R -> list nat -> G -> res (arr R) * G)
           (M : nat) (c : nat -> nat -> R) (s : list nat) : Prop :=
  forall cov, shp cov = [M; M] -> (forall i j, (i < M)%nat -> (j < M)%nat -> dat cov [i; j] = c i j) ->
  forall d Phi u z,
    (forall a, shp a = (s ++ [M])%list ->
       has_mean (L d) (Phi a) (cexp (csum (fun ix => u ix * RtoC (dat a ix)) (ndindex (s ++ [M]))) * z)%C) ->
    has_mean (L (S d)) (after (mvnormal cov s) Phi)
      (cexp (RtoC (/2) * csum (fun r => qsum c (seq 0 M) (fun i => u (r ++ [i])%list)) (ndindex s)) * z)%C.

(** c is the matrix of correlations set by corr or rho, as constants, for values of shape vshape: between components
    along the last axis *)
Definition correlated (corr rho : input R) (vshape : list nat) (c : nat -> nat -> R) : Prop :=
  (corr = INone /\ rho = INone /\ forall i j, c i j = if Nat.eq_dec i j then 1 else 0) \/
  (exists a v M, corr = IArr a /\ vshape = (v ++ [M])%list /\ is_matrix M a /\
     forall i j, (i < M)%nat -> (j < M)%nat -> c i j = entry a i j) \/
  (exists a v n, corr = INone /\ rho = IArr a /\ vshape = (v ++ [(2*n)%nat])%list /\ is_vector n a /\
     forall i j, (i < 2*n)%nat -> (j < 2*n)%nat ->
       c i j = if Nat.eq_dec i j then 1 else if Nat.eq_dec (i + n)%nat j then rho_at a i else if Nat.eq_dec (j + n)%nat i then rho_at a j else 0).
(** correlation of entries of arrays of shape vshape + (paths,): zero if they differ in other places than the last
    axis of vshape *)
Definition entry_corr (c : nat -> nat -> R) (ix jx : list nat) : R :=
  match rev ix, rev jx with
  | p :: m :: r, q :: n :: s => if list_eq_dec Nat.eq_dec (p :: r) (q :: s) then c m n else 0
  | l, l' => if list_eq_dec Nat.eq_dec l l' then 1 else 0
  end.

(** Mean reverting processes, dx = k (theta - x) dt + sigma dw: covariance of values at times s and t, starting at 0 from
    a constant, of two such processes with k1 and k2, if sigma and the correlation of dw are 1. *)
Definition revert_cov (k1 k2 s t : R) : R := RInt (fun r => exp (-k1*(s - r)) * exp (-k2*(t - r))) 0 (Rmin s t).

(** the mean of exp(i u x), x being a normal variate of mean m and variance v *)
Definition normal_chf (m v u : R) : C := (exp (-(u*u/2*v)) * cos (u*m), exp (-(u*u/2*v)) * sin (u*m)).
(** real and imaginary parts differ by no more than e *)
Definition close (z z' : C) (e : R) : Prop := Rabs (fst z - fst z') <= e /\ Rabs (snd z - snd z') <= e.
