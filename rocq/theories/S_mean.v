(** Specification of means of functions of simulated values. *)
From Coq Require Import List Reals.
From Coquelicot Require Import Coquelicot.
From Verif Require Import Base BaseArr BaseNd S_rv S_gval.
Import ListNotations.
Local Open Scope R_scope.

(** continuous functions, of at most exponential growth *)
Definition exp_growth (f : R -> R) : Prop :=
  (forall x, continuous f x) /\ exists C c, 0 <= C /\ 0 <= c /\ forall x, Rabs (f x) <= C * exp (c * Rabs x).
(** v is the mean of f(x), x being a normal variate of mean m and standard deviation s *)
Definition normal_mean (m s : R) (f : R -> R) (v : R) : Prop := mean_normal (fun z => f (m + s * z)) v.
(** 1 if x <= y, 0 otherwise: its mean is the probability of x <= y *)
Definition at_most (y x : R) : R := if Rle_dec x y then 1 else 0.
(** 1 if a < x <= b, 0 otherwise *)
Definition between (a b x : R) : R := if Rlt_dec a x then if Rle_dec x b then 1 else 0 else 0.
Definition rprod {A} (f : A -> R) (l : list A) : R := fold_right Rmult 1 (map f l).
(** Draws of arrays of shape s of independent standard normal variates, as [normal_law], for sums of products of functions of
    the entries: integration is linear. *)
Definition normal_sums {G} (L : nat -> (G -> R) -> R) (normal : list nat -> G -> res (arr R) * G) (s : list nat) : Prop :=
  forall d (Phi : arr R -> G -> R) K (z : nat -> R) (F : nat -> list nat -> R -> R) (m : nat -> list nat -> R),
    (forall a, shp a = s -> L d (Phi a) = rsum (fun k => z k * rprod (fun ix => F k ix (dat a ix)) (ndindex s)) (seq 0 K)) ->
    (forall k ix, (k < K)%nat -> inb s ix -> mean_normal (F k ix) (m k ix)) ->
    L (S d) (fun g => match normal s g with (Ok a, g') => Phi a g' | (Err _, _) => 0 end) = rsum (fun k => z k * rprod (m k) (ndindex s)) (seq 0 K).
