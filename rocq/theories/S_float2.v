(** Specification of simulated Ornstein-Uhlenbeck processes with floating point numbers: C84. *)
From Coq Require Import String List Reals.
From Flocq Require Import IEEE754.BinarySingleNaN Core.
From Verif Require Import Base BaseArr BaseFloat M_sde M_float S_float.
Local Open Scope R_scope.

(** a point of the timeline, or one of the steps within its range *)
Definition grid_point (timeline pc : list float64) (p : R) : Prop :=
  exists q, B2R q = p /\ (In q timeline \/ (In q pc /\ exists a b, In a timeline /\ In b timeline /\ B2R a <= B2R q <= B2R b)).
(** p' follows p, moving away from t0 *)
Definition next_point (timeline pc : list float64) (t0 p p' : R) : Prop :=
  grid_point timeline pc p /\ grid_point timeline pc p' /\ (t0 <= p < p' \/ p' < p <= t0) /\
  forall q, grid_point timeline pc q -> ~ (Rmin p p' < q < Rmax p p').
(** Y has the values of the Euler scheme, in exact arithmetic, for dx = k (theta - x) dt + sigma dW *)
Definition euler_path (timeline pc : list float64) (W : R -> R) (x0 theta k sigma t0 : R) (Y : R -> R) : Prop :=
  Y t0 = x0 /\ forall p p', next_point timeline pc t0 p p' -> Y p' = Y p + k * (theta - Y p) * (p' - p) + sigma * (W p' - W p).
(** it is stable: steps do not amplify differences of values; values, and parts of increments, are not larger than P;
    steps are not longer than tau *)
Definition stable_path (timeline pc : list float64) (W : R -> R) (theta k sigma t0 : R) (Y : R -> R) (P tau : R) : Prop :=
  Rabs (Y t0) <= P /\ forall p p', next_point timeline pc t0 p p' ->
    0 <= k * (p' - p) <= 2 /\ Rabs (p' - p) <= tau /\
    Rabs (k * (theta - Y p) * (p' - p)) <= P /\ Rabs (sigma * (W p' - W p)) <= P /\ Rabs (Y p) <= P /\ Rabs (Y p') <= P.
(** error of n steps *)
Definition stable_bound (n : nat) (theta k sigma P tau delta : R) : R :=
  2 * INR n * (20 * uu * P + 2 * (Rabs sigma * delta) + (20 + 2 * tau + 16 * (Rabs k * (Rabs theta + P))) * eta).
(** finite data, far from the largest number *)
Definition stable_range (x0 theta k sigma : float64) (P tau delta : R) : Prop :=
  is_finite x0 = true /\ is_finite theta = true /\ is_finite k = true /\ is_finite sigma = true /\
  Rabs (B2R theta) <= bpow radix2 900 /\ Rabs (B2R k) <= bpow radix2 100 /\ Rabs (B2R sigma) * delta <= bpow radix2 800 /\
  P <= bpow radix2 900 /\ tau <= bpow radix2 900.
