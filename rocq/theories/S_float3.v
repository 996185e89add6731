(** Specification of cumulated means of floating point numbers: C85. *)
From Coq Require Import String List ZArith Reals.
From Flocq Require Import IEEE754.BinarySingleNaN Core.
From Verif Require Import Base BaseArr BaseNd BaseFloat M_float S_mc S_float.
Local Open Scope R_scope.

(** samples whose data points have shape v *)
Definition batches (v : list nat) (l : list (arr float64 * Z)) : Prop := List.Forall (fun x => exists m, batch v m x /\ (0 < m)%nat) l.
(** the values of component ix are finite and not larger than P; in each sample there are at most B *)
Definition values_up_to (l : list (arr float64 * Z)) (ix : list nat) (B : nat) (P : R) : Prop :=
  (forall x, In x l -> (length (values x ix) <= B)%nat) /\
  (forall z, In z (all_values l ix) -> is_finite z = true /\ Rabs (B2R z) <= P) /\
  bpow radix2 (-1022) <= P <= bpow radix2 900.
(** error of the mean of k samples of at most B values, not larger than P *)
Definition mean_bound (B k : nat) (P : R) : R := (2 * INR B + 12 * INR k + 4) * uu * P.
