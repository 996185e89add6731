(** Specification of simulations with floating point numbers: C79. *)
From Coq Require Import String List Reals.
From Flocq Require Import IEEE754.BinarySingleNaN Core.
From Verif Require Import Base BaseArr BaseFloat M_sde M_float.
Local Open Scope R_scope.

(** unit roundoff, and half of the smallest positive number *)
Definition uu : R := bpow radix2 (-53).
Definition eta : R := bpow radix2 (-1075).

(** The source gives the increments of W, as functions of real times, between the times in l, with an error not larger
    than delta; it never fails, and [Adm] is kept. *)
Definition near_source {Wd} (w : list nat) (l : list float64) (dw : Wd -> float64 -> float64 -> res (Wd * arr float64))
           (Adm : Wd -> Prop) (W : R -> list nat -> R) (delta : list nat -> R) : Prop :=
  forall wd t dt, Adm wd -> exists wd' z, dw wd t dt = Ok (wd', z) /\ Adm wd' /\ can (shp z) w = true /\
    forall t' s s' ix, dt = f_sub t' t -> In s l -> In s' l -> B2R s = B2R t -> B2R s' = B2R t' -> inb w ix -> is_finite (bget z ix) = true ->
      Rabs (B2R (bget z ix) - (W (B2R s') ix - W (B2R s) ix)) <= delta ix.
(** parameter k is the constant a *)
Definition const_float_arg (args : dict (param float64 float64)) (k : string) (a : arr float64) : Prop :=
  lookup k args = Some (PConst a).
(** x0 + a (t - t0) + b (W(t) - W(t0)) *)
Definition wiener_path (W : R -> R) (x0 a b t0 t : R) : R := x0 + a * (t - t0) + b * (W t - W t0).
(** its values, and the parts of its increments, between times in l are not larger than P *)
Definition bounded_path (l : list float64) (W : R -> R) (x0 a b t0 P : R) : Prop :=
  forall s s', In s l -> In s' l ->
    Rabs (a * (B2R s' - B2R s)) <= P /\ Rabs (b * (W (B2R s') - W (B2R s))) <= P /\ Rabs (wiener_path W x0 a b t0 (B2R s)) <= P.
(** error of n steps *)
Definition rounding_bound (n : nat) (a b P delta : R) : R :=
  2 * INR n * (8 * uu * P + 2 * (Rabs b * delta) + 8 * ((1 + Rabs a) * eta)).

(** finite data, far from the largest number *)
Definition in_range (l : list float64) (x0 a b : float64) (P delta : R) : Prop :=
  is_finite x0 = true /\ is_finite a = true /\ is_finite b = true /\
  (forall s, In s l -> is_finite s = true) /\ (forall s s', In s l -> In s' l -> Rabs (B2R s' - B2R s) <= bpow radix2 1000) /\
  P <= bpow radix2 1000 /\ Rabs (B2R b) * delta <= bpow radix2 900.
(** values of the source are finite *)
Definition finite_source {Wd} (w : list nat) (dw : Wd -> float64 -> float64 -> res (Wd * arr float64)) (Adm : Wd -> Prop) : Prop :=
  forall wd t dt wd' z ix, Adm wd -> is_finite t = true -> is_finite dt = true -> dw wd t dt = Ok (wd', z) -> inb w ix -> is_finite (bget z ix) = true.
(** exp has relative error not larger than r, for numbers up to 700 *)
Definition accurate_exp (fexp : float64 -> float64) (r : R) : Prop :=
  forall v, is_finite v = true -> Rabs (B2R v) <= 700 ->
    is_finite (fexp v) = true /\ Rabs (B2R (fexp v) - exp (B2R v)) <= r * exp (B2R v).
(** the double precision number nearest to z, ties to even (without bounds on its magnitude) *)
Definition nearest (z : R) : R := round radix2 (FLT_exp (-1074) 53) ZnearestE z.
