(** Specifications for the density of the Cox-Ingersoll-Ross process. *)
From Coq Require Import Reals.
From Coquelicot Require Import Coquelicot.
From Verif Require Import S_analytical S_dist.
Local Open Scope R_scope.

(** *** Special functions *)
(** Euler's gamma function, on positive numbers *)
Definition euler_gamma (gamma : R -> R) : Prop := forall a, 0 < a -> half_line (fun x => Rpower x (a - 1) * exp (- x)) (gamma a).
(** what is used of scipy.special.iv: it is the modified Bessel function of the first kind,
    I_q(z) = sum over n of (z/2)^(2n + q)/(n! gamma(n + q + 1)) *)
Definition bessel_i (gamma : R -> R) (iv : R -> R -> R) : Prop := forall q z, -1 < q -> 0 < z ->
  is_series (fun n => Rpower (z/2) (2*INR n + q) / (INR (fact n) * gamma (INR n + q + 1))) (iv q z).

(** *** Laws of one equation *)
(** forward equation, as [S_dist.forward], on positive states *)
Definition forward_pos (a b : R -> R) (p : R -> R -> R) (t x : R) : Prop :=
  exists (pt ap bp2 : R) (bp1 : R -> R),
    is_derive (fun s => p s x) t pt /\ is_derive (fun z => a z * p t z) x ap /\
    (forall z, 0 < z -> is_derive (fun z => b z ^2 * p t z) z (bp1 z)) /\ is_derive bp1 x bp2 /\ pt = - ap + bp2/2.
(** h, on times from 0 to T and states in P, has the needed derivatives and h_s + L h = 0 *)
Definition harmonic1 (P : R -> Prop) (a b : R -> R) (T : R) (h : R -> R -> R) : Prop :=
  exists hs hx hxx : R -> R -> R, forall s x, 0 <= s <= T -> P x ->
    is_derive (fun z => h z x) s (hs s x) /\ is_derive (fun z => h s z) x (hx s x) /\ is_derive (fun z => hx s z) x (hxx s x) /\
    continuity_2d_pt h s x /\ continuity_2d_pt hs s x /\ hs s x + gen1 a b (hx s) (hxx s) x = 0.
(** E are expected values at time T of the solution that starts at x0 and stays in P: bounded functions h as above
    give martingales, E h(T, X_T) = h(0, x0) *)
Definition law1 (P : R -> Prop) (a b : R -> R) (x0 T : R) (E : (R -> R) -> R) : Prop :=
  expectation P E /\
  forall h B, (forall s x, 0 <= s <= T -> P x -> Rabs (h s x) <= B) -> harmonic1 P a b T h -> E (h T) = h 0 x0.
