(** Specifications for the characteristic function of the Heston process. *)
From Coq Require Import String List Reals.
From Coquelicot Require Import Coquelicot.
From Verif Require Import Base M_sde M_presets M_analytical S_analytical.
Local Open Scope R_scope.

(** *** Derivative of a complex function of a real variable *)
Definition cder (f : R -> C) (t : R) (l : C) : Prop :=
  is_derive (fun s => fst (f s)) t (fst l) /\ is_derive (fun s => snd (f s)) t (snd l).
(** complex numbers out of the cut of the principal logarithm *)
Definition slit (z : C) : Prop := 0 < fst z \/ snd z <> 0.

(** *** Backward equation *)
(** of a pair of equations with drifts a1, a2, diffusion coefficients b1, b2 of dw with correlation rho, for a complex function of time
    to go and state: df/dt = a1 f_x + a2 f_y + b1^2/2 f_xx + rho b1 b2 f_xy + b2^2/2 f_yy *)
Definition backward2 (a1 b1 a2 b2 : R * R -> R) (rho : R) (f : R -> R -> R -> C) (t x y : R) : Prop :=
  exists (ft fxx fxy fyy : C) (fx fy : R -> R -> C),
    cder (fun s => f s x y) t ft /\
    (forall x y, cder (fun z => f t z y) x (fx x y)) /\ (forall x y, cder (fun z => f t x z) y (fy x y)) /\
    cder (fun z => fx z y) x fxx /\ cder (fun z => fx x z) y fxy /\ cder (fun z => fy x z) y fyy /\
    ft = (a1 (x, y) * fx x y + a2 (x, y) * fy x y + (b1 (x, y) ^2/2)%R * fxx + (rho*b1 (x, y)*b2 (x, y))%R * fxy +
          (b2 (x, y) ^2/2)%R * fyy)%C.

(** *** Law of the state at time T (martingale problem) *)
(** h, on times from 0 to T and states in P, has the needed derivatives and h_s + L h = 0 *)
Definition harmonic2 (P : R * R -> Prop) (a1 b1 a2 b2 : R * R -> R) (rho T : R) (h : R -> R * R -> R) : Prop :=
  exists hs hx hy hxx hxy hyy : R -> R * R -> R, forall s x y, 0 <= s <= T -> P (x, y) ->
    is_derive (fun z => h z (x, y)) s (hs s (x, y)) /\
    is_derive (fun z => h s (z, y)) x (hx s (x, y)) /\ is_derive (fun z => h s (x, z)) y (hy s (x, y)) /\
    is_derive (fun z => hx s (z, y)) x (hxx s (x, y)) /\ is_derive (fun z => hx s (x, z)) y (hxy s (x, y)) /\
    is_derive (fun z => hy s (x, z)) y (hyy s (x, y)) /\
    continuity_2d_pt (fun s x => h s (x, y)) s x /\ continuity_2d_pt (fun s x => hs s (x, y)) s x /\
    hs s (x, y) + gen2 a1 b1 a2 b2 rho (hx s) (hy s) (hxx s) (hxy s) (hyy s) (x, y) = 0.
(** E are expected values at time T of the solution that starts at [start] and stays in P: bounded functions h as above
    give martingales, E h(T, X_T) = h(0, start) *)
Definition law2 (P : R * R -> Prop) (a1 b1 a2 b2 : R * R -> R) (rho : R) (start : R * R) (T : R) (E : (R * R -> R) -> R) : Prop :=
  expectation P E /\
  forall h B, (forall s p, 0 <= s <= T -> P p -> Rabs (h s p) <= B) -> harmonic2 P a1 b1 a2 b2 rho T h -> E (h T) = h 0 start.
