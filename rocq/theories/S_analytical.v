(** Specification vocabulary for the analytical results. *)
From Coq Require Import String List Arith Bool Reals.
From Coquelicot Require Import Coquelicot.
From Verif Require Import Base BaseNum BaseArr M_sde M_presets M_analytical.
Import ListNotations.
Local Open Scope R_scope.

(** *** Laws *)
(** Expected values, as a functional on functions of the state, in a set P of states:
    linear, of a constant the constant itself, dependent on the values in P only. *)
Definition expectation {X} (P : X -> Prop) (E : (X -> R) -> R) : Prop :=
  (forall a f g, E (fun x => a * f x + g x) = a * E f + E g) /\
  (forall c, E (fun _ => c) = c) /\
  (forall f g, (forall x, P x -> f x = g x) -> E f = E g).
(** The law [E t] of the state at time t evolves as [L] prescribes for the function f:
    d/dt E f(X_t) = E (L f)(X_t), and E f(X_t) tends to the value of f at the start. *)
Definition evolves {X} (E : R -> (X -> R) -> R) (f Lf : X -> R) (start : X) : Prop :=
  (forall t, 0 < t -> is_derive (fun s => E s f) t (E t Lf)) /\
  filterlim (fun s => E s f) (at_right 0) (locally (f start)).

(** *** Generators (Ito) *)
(** of dx = a dt + b dw, for a function with derivatives f1, f2 *)
Definition gen1 (a b : R -> R) (f1 f2 : R -> R) (x : R) : R := a x * f1 x + b x ^2 / 2 * f2 x.
(** of a two dimensional diffusion whose dw have correlation rho *)
Definition gen2 (a1 b1 a2 b2 : R * R -> R) (rho : R) (fx fy fxx fxy fyy : R * R -> R) (p : R * R) : R :=
  a1 p * fx p + a2 p * fy p + b1 p ^2 / 2 * fxx p + rho * b1 p * b2 p * fxy p + b2 p ^2 / 2 * fyy p.
(** jumps of law J and intensity lam *)
Definition gen_jump (lam : R) (J : (R -> R) -> R) (f : R -> R) (x : R) : R := lam * (J (fun z => f (x + z)) - f x).

(** *** Coefficients returned by a method sde, for constant scalar parameters *)
Definition sde_fun := R -> arr R -> dict (arr R) -> res (sdeval R).
Definition scalars (args : dict R) : dict (arr R) := map (fun p => (fst p, ascalar (snd p))) args.
Definition coef (sde : sde_fun) (args : dict R) (id : string) (f : R -> R) : Prop :=
  forall t x, exists d c, sde t (ascalar x) (scalars args) = Ok (RDict d) /\ lookup id d = Some c /\
    shp c = [] /\ dat c [] = f x.
Definition sde2_fun := R -> list (arr R) -> dict (arr R) -> res (sdeval R).
Definition coef2 (sde : sde2_fun) (args : dict R) (i : nat) (id : string) (f : R * R -> R) : Prop :=
  forall t x y, exists ds d c, sde t [ascalar x; ascalar y] (scalars args) = Ok (RSeq ds) /\
    nth_error ds i = Some (RDict d) /\ lookup id d = Some c /\ shp c = [] /\ dat c [] = f (x, y).

(** a law whose first two moments evolve as prescribed by dx = a dt + b dw *)
Definition diffusion (P : R -> Prop) (a b : R -> R) (x0 : R) (E : R -> (R -> R) -> R) : Prop :=
  (forall t, 0 < t -> expectation P (E t)) /\
  evolves E (fun x => x) (gen1 a b (fun _ => 1) (fun _ => 0)) x0 /\
  evolves E (fun x => x^2) (gen1 a b (fun x => 2*x) (fun _ => 2)) x0.
(** the same for the exponential of the state *)
Definition exp_diffusion (a b : R -> R) (x0 : R) (E : R -> (R -> R) -> R) : Prop :=
  (forall t, 0 < t -> expectation (fun _ => True) (E t)) /\
  evolves E exp (gen1 a b exp exp) x0 /\
  evolves E (fun x => exp x ^2) (gen1 a b (fun x => 2 * exp x ^2) (fun x => 4 * exp x ^2)) x0.
(** a law whose moments up to the second evolve as prescribed by a pair of equations *)
Definition diffusion2 (P : R * R -> Prop) (a1 b1 a2 b2 : R * R -> R) (rho : R) (start : R * R)
           (E : R -> (R * R -> R) -> R) : Prop :=
  let L := gen2 a1 b1 a2 b2 rho in
  let zero := fun _ : R * R => 0 in
  (forall t, 0 < t -> expectation P (E t)) /\
  evolves E fst (L (fun _ => 1) zero zero zero zero) start /\
  evolves E snd (L zero (fun _ => 1) zero zero zero) start /\
  evolves E (fun p => fst p ^2) (L (fun p => 2 * fst p) zero (fun _ => 2) zero zero) start /\
  evolves E (fun p => fst p * snd p) (L snd fst zero (fun _ => 1) zero) start /\
  evolves E (fun p => snd p ^2) (L zero (fun p => 2 * snd p) zero zero (fun _ => 2)) start.
(** the mean of the exponential of a jump diffusion *)
Definition exp_jump_diffusion (a b : R -> R) (lam : R) (J : (R -> R) -> R) (x0 : R) (E : R -> (R -> R) -> R) : Prop :=
  (forall t, 0 < t -> expectation (fun _ => True) (E t)) /\
  evolves E exp (fun x => gen1 a b exp exp x + gen_jump lam J exp x) x0.

Definition variance {X} (E : (X -> R) -> R) (f : X -> R) : R := E (fun x => f x ^2) - E f ^2.
Definition covariance {X} (E : (X -> R) -> R) (f g : X -> R) : R := E (fun x => f x * g x) - E f * E g.

(** *** Characteristic functions of jumps *)
(** normal with mean a and standard deviation b *)
Definition normal_chf (a b u : R) : C := cexp (- (b*b*u*u/2), a*u).
(** exponential with mean a; the opposite of one *)
Definition exp_chf (a u : R) : C := (/ (1 - Ci * a * u))%C.
Definition double_exp_chf (a b pa u : R) : C := (pa * exp_chf a u + (1 - pa)%R * exp_chf b (-u))%C.
(** number of jumps Poisson with mean lam*t *)
Definition compound_poisson_chf (lam t : R) (phi : C) : C := cexp ((lam*t)%R * (phi - 1))%C.

(** *** Normal cdf *)
(** what is used of scipy.stats.norm.cdf *)
Definition symmetric_cdf (Phi : R -> R) : Prop := forall x, Phi (- x) = 1 - Phi x.
Definition normal_cdf (Phi : R -> R) : Prop :=
  symmetric_cdf Phi /\ exists c, forall x, is_derive Phi x (c * exp (- x^2/2)).
(** prices are defined *)
Definition bs_domain (k t x0 : R) : Prop := 0 <= t /\ ((0 < k /\ 0 <= x0) \/ (k < 0 /\ x0 <= 0) \/ (k = 0 /\ 0 < x0)).

(** *** Parameters of the equations *)
Section Args.
Open Scope string_scope.
Definition ou_args (theta k sigma : R) : dict R := [("theta", theta); ("k", k); ("sigma", sigma)].
Definition bm_args (mu sigma : R) : dict R := [("mu", mu); ("sigma", sigma)].
Definition cir_args (theta k xi : R) : dict R := [("theta", theta); ("k", k); ("xi", xi)].
Definition heston_args (mu sigma theta k xi : R) : dict R :=
  [("mu", mu); ("sigma", sigma); ("theta", theta); ("k", k); ("xi", xi)].
End Args.
Definition all_R : R -> Prop := fun _ => True.
Definition nonneg : R -> Prop := fun x => 0 <= x.
Definition y_nonneg : R * R -> Prop := fun p => 0 <= snd p.
Definition all_R2 : R * R -> Prop := fun _ => True.
(** the covariance of the two factors *)
Definition hw2f_cov (k1 k2 s1 s2 rho t : R) : R := rho*s1*s2/(k1 + k2) * (1 - exp (-(k1 + k2)*t)).
