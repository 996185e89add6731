(** Specifications for densities and distribution functions. *)
From Coq Require Import Reals.
From Coquelicot Require Import Coquelicot.
Local Open Scope R_scope.

(** what is used of scipy.special.ndtr: it is the distribution function of the standard normal *)
Definition std_normal_cdf (Phi : R -> R) : Prop :=
  (forall x, is_derive Phi x (exp (- (x*x/2))/sqrt (2*PI))) /\ is_lim Phi m_infty 0.

(** integrals on the line, and on the positive half line *)
Definition line (f : R -> R) (v : R) : Prop := is_RInt_gen f (Rbar_locally m_infty) (Rbar_locally p_infty) v.
Definition half_line (f : R -> R) (v : R) : Prop := is_RInt_gen f (at_right 0) (Rbar_locally p_infty) v.

(** p is the density of a random number, P its distribution function *)
Definition density (p P : R -> R) : Prop :=
  (forall x, 0 <= p x) /\ (forall x, is_derive P x (p x)) /\ is_lim P m_infty 0 /\ is_lim P p_infty 1 /\ line p 1.
(** the same, of a positive random number *)
Definition pos_density (p P : R -> R) : Prop :=
  (forall x, x <= 0 -> p x = 0 /\ P x = 0) /\ (forall x, 0 <= p x) /\ (forall x, 0 < x -> is_derive P x (p x)) /\
  filterlim P (at_right 0) (locally 0) /\ is_lim P p_infty 1 /\ half_line p 1.
(** mean m and variance v *)
Definition moments (I : (R -> R) -> R -> Prop) (p : R -> R) (m v : R) : Prop :=
  I (fun x => x * p x) m /\ I (fun x => (x - m)^2 * p x) v.
(** mean of exp(iuf(x)) *)
Definition fourier (I : (R -> R) -> R -> Prop) (f p : R -> R) (c : R -> C) : Prop :=
  forall u, I (fun x => cos (u * f x) * p x) (fst (c u)) /\ I (fun x => sin (u * f x) * p x) (snd (c u)).

(** forward (Fokker-Planck) equation of dx = a dt + b dw for the density p at time t:
    dp/dt = - d(a p)/dx + 1/2 d^2(b^2 p)/dx^2 *)
Definition forward (a b : R -> R) (p : R -> R -> R) (t x : R) : Prop :=
  exists (pt ap bp2 : R) (bp1 : R -> R),
    is_derive (fun s => p s x) t pt /\ is_derive (fun z => a z * p t z) x ap /\
    (forall z, is_derive (fun z => b z ^2 * p t z) z (bp1 z)) /\ is_derive bp1 x bp2 /\ pt = - ap + bp2/2.
(** at time 0, the state is x0 *)
Definition starts_at (x0 : R) (P : R -> R -> R) : Prop :=
  (forall x, x < x0 -> filterlim (fun t => P t x) (at_right 0) (locally 0)) /\
  (forall x, x0 < x -> filterlim (fun t => P t x) (at_right 0) (locally 1)).
