(** Specifications for the densities computed from characteristic functions. *)
From Coq Require Import Reals.
From Coquelicot Require Import Coquelicot.
From Verif Require Import M_rv S_dist S_rv.
Local Open Scope R_scope.

(** what is used of scipy.integrate.quad(f, -inf, inf): it gives the integral of f, if there is one *)
Definition integrates (quad : (R -> R) -> R) : Prop := forall f v, line f v -> quad f = v.
(** p is a continuous density *)
Definition cont_density (p : R -> R) : Prop := (forall x, continuous p x) /\ (forall x, 0 <= p x) /\ line p 1.
(** density of the normal distribution of mean m and variance v *)
Definition gaussian (m v x : R) : R := exp (- ((x - m)^2/(2*v)))/sqrt (2*PI*v).
(** probability that a Poisson variate of mean l is n *)
Definition poisson_prob (l : R) (n : nat) : R := exp (- l) * l^n/INR (fact n).
(** p is the density of a variate of density f0 plus a sum of jumps: the number of jumps is a Poisson variate of mean l, the jumps
    are independent of it, of each other and of the first variate; [E h v] says that the mean of h(jump) is v.
    f n is the density of the first variate plus n jumps. *)
Definition jump_mixture (E : (R -> R) -> R -> Prop) (f0 : R -> R) (l : R) (p : R -> R) : Prop :=
  exists f : nat -> R -> R, (forall x, f O x = f0 x) /\ (forall n x, E (fun j => f n (x - j)) (f (S n) x)) /\
    (forall n, cont_density (f n)) /\ (forall x, is_series (fun n => poisson_prob l n * f n x) (p x)).
(** the jumps of a Merton process (norm_rv) and of a Kou process (double_exp_rv) *)
Definition normal_jump (a b : R) (h : R -> R) (v : R) : Prop := mean_normal (fun z => h (norm_variate a b z)) v.
Definition double_jump (a b pa : R) (h : R -> R) (v : R) : Prop := mean_double (fun e1 e2 u => h (double_variate a b pa e1 e2 u)) v.
