(** Moments of laws evolving as prescribed by a generator. *)
From Coq Require Import String List Reals Lra.
From Coquelicot Require Import Coquelicot.
From Verif Require Import Base BaseNum BaseArr M_sde M_presets M_analytical S_analytical L_ode.
Import ListNotations.
Local Open Scope R_scope.

Section E.
Context {X : Type} (P : X -> Prop) (E : (X -> R) -> R).
Hypothesis HE : expectation P E.
Lemma E_ext f g : (forall x, P x -> f x = g x) -> E f = E g.
Proof. apply HE. Qed.
Lemma E_const c : E (fun _ => c) = c.
Proof. apply HE. Qed.
Lemma E_lin a f g : E (fun x => a * f x + g x) = a * E f + E g.
Proof. apply HE. Qed.
Lemma E_scal a f : E (fun x => a * f x) = a * E f.
Proof.
  transitivity (a * E f + E (fun _ => 0)); [|rewrite E_const; ring].
  rewrite <- E_lin. apply E_ext. intros; ring.
Qed.
Lemma E_add f g : E (fun x => f x + g x) = E f + E g.
Proof.
  transitivity (1 * E f + E g); [|ring]. rewrite <- E_lin. apply E_ext. intros; ring.
Qed.
(** c0 + c1 f1 + c2 f2 + ... *)
Lemma E_comb (g : X -> R) c0 c1 c2 c3 f1 f2 f3 :
  (forall x, P x -> g x = c0 + c1 * f1 x + c2 * f2 x + c3 * f3 x) -> E g = c0 + c1 * E f1 + c2 * E f2 + c3 * E f3.
Proof.
  intro H. rewrite (E_ext g _ H). rewrite !E_add, !E_scal, E_const. reflexivity.
Qed.
End E.

(** *** One equation, drift a0 + a1 x, squared diffusion b0 + b1 x (+ exponentials below) *)
Section One.
Variables (P : R -> Prop) (a b : R -> R) (x0 : R) (E : R -> (R -> R) -> R).
Hypothesis D : diffusion P a b x0 E.
Variables a0 a1 b0 b1 : R.
Hypothesis HA : forall x, P x -> a x = a0 + a1 * x.
Hypothesis HB : forall x, P x -> b x ^2 = b0 + b1 * x.

Lemma mean_ode : (forall t, 0 < t -> is_derive (fun s => E s (fun x => x)) t (a1 * E t (fun x => x) + a0)) /\
  filterlim (fun s => E s (fun x => x)) (at_right 0) (locally x0).
Proof.
  destruct D as (DE & (D1 & L1) & _). split; auto. intros t Ht. evar_last; [apply D1; auto|].
  rewrite (E_comb P (E t) (DE t Ht) _ a0 a1 0 0 (fun x => x) (fun x => x) (fun x => x)); [ring|].
  intros x Px. unfold gen1. rewrite (HA x Px). lra.
Qed.
Lemma var_ode : (forall t, 0 < t -> is_derive (fun s => variance (E s) (fun x => x)) t
     (2 * a1 * variance (E t) (fun x => x) + (b0 + b1 * E t (fun x => x)))) /\
  filterlim (fun s => variance (E s) (fun x => x)) (at_right 0) (locally 0).
Proof.
  destruct D as (DE & (D1 & L1) & (D2 & L2)). destruct mean_ode as [M _]. split.
  - intros t Ht. unfold variance. evar_last.
    { apply (is_derive_minus (fun s => E s (fun x => x^2))); [apply D2; auto|].
      apply (is_derive_pow (fun s => E s (fun x => x)) 2). apply M; auto. }
    rewrite (E_comb P (E t) (DE t Ht) _ b0 (2 * a0 + b1) (2 * a1) 0 (fun x => x) (fun x => x^2) (fun x => x)).
    + unfold minus, plus, opp; simpl. unfold plus, opp; simpl. ring.
    + intros x Px. unfold gen1. rewrite (HA x Px), (HB x Px). field.
  - unfold variance. replace 0 with (x0^2 - x0^2) at 2 by ring. apply filterlim_sub_sq; auto.
Qed.
End One.

Section OneExp.
Variables (a b : R -> R) (x0 m s : R) (E : R -> (R -> R) -> R).
Hypothesis D : exp_diffusion a b x0 E.
Hypothesis HA : forall x, a x = m - s*s/2.
Hypothesis HB : forall x, b x = s.
Lemma exp_mean_ode : (forall t, 0 < t -> is_derive (fun s => E s exp) t (m * E t exp + 0)) /\
  filterlim (fun s => E s exp) (at_right 0) (locally (exp x0)).
Proof.
  destruct D as (DE & (D1 & L1) & _). split; auto. intros t Ht. evar_last; [apply D1; auto|].
  rewrite (E_comb _ (E t) (DE t Ht) _ 0 m 0 0 exp exp exp); [ring|].
  intros x Px. unfold gen1. rewrite HA, HB. field.
Qed.
Lemma exp_var_ode : (forall t, 0 < t -> is_derive (fun r => variance (E r) exp) t
     ((2 * m + s*s) * variance (E t) exp + s*s * E t exp ^2)) /\
  filterlim (fun r => variance (E r) exp) (at_right 0) (locally 0).
Proof.
  destruct D as (DE & (D1 & L1) & (D2 & L2)). destruct exp_mean_ode as [M _]. split.
  - intros t Ht. unfold variance. evar_last.
    { apply (is_derive_minus (fun s => E s (fun x => exp x^2))); [apply D2; auto|].
      apply (is_derive_pow (fun s => E s exp) 2). apply M; auto. }
    rewrite (E_comb _ (E t) (DE t Ht) _ 0 (2 * m + s*s) 0 0 (fun x => exp x^2) exp exp).
    + unfold minus, plus, opp; simpl. unfold plus, opp; simpl. ring.
    + intros x Px. unfold gen1. rewrite HA, HB. field.
  - unfold variance. replace 0 with (exp x0^2 - exp x0^2) at 2 by ring. apply filterlim_sub_sq; auto.
Qed.
End OneExp.

(** *** Two equations *)
Section Two.
Variables (P : R * R -> Prop) (a1 b1 a2 b2 : R * R -> R) (rho : R) (x0 y0 : R) (E : R -> (R * R -> R) -> R).
Hypothesis D : diffusion2 P a1 b1 a2 b2 rho (x0, y0) E.
(** a1 = p0 + p1 x + p2 y, a2 = q0 + q2 y, b1^2 = u0 + u2 y, b1 b2 = w0 + w2 y, b2^2 = v0 + v2 y *)
Variables p0 p1 p2 q0 q2 u0 u2 v0 v2 w0 w2 : R.
Hypothesis H1 : forall p, P p -> a1 p = p0 + p1 * fst p + p2 * snd p.
Hypothesis H2 : forall p, P p -> a2 p = q0 + q2 * snd p.
Hypothesis H3 : forall p, P p -> b1 p ^2 = u0 + u2 * snd p.
Hypothesis H4 : forall p, P p -> b2 p ^2 = v0 + v2 * snd p.
Hypothesis H5 : forall p, P p -> b1 p * b2 p = w0 + w2 * snd p.
Notation mx t := (E t fst).
Notation my t := (E t snd).
Notation vx t := (variance (E t) fst).
Notation vy t := (variance (E t) snd).
Notation cxy t := (covariance (E t) fst snd).
Let sq1 := fun p : R * R => fst p ^2.
Let sq2 := fun p : R * R => snd p ^2.
Let pr := fun p : R * R => fst p * snd p.

Lemma mx_ode : (forall t, 0 < t -> is_derive (fun s => mx s) t (p1 * mx t + (p0 + p2 * my t))) /\
  filterlim (fun s => mx s) (at_right 0) (locally x0).
Proof.
  destruct D as (DE & (D1 & L1) & _). split; auto. intros t Ht. evar_last; [apply D1; auto|].
  rewrite (E_comb P (E t) (DE t Ht) _ p0 p1 p2 0 fst snd fst); [ring|].
  intros p Pp. unfold gen2. rewrite (H1 p Pp). lra.
Qed.
Lemma my_ode : (forall t, 0 < t -> is_derive (fun s => my s) t (q2 * my t + q0)) /\
  filterlim (fun s => my s) (at_right 0) (locally y0).
Proof.
  destruct D as (DE & _ & (D1 & L1) & _). split; auto. intros t Ht. evar_last; [apply D1; auto|].
  rewrite (E_comb P (E t) (DE t Ht) _ q0 q2 0 0 snd snd fst); [ring|].
  intros p Pp. unfold gen2. rewrite (H2 p Pp). lra.
Qed.
Lemma vy_ode : (forall t, 0 < t -> is_derive (fun s => vy s) t (2 * q2 * vy t + (v0 + v2 * my t))) /\
  filterlim (fun s => vy s) (at_right 0) (locally 0).
Proof.
  destruct D as (DE & _ & (_ & L2) & _ & _ & (D5 & L5)). destruct my_ode as [M _]. split.
  - intros t Ht. unfold variance. evar_last.
    { apply (is_derive_minus (fun s => E s sq2)); [apply D5; auto|].
      apply (is_derive_pow (fun s => E s snd) 2). apply M; auto. }
    rewrite (E_comb P (E t) (DE t Ht) _ v0 (2 * q0 + v2) (2 * q2) 0 snd sq2 fst).
    + fold sq2. unfold minus, plus, opp; simpl. unfold plus, opp; simpl. ring.
    + intros p Pp. unfold gen2, sq2. rewrite (H2 p Pp), (H4 p Pp). field.
  - unfold variance. replace 0 with (y0^2 - y0^2) at 2 by ring. apply filterlim_sub_sq; auto.
Qed.
Lemma cxy_ode : (forall t, 0 < t -> is_derive (fun s => cxy s) t
     ((p1 + q2) * cxy t + (p2 * vy t + rho * (w0 + w2 * my t)))) /\
  filterlim (fun s => cxy s) (at_right 0) (locally 0).
Proof.
  destruct D as (DE & (_ & L1) & (_ & L2) & _ & (D4 & L4) & _). destruct mx_ode as [MX _], my_ode as [MY _]. split.
  - intros t Ht. unfold covariance. evar_last.
    { apply (is_derive_minus (fun s => E s pr)); [apply D4; auto|].
      apply (is_derive_mult (fun s => E s fst) (fun s => E s snd)); [apply MX; auto|apply MY; auto|].
      intros; apply Rmult_comm. }
    rewrite (E_comb P (E t) (DE t Ht) _ (rho * w0) (p0 + rho * w2) q0 1 snd fst
               (fun p => (p1 + q2) * pr p + p2 * sq2 p)).
    + rewrite (E_lin P (E t) (DE t Ht)), (E_scal P (E t) (DE t Ht)). unfold variance. fold pr sq2.
      unfold minus, plus, opp, mult; simpl. unfold plus, opp; simpl. ring.
    + intros p Pp. unfold gen2, pr, sq2. rewrite (H1 p Pp), (H2 p Pp).
      replace (rho * b1 p * b2 p * 1) with (rho * (b1 p * b2 p)) by ring. rewrite (H5 p Pp). field.
  - unfold covariance. replace 0 with (x0 * y0 + - (x0 * y0)) at 2 by ring.
    apply (filterlim_comp_2 (G := locally (x0 * y0)) (H := locally (- (x0 * y0))) (fun s => E s pr) (fun s => - (E s fst * E s snd)) Rplus); auto.
    + apply (filterlim_comp _ _ _ (fun s => E s fst * E s snd) Ropp _ (locally (x0 * y0))).
      * apply (filterlim_comp_2 (G := locally x0) (H := locally y0) (fun s => E s fst) (fun s => E s snd) Rmult); auto.
        apply (filterlim_mult x0 y0).
      * apply (filterlim_opp (x0 * y0)).
    + apply (filterlim_plus (x0 * y0) (- (x0 * y0))).
Qed.
Lemma vx_ode : (forall t, 0 < t -> is_derive (fun s => vx s) t (2 * p1 * vx t + (2 * p2 * cxy t + (u0 + u2 * my t)))) /\
  filterlim (fun s => vx s) (at_right 0) (locally 0).
Proof.
  destruct D as (DE & (_ & L1) & _ & (D3 & L3) & _). destruct mx_ode as [M _]. split.
  - intros t Ht. unfold variance. evar_last.
    { apply (is_derive_minus (fun s => E s sq1)); [apply D3; auto|].
      apply (is_derive_pow (fun s => E s fst) 2). apply M; auto. }
    rewrite (E_comb P (E t) (DE t Ht) _ u0 u2 (2 * p0) 1 snd fst (fun p => 2 * p1 * sq1 p + 2 * p2 * pr p)).
    + rewrite (E_lin P (E t) (DE t Ht)), (E_scal P (E t) (DE t Ht)). unfold covariance. fold pr sq1.
      unfold minus, plus, opp; simpl. unfold plus, opp; simpl. ring.
    + intros p Pp. unfold gen2, pr, sq1. rewrite (H1 p Pp), (H3 p Pp). field.
  - unfold variance. replace 0 with (x0^2 - x0^2) at 2 by ring. apply filterlim_sub_sq; auto.
Qed.
End Two.
