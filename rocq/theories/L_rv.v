(** Lemmas on jump distributions: integrals. *)
From Coq Require Import List Reals Lra Psatz.
From Coquelicot Require Import Coquelicot.
From Verif Require Import Base BaseNum BaseArr M_source M_rv S_rv.
Local Open Scope R_scope.

(** integrals over half lines, from an antiderivative *)
Lemma integral_to_infinity (f F : R -> R) (a L : R) : (forall x, is_derive F x (f x)) -> (forall x, continuous f x) -> is_lim F p_infty L ->
  is_RInt_gen f (at_point a) (Rbar_locally p_infty) (L - F a).
Proof.
  intros D C H. assert (I : forall M, is_RInt f a M (F M - F a)).
  { intro M. apply (is_RInt_derive (V := R_CompleteNormedModule) F f); intros; auto. }
  intros P HP. assert (K : is_lim (fun M => F M - F a) p_infty (L - F a)).
  { apply is_lim_minus with L (F a); [exact H|apply is_lim_const|reflexivity]. }
  unfold is_lim in K. specialize (K P HP). unfold filtermapi. destruct K as [M K].
  exists (fun x => x = a) (fun y => M < y); [reflexivity|exists M; auto|]. intros x y -> Y. exists (F y - F a). split; [apply I|apply K; exact Y].
Qed.

Lemma exp_neg_lim c : 0 < c -> is_lim (fun x => exp (- (c*x))) p_infty 0.
Proof.
  intro C. apply is_lim_ext with (fun x => exp (- c*x)); [intro x; f_equal; ring|]. apply (is_lim_comp exp (fun x => - c*x) p_infty 0 m_infty).
  - apply is_lim_exp_m.
  - assert (E : Rbar_mult (- c) p_infty = m_infty). { unfold Rbar_mult, Rbar_mult'. destruct (Rle_dec 0 (- c)); [exfalso; lra|]. reflexivity. }
    rewrite <- E. apply is_lim_scal_l. apply is_lim_id.
  - exists 0. intros y Y. discriminate.
Qed.
Lemma x_exp_neg_lim : is_lim (fun x => x*exp (- x)) p_infty 0.
Proof.
  apply is_lim_ext with (fun x => - ((- x)*exp (- x))); [intro x; ring|]. replace (Finite 0) with (Rbar_opp 0) by (simpl; f_equal; ring). apply is_lim_opp.
  apply (is_lim_comp (fun y => y*exp y) (fun x => - x) p_infty 0 m_infty).
  - apply is_lim_mul_exp_m.
  - replace m_infty with (Rbar_opp p_infty) by reflexivity. apply is_lim_opp. apply is_lim_id.
  - exists 0. intros y Y. discriminate.
Qed.
Lemma xx_exp_neg_lim : is_lim (fun x => x*x*exp (- x)) p_infty 0.
Proof.
  (* x^2 exp(-x) = 4*((x/2) exp(-x/2))^2 *)
  assert (H : is_lim (fun x => (x/2)*exp (- (x/2))) p_infty 0).
  { apply (is_lim_comp (fun y => y*exp (- y)) (fun x => x/2) p_infty 0 p_infty).
    - apply x_exp_neg_lim.
    - apply is_lim_ext with (fun x => /2*x); [intro x; field|]. assert (E : Rbar_mult (/2) p_infty = p_infty). { unfold Rbar_mult, Rbar_mult'. destruct (Rle_dec 0 (/2)) as [H|H]; [|exfalso; lra]. destruct (Rle_lt_or_eq_dec 0 (/2) H); [reflexivity|exfalso; lra]. }
      rewrite <- E at 2. apply is_lim_scal_l. apply is_lim_id.
    - exists 0. intros y Y. discriminate. }
  apply is_lim_ext with (fun x => 4*(((x/2)*exp (- (x/2)))*((x/2)*exp (- (x/2))))).
  { intro x. replace (- x) with (- (x/2) + - (x/2)) by field. rewrite exp_plus. field. }
  replace (Finite 0) with (Rbar_mult 4 (Rbar_mult 0 0)) by (simpl; f_equal; ring). apply is_lim_scal_l. apply is_lim_mult; [exact H|exact H|exact I].
Qed.

(** *** polynomials of degree two under the exponential density *)
Lemma mean_exp_poly a b c : mean_exp (fun e => a + b*e + c*(e*e)) (a + b + 2*c).
Proof.
  unfold mean_exp. set (F := fun e => - ((a + b + 2*c + (b + 2*c)*e + c*(e*e))*exp (- e))).
  replace (a + b + 2*c) with (0 - F 0) by (unfold F; replace (- 0) with 0 by ring; rewrite exp_0; ring).
  apply integral_to_infinity.
  - intro x. unfold F. auto_derive; auto. ring.
  - intro x. apply (ex_derive_continuous (V := R_NormedModule)). auto_derive; auto.
  - unfold F. apply is_lim_ext with (fun x => - (a + b + 2*c)*exp (- (1*x)) + (- (b + 2*c)*(x*exp (- x)) + - c*(x*x*exp (- x)))); [intro x; rewrite Rmult_1_l; ring|].
    replace (Finite 0) with (Rbar_plus (Rbar_mult (- (a + b + 2*c)) 0) (Rbar_plus (Rbar_mult (- (b + 2*c)) 0) (Rbar_mult (- c) 0))) by (simpl; f_equal; ring).
    repeat apply is_lim_plus'; simpl; rewrite ?Rmult_0_r.
    + replace (Finite 0) with (Rbar_mult (- (a + b + 2*c)) 0) by (simpl; f_equal; ring). apply is_lim_scal_l, exp_neg_lim. lra.
    + replace (Finite 0) with (Rbar_mult (- (b + 2*c)) 0) by (simpl; f_equal; ring). apply is_lim_scal_l, x_exp_neg_lim.
    + replace (Finite 0) with (Rbar_mult (- c) 0) by (simpl; f_equal; ring). apply is_lim_scal_l, xx_exp_neg_lim.
Qed.
Lemma mean_exp_exp a : a < 1 -> mean_exp (fun e => exp (a*e)) (1/(1 - a)).
Proof.
  intro A. unfold mean_exp. set (F := fun e => - (exp (- ((1 - a)*e))/(1 - a))).
  replace (1/(1 - a)) with (0 - F 0) by (unfold F; rewrite Rmult_0_r, Ropp_0, exp_0; field; lra).
  apply integral_to_infinity.
  - intro x. unfold F. auto_derive; auto. replace (a*x) with (x + - ((1 - a)*x)) by ring. rewrite exp_plus. replace (exp x * exp (- ((1 - a)*x)) * exp (- x)) with (exp (- ((1 - a)*x)) * (exp x * exp (- x))) by ring. rewrite <- (exp_plus x), Rplus_opp_r, exp_0. field. lra.
  - intro x. apply (ex_derive_continuous (V := R_NormedModule)). auto_derive; auto.
  - unfold F. apply is_lim_ext with (fun x => - /(1 - a)*exp (- ((1 - a)*x))); [intro x; field; lra|]. replace (Finite 0) with (Rbar_mult (- /(1 - a)) 0) by (simpl; f_equal; ring). apply is_lim_scal_l, exp_neg_lim. lra.
Qed.
Lemma infinite_mean_exp_exp a : 1 <= a -> infinite_mean_exp (fun e => exp (a*e)).
Proof.
  intro A. split; [intros; apply exp_pos|].
  assert (K : forall M, 0 <= M -> M <= RInt (fun e => exp (a*e)*exp (- e)) 0 M).
  { intros M HM. replace M with (RInt (fun _ : R => 1) 0 M) at 1 by (rewrite RInt_const; unfold scal; simpl; unfold mult; simpl; ring).
    apply RInt_le; auto.
    - apply ex_RInt_const.
    - apply (ex_RInt_continuous (V := R_CompleteNormedModule)). intros z _. apply (ex_derive_continuous (V := R_NormedModule)). auto_derive; auto.
    - intros x X. rewrite <- exp_plus, <- exp_0 at 1. destruct (Rle_lt_or_eq_dec 1 a A) as [L|<-]; [|right; f_equal; ring]. left. apply exp_increasing. nra. }
  intros P [M HP]. exists (Rmax 0 M). intros x X. apply HP. pose proof (Rmax_l 0 M). pose proof (Rmax_r 0 M). specialize (K x). lra.
Qed.
(** a step function of a uniform variate *)
Lemma mean_step p A B (f : R -> R) : 0 <= p <= 1 -> (forall u, 0 < u < p -> f u = A) -> (forall u, p < u < 1 -> f u = B) -> mean_uniform f (p*A + (1 - p)*B).
Proof.
  intros P HA HB. unfold mean_uniform. apply (is_RInt_Chasles (V := R_NormedModule) f 0 p 1 (p*A) ((1 - p)*B)).
  - apply is_RInt_ext with (fun _ => A). { intros u U. rewrite Rmin_left, Rmax_right in U by lra. symmetry. apply HA; auto. } replace (p*A) with ((p - 0)*A) by ring. apply (is_RInt_const (V := R_NormedModule)).
  - apply is_RInt_ext with (fun _ => B). { intros u U. rewrite Rmin_left, Rmax_right in U by lra. symmetry. apply HB; auto. } apply (is_RInt_const (V := R_NormedModule)).
Qed.
