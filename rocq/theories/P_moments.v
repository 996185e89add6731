(** Properties of the analytical moments: C55, C56, C58, C59. *)
From Coq Require Import String List Arith Bool Reals Lra Lia.
From Coquelicot Require Import Coquelicot.
From Verif Require Import Base BaseNum BaseArr M_sde M_presets M_analytical S_analytical L_ode L_moments L_coefs.
Import ListNotations.
Local Open Scope R_scope.

(** *** C55: any law whose moments evolve as prescribed by the coefficients returned by
    the method sde has the analytical mean and variance *)

Lemma oruh_mean_ode x0 theta k sigma t : is_derive (oruh_mean x0 theta k sigma) t (-k * oruh_mean x0 theta k sigma t + k * theta).
Proof. unfold oruh_mean. auto_derive; auto. ring. Qed.
Lemma oruh_var_ode x0 theta k sigma t : k <> 0 ->
  is_derive (oruh_var x0 theta k sigma) t (2 * -k * oruh_var x0 theta k sigma t + (sigma*sigma + 0 * oruh_mean x0 theta k sigma t)).
Proof. intro K. unfold oruh_var. auto_derive; auto. field. auto. Qed.

Theorem C55_wiener x0 mu sigma a b E : coef wiener_sde (bm_args mu sigma) "dt" a -> coef wiener_sde (bm_args mu sigma) "dw" b ->
  diffusion all_R a b x0 E -> forall t, 0 < t ->
  E t (fun x => x) = wiener_mean x0 mu sigma t /\ variance (E t) (fun x => x) = wiener_var x0 mu sigma t.
Proof.
  intros CA CB D. pose proof (coef_fun _ _ _ _ _ CA (wiener_dt mu sigma)) as HA. pose proof (coef_fun _ _ _ _ _ CB (wiener_dw mu sigma)) as HB.
  apply (closed_moments all_R a b x0 mu 0 (sigma*sigma) 0 (wiener_mean x0 mu sigma) (wiener_var x0 mu sigma)); auto.
  - intros x _. rewrite HA. ring.
  - intros x _. rewrite HB. ring.
  - intro t. unfold wiener_mean. auto_derive; auto. ring.
  - intro t. unfold wiener_var. auto_derive; auto. ring.
  - unfold wiener_mean. ring.
  - unfold wiener_var. ring.
Qed.
Theorem C55_oruh x0 theta k sigma a b E : k <> 0 ->
  coef ou_sde (ou_args theta k sigma) "dt" a -> coef ou_sde (ou_args theta k sigma) "dw" b ->
  diffusion all_R a b x0 E -> forall t, 0 < t ->
  E t (fun x => x) = oruh_mean x0 theta k sigma t /\ variance (E t) (fun x => x) = oruh_var x0 theta k sigma t.
Proof.
  intros K CA CB D. pose proof (coef_fun _ _ _ _ _ CA (ou_dt theta k sigma)) as HA. pose proof (coef_fun _ _ _ _ _ CB (ou_dw theta k sigma)) as HB.
  apply (closed_moments all_R a b x0 (k*theta) (-k) (sigma*sigma) 0 (oruh_mean x0 theta k sigma) (oruh_var x0 theta k sigma)); auto.
  - intros x _. rewrite HA. ring.
  - intros x _. rewrite HB. ring.
  - intro t. apply oruh_mean_ode.
  - intro t. apply oruh_var_ode; auto.
  - unfold oruh_mean. rewrite Rmult_0_r, exp_0. ring.
  - unfold oruh_var. rewrite Rmult_0_r, exp_0. field. auto.
Qed.
(** such laws exist, the coefficients being those of the methods sde *)
Theorem C55_exists x0 : (forall mu sigma, exists a b E, coef wiener_sde (bm_args mu sigma) "dt" a /\
     coef wiener_sde (bm_args mu sigma) "dw" b /\ diffusion all_R a b x0 E) /\
  forall theta k sigma, k <> 0 -> exists a b E, coef ou_sde (ou_args theta k sigma) "dt" a /\
     coef ou_sde (ou_args theta k sigma) "dw" b /\ diffusion all_R a b x0 E.
Proof.
  split.
  - intros mu sigma. exists (fun _ => mu), (fun _ => sigma).
    destruct (closed_exists all_R (fun _ => mu) (fun _ => sigma) x0 mu 0 (sigma*sigma) 0 (wiener_mean x0 mu sigma) (wiener_var x0 mu sigma)) as [E HE];
      try exact I; [intros; ring|intros; ring| | | | |exists E; split; [apply wiener_dt|split; [apply wiener_dw|exact HE]]].
    + intro t. unfold wiener_mean. auto_derive; auto. ring.
    + intro t. unfold wiener_var. auto_derive; auto. ring.
    + unfold wiener_mean. ring.
    + unfold wiener_var. ring.
  - intros theta k sigma K. exists (fun x => k * (theta - x)), (fun _ => sigma).
    destruct (closed_exists all_R (fun x => k * (theta - x)) (fun _ => sigma) x0 (k*theta) (-k) (sigma*sigma) 0 (oruh_mean x0 theta k sigma) (oruh_var x0 theta k sigma)) as [E HE];
      try exact I; [intros; ring|intros; ring| | | | |exists E; split; [apply ou_dt|split; [apply ou_dw|exact HE]]].
    + intro t. apply (oruh_mean_ode x0 theta k sigma).
    + intro t. apply (oruh_var_ode x0 theta k sigma); auto.
    + unfold oruh_mean. rewrite Rmult_0_r, exp_0. ring.
    + unfold oruh_var. rewrite Rmult_0_r, exp_0. field. auto.
Qed.
Theorem C55_start x0 mu theta k sigma : wiener_mean x0 mu sigma 0 = x0 /\ wiener_var x0 mu sigma 0 = 0 /\
  oruh_mean x0 theta k sigma 0 = x0 /\ oruh_var x0 theta k sigma 0 = 0.
Proof.
  unfold wiener_mean, wiener_var, oruh_mean, oruh_var. rewrite !Rmult_0_r, exp_0.
  repeat split; ring.
Qed.
Print Assumptions C55_wiener.
Print Assumptions C55_oruh.
Print Assumptions C55_exists.
Print Assumptions C55_start.

(** *** C56 *)
Theorem C56_lognorm x0 mu sigma a b E : 0 < x0 ->
  coef lognorm_sde (bm_args mu sigma) "dt" a -> coef lognorm_sde (bm_args mu sigma) "dw" b ->
  exp_diffusion a b (ln x0) E -> forall t, 0 < t ->
  E t exp = lognorm_mean x0 mu sigma t /\ variance (E t) exp = lognorm_var x0 mu sigma t.
Proof.
  intros X0 CA CB D t Ht. pose proof (coef_fun _ _ _ _ _ CA (lognorm_dt mu sigma)) as HA. pose proof (coef_fun _ _ _ _ _ CB (lognorm_dw mu sigma)) as HB.
  destruct (exp_mean_ode a b (ln x0) mu sigma E D HA HB) as [D1 L1].
  destruct (exp_var_ode a b (ln x0) mu sigma E D HA HB) as [D2 L2]. rewrite exp_ln in L1 by auto.
  assert (EM : forall t, 0 < t -> E t exp = lognorm_mean x0 mu sigma t).
  { apply (ode_solution mu (fun _ => 0) (fun s => E s exp) (lognorm_mean x0 mu sigma)); auto.
    - unfold lognorm_mean. rewrite Rmult_0_r, exp_0, Rmult_1_r. auto.
    - intro s. unfold lognorm_mean. auto_derive; auto. ring. }
  split; auto.
  apply (ode_solution (2*mu + sigma*sigma) (fun t => sigma*sigma * lognorm_mean x0 mu sigma t ^2) (fun s => variance (E s) exp) (lognorm_var x0 mu sigma)); auto.
  - intros s Hs. rewrite <- EM by auto. apply D2; auto.
  - unfold lognorm_var. rewrite !Rmult_0_r, exp_0, Rminus_eq_0, Rmult_0_r, Rmult_0_l. auto.
  - intro s. unfold lognorm_var, lognorm_mean. auto_derive; auto.
    replace ((x0 * exp (mu*s))^2) with (x0*x0*exp (2*mu*s)).
    2:{ replace (2*mu*s) with (mu*s + mu*s) by ring. rewrite exp_plus. ring. }
    ring.
Qed.
Lemma cir_mean_ode x0 theta k xi t : is_derive (cir_mean x0 theta k xi) t (-k * cir_mean x0 theta k xi t + k*theta).
Proof. unfold cir_mean. auto_derive; auto. ring. Qed.
Lemma cir_var_ode x0 theta k xi t : k <> 0 ->
  is_derive (cir_var x0 theta k xi) t (2 * -k * cir_var x0 theta k xi t + (0 + xi*xi * cir_mean x0 theta k xi t)).
Proof. intro K. unfold cir_var, cir_mean. auto_derive; auto. field. auto. Qed.
Lemma cir_a theta k x : nonneg x -> k * (theta - Rmax x 0) = k * theta + -k * x.
Proof. unfold nonneg. intro H. rewrite Rmax_left by lra. ring. Qed.
Lemma cir_b xi x : nonneg x -> (xi * sqrt (Rmax x 0)) ^2 = 0 + xi*xi * x.
Proof.
  unfold nonneg. intro H. rewrite Rmax_left by lra. rewrite Rpow_mult_distr, pow2_sqrt by lra. ring.
Qed.
(** x is never negative in the limit of small steps *)
Theorem C56_cir x0 theta k xi a b E : k <> 0 ->
  coef cir_sde (cir_args theta k xi) "dt" a -> coef cir_sde (cir_args theta k xi) "dw" b ->
  diffusion nonneg a b x0 E -> forall t, 0 < t ->
  E t (fun x => x) = cir_mean x0 theta k xi t /\ variance (E t) (fun x => x) = cir_var x0 theta k xi t.
Proof.
  intros K CA CB D. pose proof (coef_fun _ _ _ _ _ CA (cir_dt theta k xi)) as HA. pose proof (coef_fun _ _ _ _ _ CB (cir_dw theta k xi)) as HB.
  apply (closed_moments nonneg a b x0 (k*theta) (-k) 0 (xi*xi) (cir_mean x0 theta k xi) (cir_var x0 theta k xi)); auto.
  - intros x Hx. rewrite HA. apply cir_a; auto.
  - intros x Hx. rewrite HB. apply cir_b; auto.
  - intro t. apply cir_mean_ode.
  - intro t. apply cir_var_ode; auto.
  - unfold cir_mean. rewrite Rmult_0_r, exp_0. ring.
  - unfold cir_var. rewrite Rmult_0_r, exp_0. field. auto.
Qed.

(** covariance of the logarithm of the price and of the variance, in a Heston process *)
Definition heston_cov (sigma y0 theta k xi rho t : R) : R :=
  let alpha := exp (-k*t) in
  let g0 := rho*sigma*xi*theta - sigma^2*xi^2*theta/(4*k) in
  let g1 := (y0 - theta) * (rho*sigma*xi - sigma^2*xi^2/(2*k)) in
  let g2 := sigma^2*xi^2/(2*k) * (y0 - theta/2) in
  g0/k * (1 - alpha) + g1 * t * alpha + g2/k * (alpha - alpha^2).
Section Heston.
Variables x0 mu sigma y0 theta k xi rho : R.
Hypothesis K : k <> 0.
Notation MX := (heston_log_mean x0 mu sigma y0 theta k xi rho).
Notation VX := (heston_log_var x0 mu sigma y0 theta k xi rho).
Notation MY := (cir_mean y0 theta k xi).
Notation VY := (cir_var y0 theta k xi).
Notation CV := (heston_cov sigma y0 theta k xi rho).
Lemma heston_mx t : is_derive MX t (0 * MX t + (mu + (- sigma*sigma/2) * MY t)).
Proof. unfold heston_log_mean, cir_mean. auto_derive; auto. field. auto. Qed.
Lemma heston_vx t : is_derive VX t (2 * 0 * VX t + (2 * (- sigma*sigma/2) * CV t + (0 + sigma*sigma * MY t))).
Proof. unfold heston_log_var, heston_cov, cir_mean. auto_derive; auto. field. auto. Qed.
Lemma heston_cv t : is_derive CV t ((0 + -k) * CV t + ((- sigma*sigma/2) * VY t + rho * (0 + sigma*xi * MY t))).
Proof. unfold heston_cov, cir_var, cir_mean. auto_derive; auto. field. auto. Qed.
Lemma heston_start : MX 0 = ln x0 /\ MY 0 = y0 /\ VX 0 = 0 /\ VY 0 = 0 /\ CV 0 = 0.
Proof.
  unfold heston_log_mean, heston_log_var, heston_cov, cir_mean, cir_var. rewrite !Rmult_0_r, exp_0. repeat split; field; auto.
Qed.
End Heston.
Theorem C56_heston x0 mu sigma y0 theta k xi rho a1 b1 a2 b2 E : k <> 0 ->
  let args := heston_args mu sigma theta k xi in
  coef2 heston_sde args 0 "dt" a1 -> coef2 heston_sde args 0 "dw" b1 ->
  coef2 heston_sde args 1 "dt" a2 -> coef2 heston_sde args 1 "dw" b2 ->
  diffusion2 y_nonneg a1 b1 a2 b2 rho (ln x0, y0) E -> forall t, 0 < t ->
  E t fst = heston_log_mean x0 mu sigma y0 theta k xi rho t /\
  variance (E t) fst = heston_log_var x0 mu sigma y0 theta k xi rho t /\
  E t snd = cir_mean y0 theta k xi t /\ variance (E t) snd = cir_var y0 theta k xi t.
Proof.
  intros K args C1 C2 C3 C4 D t Ht.
  pose proof (coef2_fun _ _ _ _ _ _ C1 (heston_dt1 mu sigma theta k xi)) as H1.
  pose proof (coef2_fun _ _ _ _ _ _ C2 (heston_dw1 mu sigma theta k xi)) as H2.
  pose proof (coef2_fun _ _ _ _ _ _ C3 (heston_dt2 mu sigma theta k xi)) as H3.
  pose proof (coef2_fun _ _ _ _ _ _ C4 (heston_dw2 mu sigma theta k xi)) as H4.
  destruct (heston_start x0 mu sigma y0 theta k xi rho K) as (I1 & I2 & I3 & I4 & I5).
  destruct (closed_moments2 y_nonneg a1 b1 a2 b2 rho (ln x0) y0 mu 0 (-sigma*sigma/2) (k*theta) (-k) 0 (sigma*sigma) 0 (xi*xi) 0 (sigma*xi))
    with (MX := heston_log_mean x0 mu sigma y0 theta k xi rho) (MY := cir_mean y0 theta k xi)
         (VX := heston_log_var x0 mu sigma y0 theta k xi rho) (VY := cir_var y0 theta k xi)
         (CV := heston_cov sigma y0 theta k xi rho) (E := E) (t := t) as (R1 & R2 & R3 & R4 & R5); auto.
  - intros p Hp. rewrite H1. unfold y_nonneg in Hp. rewrite Rmax_left by lra. field.
  - intros p Hp. rewrite H3. apply cir_a. exact Hp.
  - intros p Hp. rewrite H2. apply cir_b. exact Hp.
  - intros p Hp. rewrite H4. apply cir_b. exact Hp.
  - intros p Hp. rewrite H2, H4. unfold y_nonneg in Hp. rewrite Rmax_left by lra.
    transitivity (sigma * xi * (sqrt (snd p) * sqrt (snd p))); [ring|]. rewrite sqrt_sqrt by lra. ring.
  - intro s. apply heston_mx; auto.
  - intro s. apply cir_mean_ode.
  - intro s. apply heston_vx; auto.
  - intro s. apply cir_var_ode; auto.
  - intro s. apply heston_cv; auto.
Qed.
Theorem C56_exists x0 : 0 < x0 ->
  (forall mu sigma, exists a b E, coef lognorm_sde (bm_args mu sigma) "dt" a /\
     coef lognorm_sde (bm_args mu sigma) "dw" b /\ exp_diffusion a b (ln x0) E) /\
  (forall theta k xi, k <> 0 -> exists a b E, coef cir_sde (cir_args theta k xi) "dt" a /\
     coef cir_sde (cir_args theta k xi) "dw" b /\ diffusion nonneg a b x0 E) /\
  forall mu sigma y0 theta k xi rho, k <> 0 -> let args := heston_args mu sigma theta k xi in
     exists a1 b1 a2 b2 E, coef2 heston_sde args 0 "dt" a1 /\ coef2 heston_sde args 0 "dw" b1 /\
       coef2 heston_sde args 1 "dt" a2 /\ coef2 heston_sde args 1 "dw" b2 /\
       diffusion2 y_nonneg a1 b1 a2 b2 rho (ln x0, y0) E.
Proof.
  intro X0. split; [|split].
  - intros mu sigma. exists (fun _ => mu - sigma*sigma/2), (fun _ => sigma).
    set (M := lognorm_mean x0 mu sigma). set (S2 := fun t => lognorm_var x0 mu sigma t + M t ^2).
    exists (fun t => law3 (ln 1) (ln 2) (ln 3) (M t - 1) (S2 t - 2 * M t + 1)).
    split; [apply lognorm_dt|]. split; [apply lognorm_dw|].
    assert (E1 : forall m s, law3 (ln 1) (ln 2) (ln 3) (m - 1) (s - 2 * m + 1) exp = m)
      by (intros; unfold law3; rewrite !exp_ln by lra; field).
    assert (E2 : forall m s, law3 (ln 1) (ln 2) (ln 3) (m - 1) (s - 2 * m + 1) (fun x => exp x ^2) = s)
      by (intros; unfold law3; rewrite !exp_ln by lra; field).
    assert (XE : forall t, expectation (fun _ => True) (law3 (ln 1) (ln 2) (ln 3) (M t - 1) (S2 t - 2 * M t + 1)))
      by (intro; apply law3_expectation; auto).
    assert (DM : forall t, is_derive M t (mu * M t)).
    { intro t. unfold M, lognorm_mean. auto_derive; auto. ring. }
    assert (DS : forall t, is_derive S2 t ((2*mu + sigma*sigma) * S2 t)).
    { intro t. unfold S2, M, lognorm_var, lognorm_mean. auto_derive; auto.
      replace (exp (2*mu*t)) with (exp (mu*t) ^2); [ring|].
      replace (2*mu*t) with (mu*t + mu*t) by ring. rewrite exp_plus. ring. }
    split; [auto|]. split; split.
    + intros t Ht. apply (is_derive_ext M); [intro s; symmetry; apply E1|].
      rewrite (E_comb _ _ (XE t) _ 0 mu 0 0 exp exp exp); [|intros; unfold gen1; field].
      rewrite E1. evar_last; [apply DM|]. ring.
    + apply (filterlim_ext_pos _ M); [intros; apply E1|]. rewrite exp_ln by auto.
      replace x0 with (M 0) by (unfold M, lognorm_mean; rewrite Rmult_0_r, exp_0; ring).
      apply filterlim_at_right, (ex_derive_continuous M). eexists; apply DM.
    + intros t Ht. apply (is_derive_ext S2); [intro s; symmetry; apply (E2 (M s) (S2 s))|].
      rewrite (E_comb _ _ (XE t) _ 0 (2*mu + sigma*sigma) 0 0 (fun x => exp x ^2) exp exp); [|intros; unfold gen1; field].
      rewrite E1, E2. evar_last; [apply DS|]. ring.
    + apply (filterlim_ext_pos _ S2); [intros s _; apply (E2 (M s) (S2 s))|]. rewrite exp_ln by auto.
      replace (x0^2) with (S2 0) by (unfold S2, M, lognorm_var, lognorm_mean; rewrite !Rmult_0_r, exp_0; ring).
      apply filterlim_at_right, (ex_derive_continuous S2). eexists; apply DS.
  - intros theta k xi K. do 2 eexists.
    destruct (closed_exists nonneg (fun x => k * (theta - Rmax x 0)) (fun x => xi * sqrt (Rmax x 0)) x0 (k*theta) (-k) 0 (xi*xi)
                (cir_mean x0 theta k xi) (cir_var x0 theta k xi)) as [E HE];
      try (unfold nonneg; lra); [intros; apply cir_a; auto|intros; apply cir_b; auto|intro; apply cir_mean_ode|
        intro; apply cir_var_ode; auto| | |exists E; split; [apply cir_dt|split; [apply cir_dw|exact HE]]].
    + unfold cir_mean. rewrite Rmult_0_r, exp_0. ring.
    + unfold cir_var. rewrite Rmult_0_r, exp_0. field. auto.
  - intros mu sigma y0 theta k xi rho K args. do 4 eexists.
    destruct (heston_start x0 mu sigma y0 theta k xi rho K) as (I1 & I2 & I3 & I4 & I5).
    edestruct (closed_exists2 y_nonneg (fun p => mu - sigma*sigma*Rmax (snd p) 0/2) (fun p => sigma * sqrt (Rmax (snd p) 0))
                (fun p => k * (theta - Rmax (snd p) 0)) (fun p => xi * sqrt (Rmax (snd p) 0))
                rho (ln x0) y0 mu 0 (-sigma*sigma/2) (k*theta) (-k) 0 (sigma*sigma) 0 (xi*xi) 0 (sigma*xi))
      with (MX := heston_log_mean x0 mu sigma y0 theta k xi rho) (MY := cir_mean y0 theta k xi)
         (VX := heston_log_var x0 mu sigma y0 theta k xi rho) (VY := cir_var y0 theta k xi)
         (CV := heston_cov sigma y0 theta k xi rho) as [E HE]; auto.
    + intros p Hp. unfold y_nonneg in Hp. rewrite Rmax_left by lra. field.
    + intros p Hp. apply cir_a. exact Hp.
    + intros p Hp. apply cir_b. exact Hp.
    + intros p Hp. apply cir_b. exact Hp.
    + intros p Hp. unfold y_nonneg in Hp. rewrite Rmax_left by lra.
      transitivity (sigma * xi * (sqrt (snd p) * sqrt (snd p))); [ring|]. rewrite sqrt_sqrt by lra. ring.
    + intro s. apply heston_mx; auto.
    + intro s. apply cir_mean_ode.
    + intro s. apply heston_vx; auto.
    + intro s. apply cir_var_ode; auto.
    + intro s. apply heston_cv; auto.
    + exists E. split; [apply heston_dt1|]. split; [apply heston_dw1|]. split; [apply heston_dt2|]. split; [apply heston_dw2|exact HE].
Qed.
Theorem C56_start x0 mu sigma y0 theta k xi rho : k <> 0 ->
  lognorm_mean x0 mu sigma 0 = x0 /\ lognorm_var x0 mu sigma 0 = 0 /\
  cir_mean x0 theta k xi 0 = x0 /\ cir_var x0 theta k xi 0 = 0 /\
  heston_log_mean x0 mu sigma y0 theta k xi rho 0 = ln x0 /\ heston_log_var x0 mu sigma y0 theta k xi rho 0 = 0.
Proof.
  intro K. destruct (heston_start x0 mu sigma y0 theta k xi rho K) as (I1 & _ & I3 & _).
  unfold lognorm_mean, lognorm_var, cir_mean, cir_var. rewrite !Rmult_0_r, exp_0. repeat split; auto; field; auto.
Qed.
Print Assumptions C56_lognorm.
Print Assumptions C56_cir.
Print Assumptions C56_heston.
Print Assumptions C56_exists.
Print Assumptions C56_start.

(** *** C58 *)
Theorem C58_sum x1 x2 th1 th2 k1 k2 s1 s2 rho t :
  hw2f_mean1 x1 x2 th1 th2 k1 k2 t = oruh_mean x1 th1 k1 s1 t + oruh_mean x2 th2 k2 s2 t /\
  hw2f_var1 k1 k2 s1 s2 rho t = oruh_var x1 th1 k1 s1 t + oruh_var x2 th2 k2 s2 t + 2 * hw2f_cov k1 k2 s1 s2 rho t.
Proof.
  unfold hw2f_mean1, hw2f_var1, oruh_mean, oruh_var, hw2f_cov. split; [ring|]. unfold Rdiv. ring.
Qed.
Theorem C58_law x1 x2 th1 th2 k1 k2 s1 s2 rho a1 b1 a2 b2 E : k1 <> 0 -> k2 <> 0 -> k1 + k2 <> 0 ->
  coef ou_sde (ou_args th1 k1 s1) "dt" a1 -> coef ou_sde (ou_args th1 k1 s1) "dw" b1 ->
  coef ou_sde (ou_args th2 k2 s2) "dt" a2 -> coef ou_sde (ou_args th2 k2 s2) "dw" b2 ->
  diffusion2 all_R2 (fun p => a1 (fst p)) (fun p => b1 (fst p)) (fun p => a2 (snd p)) (fun p => b2 (snd p)) rho (x1, x2) E ->
  forall t, 0 < t ->
  E t (fun p => fst p + snd p) = hw2f_mean1 x1 x2 th1 th2 k1 k2 t /\
  variance (E t) (fun p => fst p + snd p) = hw2f_var1 k1 k2 s1 s2 rho t /\
  covariance (E t) fst snd = hw2f_cov k1 k2 s1 s2 rho t.
Proof.
  intros K1 K2 K12 C1 C2 C3 C4 D t Ht.
  pose proof (coef_fun _ _ _ _ _ C1 (ou_dt th1 k1 s1)) as H1.
  pose proof (coef_fun _ _ _ _ _ C2 (ou_dw th1 k1 s1)) as H2.
  pose proof (coef_fun _ _ _ _ _ C3 (ou_dt th2 k2 s2)) as H3.
  pose proof (coef_fun _ _ _ _ _ C4 (ou_dw th2 k2 s2)) as H4.
  edestruct (closed_moments2 all_R2 (fun p => a1 (fst p)) (fun p => b1 (fst p)) (fun p => a2 (snd p)) (fun p => b2 (snd p)) rho x1 x2
     (k1*th1) (-k1) 0 (k2*th2) (-k2) (s1*s1) 0 (s2*s2) 0 (s1*s2) 0)
    with (MX := oruh_mean x1 th1 k1 s1) (MY := oruh_mean x2 th2 k2 s2)
         (VX := oruh_var x1 th1 k1 s1) (VY := oruh_var x2 th2 k2 s2)
         (CV := hw2f_cov k1 k2 s1 s2 rho) (E := E) (t := t) as (R1 & R2 & R3 & R4 & R5); auto.
  - intros p _. rewrite H1. ring.
  - intros p _. rewrite H3. ring.
  - intros p _. rewrite H2. ring.
  - intros p _. rewrite H4. ring.
  - intros p _. rewrite H2, H4. ring.
  - intro s. evar_last; [apply oruh_mean_ode|]. ring.
  - intro s. apply oruh_mean_ode.
  - intro s. evar_last; [apply oruh_var_ode; auto|]. ring.
  - intro s. apply oruh_var_ode; auto.
  - intro s. unfold hw2f_cov. auto_derive; auto. field. auto.
  - unfold oruh_mean. rewrite Rmult_0_r, exp_0. ring.
  - unfold oruh_mean. rewrite Rmult_0_r, exp_0. ring.
  - unfold oruh_var. rewrite Rmult_0_r, exp_0. field. auto.
  - unfold oruh_var. rewrite Rmult_0_r, exp_0. field. auto.
  - unfold hw2f_cov. rewrite Rmult_0_r, exp_0. field. auto.
  - destruct D as (DE & _). specialize (DE t Ht).
    assert (A1 : E t (fun p => fst p + snd p) = E t fst + E t snd) by apply (E_add all_R2 (E t) DE).
    destruct (C58_sum x1 x2 th1 th2 k1 k2 s1 s2 rho t) as [S1 S2].
    split; [|split; auto].
    + rewrite A1, R1, R2, S1. reflexivity.
    + rewrite S2, <- R3, <- R4, <- R5. unfold variance, covariance.
      rewrite (E_comb all_R2 (E t) DE (fun p => (fst p + snd p)^2) 0 1 2 1 (fun p => fst p ^2) (fun p => fst p * snd p) (fun p => snd p ^2))
        by (intros; ring). rewrite A1. ring.
Qed.
Theorem C58_nonneg k1 k2 s1 s2 rho t : k1 <> 0 -> k2 <> 0 -> k1 + k2 <> 0 -> -1 <= rho <= 1 -> 0 <= t ->
  0 <= hw2f_var1 k1 k2 s1 s2 rho t.
Proof.
  intros K1 K2 K12 HR Ht.
  apply (nonneg_increasing (hw2f_var1 k1 k2 s1 s2 rho)
    (fun t => (s1 * exp (-k1*t))^2 + (s2 * exp (-k2*t))^2 + 2 * rho * (s1 * exp (-k1*t)) * (s2 * exp (-k2*t)))); auto.
  - intro s. unfold hw2f_var1. auto_derive; auto.
    replace (exp (-2*k1*s)) with (exp (-k1*s) ^2).
    2:{ replace (-2*k1*s) with (-k1*s + -k1*s) by ring. rewrite exp_plus. ring. }
    replace (exp (-2*k2*s)) with (exp (-k2*s) ^2).
    2:{ replace (-2*k2*s) with (-k2*s + -k2*s) by ring. rewrite exp_plus. ring. }
    replace (exp (-(k1+k2)*s)) with (exp (-k1*s) * exp (-k2*s)).
    2:{ replace (-(k1+k2)*s) with (-k1*s + -k2*s) by ring. rewrite exp_plus. ring. }
    field. auto.
  - intro s. set (u := s1 * exp (-k1*s)). set (v := s2 * exp (-k2*s)).
    replace (u^2 + v^2 + 2*rho*u*v) with ((1 + rho)/2 * (u + v)^2 + (1 - rho)/2 * (u - v)^2) by field.
    apply Rplus_le_le_0_compat; apply Rmult_le_pos; try lra; apply pow2_ge_0.
  - change (@eq R (hw2f_var1 k1 k2 s1 s2 rho 0) 0). unfold hw2f_var1. rewrite !Rmult_0_r, exp_0. unfold Rdiv. ring.
Qed.

Lemma bshapes_can l w : bshapes l = Ok w -> List.Forall (fun a => can (shp a) w = true) l.
Proof.
  revert w. induction l as [|a l IH]; intros w; simpl; [constructor|].
  destruct (bshapes l) as [s|e] eqn:E; simpl; [|discriminate].
  destruct (bshape (shp a) s) as [r|] eqn:B; [|discriminate]. intro H. injection H as <-.
  apply bshape_can in B. destruct B as [B1 B2]. constructor; auto.
  eapply Forall_impl; [|apply IH; reflexivity]. intros x Hx. simpl in *. eapply can_trans; eauto.
Qed.
Lemma pick_slice first x v n p : shp x = v ++ [n; p] -> n <> O ->
  exists y, pick first x = Ok y /\ shp y = v ++ [p] /\
    forall ix, inb (v ++ [p]) ix -> dat y ix = dat x (ins2 (if first then O else (n - 1)%nat) ix).
Proof.
  intros HS N. unfold pick. rewrite HS, rev_app_distr. simpl.
  destruct (Nat.eqb_spec n 0); [contradiction|]. eexists. split; [reflexivity|]. simpl.
  rewrite rev_involutive. split; auto. intros ix HI.
  assert (ix <> []) as NE. { intro; subst. apply inb_length in HI. rewrite app_length in HI. simpl in HI. lia. }
  rewrite (app_removelast_last O NE). rewrite rev_app_distr. simpl. rewrite rev_involutive.
  unfold ins2. rewrite removelast_last, last_last. rewrite <- app_assoc. reflexivity.
Qed.
(** components along the second last axis, with the paths axis last *)
Theorem C58_array f v n p x0 theta k sigma rho t a :
  bshapes [x0; theta; k; sigma] = Ok (v ++ [n; p]) -> hw2f_eval f x0 theta k sigma rho t = Ok a ->
  (n = 1 \/ n = 2)%nat /\ can (v ++ [p]) (shp a) = true /\ can (shp rho) (shp a) = true /\ can (shp t) (shp a) = true /\
  forall ix, inb (shp a) ix ->
    let fst_ (x : arr R) := bget x (ins2 0 (bidx (v ++ [p]) ix)) in
    let snd_ (x : arr R) := bget x (ins2 (n - 1) (bidx (v ++ [p]) ix)) in
    dat a ix = f (fst_ x0) (snd_ x0) (fst_ theta) (snd_ theta) (fst_ k) (snd_ k) (fst_ sigma) (snd_ sigma) (bget rho ix) (bget t ix).
Proof.
  intros HB. unfold hw2f_eval. rewrite HB. cbv beta iota delta [rbind].
  assert (FO : factors_ok (v ++ [n; p]) = ((n =? 1) || (n =? 2))%nat).
  { unfold factors_ok. rewrite rev_app_distr. reflexivity. }
  destruct (Nat.eq_dec n 0) as [->|N].
  { unfold pick, at_shape. simpl. rewrite rev_app_distr. discriminate. }
  assert (P : forall first x, exists y, pick first (at_shape (v ++ [n; p]) x) = Ok y /\ shp y = v ++ [p] /\
      forall ix, inb (v ++ [p]) ix -> dat y ix = bget x (ins2 (if first then O else (n - 1)%nat) ix)).
  { intros first x. destruct (pick_slice first (at_shape (v ++ [n; p]) x) v n p eq_refl N) as (y & H1 & H2 & H3). eauto. }
  destruct (P true x0) as (x1 & -> & S1 & G1), (P false x0) as (x2 & -> & S2 & G2).
  destruct (P true theta) as (t1 & -> & S3 & G3), (P false theta) as (t2 & -> & S4 & G4).
  destruct (P true k) as (k1 & -> & S5 & G5), (P false k) as (k2 & -> & S6 & G6).
  destruct (P true sigma) as (s1 & -> & S7 & G7), (P false sigma) as (s2 & -> & S8 & G8).
  cbv beta iota delta [rbind]. rewrite FO. destruct ((n =? 1) || (n =? 2))%nat eqn:EN; [|discriminate].
  match goal with |- context [bshapes ?l] => destruct (bshapes l) as [w|e] eqn:EW end; cbv beta iota delta [rbind]; [|discriminate]. intro H. injection H as <-.
  apply bshapes_can in EW. rewrite !Forall_cons_iff in EW. destruct EW as (C1 & _ & _ & _ & _ & _ & _ & _ & CR & CT & _).
  rewrite S1 in C1. split. { apply orb_true_iff in EN. rewrite !Nat.eqb_eq in EN. auto. }
  simpl. split; auto. split; auto. split; auto. intros ix HI.
  assert (HJ : inb (v ++ [p]) (bidx (v ++ [p]) ix)) by (eapply bidx_inb; eauto).
  unfold bget at 1 2 3 4 5 6 7 8. rewrite S1, S2, S3, S4, S5, S6, S7, S8, G1, G2, G3, G4, G5, G6, G7, G8 by auto. reflexivity.
Qed.
(** vectors of components *)
Theorem C58_vector f n x0 theta k sigma rho t a :
  bshapes [x0; theta; k; sigma] = Ok [n] -> hw2f_eval f x0 theta k sigma rho t = Ok a ->
  (n = 1 \/ n = 2)%nat /\ can (shp rho) (shp a) = true /\ can (shp t) (shp a) = true /\
  forall ix, inb (shp a) ix ->
    let fst_ (x : arr R) := bget x [O] in
    let snd_ (x : arr R) := bget x [(n - 1)%nat] in
    dat a ix = f (fst_ x0) (snd_ x0) (fst_ theta) (snd_ theta) (fst_ k) (snd_ k) (fst_ sigma) (snd_ sigma) (bget rho ix) (bget t ix).
Proof.
  intros HB. unfold hw2f_eval. rewrite HB. unfold at_shape, pick, factors_ok. cbv beta iota delta [rbind shp rev app dat].
  destruct (Nat.eqb_spec n 0) as [->|N]; [discriminate|]. cbv beta iota delta [rbind].
  destruct ((n =? 1) || (n =? 2))%nat eqn:EN; [|discriminate].
  match goal with |- context [bshapes ?l] => destruct (bshapes l) as [w|e] eqn:EW end; cbv beta iota delta [rbind]; [|discriminate]. intro H. injection H as <-.
  apply bshapes_can in EW. rewrite !Forall_cons_iff in EW. destruct EW as (C1 & _ & _ & _ & _ & _ & _ & _ & CR & CT & _).
  split. { apply orb_true_iff in EN. rewrite !Nat.eqb_eq in EN. auto. }
  simpl. split; auto.
Qed.
(** scalars: both factors have the same parameters *)
Theorem C58_scalar f x0 theta k sigma rho t a :
  bshapes [x0; theta; k; sigma] = Ok [] -> hw2f_eval f x0 theta k sigma rho t = Ok a ->
  forall ix, inb (shp a) ix -> let get (x : arr R) := bget x [] in
    dat a ix = f (get x0) (get x0) (get theta) (get theta) (get k) (get k) (get sigma) (get sigma) (bget rho ix) (bget t ix).
Proof.
  intros HB. unfold hw2f_eval. rewrite HB. unfold at_shape, pick, factors_ok. cbv beta iota delta [rbind shp rev app dat].
  match goal with |- context [bshapes ?l] => destruct (bshapes l) as [w|e] eqn:EW end; cbv beta iota delta [rbind]; [|discriminate]. intro H. injection H as <-. intros ix HI. simpl.
  unfold bget at 1 2 3 4 5 6 7 8. simpl. rewrite !bidx_nil. reflexivity.
Qed.
(** any other number of factors is refused *)
Theorem C58_refused f s x0 theta k sigma rho t : bshapes [x0; theta; k; sigma] = Ok s ->
  (exists n, (2 < n)%nat /\ (s = [n] \/ exists v p, s = v ++ [n; p])) ->
  hw2f_eval f x0 theta k sigma rho t = Err ValueError.
Proof.
  intros HB (n & Hn & HS). unfold hw2f_eval. rewrite HB. unfold at_shape, pick, factors_ok. cbv beta iota delta [rbind shp dat].
  assert (E0 : (n =? 0)%nat = false) by (apply Nat.eqb_neq; lia).
  assert (E1 : (n =? 1)%nat = false) by (apply Nat.eqb_neq; lia).
  assert (E2 : (n =? 2)%nat = false) by (apply Nat.eqb_neq; lia).
  destruct HS as [->|(v & p & ->)].
  - cbn [rev app]. rewrite E0, E1, E2. reflexivity.
  - rewrite rev_app_distr. cbn [rev app]. rewrite E0, E1, E2. reflexivity.
Qed.
Print Assumptions C58_sum.
Print Assumptions C58_law.
Print Assumptions C58_nonneg.
Print Assumptions C58_array.
Print Assumptions C58_vector.
Print Assumptions C58_scalar.
Print Assumptions C58_refused.
(** x0 = (1, 2), theta = (3, 4), k = (5, 6), sigma = 1: the mean at a time t *)
Example C58_ex t : exists a,
  hw2f_mean (mkArr [2%nat] (fun ix => match ix with [O] => 1 | _ => 2 end))
            (mkArr [2%nat] (fun ix => match ix with [O] => 3 | _ => 4 end))
            (mkArr [2%nat] (fun ix => match ix with [O] => 5 | _ => 6 end)) (ascalar 1) (ascalar 0) (ascalar t) = Ok a /\
  shp a = [] /\ dat a [] = oruh_mean 1 3 5 1 t + oruh_mean 2 4 6 1 t.
Proof.
  eexists. split; [reflexivity|]. split; [reflexivity|]. simpl. unfold hw2f_mean1, oruh_mean, bget. simpl. ring.
Qed.

(** *** C59 *)
Lemma jump_mean (a b : R -> R) mu sigma lam J m x0 E : (forall x, a x = mu - sigma*sigma/2) -> (forall x, b x = sigma) ->
  0 < x0 -> expectation all_R J -> J exp = m -> exp_jump_diffusion a b lam J (ln x0) E ->
  forall t, 0 < t -> E t exp = x0 * exp ((mu + lam*(m - 1)) * t).
Proof.
  intros HA HB X0 XJ JM (XE & D1 & L1). rewrite exp_ln in L1 by auto.
  apply (ode_solution (mu + lam*(m - 1)) (fun _ => 0) (fun s => E s exp) (fun t => x0 * exp ((mu + lam*(m - 1)) * t))).
  - intros t Ht. evar_last; [apply D1; auto|].
    rewrite (E_comb _ (E t) (XE t Ht) _ 0 (mu + lam*(m - 1)) 0 0 exp exp exp); [ring|]. intros x _. unfold gen1, gen_jump.
    replace (J (fun z => exp (x + z))) with (exp x * J exp).
    2:{ rewrite <- (E_scal all_R J XJ). apply (E_ext all_R J XJ). intros z _. rewrite exp_plus. reflexivity. }
    rewrite JM, HA, HB. field.
  - rewrite Rmult_0_r, exp_0, Rmult_1_r. auto.
  - intro t. auto_derive; auto. ring.
Qed.
(** J is the law of the jumps: of the logarithm of the price *)
Theorem C59_merton x0 mu sigma lam a b f g J E : 0 < x0 ->
  coef jumpdiff_sde (bm_args mu sigma) "dt" f -> coef jumpdiff_sde (bm_args mu sigma) "dw" g ->
  expectation all_R J -> J exp = exp (a + b*b/2) ->
  exp_jump_diffusion f g lam J (ln x0) E -> forall t, 0 < t -> E t exp = mjd_mean x0 mu sigma lam a b t.
Proof.
  intros X0 CA CB XJ JM D t Ht.
  apply (jump_mean f g mu sigma lam J _ x0 E (coef_fun _ _ _ _ _ CA (jumpdiff_dt mu sigma)) (coef_fun _ _ _ _ _ CB (jumpdiff_dw mu sigma)) X0 XJ JM D t Ht).
Qed.
Theorem C59_kou x0 mu sigma lam a b pa f g J E : 0 < x0 ->
  coef jumpdiff_sde (bm_args mu sigma) "dt" f -> coef jumpdiff_sde (bm_args mu sigma) "dw" g ->
  expectation all_R J -> J exp = pa/(1 - a) + (1 - pa)/(1 + b) ->
  exp_jump_diffusion f g lam J (ln x0) E -> forall t, 0 < t -> E t exp = kou_mean x0 mu sigma lam a b pa t.
Proof.
  intros X0 CA CB XJ JM D t Ht.
  apply (jump_mean f g mu sigma lam J _ x0 E (coef_fun _ _ _ _ _ CA (jumpdiff_dt mu sigma)) (coef_fun _ _ _ _ _ CB (jumpdiff_dw mu sigma)) X0 XJ JM D t Ht).
Qed.
(** the jumps enter with coefficient 1 *)
Theorem C59_jumps mu sigma h : coef jumpdiff_sde (bm_args mu sigma) "dj" h -> forall x, h x = 1.
Proof. intros C x. apply (coef_fun _ _ _ _ _ C (jumpdiff_dj mu sigma)). Qed.
(** such laws exist *)
Theorem C59_exists x0 mu sigma lam m : 0 < x0 -> exists f g J E,
  coef jumpdiff_sde (bm_args mu sigma) "dt" f /\ coef jumpdiff_sde (bm_args mu sigma) "dw" g /\
  expectation all_R J /\ J exp = m /\ exp_jump_diffusion f g lam J (ln x0) E.
Proof.
  intro X0. exists (fun _ => mu - sigma*sigma/2), (fun _ => sigma).
  assert (L3 : forall c, expectation all_R (law3 (ln 1) (ln 2) (ln 3) (c - 1) 0)) by (intro; apply law3_expectation; exact I).
  assert (E3 : forall c, law3 (ln 1) (ln 2) (ln 3) (c - 1) 0 exp = c) by (intro; unfold law3; rewrite !exp_ln by lra; field).
  exists (law3 (ln 1) (ln 2) (ln 3) (m - 1) 0).
  set (M := fun t => x0 * exp ((mu + lam*(m - 1)) * t)).
  assert (DM : forall t, is_derive M t ((mu + lam*(m - 1)) * M t)) by (intro t; unfold M; auto_derive; auto; ring).
  exists (fun t => law3 (ln 1) (ln 2) (ln 3) (M t - 1) 0).
  split; [apply jumpdiff_dt|]. split; [apply jumpdiff_dw|]. split; [auto|]. split; [auto|].
  split; [intros; apply L3|]. split.
  - intros t Ht. apply (is_derive_ext M); [intro s; symmetry; apply E3|].
    rewrite (E_comb _ _ (L3 (M t)) _ 0 (mu + lam*(m - 1)) 0 0 exp exp exp).
    + rewrite E3. evar_last; [apply DM|]. ring.
    + intros x _. unfold gen1, gen_jump.
      replace (law3 (ln 1) (ln 2) (ln 3) (m - 1) 0 (fun z => exp (x + z))) with (exp x * law3 (ln 1) (ln 2) (ln 3) (m - 1) 0 exp).
      * rewrite E3. field.
      * rewrite <- (E_scal all_R _ (L3 m)). apply (E_ext all_R _ (L3 m)). intros z _. rewrite exp_plus. reflexivity.
  - apply (filterlim_ext_pos _ M); [intros; apply E3|]. rewrite exp_ln by auto.
    replace x0 with (M 0) by (unfold M; rewrite Rmult_0_r, exp_0; ring).
    apply filterlim_at_right, (ex_derive_continuous M). eexists; apply DM.
Qed.
Print Assumptions C59_merton.
Print Assumptions C59_kou.
Print Assumptions C59_jumps.
Print Assumptions C59_exists.
