(** Variances and standard deviations of the analytical results: C78. *)
From Coq Require Import List Arith Bool Reals Lra Lia.
From Coquelicot Require Import Coquelicot.
From Verif Require Import Base BaseArr M_analytical M_std S_std P_moments.
Import ListNotations.
Local Open Scope R_scope.

Lemma exp_le1 x : x <= 0 -> exp x <= 1.
Proof. intro H. rewrite <- exp_0. destruct H as [H|H]; [left; apply exp_increasing; auto|right; f_equal; auto]. Qed.
Lemma kexp k t : k <> 0 -> 0 <= t -> 0 <= (1 - exp (- k * t)) / k.
Proof.
  intros K T. destruct (Rtotal_order k 0) as [H|[H|H]]; [|lra|].
  - replace ((1 - exp (-k*t))/k) with ((exp (-k*t) - 1) * / (-k)) by (field; lra).
    apply Rmult_le_pos; [|left; apply Rinv_0_lt_compat; lra].
    assert (0 <= -k*t) by (apply Rmult_le_pos; lra). pose proof (exp_ineq1_le (-k*t)). lra.
  - apply Rmult_le_pos; [|left; apply Rinv_0_lt_compat; lra].
    assert (0 <= k*t) by (apply Rmult_le_pos; lra).
    assert (exp (-k*t) <= 1) by (apply exp_le1; lra). lra.
Qed.

(** the variance of the logarithm of a Heston process: the integral of the mean of the variance, times a
    quadratic form in the two noises; [g] is the weight of the noise of the variance at u before the end *)
Theorem C78_heston_integral x0 mu sigma y0 theta k xi rho t : k <> 0 ->
  let g u := (1 - exp (- k * u)) / k in
  is_RInt (fun u => (theta + (y0 - theta) * exp (- k * (t - u))) *
                    (sigma * sigma * (1 - rho * (sigma * xi * g u) + (sigma * xi * g u) * (sigma * xi * g u) / 4)))
          0 t (heston_log_var x0 mu sigma y0 theta k xi rho t).
Proof.
  intros K g. set (a := sigma * xi).
  set (c0 := 1 - rho*a/k + a*a/(4*k*k)). set (c1 := rho*a/k - a*a/(2*k*k)). set (c2 := a*a/(4*k*k)).
  set (F := fun u => sigma*sigma * (theta * (c0*u - c1*exp (-k*u)/k - c2*(exp (-k*u) * exp (-k*u))/(2*k)) +
     (y0 - theta) * exp (-k*t) * (c0 * exp (k*u)/k + c1*u - c2*exp (-k*u)/k))).
  assert (EV : heston_log_var x0 mu sigma y0 theta k xi rho t = F t - F 0).
  { unfold F, heston_log_var. rewrite !Rmult_0_r, !exp_0.
    assert (EK : exp (k*t) = / exp (-k*t)).
    { apply Rmult_eq_reg_l with (exp (-k*t)); [|apply Rgt_not_eq, exp_pos]. rewrite Rinv_r by (apply Rgt_not_eq, exp_pos).
      rewrite <- exp_plus. replace (-k*t + k*t) with 0 by ring. apply exp_0. }
    rewrite EK. pose proof (Rgt_not_eq _ _ (exp_pos (-k*t))) as NE. set (E := exp (-k*t)) in *.
    unfold c0, c1, c2, a. field. auto. }
  rewrite EV. apply (is_RInt_derive (V := R_CompleteNormedModule) F).
  - intros u _. unfold F. auto_derive; auto.
    assert (EK : exp (k*u) = / exp (-k*u)).
    { apply Rmult_eq_reg_l with (exp (-k*u)); [|apply Rgt_not_eq, exp_pos]. rewrite Rinv_r by (apply Rgt_not_eq, exp_pos).
      rewrite <- exp_plus. replace (-k*u + k*u) with 0 by ring. apply exp_0. }
    replace (exp (-k*(t-u))) with (exp (-k*t) * exp (k*u)) by (rewrite <- exp_plus; f_equal; ring).
    rewrite EK. pose proof (Rgt_not_eq _ _ (exp_pos (-k*u))) as NE. unfold g, c0, c1, c2, a.
    set (E := exp (-k*u)) in *. set (D := exp (-k*t)). field. auto.
  - intros u _. apply (ex_derive_continuous (K := R_AbsRing) (V := R_NormedModule)). unfold g. auto_derive; auto.
Qed.

(** variances are not negative (t >= 0), and vanish at the start *)
Theorem C78_variances t : 0 <= t ->
  (forall x0 mu sigma, 0 <= wiener_var x0 mu sigma t) /\
  (forall x0 mu sigma, 0 <= lognorm_var x0 mu sigma t) /\
  (forall x0 theta k sigma, k <> 0 -> 0 <= oruh_var x0 theta k sigma t) /\
  (forall k1 k2 s1 s2 rho, k1 <> 0 -> k2 <> 0 -> k1 + k2 <> 0 -> -1 <= rho <= 1 -> 0 <= hw2f_var1 k1 k2 s1 s2 rho t) /\
  (forall x0 theta k xi, 0 <= x0 -> 0 <= theta -> 0 < k -> 0 <= cir_var x0 theta k xi t) /\
  (forall x0 mu sigma y0 theta k xi rho, 0 <= y0 -> 0 <= theta -> 0 < k -> -1 <= rho <= 1 ->
     0 <= heston_log_var x0 mu sigma y0 theta k xi rho t).
Proof.
  intro T. split; [|split; [|split; [|split; [|split]]]].
  - intros. unfold wiener_var. apply Rmult_le_pos; [apply Rle_0_sqr|auto].
  - intros. unfold lognorm_var. apply Rmult_le_pos; [|left; apply exp_pos]. apply Rmult_le_pos; [apply Rle_0_sqr|].
    assert (0 <= sigma*sigma*t) by (apply Rmult_le_pos; [apply Rle_0_sqr|auto]). pose proof (exp_ineq1_le (sigma*sigma*t)). lra.
  - intros x0 theta k sigma K. unfold oruh_var.
    replace (sigma*sigma/(2*k)*(1 - exp (-2*k*t))) with (sigma*sigma * ((1 - exp (- (2*k) * t))/(2*k)))
      by (replace (-(2*k)*t) with (-2*k*t) by ring; field; auto).
    apply Rmult_le_pos; [apply Rle_0_sqr|]. apply kexp; lra.
  - intros. apply C58_nonneg; auto.
  - intros x0 theta k xi X TH K. unfold cir_var. pose proof (kexp k t ltac:(lra) T) as H.
    replace (xi*xi/k*(1 - exp (-k*t))*(theta/2 + (x0 - theta/2)*exp (-k*t)))
      with (xi*xi * ((1 - exp (-k*t))/k) * (theta/2*(1 - exp (-k*t)) + x0 * exp (-k*t))) by (field; lra).
    apply Rmult_le_pos; [apply Rmult_le_pos; [apply Rle_0_sqr|auto]|].
    pose proof (exp_pos (-k*t)). assert (0 <= k*t) by (apply Rmult_le_pos; lra).
    assert (exp (-k*t) <= 1) by (apply exp_le1; lra).
    apply Rplus_le_le_0_compat; apply Rmult_le_pos; lra.
  - intros x0 mu sigma y0 theta k xi rho Y TH K RH.
    eapply (is_RInt_ge_0 _ 0 t); [exact T|apply (C78_heston_integral x0 mu sigma y0 theta k xi rho t); lra|].
    intros u [U1 U2]. apply Rmult_le_pos.
    + replace (theta + (y0 - theta)*exp (-k*(t-u))) with (theta*(1 - exp (-k*(t-u))) + y0*exp (-k*(t-u))) by ring.
      pose proof (exp_pos (-k*(t-u))). assert (0 <= k*(t-u)) by (apply Rmult_le_pos; lra).
      assert (exp (-k*(t-u)) <= 1) by (apply exp_le1; lra).
      apply Rplus_le_le_0_compat; apply Rmult_le_pos; lra.
    + apply Rmult_le_pos; [apply Rle_0_sqr|]. set (z := sigma*xi*((1 - exp (-k*u))/k)).
      assert (H : 0 <= (1 - rho*z/2)*(1 - rho*z/2)) by apply Rle_0_sqr.
      assert (H2 : 0 <= (1 - rho*rho)*(z*z)) by (apply Rmult_le_pos; [nra|apply Rle_0_sqr]). lra.
Qed.
Theorem C78_start x0 mu sigma theta k xi y0 rho :
  wiener_var x0 mu sigma 0 = 0 /\ lognorm_var x0 mu sigma 0 = 0 /\ oruh_var x0 theta k sigma 0 = 0 /\
  cir_var x0 theta k xi 0 = 0 /\ (k <> 0 -> heston_log_var x0 mu sigma y0 theta k xi rho 0 = 0).
Proof.
  unfold wiener_var, lognorm_var, oruh_var, cir_var, heston_log_var. rewrite !Rmult_0_r, !exp_0.
  repeat split; try ring. intro K. field. auto.
Qed.

(** hence standard deviations: square roots of the variances *)
Lemma dev v : 0 <= v -> deviation (sqrt v) v.
Proof. intro H. split; [apply sqrt_pos|apply sqrt_sqrt; auto]. Qed.
Theorem C78_deviations t : 0 <= t ->
  (forall x0 mu sigma, deviation (wiener_std x0 mu sigma t) (wiener_var x0 mu sigma t)) /\
  (forall x0 mu sigma, deviation (lognorm_std x0 mu sigma t) (lognorm_var x0 mu sigma t)) /\
  (forall x0 theta k sigma, k <> 0 -> deviation (oruh_std x0 theta k sigma t) (oruh_var x0 theta k sigma t)) /\
  (forall x0 theta k xi, 0 <= x0 -> 0 <= theta -> 0 < k -> deviation (cir_std x0 theta k xi t) (cir_var x0 theta k xi t)) /\
  (forall x0 mu sigma y0 theta k xi rho, 0 <= y0 -> 0 <= theta -> 0 < k -> -1 <= rho <= 1 ->
     deviation (heston_log_std x0 mu sigma y0 theta k xi rho t) (heston_log_var x0 mu sigma y0 theta k xi rho t)).
Proof.
  intro T. destruct (C78_variances t T) as (H1 & H2 & H3 & _ & H5 & H6).
  repeat split; try apply sqrt_pos; apply sqrt_sqrt; auto.
Qed.
(** two factors: same shape and same exceptions as the variance, elements are deviations where |rho| <= 1, k > 0, t >= 0 *)
Theorem C78_two_factors x0 theta k sigma rho t :
  match hw2f_var x0 theta k sigma rho t with
  | Err e => hw2f_std x0 theta k sigma rho t = Err e
  | Ok v => exists s, hw2f_std x0 theta k sigma rho t = Ok s /\ shp s = shp v /\
              forall ix, 0 <= dat s ix /\ (0 <= dat v ix -> dat s ix * dat s ix = dat v ix)
  end.
Proof.
  unfold hw2f_std. destruct (hw2f_var x0 theta k sigma rho t) as [v|e]; simpl; [|reflexivity].
  exists (amap sqrt v). split; auto. split; [reflexivity|]. intro ix. split; [apply sqrt_pos|apply sqrt_sqrt].
Qed.
(** for the simplest processes in closed form *)
Theorem C78_closed x0 mu sigma t : 0 <= t ->
  wiener_std x0 mu sigma t = Rabs sigma * sqrt t /\
  lognorm_std x0 mu sigma t = Rabs (lognorm_mean x0 mu sigma t) * sqrt (exp (sigma*sigma*t) - 1).
Proof.
  intro T. unfold wiener_std, wiener_var, lognorm_std, lognorm_var, lognorm_mean. split.
  - rewrite sqrt_mult by (try apply Rle_0_sqr; auto). f_equal. apply sqrt_Rsqr_abs.
  - assert (0 <= sigma*sigma*t) by (apply Rmult_le_pos; [apply Rle_0_sqr|auto]). pose proof (exp_ineq1_le (sigma*sigma*t)).
    replace (x0*x0*(exp (sigma*sigma*t) - 1)*exp (2*mu*t)) with (Rsqr (x0*exp (mu*t)) * (exp (sigma*sigma*t) - 1))
      by (unfold Rsqr; replace (2*mu*t) with (mu*t + mu*t) by ring; rewrite exp_plus; ring).
    rewrite sqrt_mult; [|apply Rle_0_sqr|lra]. f_equal. apply sqrt_Rsqr_abs.
Qed.
Print Assumptions C78_heston_integral.
Print Assumptions C78_variances.
Print Assumptions C78_start.
Print Assumptions C78_deviations.
Print Assumptions C78_two_factors.
Print Assumptions C78_closed.

(** *** Examples *)
Example C78_ex_wiener : wiener_std 5 7 (-3) 4 = 6.
Proof.
  rewrite (proj1 (C78_closed 5 7 (-3) 4 ltac:(lra))). replace 4 with (2*2) by ring. rewrite sqrt_square by lra.
  rewrite Rabs_left by lra. ring.
Qed.
Lemma ln2_gt : 583/1000 <= ln 2.
Proof.
  replace 2 with ((4/3) * (3/2)) by field. rewrite ln_mult by lra.
  pose proof (exp_ineq1_le (- ln (4/3))) as A. pose proof (exp_ineq1_le (- ln (3/2))) as B.
  rewrite exp_Ropp, exp_ln in A, B by lra. lra.
Qed.
Lemma half_ln2 : exp (- (1) * ln 2) = /2.
Proof. replace (-(1) * ln 2) with (- ln 2) by ring. rewrite exp_Ropp, exp_ln by lra. reflexivity. Qed.
Example C78_ex_heston : heston_log_var 1 0 1 1 1 1 1 0 (ln 2) = (5 * ln 2 - 5/8) / 4.
Proof. unfold heston_log_var. rewrite half_ln2. field. Qed.
(** with an impossible correlation the formula is negative: there is no standard deviation *)
Example C78_ex_impossible : heston_log_var 1 0 1 1 1 1 1 10 (ln 2) < 0.
Proof. unfold heston_log_var. rewrite half_ln2. pose proof ln2_gt. set (l := ln 2) in *. lra. Qed.
Example C78_ex_cir : cir_std 0 4 1 2 (ln 2) = sqrt 2.
Proof. unfold cir_std, cir_var. rewrite half_ln2. f_equal. field. Qed.
