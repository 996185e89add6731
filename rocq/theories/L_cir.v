(** The density of the Cox-Ingersoll-Ross process: a mixture of gamma densities. *)
From Coq Require Import Reals Lra Psatz Lia.
From Coquelicot Require Import Coquelicot.
From Verif Require Import S_dist L_complex L_gauss2 L_dist S_cir L_gamma.
Local Open Scope R_scope.

(** *** Poisson sums *)
Lemma exp_series u : is_series (fun n => u^n/INR (fact n)) (exp u).
Proof.
  pose proof (is_exp_Reals u) as H. unfold is_pseries in H. eapply is_series_ext; [|exact H].
  intro n. unfold scal. simpl. unfold mult. simpl. rewrite pow_n_pow. reflexivity.
Qed.
Lemma fact_ne n : INR (fact n) <> 0. Proof. apply INR_fact_neq_0. Qed.
Lemma fact_pos n : 0 < INR (fact n). Proof. apply lt_0_INR, lt_O_fact. Qed.
Lemma fact_S n : INR (fact (S n)) = (INR n + 1)*INR (fact n).
Proof. rewrite fact_simpl, mult_INR, S_INR. reflexivity. Qed.
Lemma ser_scal (k : R) (a : nat -> R) (s : R) : is_series a s -> is_series (fun n => k*a n) (k*s).
Proof. intro H. apply (is_series_scal (V := R_NormedModule) k a s H). Qed.
Lemma ser_plus (a b : nat -> R) (s t : R) : is_series a s -> is_series b t -> is_series (fun n => a n + b n) (s + t).
Proof. intros H1 H2. apply (is_series_plus (V := R_NormedModule) a b s t H1 H2). Qed.
Lemma ser_ext (a b : nat -> R) (s t : R) : is_series a s -> (forall n, a n = b n) -> s = t -> is_series b t.
Proof. intros H E <-. apply (is_series_ext a b s E H). Qed.
Lemma poisson1 u : is_series (fun n => INR n*(u^n/INR (fact n))) (u*exp u).
Proof.
  apply is_series_decr_1. eapply ser_ext; [apply (ser_scal u), (exp_series u)| |].
  - intro n. cbv beta. rewrite fact_S, S_INR. cbn [pow]. pose proof (fact_ne n). pose proof (pos_INR n). field. split; auto; lra.
  - unfold plus, opp. simpl. ring.
Qed.
Lemma poisson2 u : is_series (fun n => INR n*INR n*(u^n/INR (fact n))) (u*(u*exp u + exp u)).
Proof.
  apply is_series_decr_1. eapply ser_ext; [apply (ser_scal u), ser_plus; [apply (poisson1 u)|apply (exp_series u)]| |].
  - intro n. cbv beta. cbv beta. rewrite fact_S, S_INR. cbn [pow]. pose proof (fact_ne n). pose proof (pos_INR n). field. split; auto; lra.
  - unfold plus, opp. simpl. ring.
Qed.

Section Cir.
Variable gamma : R -> R.
Hypothesis G : euler_gamma gamma.
Variable q : R.
Hypothesis Q : -1 < q.

(** *** the power series *)
Definition bq (n : nat) : R := /(INR (fact n)*gamma (INR n + q + 1)).
Lemma shape_pos n : 0 < INR n + q + 1. Proof. pose proof (pos_INR n). lra. Qed.
Lemma gam_pos n : 0 < gamma (INR n + q + 1). Proof. apply gamma_pos; auto. apply shape_pos. Qed.
Lemma bq_pos n : 0 < bq n. Proof. apply Rinv_0_lt_compat, Rmult_lt_0_compat; [apply fact_pos|apply gam_pos]. Qed.
Lemma bq_S n : (INR n + 1)*(INR n + q + 1)*bq (S n) = bq n.
Proof.
  unfold bq. rewrite fact_S, S_INR. replace (INR n + 1 + q + 1) with (INR n + q + 1 + 1) by ring. rewrite (gamma_rec gamma G) by apply shape_pos.
  pose proof (shape_pos n). pose proof (gam_pos n). pose proof (fact_pos n). pose proof (pos_INR n). field. repeat split; lra.
Qed.
Lemma bq_radius : CV_radius bq = p_infty.
Proof.
  apply CV_radius_infinite_DAlembert; [intro n; apply Rgt_not_eq, bq_pos|].
  apply is_lim_seq_ext with (fun n => /((INR n + 1)*(INR n + q + 1))).
  - intro n. pose proof (bq_S n) as E. pose proof (bq_pos n). pose proof (bq_pos (S n)). pose proof (shape_pos n). pose proof (pos_INR n).
    rewrite Rabs_right by (left; apply Rdiv_lt_0_compat; auto). rewrite <- E. field. repeat split; lra.
  - replace (Finite 0) with (Rbar_inv p_infty) by reflexivity. apply is_lim_seq_inv; [|discriminate].
    apply is_lim_seq_le_p_loc with (fun n => INR n - 1).
    + exists 1%nat. intros n N. apply le_INR in N. simpl in N. pose proof (shape_pos n). nra.
    + replace p_infty with (Rbar_plus p_infty (Finite (-1))) by reflexivity. apply (is_lim_seq_plus _ _ p_infty (-1)); [apply is_lim_seq_INR|apply is_lim_seq_const|reflexivity].
Qed.
Definition bS (w : R) : R := PSeries bq w.
Definition bS1 (w : R) : R := PSeries (PS_derive bq) w.
Definition bS2 (w : R) : R := PSeries (PS_derive (PS_derive bq)) w.
Lemma rad1 : CV_radius (PS_derive bq) = p_infty. Proof. rewrite CV_radius_derive. apply bq_radius. Qed.
Lemma rad2 : CV_radius (PS_derive (PS_derive bq)) = p_infty. Proof. rewrite CV_radius_derive. apply rad1. Qed.
Lemma bS_series w : is_series (fun n => bq n*w^n) (bS w).
Proof.
  assert (H : ex_pseries bq w) by (apply CV_radius_inside; rewrite bq_radius; exact I).
  apply PSeries_correct in H. unfold is_pseries in H. eapply ser_ext; [exact H| |reflexivity].
  intro n. unfold scal. simpl. unfold mult. simpl. rewrite pow_n_pow. ring.
Qed.
Lemma bS_derive w : is_derive bS w (bS1 w). Proof. apply is_derive_PSeries. rewrite bq_radius. exact I. Qed.
Lemma bS1_derive w : is_derive bS1 w (bS2 w). Proof. apply is_derive_PSeries. rewrite rad1. exact I. Qed.
Lemma bS_ode w : w*bS2 w + (q + 1)*bS1 w = bS w.
Proof.
  unfold bS, bS1, bS2. rewrite <- PSeries_incr_1. rewrite <- PSeries_scal. rewrite <- PSeries_plus.
  - apply PSeries_ext. intro n. rewrite <- bq_S. unfold PS_plus, PS_scal, PS_incr_1, PS_derive, plus, scal. cbn -[INR]. unfold mult. cbn -[INR]. destruct n.
    + rewrite S_INR. unfold zero. cbn. ring.
    + rewrite !S_INR. ring.
  - apply CV_radius_inside. rewrite CV_radius_incr_1, rad2. exact I.
  - apply ex_pseries_scal; [intros; apply Rmult_comm|]. apply CV_radius_inside. rewrite rad1. exact I.
Qed.
Lemma bS_pos w : 0 <= w -> 0 < bS w.
Proof.
  intro W. apply Rlt_le_trans with (sum_n (fun n => bq n*w^n) 0); [rewrite sum_O; simpl; rewrite Rmult_1_r; apply bq_pos|].
  apply partial_le; [|apply bS_series]. intro n. pose proof (bq_pos n). pose proof (pow_le w n W). nra.
Qed.
(** the Bessel function *)
Lemma rpow_sqrt w e : 0 < w -> Rpower (sqrt w) e = Rpower w (e/2).
Proof. intro W. rewrite <- Rpower_sqrt by auto. rewrite Rpower_mult. f_equal. field. Qed.
Lemma bessel_form iv w : bessel_i gamma iv -> 0 < w -> iv q (2*sqrt w) = Rpower w (q/2)*bS w.
Proof.
  intros B W. assert (SW : 0 < sqrt w) by (apply sqrt_lt_R0; auto). specialize (B q (2*sqrt w) Q ltac:(lra)).
  rewrite <- (is_series_unique _ _ B). apply is_series_unique. eapply ser_ext; [apply (ser_scal (Rpower w (q/2))), bS_series| |reflexivity].
  intro n. cbv beta. replace (2*sqrt w/2) with (sqrt w) by field. rewrite rpow_sqrt by auto. replace ((2*INR n + q)/2) with (q/2 + INR n) by field.
  rewrite Rpower_plus, Rpower_pow by auto. unfold bq, Rdiv. ring.
Qed.

(** *** the mixture *)
Section Mix.
Variables c u : R.
Hypothesis C : 0 < c.
Hypothesis U : 0 < u.
Definition dens (x : R) : R := c*exp (- (u + c*x))*Rpower (c*x) q*bS (c*u*x).
Lemma dens_pos x : 0 < x -> 0 < dens x.
Proof.
  intro X. unfold dens. apply Rmult_lt_0_compat; [|apply bS_pos; apply Rmult_le_pos; nra].
  apply Rmult_lt_0_compat; [|apply rpow_pos]. apply Rmult_lt_0_compat; auto. apply exp_pos.
Qed.
(* with the weight x^m exp(-sx) *)
Variables (m : nat) (s : R).
Hypothesis S0 : 0 < c + s.
Definition front (x : R) : R := x^m*exp (- (s*x))*(c*exp (- (u + c*x))*Rpower (c*x) q).
Definition term (n : nat) (x : R) : R := front x*(bq n*(c*u*x)^n).
Definition Jn (n : nat) : R := c*exp (- u)*Rpower c q*(c*u)^n*bq n*(gamma (INR n + q + 1 + INR m)/Rpower (c + s) (INR n + q + 1 + INR m)).
Lemma front_cont : cont_pos front.
Proof. intros x X. apply (ex_derive_continuous (V := R_NormedModule)). unfold front, Rpower. auto_derive. nra. Qed.
Lemma front_pos x : 0 < x -> 0 < front x.
Proof.
  intro X. unfold front. apply Rmult_lt_0_compat; [apply Rmult_lt_0_compat; [apply pow_lt; auto|apply exp_pos]|].
  apply Rmult_lt_0_compat; [|apply rpow_pos]. apply Rmult_lt_0_compat; auto. apply exp_pos.
Qed.
Lemma term_cont n : cont_pos (term n).
Proof.
  intros x X. apply (continuous_mult (K := R_AbsRing) front); [apply front_cont; auto|].
  apply (ex_derive_continuous (V := R_NormedModule)). auto_derive. auto.
Qed.
Lemma cux x : 0 < x -> 0 < c*u*x. Proof. intro X. apply Rmult_lt_0_compat; auto. nra. Qed.
Lemma term_pos n x : 0 < x -> 0 <= term n x.
Proof.
  intro X. unfold term. pose proof (front_pos x X). pose proof (bq_pos n). pose proof (pow_lt _ n (cux x X)).
  apply Rmult_le_pos; [lra|]. apply Rmult_le_pos; lra.
Qed.
Lemma term_half n : half_line (term n) (Jn n).
Proof.
  set (a := INR n + q + 1 + INR m). assert (A : 0 < a) by (unfold a; pose proof (shape_pos n); pose proof (pos_INR m); lra).
  unfold Jn. eapply half_ext; [apply half_scal, (gamma_scale gamma G a (c + s) A S0)|].
  intros x X. cbv beta. unfold term, front. rewrite <- (Rpower_mult_distr c x q) by auto. rewrite !Rpow_mult_distr.
  replace (a - 1) with (INR n + q + INR m) by (unfold a; ring). rewrite !Rpower_plus, !Rpower_pow by auto.
  replace (exp (- (u + c*x))) with (exp (- u)*exp (- (c*x))) by (rewrite <- exp_plus; f_equal; ring).
  replace (exp (- ((c + s)*x))) with (exp (- (s*x))*exp (- (c*x))) by (rewrite <- exp_plus; f_equal; ring). ring.
Qed.
Lemma mix_half v : is_series Jn v -> half_line (fun x => x^m*exp (- (s*x))*dens x) v.
Proof.
  intro H. apply (half_ext (fun x => front x*bS (c*u*x))); [|intros x X; unfold front, dens; ring].
  apply (series_half term _ Jn v); auto.
  - apply term_cont.
  - intros x X. apply (continuous_mult (K := R_AbsRing) front); [apply front_cont; auto|].
    apply (ex_derive_continuous (V := R_NormedModule) (fun x => bS (c*u*x))). eexists. apply (dcomp bS (fun x => c*u*x) x (c*u)); [auto_derive; auto; ring|apply bS_derive].
  - apply term_pos.
  - intros x X. apply (ser_scal (front x)), bS_series.
  - intros a b A AB. destruct (continuity_ab_maj front a b AB) as (y & HY & HY2).
    { intros x X. apply continuity_pt_filterlim. apply front_cont. lra. }
    exists (fun n => front y*(bq n*(c*u*b)^n)). split; [eexists; apply ser_scal, bS_series|].
    intros n x X. unfold term. specialize (HY x X). pose proof (front_pos x ltac:(lra)). pose proof (bq_pos n).
    pose proof (cux x ltac:(lra)). assert (P : (c*u*x)^n <= (c*u*b)^n) by (apply pow_incr; split; [lra|]; apply Rmult_le_compat_l; [nra|lra]).
    pose proof (pow_lt _ n (cux x ltac:(lra))). apply Rmult_le_compat; try lra; [apply Rmult_le_pos; lra|]. apply Rmult_le_compat_l; lra.
  - apply term_half.
Qed.
End Mix.
Lemma cpow c n e : 0 < c -> c*Rpower c e*c^n = Rpower c (INR n + e + 1).
Proof. intro C. rewrite !Rpower_plus, Rpower_pow, Rpower_1 by auto. ring. Qed.
(** its Laplace transform *)
Lemma dens_laplace c u s : 0 < c -> 0 < u -> 0 < c + s ->
  half_line (fun x => exp (- (s*x))*dens c u x) (Rpower (c/(c + s)) (q + 1)*exp (- (u*s/(c + s)))).
Proof.
  intros C U S. eapply half_ext; [apply (mix_half c u C U 0 s S)|intros x X; simpl; ring].
  set (r := c/(c + s)). assert (R0 : 0 < r) by (apply Rdiv_lt_0_compat; auto).
  eapply ser_ext; [apply (ser_scal (exp (- u)*Rpower r (q + 1))), (exp_series (u*r))| |].
  - intro n. unfold Jn, bq. simpl INR. rewrite Rplus_0_r. pose proof (gam_pos n). pose proof (fact_pos n). pose proof (rpow_pos (c + s) (INR n + q + 1)).
    rewrite !Rpow_mult_distr. replace (c*exp (- u)*Rpower c q*(c^n*u^n)) with (c*Rpower c q*c^n*exp (- u)*u^n) by ring. rewrite cpow by auto.
    replace (Rpower c (INR n + q + 1)) with (Rpower r (INR n + q + 1)*Rpower (c + s) (INR n + q + 1)).
    2: { rewrite Rpower_mult_distr by auto. f_equal. unfold r. field. lra. }
    replace (Rpower r (INR n + q + 1)) with (r^n*Rpower r (q + 1)) by (rewrite <- Rpower_pow, <- Rpower_plus by auto; f_equal; ring). field. repeat split; lra.
  - replace (exp (- u)*Rpower r (q + 1)*exp (u*r)) with (Rpower r (q + 1)*(exp (- u)*exp (u*r))) by ring. rewrite <- exp_plus. f_equal. f_equal. unfold r. field. lra.
Qed.
(** its moments *)
Lemma Jn_0 c u m n : 0 < c -> 0 < u -> Jn c u m 0 n = exp (- u)*(u^n/INR (fact n))*(gamma (INR n + q + 1 + INR m)/gamma (INR n + q + 1))/c^m.
Proof.
  intros C U. unfold Jn, bq. rewrite Rplus_0_r. pose proof (gam_pos n). pose proof (fact_pos n).
  rewrite Rpower_plus, Rpower_pow by auto. pose proof (rpow_pos c (INR n + q + 1)). pose proof (pow_lt c m C).
  rewrite !Rpow_mult_distr. replace (c*exp (- u)*Rpower c q*(c^n*u^n)) with (c*Rpower c q*c^n*exp (- u)*u^n) by ring. rewrite cpow by auto.
  field. repeat split; lra.
Qed.
Lemma dens_one c u : 0 < c -> 0 < u -> half_line (dens c u) 1.
Proof.
  intros C U. pose proof (dens_laplace c u 0 C U ltac:(lra)) as H. eapply half_eq; [eapply half_ext; [exact H|]|].
  - intros x X. cbv beta. rewrite Rmult_0_l, Ropp_0, exp_0. ring.
  - rewrite Rplus_0_r. replace (c/c) with 1 by (field; lra). unfold Rpower. rewrite ln_1, Rmult_0_r, exp_0.
    replace (- (u*0/c)) with 0 by (field; lra). rewrite exp_0. ring.
Qed.
Lemma dens_first c u : 0 < c -> 0 < u -> half_line (fun x => x*dens c u x) ((u + q + 1)/c).
Proof.
  intros C U. eapply half_ext; [apply (mix_half c u C U 1 0 ltac:(lra))|intros x X; cbv beta; rewrite Rmult_0_l, Ropp_0, exp_0; simpl; ring].
  eapply ser_ext; [apply (ser_scal (exp (- u)/c)), ser_plus; [apply (poisson1 u)|apply (ser_scal (q + 1)), (exp_series u)]| |].
  - intro n. rewrite Jn_0 by auto. simpl INR. rewrite (gamma_rec gamma G) by apply shape_pos. pose proof (gam_pos n). pose proof (fact_pos n). field. repeat split; lra.
  - rewrite exp_Ropp. pose proof (exp_pos u). field. split; lra.
Qed.
Lemma dens_second c u : 0 < c -> 0 < u -> half_line (fun x => x^2*dens c u x) ((u*u + u + (2*q + 3)*u + (q + 1)*(q + 2))/(c*c)).
Proof.
  intros C U. eapply half_ext; [apply (mix_half c u C U 2 0 ltac:(lra))|intros x X; cbv beta; rewrite Rmult_0_l, Ropp_0, exp_0; simpl; ring].
  eapply ser_ext; [apply (ser_scal (exp (- u)/(c*c))), ser_plus; [apply (poisson2 u)|apply ser_plus; [apply (ser_scal (2*q + 3)), (poisson1 u)|apply (ser_scal ((q + 1)*(q + 2))), (exp_series u)]]| |].
  - intro n. rewrite Jn_0 by auto. simpl INR. replace (INR n + q + 1 + (1 + 1)) with (INR n + q + 1 + 1 + 1) by ring. pose proof (shape_pos n).
    rewrite !(gamma_rec gamma G) by lra. pose proof (gam_pos n). pose proof (fact_pos n). field. repeat split; lra.
  - rewrite exp_Ropp. pose proof (exp_pos u). field. split; lra.
Qed.
End Cir.

(** the Bessel function exists *)
Lemma bessel_exists gamma : euler_gamma gamma -> exists iv, bessel_i gamma iv.
Proof.
  intro G. exists (fun q z => Rpower (z/2) q*bS gamma q (z/2*(z/2))). intros q z Q Z.
  eapply ser_ext; [apply ser_scal, (bS_series gamma G q Q)| |reflexivity]. intro n. cbv beta.
  assert (0 < z/2) by lra. replace (2*INR n + q) with (q + INR n + INR n) by ring. rewrite !Rpower_plus, !Rpower_pow, Rpow_mult_distr by auto. unfold bq, Rdiv. ring.
Qed.
