(** Black-Scholes prices are discounted mean payoffs under the lognormal density: C65. *)
From Coq Require Import List Arith Bool Reals Lra Lia Psatz.
From Coquelicot Require Import Coquelicot.
From Verif Require Import Base M_analytical S_analytical S_rv L_rv L_gauss L_gauss2 M_dist S_dist L_dist P_dist P_bs.
Local Open Scope R_scope.

(** integral from a point, by an antiderivative *)
Lemma integral_tail (f G : R -> R) (a L : R) : (forall x, is_derive G x (f x)) -> (forall x, continuous f x) -> is_lim G p_infty L ->
  is_RInt_gen f (at_point a) (Rbar_locally p_infty) (L - G a).
Proof.
  intros D C H P [e HP]. destruct (H (ball L e)) as [M K]; [exists e; auto|].
  exists (fun x => x = a) (fun y => M < y); [reflexivity|exists M; auto|]. intros x y -> Y. exists (G y - G a). split.
  - apply (is_RInt_derive (V := R_CompleteNormedModule) G f); intros; auto.
  - apply HP. specialize (K y Y). unfold ball in *. simpl in *. unfold AbsRing_ball, abs, minus, plus, opp in *. simpl in *.
    replace (G y - G a + - (L - G a)) with (G y + - L) by ring. auto.
Qed.
Lemma tail_ext (f g : R -> R) (a L : R) : is_RInt_gen f (at_point a) (Rbar_locally p_infty) L -> (forall x, a < x -> f x = g x) ->
  is_RInt_gen g (at_point a) (Rbar_locally p_infty) L.
Proof.
  intros I E. apply (is_RInt_gen_ext (V := R_CompleteNormedModule) f g L); auto. exists (fun x => x = a) (fun y => a < y); [reflexivity|exists a; auto|].
  intros x y -> Y z [Z _]. simpl in Z. rewrite Rmin_left in Z by lra. auto.
Qed.
Lemma head_zero (f : R -> R) (a : R) : (forall x, x < a -> f x = 0) -> is_RInt_gen f (Rbar_locally m_infty) (at_point a) 0.
Proof.
  intros E P HP. exists (fun x => x < a) (fun y => y = a); [exists a; auto|reflexivity|]. intros x y X ->. exists 0. split; [|apply locally_singleton; auto].
  cbn [fst snd]. apply (is_RInt_ext (V := R_CompleteNormedModule) (fun _ => 0)).
  - intros z [_ Z]. simpl in Z. rewrite Rmax_right in Z by lra. symmetry. auto.
  - evar_last; [apply (is_RInt_const (V := R_CompleteNormedModule) x a 0)|]. unfold scal. simpl. unfold mult. simpl. ring.
Qed.
Lemma call_payoff F c s k : std_normal_cdf F -> 0 < c -> 0 < s -> 0 < k -> let z := ln (k/c)/s in
  mean_normal (fun w => Rmax (c*exp (s*w) - k) 0) (c*exp (s*s/2)*F (s - z) - k*F (- z)).
Proof.
  intros HF C S K z. unfold mean_normal. set (f := fun w => (c*exp (s*w) - k)*phi w). set (G := fun w => c*exp (s*s/2)*F (w - s) - k*F w).
  assert (EZ : c*exp (s*z) = k). { unfold z. apply exp_log; auto. }
  assert (MON : forall w, (w < z -> c*exp (s*w) < k) /\ (z < w -> k < c*exp (s*w))).
  { intro w. rewrite <- EZ. split; intro H; apply Rmult_lt_compat_l; auto; apply exp_increasing; nra. }
  assert (D : forall w, is_derive G w (f w)).
  { intro w. unfold G, f. destruct HF as [DF _]. replace ((c*exp (s*w) - k)*phi w) with (c*exp (s*s/2)*(1*phi (w - s)) - k*phi w).
    2: { unfold phi. assert (X : exp (s*w)*exp (- (w*w/2)) = exp (s*s/2)*exp (- ((w - s)*(w - s)/2))) by (rewrite <- !exp_plus; f_equal; field).
      unfold Rdiv in *. replace ((c*exp (s*w) - k)*(exp (- (w*w*/2))*/sqrt (2*PI))) with (c*(exp (s*w)*exp (- (w*w*/2)))*/sqrt (2*PI) - k*(exp (- (w*w*/2))*/sqrt (2*PI))) by ring. rewrite X. ring. }
    apply (is_derive_minus (V := R_NormedModule) (fun w => c*exp (s*s/2)*F (w - s)) (fun w => k*F w)).
    - apply (is_derive_scal (fun w => F (w - s))). apply (is_derive_comp F (fun w => w - s)); [apply DF|]. auto_derive; auto.
    - apply (is_derive_scal F). apply DF. }
  assert (CF : forall w, continuous f w).
  { intro w. apply (continuous_mult (K := R_AbsRing) (fun w => c*exp (s*w) - k) phi); [|apply phi_cont]. apply (ex_derive_continuous (V := R_NormedModule)). auto_derive; auto. }
  assert (L : is_lim G p_infty (c*exp (s*s/2)*1 - k*1)).
  { unfold G. apply is_lim_minus'.
    - change (Finite (c*exp (s*s/2)*1)) with (Rbar_mult (c*exp (s*s/2)) 1). apply is_lim_scal_l.
      apply (is_lim_comp F (fun w => w - s) p_infty 1 p_infty); [apply (cdf_lim F HF)| |exists 0; intros; discriminate].
      intros P [M HM]. exists (M + s). intros w W. apply HM. lra.
    - change (Finite (k*1)) with (Rbar_mult k 1). apply is_lim_scal_l. apply (cdf_lim F HF). }
  replace (c*exp (s*s/2)*F (s - z) - k*F (- z)) with (plus 0 ((c*exp (s*s/2)*1 - k*1) - G z)).
  2: { unfold G. replace (s - z) with (- (z - s)) by ring. rewrite !(cdf_sym F HF). unfold plus. simpl. ring. }
  apply (is_RInt_gen_Chasles (V := R_CompleteNormedModule) _ z).
  - apply head_zero. intros w W. destruct (MON w) as [M _]. rewrite Rmax_right by (specialize (M W); lra). ring.
  - apply (tail_ext f); [apply integral_tail; auto|]. intros w W. destruct (MON w) as [_ M]. rewrite Rmax_left by (specialize (M W); lra). reflexivity.
Qed.
Lemma payoff_cont k c s z : continuous (fun w => Rmax (c*exp (s*w) - k) 0) z.
Proof.
  apply (continuous_ext (fun w => (c*exp (s*w) - k + Rabs (c*exp (s*w) - k))/2)).
  - intro w. unfold Rmax. destruct (Rle_dec (c*exp (s*w) - k) 0); [rewrite Rabs_left1 by auto|rewrite Rabs_right by lra]; match goal with |- ?a = ?b => change (@eq R a b) end; field.
  - apply (continuous_mult (K := R_AbsRing) (fun w => c*exp (s*w) - k + Rabs (c*exp (s*w) - k)) (fun _ => /2)); [|apply continuous_const].
    assert (CF : continuous (fun w => c*exp (s*w) - k) z) by (apply (ex_derive_continuous (V := R_NormedModule)); auto_derive; auto).
    apply (continuous_plus (V := R_NormedModule)); auto. apply (continuous_comp (fun w => c*exp (s*w) - k) Rabs); auto. apply continuous_Rabs.
Qed.
Section Price.
Variables (F : R -> R) (k t x0 r q sigma : R).
Hypothesis HF : std_normal_cdf F.
Hypothesis h_k : 0 < k.
Hypothesis h_t : 0 < t.
Hypothesis h_x : 0 < x0.
Hypothesis h_s : 0 < sigma.
Let s := sigma*sqrt t.
Let c := x0*exp ((r - q)*t - s*s/2).
Lemma pr_s : 0 < s. Proof using h_s h_t. unfold s. apply Rmult_lt_0_compat; auto. apply sqrt_lt_R0; auto. Qed.
Lemma pr_c : 0 < c. Proof using h_x. unfold c. apply Rmult_lt_0_compat; auto. apply exp_pos. Qed.
Lemma pr_pdf x : lognorm_pdf x0 (r - q) sigma t x = Some (lpdf c s x).
Proof using h_s h_t h_x. unfold lognorm_pdf. cbv zeta. apply sp_pdf_eq; [apply pr_s|apply pr_c]. Qed.
Lemma pr_d2 : - (ln (k/c)/s) = (ln (x0/k) + (r - q + 0.5*sigma^2)*t)/s - s.
Proof using h_s h_t h_x h_k.
  pose proof pr_s as S. pose proof pr_c as C. rewrite !ln_div by auto. unfold c. rewrite ln_mult, ln_exp by (auto; apply exp_pos).
  assert (SS : s*s = sigma*sigma*t). { unfold s. replace (sigma*sqrt t*(sigma*sqrt t)) with (sigma*sigma*(sqrt t*sqrt t)) by ring. rewrite sqrt_sqrt; lra. }
  apply Rmult_eq_reg_r with s; [|lra]. replace 0.5 with (/2) by lra. replace (((ln x0 - ln k + (r - q + /2*sigma^2)*t)/s - s)*s) with (ln x0 - ln k + (r - q)*t + (sigma*sigma*t)/2 - s*s) by (field; lra).
  rewrite <- SS. field. lra.
Qed.
Theorem C65_call : exists p v, (forall x, lognorm_pdf x0 (r - q) sigma t x = Some (p x)) /\
  half_line (fun x => Rmax (x - k) 0 * p x) v /\ bscall F k t x0 r q sigma = Ok (exp (- (r*t)) * v).
Proof using HF h_s h_t h_x h_k.
  pose proof pr_s as S. pose proof pr_c as C. exists (lpdf c s). eexists. split; [apply pr_pdf|]. split.
  - apply (lognormal_line c s (fun w => Rmax (c*exp (s*w) - k) 0)); auto; [intro; apply payoff_cont|apply call_payoff; eauto|].
    intros x X. rewrite exp_log by auto. reflexivity.
  - destruct (call_eq k r q sigma h_k ltac:(lra) F t x0 h_t h_x) as [E _]. rewrite E. f_equal. fold s.
    replace (s - ln (k/c)/s) with ((ln (x0/k) + (r - q + 0.5*sigma^2)*t)/s) by (pose proof pr_d2; lra). rewrite pr_d2.
    assert (X : exp (- (r*t))*(c*exp (s*s/2)) = x0*exp (- q*t)). { unfold c. rewrite (Rmult_assoc x0), <- exp_plus. replace (exp (- (r*t))*(x0*exp ((r - q)*t - s*s/2 + s*s/2))) with (x0*(exp (- (r*t))*exp ((r - q)*t - s*s/2 + s*s/2))) by ring. rewrite <- exp_plus. do 2 f_equal. ring. }
    rewrite Rmult_minus_distr_l, <- !Rmult_assoc, (Rmult_assoc _ c), X. replace (- r*t) with (- (r*t)) by ring. ring.
Qed.
Theorem C65_put : exists p v, (forall x, lognorm_pdf x0 (r - q) sigma t x = Some (p x)) /\
  half_line (fun x => Rmax (k - x) 0 * p x) v /\ bsput F k t x0 r q sigma = Ok (exp (- (r*t)) * v).
Proof using HF h_s h_t h_x h_k.
  pose proof pr_s as S. pose proof pr_c as C. exists (lpdf c s). eexists. split; [apply pr_pdf|].
  assert (M : mean_normal (fun w => Rmax (k - c*exp (s*w)) 0) ((c*exp (s*s/2)*F (s - ln (k/c)/s) - k*F (- (ln (k/c)/s))) + (k - c*exp (s*s/2)))).
  { eapply mean_ext; [apply mean_plus; [exact (call_payoff F c s k HF C S h_k)|apply mean_plus; [apply (mean_scal k); apply (mean_normal_poly 1 0 0)|apply (mean_scal (- c)); apply (mean_normal_exp 0 s)]]| |].
    - intro w. cbv beta. rewrite Rplus_0_l. unfold Rmax. destruct (Rle_dec (k - c*exp (s*w)) 0), (Rle_dec (c*exp (s*w) - k) 0); lra.
    - cbv zeta. rewrite Rplus_0_l. ring. }
  split.
  - apply (lognormal_line c s (fun w => Rmax (k - c*exp (s*w)) 0)); auto; [|exact M|].
    + intro z. apply (continuous_ext (fun w => Rmax (c*exp (s*w) - k) 0 + (k - c*exp (s*w)))).
      * intro w. unfold Rmax. destruct (Rle_dec (k - c*exp (s*w)) 0), (Rle_dec (c*exp (s*w) - k) 0); match goal with |- ?a = ?b => change (@eq R a b) end; lra.
      * apply (continuous_plus (V := R_NormedModule)); [apply payoff_cont|]. apply (ex_derive_continuous (V := R_NormedModule)). auto_derive; auto.
    + intros x X. rewrite exp_log by auto. reflexivity.
  - destruct (put_eq k r q sigma h_k ltac:(lra) F t x0 (cdf_sym F HF) h_t h_x) as [E _]. rewrite E. f_equal. fold s.
    replace (s - ln (k/c)/s) with ((ln (x0/k) + (r - q + 0.5*sigma^2)*t)/s) by (pose proof pr_d2; lra). rewrite pr_d2.
    assert (X : exp (- (r*t))*(c*exp (s*s/2)) = x0*exp (- q*t)). { unfold c. rewrite (Rmult_assoc x0), <- exp_plus. replace (exp (- (r*t))*(x0*exp ((r - q)*t - s*s/2 + s*s/2))) with (x0*(exp (- (r*t))*exp ((r - q)*t - s*s/2 + s*s/2))) by ring. rewrite <- exp_plus. do 2 f_equal. ring. }
    rewrite Rmult_plus_distr_l, !Rmult_minus_distr_l, <- !Rmult_assoc, !(Rmult_assoc _ c), X. replace (- r*t) with (- (r*t)) by ring. ring.
Qed.
(** with a negative sigma bscall returns the opposite of the price of the put, a negative number *)
Theorem C65_negative_refuted : exists p, bsput F k t x0 r q sigma = Ok p /\ bscall F k t x0 r q (- sigma) = Ok (- p).
Proof using HF h_s h_t h_x h_k.
  destruct (put_eq k r q sigma h_k ltac:(lra) F t x0 (cdf_sym F HF) h_t h_x) as [E1 _]. destruct (call_eq k r q (- sigma) h_k ltac:(lra) F t x0 h_t h_x) as [E2 _].
  eexists. split; [exact E1|]. rewrite E2. f_equal. fold s. replace (- sigma*sqrt t) with (- s) by (unfold s; ring). replace ((- sigma)^2) with (sigma^2) by ring.
  pose proof pr_s as S. set (A := ln (x0/k) + (r - q + 0.5*sigma^2)*t). replace (A/ - s) with (- (A/s)) by (field; lra). replace (- (A/s) - - s) with (- (A/s - s)) by ring.
  rewrite !(cdf_sym F HF). ring.
Qed.
End Price.
Print Assumptions C65_call.
Print Assumptions C65_put.
Print Assumptions C65_negative_refuted.

(** at the money, no rates: sigma sqrt(t) = 2, d1 = 1, d2 = -1 *)
Example C65_ex F : std_normal_cdf F -> exists p, (forall x, lognorm_pdf 1 0 1 4 x = Some (p x)) /\
  half_line (fun x => Rmax (x - 1) 0 * p x) (2*F 1 - 1) /\ bscall F 1 4 1 0 0 1 = Ok (2*F 1 - 1) /\ bscall F 1 4 1 0 0 (-1) = Ok (- (2*F 1 - 1)).
Proof.
  intro HF. destruct (C65_call F 1 4 1 0 0 1 HF) as (p & v & H1 & H2 & H3); try lra.
  assert (S : sqrt 4 = 2) by (replace 4 with (2*2) by ring; apply sqrt_square; lra).
  destruct (call_eq 1 0 0 1 ltac:(lra) ltac:(lra) F 4 1 ltac:(lra) ltac:(lra)) as [E _].
  assert (V : v = 2*F 1 - 1).
  { rewrite H3 in E. injection E as E. replace (1/1) with 1 in E by field. rewrite ln_1, S in E. replace ((0 + (0 - 0 + 0.5*(1*(1*1)))*4)/(1*2)) with 1 in E by lra.
    replace (1 - 1*2) with (- (1)) in E by ring.
    rewrite (cdf_sym F HF) in E. replace (- (0*4)) with 0 in E by ring. replace (-0*4) with 0 in E by ring. rewrite exp_0 in E. lra. }
  exists p. split; [intro; rewrite <- H1; f_equal; ring|]. rewrite V in *. split; [auto|]. split.
  - rewrite H3. f_equal. replace (- (0*4)) with 0 by ring. rewrite exp_0. ring.
  - destruct (C65_negative_refuted F 1 4 1 0 0 1 HF) as (c & E1 & E2); try lra. replace (- (1)) with (-1) in E2 by lra. rewrite E2. do 2 f_equal.
    destruct (put_eq 1 0 0 1 ltac:(lra) ltac:(lra) F 4 1 (cdf_sym F HF) ltac:(lra) ltac:(lra)) as [E3 _]. rewrite E1 in E3. injection E3 as ->.
    rewrite H3 in E. injection E as E. rewrite <- E. replace (- (0*4)) with 0 by ring. replace (-0*4) with 0 by ring. rewrite exp_0. ring.
Qed.
