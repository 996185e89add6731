(** Properties of the densities and distribution functions: C64. *)
From Coq Require Import String List Arith Bool Reals Lra Lia Psatz.
From Coquelicot Require Import Coquelicot.
From Verif Require Import Base M_sde M_presets M_analytical S_analytical S_chf L_coefs L_complex L_gauss L_gauss2 M_dist S_dist L_dist P_chf P_moments.
Local Open Scope R_scope.

Lemma norm_pdf_eq x m s : 0 < s -> norm_pdf x m s = Some (npdf m s x).
Proof. intro S. unfold norm_pdf. destruct (Rlt_dec 0 s); [reflexivity|contradiction]. Qed.
Lemma norm_cdf_eq F x m s : 0 < s -> norm_cdf F x m s = Some (F ((x - m)/s)).
Proof. intro S. unfold norm_cdf. destruct (Rlt_dec 0 s); [reflexivity|contradiction]. Qed.
Lemma sqrt_scale sigma t : 0 < sigma -> 0 <= t -> sigma*sqrt t = sqrt (sigma*sigma*t).
Proof. intros S T. rewrite sqrt_mult by nra. rewrite sqrt_square by lra. reflexivity. Qed.

(** *** wiener_process *)
Theorem C64_wiener F x0 mu sigma a b : std_normal_cdf F -> 0 < sigma ->
  coef wiener_sde (bm_args mu sigma) "dt" a -> coef wiener_sde (bm_args mu sigma) "dw" b ->
  exists p P : R -> R -> R,
    (forall t x, 0 < t -> wiener_pdf x0 mu sigma t x = Some (p t x) /\ wiener_cdf F x0 mu sigma t x = Some (P t x)) /\
    (forall t, 0 < t -> density (p t) (P t) /\ moments line (p t) (wiener_mean x0 mu sigma t) (wiener_var x0 mu sigma t) /\
                       fourier line (fun x => x) (p t) (wiener_chf x0 mu sigma t)) /\
    (forall t x, 0 < t -> forward a b p t x) /\ starts_at x0 P.
Proof.
  intros HF S CA CB. pose proof (coef_fun _ _ _ _ _ CA (wiener_dt mu sigma)) as HA. pose proof (coef_fun _ _ _ _ _ CB (wiener_dw mu sigma)) as HB.
  set (m := fun t => x0 + mu*t). set (v := fun t => sigma*sigma*t).
  assert (V : forall t, 0 < t -> 0 < v t) by (intros t T; unfold v; apply Rmult_lt_0_compat; nra).
  exists (fun t x => npdf (m t) (sqrt (v t)) x), (fun t x => F ((x - m t)/sqrt (v t))). split; [|split; [|split]].
  - intros t x T. unfold wiener_pdf, wiener_cdf. cbv zeta. rewrite (sqrt_scale sigma t) by lra. pose proof (sqrt_lt_R0 _ (V t T)).
    rewrite norm_pdf_eq, norm_cdf_eq by auto. split; reflexivity.
  - intros t T. pose proof (sqrt_lt_R0 _ (V t T)) as Q. split; [apply normal_density; auto|]. split.
    + pose proof (normal_moments (m t) _ Q) as M. rewrite sqrt_sqrt in M by (specialize (V t T); lra). exact M.
    + intro u. rewrite C57_wiener by lra. apply (normal_fourier (m t) (sqrt (v t))). auto.
  - intros t x T. apply forward_gauss with (al := mu) (be := 0) (B := sigma); auto.
    + intro z. rewrite HA. ring.
    + unfold m. auto_derive; auto. ring.
    + unfold v. auto_derive; auto. ring.
  - apply starts_gauss; auto; apply right_cont; try (apply (ex_derive_continuous (V := R_NormedModule)); unfold m, v; auto_derive; auto); unfold m, v; ring.
Qed.

(** *** ornstein_uhlenbeck_process, hull_white_process with one factor *)
Lemma oruh_var_pos x0 theta k sigma t : k <> 0 -> sigma <> 0 -> 0 < t -> 0 < oruh_var x0 theta k sigma t.
Proof.
  intros K S T. unfold oruh_var. assert (0 < sigma*sigma) by nra. destruct (Rtotal_order k 0) as [N|[N|N]]; [|contradiction|].
  - assert (1 < exp (-2*k*t)) by (rewrite <- exp_0; apply exp_increasing; nra). replace (sigma*sigma/(2*k)*(1 - exp (-2*k*t))) with (sigma*sigma/(2*- k)*(exp (-2*k*t) - 1)) by (field; lra).
    apply Rmult_lt_0_compat; [apply Rdiv_lt_0_compat|]; lra.
  - assert (exp (-2*k*t) < 1) by (rewrite <- exp_0; apply exp_increasing; nra). apply Rmult_lt_0_compat; [apply Rdiv_lt_0_compat|]; lra.
Qed.
Theorem C64_oruh F x0 theta k sigma a b : std_normal_cdf F -> k <> 0 -> sigma <> 0 ->
  coef ou_sde (ou_args theta k sigma) "dt" a -> coef ou_sde (ou_args theta k sigma) "dw" b ->
  exists p P : R -> R -> R,
    (forall t x, 0 < t -> oruh_pdf x0 theta k sigma t x = Some (p t x) /\ oruh_cdf F x0 theta k sigma t x = Some (P t x)) /\
    (forall t, 0 < t -> density (p t) (P t) /\ moments line (p t) (oruh_mean x0 theta k sigma t) (oruh_var x0 theta k sigma t)) /\
    (forall t x, 0 < t -> forward a b p t x) /\ starts_at x0 P.
Proof.
  intros HF K S CA CB. pose proof (coef_fun _ _ _ _ _ CA (ou_dt theta k sigma)) as HA. pose proof (coef_fun _ _ _ _ _ CB (ou_dw theta k sigma)) as HB.
  set (m := oruh_mean x0 theta k sigma). set (v := oruh_var x0 theta k sigma).
  assert (V : forall t, 0 < t -> 0 < v t) by (intros; apply oruh_var_pos; auto).
  exists (fun t x => npdf (m t) (sqrt (v t)) x), (fun t x => F ((x - m t)/sqrt (v t))). split; [|split; [|split]].
  - intros t x T. unfold oruh_pdf, oruh_cdf. pose proof (sqrt_lt_R0 _ (V t T)).
    rewrite norm_pdf_eq, norm_cdf_eq by auto. split; reflexivity.
  - intros t T. pose proof (sqrt_lt_R0 _ (V t T)) as Q. split; [apply normal_density; auto|].
    pose proof (normal_moments (m t) _ Q) as M. rewrite sqrt_sqrt in M by (specialize (V t T); lra). exact M.
  - intros t x T. apply forward_gauss with (al := k*theta) (be := - k) (B := sigma); auto.
    + intro z. rewrite HA. ring.
    + replace (k*theta + - k*m t) with (- k*m t + k*theta) by ring. apply oruh_mean_ode.
    + replace (2*- k*v t + sigma*sigma) with (2*- k*v t + (sigma*sigma + 0*m t)) by ring. apply oruh_var_ode; auto.
  - apply starts_gauss; auto; apply right_cont; try (apply (ex_derive_continuous (V := R_NormedModule)); unfold m, v, oruh_mean, oruh_var; auto_derive; auto);
      unfold m, v, oruh_mean, oruh_var; rewrite Rmult_0_r, exp_0; field; auto.
Qed.

(** *** lognorm_process: the method sde is that of the logarithm *)
Lemma sp_pdf_eq x s c : 0 < s -> 0 < c -> sp_lognorm_pdf x s c = Some (lpdf c s x).
Proof. intros S C. unfold sp_lognorm_pdf, lpdf. destruct (Rlt_dec 0 s), (Rlt_dec 0 c); try contradiction. destruct (Rlt_dec 0 x); reflexivity. Qed.
Lemma sp_cdf_eq F x s c : 0 < s -> 0 < c -> sp_lognorm_cdf F x s c = Some (lcdf F c s x).
Proof. intros S C. unfold sp_lognorm_cdf, lcdf. destruct (Rlt_dec 0 s), (Rlt_dec 0 c); try contradiction. destruct (Rlt_dec 0 x); reflexivity. Qed.
Lemma log_pdf c s y : 0 < c -> 0 < s -> exp y*lpdf c s (exp y) = npdf (ln c) s y.
Proof.
  intros C S. pose proof (exp_pos y). rewrite lpdf_phi by auto. rewrite ln_div, ln_exp, npdf_phi by auto. field. lra.
Qed.
Lemma forward_ext a b p q t x : forward a b p t x -> 0 < t -> (forall s z, 0 < s -> q s z = p s z) -> forward a b q t x.
Proof.
  intros (pt & ap & bp2 & bp1 & H1 & H2 & H3 & H4 & H5) T E. exists pt, ap, bp2, bp1. split; [|split; [|split; [|split]]]; auto.
  - eapply is_derive_ext_loc; [|exact H1]. exists (mkposreal t T). intros s B. unfold ball in B. simpl in B. unfold AbsRing_ball, abs, minus, plus, opp in B. simpl in B.
    apply Rabs_def2 in B. symmetry. apply E. lra.
  - eapply is_derive_ext; [|exact H2]. intro z. cbv beta. rewrite E by auto. reflexivity.
  - intro z. eapply is_derive_ext; [|apply H3]. intro w. cbv beta. rewrite E by auto. reflexivity.
Qed.
Theorem C64_lognorm F x0 mu sigma a b : std_normal_cdf F -> 0 < sigma -> 0 < x0 ->
  coef lognorm_sde (bm_args mu sigma) "dt" a -> coef lognorm_sde (bm_args mu sigma) "dw" b ->
  exists p P : R -> R -> R,
    (forall t x, 0 < t -> lognorm_pdf x0 mu sigma t x = Some (p t x) /\ lognorm_cdf F x0 mu sigma t x = Some (P t x)) /\
    (forall t, 0 < t -> pos_density (p t) (P t) /\ moments half_line (p t) (lognorm_mean x0 mu sigma t) (lognorm_var x0 mu sigma t) /\
                       fourier half_line ln (p t) (lognorm_log_chf x0 mu sigma t)) /\
    (forall t y, 0 < t -> forward a b (fun t y => exp y * p t (exp y)) t y) /\ starts_at x0 P.
Proof.
  intros HF S X CA CB. pose proof (coef_fun _ _ _ _ _ CA (lognorm_dt mu sigma)) as HA. pose proof (coef_fun _ _ _ _ _ CB (lognorm_dw mu sigma)) as HB.
  set (c := fun t => x0*exp (mu*t - sigma*sqrt t*(sigma*sqrt t)/2)). set (s := fun t => sigma*sqrt t).
  assert (SP : forall t, 0 < t -> 0 < s t) by (intros t T; unfold s; apply Rmult_lt_0_compat; auto; apply sqrt_lt_R0; auto).
  assert (CP : forall t, 0 < c t) by (intro t; unfold c; apply Rmult_lt_0_compat; auto; apply exp_pos).
  assert (SS : forall t, 0 < t -> s t*s t = sigma*sigma*t).
  { intros t T. unfold s. replace (sigma*sqrt t*(sigma*sqrt t)) with (sigma*sigma*(sqrt t*sqrt t)) by ring. rewrite sqrt_sqrt; lra. }
  assert (LC : forall t, 0 < t -> ln (c t) = ln x0 + (mu - sigma*sigma/2)*t).
  { intros t T. unfold c. rewrite ln_mult, ln_exp by (auto; apply exp_pos). fold (s t). rewrite (SS t T). field. }
  exists (fun t x => lpdf (c t) (s t) x), (fun t x => lcdf F (c t) (s t) x). split; [|split; [|split]].
  - intros t x T. unfold lognorm_pdf, lognorm_cdf. cbv zeta. fold (c t). fold (s t). rewrite sp_pdf_eq, sp_cdf_eq by auto. auto.
  - intros t T. split; [apply lognormal_density; auto|]. split.
    + replace (lognorm_mean x0 mu sigma t) with (c t*exp (s t*s t/2)).
      2: { unfold c, lognorm_mean. fold (s t). rewrite Rmult_assoc, <- exp_plus. do 2 f_equal. ring. }
      replace (lognorm_var x0 mu sigma t) with (c t*c t*exp (s t*s t)*(exp (s t*s t) - 1)); [apply lognormal_moments; auto|].
      unfold c, lognorm_var. fold (s t). rewrite <- (SS t T). replace (2*mu*t) with ((mu*t - s t*s t/2) + (mu*t - s t*s t/2) + s t*s t) by field. rewrite !exp_plus. ring.
    + intro u. rewrite C57_lognorm by lra. rewrite <- (LC t T), <- (SS t T), sqrt_square by (specialize (SP t T); lra). apply lognormal_fourier; auto.
  - intros t y T. apply (forward_ext a b (fun t y => npdf (ln x0 + (mu - sigma*sigma/2)*t) (sqrt (sigma*sigma*t)) y)); auto.
    + apply forward_gauss with (al := mu - sigma*sigma/2) (be := 0) (B := sigma).
      * intro z. rewrite HA. ring.
      * auto.
      * apply Rmult_lt_0_compat; nra.
      * auto_derive; auto. ring.
      * auto_derive; auto. ring.
    + intros w z W. rewrite log_pdf by auto. rewrite (LC w W), <- (SS w W), sqrt_square by (specialize (SP w W); lra). reflexivity.
  - assert (G : starts_at (ln x0) (fun t y => F ((y - (ln x0 + (mu - sigma*sigma/2)*t))/sqrt (sigma*sigma*t)))).
    { apply (starts_gauss F (ln x0) (fun t => ln x0 + (mu - sigma*sigma/2)*t) (fun t => sigma*sigma*t)); auto; [intros; apply Rmult_lt_0_compat; nra| |];
        apply right_cont; try (apply (ex_derive_continuous (V := R_NormedModule)); auto_derive; auto); ring. }
    assert (E : forall x, 0 < x -> at_right 0 (fun t => F ((ln x - (ln x0 + (mu - sigma*sigma/2)*t))/sqrt (sigma*sigma*t)) = lcdf F (c t) (s t) x)).
    { intros x XP. exists (mkposreal 1 Rlt_0_1). intros t _ T. unfold lcdf. destruct (Rlt_dec 0 x); [|contradiction]. rewrite ln_div by auto. rewrite (LC t T), <- (SS t T), sqrt_square by (specialize (SP t T); lra). reflexivity. }
    split; intros x XX; (destruct (Rlt_dec 0 x) as [XP|XP]; [eapply filterlim_ext_loc; [exact (E x XP)|]|]).
    + apply G. apply ln_increasing; auto.
    + apply filterlim_ext with (fun _ => 0); [|apply filterlim_const]. intro t. unfold lcdf. destruct (Rlt_dec 0 x); [contradiction|reflexivity].
    + apply G. apply ln_increasing; auto.
    + lra.
Qed.

(** *** hull_white_process with two factors *)
Theorem C64_hw2f F x1 x2 theta1 theta2 k1 k2 s1 s2 rho t : std_normal_cdf F -> 0 < hw2f_var1 k1 k2 s1 s2 rho t ->
  exists p P : R -> R,
    (forall x, hw2f_pdf x1 x2 theta1 theta2 k1 k2 s1 s2 rho t x = Some (p x) /\ hw2f_cdf F x1 x2 theta1 theta2 k1 k2 s1 s2 rho t x = Some (P x)) /\
    density p P /\ moments line p (hw2f_mean1 x1 x2 theta1 theta2 k1 k2 t) (hw2f_var1 k1 k2 s1 s2 rho t).
Proof.
  intros HF V. pose proof (sqrt_lt_R0 _ V) as Q. eexists. eexists. split; [|split; [apply normal_density; eauto|]].
  - intro x. unfold hw2f_pdf, hw2f_cdf. rewrite norm_pdf_eq, norm_cdf_eq by auto. split; reflexivity.
  - pose proof (normal_moments (hw2f_mean1 x1 x2 theta1 theta2 k1 k2 t) _ Q) as M. rewrite sqrt_sqrt in M by lra. exact M.
Qed.

Lemma hw2f_var_der k1 k2 s1 s2 rho t : k1 <> 0 -> k2 <> 0 -> k1 + k2 <> 0 -> is_derive (hw2f_var1 k1 k2 s1 s2 rho) t
  ((s1*exp (-k1*t))^2 + (s2*exp (-k2*t))^2 + 2*rho*(s1*exp (-k1*t))*(s2*exp (-k2*t))).
Proof.
  intros K1 K2 K. unfold hw2f_var1. auto_derive; auto.
  replace (exp (-2*k1*t)) with (exp (-k1*t) ^2) by (replace (-2*k1*t) with (-k1*t + -k1*t) by ring; rewrite exp_plus; ring).
  replace (exp (-2*k2*t)) with (exp (-k2*t) ^2) by (replace (-2*k2*t) with (-k2*t + -k2*t) by ring; rewrite exp_plus; ring).
  replace (exp (-(k1+k2)*t)) with (exp (-k1*t) * exp (-k2*t)) by (replace (-(k1+k2)*t) with (-k1*t + -k2*t) by ring; rewrite exp_plus; ring).
  field. auto.
Qed.
Section Hw2f.
Variables theta1 theta2 k1 k2 s1 s2 rho T u al : R.
Hypothesis h_k1 : k1 <> 0.
Hypothesis h_k2 : k2 <> 0.
Hypothesis h_k : k1 + k2 <> 0.
Hypothesis h_rho : -1 <= rho <= 1.
Definition hwM (s x y : R) : R := u*hw2f_mean1 x y theta1 theta2 k1 k2 (T - s) + al.
Definition hwV (s : R) : R := exp (- (u*u/2*hw2f_var1 k1 k2 s1 s2 rho (T - s))).
Definition e1 (s : R) : R := exp (-k1*(T - s)).
Definition e2 (s : R) : R := exp (-k2*(T - s)).
Definition hwV' (s : R) : R := u*u/2*((s1*e1 s)^2 + (s2*e2 s)^2 + 2*rho*(s1*e1 s)*(s2*e2 s))*hwV s.
Definition hwM' (s x y : R) : R := - (u*(k1*e1 s*(theta1 - x) + k2*e2 s*(theta2 - y))).
Lemma hwV_der s : is_derive hwV s (hwV' s).
Proof using h_k1 h_k2 h_k.
  pose proof (hw2f_var_der k1 k2 s1 s2 rho (T - s) h_k1 h_k2 h_k) as D.
  assert (TS : is_derive (fun z => T - z) s (- 1)) by (auto_derive; auto; ring).
  eapply deq; [apply dexp; apply dopp; apply (dmult (fun _ => u*u/2)); [apply is_derive_const|]; exact (dcomp _ (fun z => T - z) s _ _ TS D)|].
  unfold hwV', hwV, e1, e2. change (@zero R_AbsRing) with 0. change (zero : R) with 0. match goal with |- ?a = ?b => change (@eq R a b) end. ring.
Qed.
Lemma hwM_ds s x y : is_derive (fun z => hwM z x y) s (hwM' s x y).
Proof. unfold hwM, hw2f_mean1, hwM', e1, e2. auto_derive; auto. unfold Rminus. ring. Qed.
Lemma hwM_dx s x y : is_derive (fun z => hwM s z y) x (u*e1 s).
Proof. unfold hwM, hw2f_mean1, e1. auto_derive; auto. unfold Rminus. ring. Qed.
Lemma hwM_dy s x y : is_derive (fun z => hwM s x z) y (u*e2 s).
Proof. unfold hwM, hw2f_mean1, e2. auto_derive; auto. unfold Rminus. ring. Qed.
Ltac c2d := repeat first [apply continuity_2d_pt_const | apply continuity_2d_pt_id1 | apply continuity_2d_pt_id2 | apply continuity_2d_pt_plus |
  apply continuity_2d_pt_minus | apply continuity_2d_pt_opp | apply continuity_2d_pt_mult].
Lemma c_time (f : R -> R) s x : ex_derive f s -> continuity_2d_pt (fun s _ => f s) s x.
Proof.
  intro D. apply (continuity_1d_2d_pt_comp f (fun s _ => s)); [|apply continuity_2d_pt_id1]. apply continuity_pt_filterlim. apply (ex_derive_continuous (V := R_NormedModule)). auto.
Qed.
Lemma e_ex s : ex_derive e1 s /\ ex_derive e2 s.
Proof. split; unfold e1, e2; auto_derive; auto. Qed.
Lemma hwM_c s x y : continuity_2d_pt (fun s x => hwM s x y) s x.
Proof.
  apply continuity_2d_pt_ext with (fun s x => u*(theta1 - e1 s*(theta1 - x) + theta2 - e2 s*(theta2 - y)) + al); [intros; reflexivity|].
  destruct (e_ex s). c2d; apply c_time; auto.
Qed.
Lemma trig_c (f : R -> R) s x y : (forall z, ex_derive f z) -> continuity_2d_pt (fun s x => f (hwM s x y)) s x.
Proof.
  intro D. apply (continuity_1d_2d_pt_comp f (fun s x => hwM s x y)); [|apply hwM_c]. apply continuity_pt_filterlim. apply (ex_derive_continuous (V := R_NormedModule)). auto.
Qed.
Lemma hw_bound s p : 0 <= s <= T -> Rabs (hwV s*cos (hwM s (fst p) (snd p))) <= 1.
Proof using h_k1 h_k2 h_k h_rho.
  intro S. rewrite Rabs_mult. rewrite (Rabs_right (hwV s)) by (left; apply exp_pos).
  assert (V : hwV s <= 1). { unfold hwV. rewrite <- exp_0. pose proof (C58_nonneg k1 k2 s1 s2 rho (T - s) h_k1 h_k2 h_k h_rho ltac:(lra)) as N.
    destruct (Req_dec (u*u/2*hw2f_var1 k1 k2 s1 s2 rho (T - s)) 0) as [->|NE]; [rewrite Ropp_0; lra|]. left. apply exp_increasing.
    assert (0 <= u*u/2*hw2f_var1 k1 k2 s1 s2 rho (T - s)) by (apply Rmult_le_pos; [nra|auto]). lra. }
  assert (C : Rabs (cos (hwM s (fst p) (snd p))) <= 1) by (apply Rabs_le; apply COS_bound).
  replace 1 with (1*1) by ring. apply Rmult_le_compat; auto; [left; apply exp_pos|apply Rabs_pos].
Qed.
Lemma hw_harmonic a1 b1 a2 b2 : (forall x, a1 x = k1*(theta1 - x)) -> (forall x, b1 x = s1) -> (forall x, a2 x = k2*(theta2 - x)) -> (forall x, b2 x = s2) ->
  harmonic2 all_R2 (fun p => a1 (fst p)) (fun p => b1 (fst p)) (fun p => a2 (snd p)) (fun p => b2 (snd p)) rho T (fun s p => hwV s*cos (hwM s (fst p) (snd p))).
Proof using h_k1 h_k2 h_k.
  intros H1 H2 H3 H4.
  exists (fun s p => hwV' s*cos (hwM s (fst p) (snd p)) + hwV s*(hwM' s (fst p) (snd p)*- sin (hwM s (fst p) (snd p)))),
    (fun s p => hwV s*((u*e1 s)*- sin (hwM s (fst p) (snd p)))), (fun s p => hwV s*((u*e2 s)*- sin (hwM s (fst p) (snd p)))),
    (fun s p => hwV s*((u*e1 s)*- ((u*e1 s)*cos (hwM s (fst p) (snd p))))), (fun s p => hwV s*((u*e1 s)*- ((u*e2 s)*cos (hwM s (fst p) (snd p))))),
    (fun s p => hwV s*((u*e2 s)*- ((u*e2 s)*cos (hwM s (fst p) (snd p))))).
  intros s x y _ _. cbn [fst snd].
  assert (SC : forall c (f : R -> R) z l, is_derive f z l -> is_derive (fun w => c*f w) z (c*l)) by (intros; apply (is_derive_scal f); auto).
  split; [apply (dmult hwV (fun z => cos (hwM z x y))); [apply hwV_der|apply (dcos (fun z => hwM z x y)); apply hwM_ds]|].
  split; [apply (SC (hwV s) (fun z => cos (hwM s z y))); apply (dcos (fun z => hwM s z y)); apply hwM_dx|].
  split; [apply (SC (hwV s) (fun z => cos (hwM s x z))); apply (dcos (fun z => hwM s x z)); apply hwM_dy|].
  split; [apply (SC (hwV s) (fun z => u*e1 s*- sin (hwM s z y))); apply (SC (u*e1 s) (fun z => - sin (hwM s z y))); apply (dopp (fun z => sin (hwM s z y))); apply (dsin (fun z => hwM s z y)); apply hwM_dx|].
  split; [apply (SC (hwV s) (fun z => u*e1 s*- sin (hwM s x z))); apply (SC (u*e1 s) (fun z => - sin (hwM s x z))); apply (dopp (fun z => sin (hwM s x z))); apply (dsin (fun z => hwM s x z)); apply hwM_dy|].
  split; [apply (SC (hwV s) (fun z => u*e2 s*- sin (hwM s x z))); apply (SC (u*e2 s) (fun z => - sin (hwM s x z))); apply (dopp (fun z => sin (hwM s x z))); apply (dsin (fun z => hwM s x z)); apply hwM_dy|].
  assert (CV : continuity_2d_pt (fun s _ => hwV s) s x) by (apply c_time; eexists; apply hwV_der).
  assert (CC : continuity_2d_pt (fun s x => cos (hwM s x y)) s x) by (apply trig_c; intro; auto_derive; auto).
  destruct (e_ex s) as [X1 X2]. assert (C1 : continuity_2d_pt (fun s _ => e1 s) s x) by (apply c_time; auto). assert (C2 : continuity_2d_pt (fun s _ => e2 s) s x) by (apply c_time; auto).
  split; [apply continuity_2d_pt_mult; auto|]. split.
  - apply continuity_2d_pt_plus; apply continuity_2d_pt_mult; auto.
    + apply continuity_2d_pt_ext with (fun s x => u*u/2*((s1*e1 s)*(s1*e1 s) + (s2*e2 s)*(s2*e2 s) + 2*rho*(s1*e1 s)*(s2*e2 s))*hwV s); [intros; unfold hwV'; ring|]. c2d; auto.
    + apply continuity_2d_pt_mult; [unfold hwM'; c2d; auto|]. apply continuity_2d_pt_opp. apply trig_c. intro; auto_derive; auto.
  - unfold gen2. cbn [fst snd]. rewrite H1, H2, H3, H4. unfold hwV', hwM'. field.
Qed.
End Hw2f.
(** the density of hw2f_pdf is that of the sum of the factors, in any law of the solution: it has the same characteristic function *)
Theorem C64_hw2f_law x1 x2 theta1 theta2 k1 k2 s1 s2 rho a1 b1 a2 b2 T E : k1 <> 0 -> k2 <> 0 -> k1 + k2 <> 0 -> -1 <= rho <= 1 ->
  coef ou_sde (ou_args theta1 k1 s1) "dt" a1 -> coef ou_sde (ou_args theta1 k1 s1) "dw" b1 ->
  coef ou_sde (ou_args theta2 k2 s2) "dt" a2 -> coef ou_sde (ou_args theta2 k2 s2) "dw" b2 ->
  0 <= T -> 0 < hw2f_var1 k1 k2 s1 s2 rho T ->
  law2 all_R2 (fun p => a1 (fst p)) (fun p => b1 (fst p)) (fun p => a2 (snd p)) (fun p => b2 (snd p)) rho (x1, x2) T E ->
  exists p, (forall x, hw2f_pdf x1 x2 theta1 theta2 k1 k2 s1 s2 rho T x = Some (p x)) /\
    fourier line (fun x => x) p (fun u => (E (fun q => cos (u*(fst q + snd q))), E (fun q => sin (u*(fst q + snd q))))).
Proof.
  intros K1 K2 K HR C1 C2 C3 C4 HT V [EX LW]. destruct EX as (_ & _ & EX). pose proof (sqrt_lt_R0 _ V) as Q.
  set (m := hw2f_mean1 x1 x2 theta1 theta2 k1 k2 T) in *. set (v := hw2f_var1 k1 k2 s1 s2 rho T) in *.
  assert (L : forall u al, E (fun q => cos (u*(fst q + snd q) + al)) = exp (- (u*u/2*v))*cos (u*m + al)).
  { intros u al. pose proof (LW (fun s p => hwV k1 k2 s1 s2 rho T u s*cos (hwM theta1 theta2 k1 k2 T u al s (fst p) (snd p))) 1) as H.
    assert (E0 : hwV k1 k2 s1 s2 rho T u 0*cos (hwM theta1 theta2 k1 k2 T u al 0 x1 x2) = exp (- (u*u/2*v))*cos (u*m + al)) by (unfold hwV, hwM; replace (T - 0) with T by ring; reflexivity).
    cbv beta in H. cbn [fst snd] in H. rewrite <- E0, <- H.
    - apply EX. intros q _. unfold hwV, hwM. replace (T - T) with 0 by ring. unfold hw2f_mean1, hw2f_var1. rewrite !Rmult_0_r, exp_0. 
      match goal with |- _ = exp ?a*cos ?b => replace a with 0 by (field; auto); replace b with (u*(fst q + snd q) + al) by ring end. rewrite exp_0. ring.
    - intros s p S _. apply hw_bound; auto.
    - apply hw_harmonic; auto.
      + exact (coef_fun _ _ _ _ _ C1 (ou_dt theta1 k1 s1)).
      + exact (coef_fun _ _ _ _ _ C2 (ou_dw theta1 k1 s1)).
      + exact (coef_fun _ _ _ _ _ C3 (ou_dt theta2 k2 s2)).
      + exact (coef_fun _ _ _ _ _ C4 (ou_dw theta2 k2 s2)). }
  exists (npdf m (sqrt v)). split; [intro; unfold hw2f_pdf; apply norm_pdf_eq; auto|].
  intro u. cbn [fst snd]. destruct (normal_fourier m (sqrt v) Q u) as [F1 F2]. unfold normal_chf, cexp in F1, F2. cbn [fst snd] in F1, F2. rewrite sqrt_sqrt in F1, F2 by lra.
  split.
  - rewrite (EX _ (fun q => cos (u*(fst q + snd q) + 0))) by (intros; rewrite Rplus_0_r; reflexivity). rewrite L. rewrite Rplus_0_r, (Rmult_comm u m).
    replace (u*u/2*v) with (v*u*u/2) by field. exact F1.
  - rewrite (EX _ (fun q => cos (u*(fst q + snd q) + - (PI/2)))).
    + rewrite L. replace (cos (u*m + - (PI/2))) with (sin (m*u)) by (rewrite cos_plus, cos_neg, sin_neg, cos_PI2, sin_PI2, (Rmult_comm u m); ring).
      replace (u*u/2*v) with (v*u*u/2) by field. exact F2.
    + intros q _. rewrite cos_plus, cos_neg, sin_neg, cos_PI2, sin_PI2. ring.
Qed.

(** *** negative sigma: the law is that of - sigma, mean, variance and characteristic function are right, but the densities are nan *)
Theorem C64_negative_refuted F x0 mu sigma t : sigma < 0 -> 0 < t ->
  (forall x, wiener_pdf x0 mu sigma t x = None /\ wiener_cdf F x0 mu sigma t x = None /\
             lognorm_pdf x0 mu sigma t x = None /\ lognorm_cdf F x0 mu sigma t x = None) /\
  (forall x, wiener_pdf x0 mu (- sigma) t x <> None) /\
  wiener_mean x0 mu sigma t = wiener_mean x0 mu (- sigma) t /\ wiener_var x0 mu sigma t = wiener_var x0 mu (- sigma) t /\
  0 < wiener_var x0 mu sigma t /\ forall u, wiener_chf x0 mu sigma t u = wiener_chf x0 mu (- sigma) t u.
Proof.
  intros S T. pose proof (sqrt_lt_R0 _ T) as Q. assert (N : ~ 0 < sigma*sqrt t) by nra.
  split; [|split; [|split; [|split; [|split]]]].
  - intro x. unfold wiener_pdf, wiener_cdf, lognorm_pdf, lognorm_cdf, norm_pdf, norm_cdf, sp_lognorm_pdf, sp_lognorm_cdf. cbv zeta.
    destruct (Rlt_dec 0 (sigma*sqrt t)); [contradiction|]. auto.
  - intro x. unfold wiener_pdf. cbv zeta. rewrite norm_pdf_eq; [discriminate|nra].
  - reflexivity.
  - unfold wiener_var. ring.
  - unfold wiener_var. apply Rmult_lt_0_compat; nra.
  - intro u. rewrite !C57_wiener by lra. unfold wiener_mean, wiener_var. do 2 f_equal. ring.
Qed.
(** the densities exist exactly for positive standard deviations *)
Theorem C64_defined F x0 mu sigma t x : (wiener_pdf x0 mu sigma t x <> None <-> 0 < sigma*sqrt t) /\ (wiener_cdf F x0 mu sigma t x <> None <-> 0 < sigma*sqrt t) /\
  (lognorm_pdf x0 mu sigma t x <> None <-> 0 < sigma*sqrt t /\ 0 < x0) /\ (lognorm_cdf F x0 mu sigma t x <> None <-> 0 < sigma*sqrt t /\ 0 < x0).
Proof.
  unfold wiener_pdf, wiener_cdf, lognorm_pdf, lognorm_cdf, norm_pdf, norm_cdf, sp_lognorm_pdf, sp_lognorm_cdf. cbv zeta.
  set (e := exp (mu*t - sigma*sqrt t*(sigma*sqrt t)/2)). assert (X : 0 < x0*e <-> 0 < x0). { pose proof (exp_pos (mu*t - sigma*sqrt t*(sigma*sqrt t)/2)) as P. fold e in P. split; intro H; [|apply Rmult_lt_0_compat; auto].
    apply Rmult_lt_reg_r with e; auto. rewrite Rmult_0_l. auto. }
  destruct (Rlt_dec 0 (sigma*sqrt t)); [|repeat split; try tauto; intros; try contradiction; intuition congruence].
  destruct (Rlt_dec 0 (x0*e)), (Rlt_dec 0 x); repeat split; intros; try tauto; try discriminate; intuition congruence.
Qed.
Print Assumptions C64_wiener.
Print Assumptions C64_oruh.
Print Assumptions C64_lognorm.
Print Assumptions C64_hw2f.
Print Assumptions C64_hw2f_law.
Print Assumptions C64_negative_refuted.
Print Assumptions C64_defined.

(** a standard normal distribution function exists, by L_gauss *)
Example C64_cdf : exists F, std_normal_cdf F. Proof. eexists. apply cdf_exists. Qed.
(** at time 4, wiener_process with x0 = 1, mu = 2, sigma = 3 *)
Example C64_ex1 : wiener_pdf 1 2 3 4 15 = Some (exp (- (1/2))/sqrt (2*PI)/6).
Proof.
  unfold wiener_pdf. cbv zeta. replace (3*sqrt 4) with 6; [|replace 4 with (2*2) by ring; rewrite sqrt_square; lra].
  rewrite norm_pdf_eq by lra. unfold npdf. cbv zeta. replace ((15 - (1 + 2*4))/6) with 1 by field. replace (1*1/2) with (1/2) by field. reflexivity.
Qed.
Example C64_ex2 F : lognorm_pdf 1 2 3 4 (-1) = Some 0 /\ lognorm_cdf F 1 2 3 4 (-1) = Some 0.
Proof.
  pose proof (sqrt_lt_R0 4 ltac:(lra)). unfold lognorm_pdf, lognorm_cdf. cbv zeta. rewrite sp_pdf_eq, sp_cdf_eq; try lra; try (rewrite Rmult_1_l; apply exp_pos).
  unfold lpdf, lcdf. destruct (Rlt_dec 0 (-1)); [lra|auto].
Qed.
Example C64_ex3 a b : coef ou_sde (ou_args 1 2 3) "dt" a -> coef ou_sde (ou_args 1 2 3) "dw" b ->
  exists p, (forall t x, 0 < t -> oruh_pdf 5 1 2 3 t x = Some (p t x)) /\ line (fun x => x * p 1 x) (1 + 4*exp (-2)).
Proof.
  intros CA CB. destruct (C64_oruh _ 5 1 2 3 a b cdf_exists ltac:(lra) ltac:(lra) CA CB) as (p & P & H1 & H2 & _). exists p. split; [intros; apply H1; auto|].
  destruct (H2 1 Rlt_0_1) as (_ & M & _). replace (1 + 4*exp (-2)) with (oruh_mean 5 1 2 3 1); auto. unfold oruh_mean. replace (-(2)*1) with (-2) by ring. ring.
Qed.
