(** The Gaussian integral, and the normal distribution function. *)
From Coq Require Import Reals Lra Psatz.
From Coquelicot Require Import Coquelicot.
From Verif Require Import S_rv L_rv.
Local Open Scope R_scope.

Definition g0 (t : R) : R := exp (- (t*t)).
Lemma g0_cont x : continuous g0 x.
Proof. apply (ex_derive_continuous (V := R_NormedModule)). unfold g0. auto_derive; auto. Qed.
Lemma g0_int a b : ex_RInt g0 a b.
Proof. apply (ex_RInt_continuous (V := R_CompleteNormedModule)). intros. apply g0_cont. Qed.
Definition G (x : R) : R := RInt g0 0 x.
Lemma G_derive x : is_derive G x (g0 x).
Proof.
  apply (is_derive_RInt (V := R_NormedModule) g0 G 0 x); [|apply g0_cont]. exists (mkposreal 1 Rlt_0_1). intros y _. apply (RInt_correct (V := R_CompleteNormedModule)). apply g0_int.
Qed.
Definition h (x t : R) : R := exp (- (x*x*(1 + t*t)))/(1 + t*t).
Lemma one_plus t : 1 <= 1 + t*t.
Proof. nra. Qed.
Lemma h_derive x t : is_derive (fun u => h u t) x (- 2*x*exp (- (x*x*(1 + t*t)))).
Proof. unfold h. pose proof (one_plus t). auto_derive; [lra|]. field. lra. Qed.
Lemma h_int x a b : ex_RInt (fun t => h x t) a b.
Proof.
  apply (ex_RInt_continuous (V := R_CompleteNormedModule)). intros z _. apply (ex_derive_continuous (V := R_NormedModule)). unfold h. pose proof (one_plus z). auto_derive. lra.
Qed.
Definition H (x : R) : R := RInt (fun t => h x t) 0 1.
Lemma H_derive x : is_derive H x (RInt (fun t => - 2*x*exp (- (x*x*(1 + t*t)))) 0 1).
Proof.
  replace (RInt (fun t => - 2*x*exp (- (x*x*(1 + t*t)))) 0 1) with (RInt (fun t => Derive (fun u => h u t) x) 0 1).
  2: { apply RInt_ext. intros t _. apply is_derive_unique. apply h_derive. }
  apply (is_derive_RInt_param h 0 1 x).
  - exists (mkposreal 1 Rlt_0_1). intros y _ t _. eexists. apply h_derive.
  - intros t _. apply continuity_2d_pt_ext with (fun u v => (- 2*u)*exp (- (u*u*(1 + v*v)))).
    + intros u v. symmetry. apply is_derive_unique. apply h_derive.
    + apply continuity_2d_pt_mult.
      * apply continuity_2d_pt_mult; [apply continuity_2d_pt_const|apply continuity_2d_pt_id1].
      * apply (continuity_1d_2d_pt_comp exp). { apply derivable_continuous_pt. apply derivable_pt_exp. }
        apply continuity_2d_pt_opp. apply continuity_2d_pt_mult; [apply continuity_2d_pt_mult; apply continuity_2d_pt_id1|]. apply continuity_2d_pt_plus; [apply continuity_2d_pt_const|]. apply continuity_2d_pt_mult; apply continuity_2d_pt_id2.
  - exists (mkposreal 1 Rlt_0_1). intros y _. apply h_int.
Qed.
Lemma H_derive_G x : RInt (fun t => - 2*x*exp (- (x*x*(1 + t*t)))) 0 1 = - 2*g0 x*G x.
Proof.
  unfold G. replace (RInt g0 0 x) with (RInt g0 (x*0 + 0) (x*1 + 0)) by (f_equal; ring). rewrite <- (RInt_comp_lin (V := R_CompleteNormedModule) g0 x 0 0 1) by apply g0_int.
  change (- 2*g0 x*RInt (fun y => scal x (g0 (x*y + 0))) 0 1) with (scal (- 2*g0 x) (RInt (fun y => scal x (g0 (x*y + 0))) 0 1)). rewrite <- (RInt_scal (V := R_CompleteNormedModule)).
  - apply RInt_ext. intros t _. unfold scal. simpl. unfold mult. simpl. unfold g0. replace (- (x*x*(1 + t*t))) with (- (x*x) + - ((x*t + 0)*(x*t + 0))) by ring. rewrite exp_plus. ring.
  - apply (ex_RInt_continuous (V := R_CompleteNormedModule)). intros z _. apply (ex_derive_continuous (V := R_NormedModule)). unfold g0, scal. simpl. unfold mult. simpl. auto_derive; auto.
Qed.
Lemma GH_const x : 0 <= x -> G x*G x + H x = PI/4.
Proof.
  intro X. assert (H0 : G 0*G 0 + H 0 = PI/4).
  { unfold G. rewrite (RInt_point (V := R_CompleteNormedModule)). change zero with 0. unfold H. replace (RInt (fun t => h 0 t) 0 1) with (RInt (fun t => /(1 + t*t)) 0 1).
    - replace (RInt (fun t => /(1 + t*t)) 0 1) with (atan 1 - atan 0); [rewrite atan_1, atan_0; ring|]. symmetry. apply is_RInt_unique. apply (is_RInt_derive (V := R_CompleteNormedModule) atan).
      + intros t _. apply is_derive_Reals. replace (/(1 + t*t)) with (/(1 + t^2)) by (f_equal; ring). apply derivable_pt_lim_atan.
      + intros t _. apply (ex_derive_continuous (V := R_NormedModule)). pose proof (one_plus t). auto_derive. lra.
    - apply RInt_ext. intros t _. unfold h. replace (- (0*0*(1 + t*t))) with 0 by ring. rewrite exp_0. unfold Rdiv. rewrite Rmult_1_l. reflexivity. }
  destruct (Rle_lt_or_eq_dec 0 x X) as [P|<-]; [|exact H0]. rewrite <- H0. symmetry.
  apply (eq_is_derive (V := R_NormedModule) (fun y => G y*G y + H y) 0 x); auto. intros t _.
  assert (D : is_derive (fun y => G y*G y + H y) t (g0 t*G t + G t*g0 t + - 2*g0 t*G t)).
  { apply (is_derive_plus (V := R_NormedModule) (fun y => G y*G y) H).
    - apply (is_derive_mult G G t (g0 t) (g0 t)); [apply G_derive|apply G_derive|]. intros n m. apply Rmult_comm.
    - rewrite <- H_derive_G. apply H_derive. }
  replace (g0 t*G t + G t*g0 t + - 2*g0 t*G t) with 0 in D by ring. exact D.
Qed.
Lemma H_bound x : 0 <= H x <= exp (- (x*x)).
Proof.
  assert (B : forall t, 0 <= h x t <= exp (- (x*x))).
  { intro t. unfold h. pose proof (one_plus t). pose proof (exp_pos (- (x*x*(1 + t*t)))). assert (E : exp (- (x*x*(1 + t*t))) <= exp (- (x*x))).
    { assert (0 <= x*x) by nra. assert (0 <= t*t) by nra. assert (x*x <= x*x*(1 + t*t)) by nra. destruct (Req_dec (x*x) (x*x*(1 + t*t))) as [<-|N]; [lra|]. left. apply exp_increasing. lra. }
    assert (0 < /(1 + t*t) <= 1). { split; [apply Rinv_0_lt_compat; lra|]. rewrite <- Rinv_1. apply Rinv_le_contravar; lra. }
    unfold Rdiv. split; [nra|]. assert (exp (- (x*x*(1 + t*t)))*/(1 + t*t) <= exp (- (x*x*(1 + t*t)))*1) by (apply Rmult_le_compat_l; lra). lra. }
  unfold H. split.
  - apply RInt_ge_0; [lra|apply h_int|]. intros; apply B.
  - replace (exp (- (x*x))) with (RInt (fun _ : R => exp (- (x*x))) 0 1) by (rewrite (RInt_const (V := R_CompleteNormedModule)); unfold scal; simpl; unfold mult; simpl; ring).
    apply RInt_le; [lra|apply h_int|apply ex_RInt_const|]. intros; apply B.
Qed.
Lemma H_lim : is_lim H p_infty 0.
Proof.
  apply is_lim_le_le_loc with (fun _ => 0) (fun x => exp (- (1*x))).
  - exists 1. intros y Y. pose proof (H_bound y). split; [lra|]. apply Rle_trans with (exp (- (y*y))); [lra|]. left. apply exp_increasing. nra.
  - apply is_lim_const.
  - apply exp_neg_lim. lra.
Qed.
Theorem gauss : is_lim G p_infty (sqrt PI/2).
Proof.
  assert (PI_pos : 0 < PI) by apply PI_RGT_0.
  assert (GP : forall x, 0 <= x -> 0 <= G x) by (intros x X; apply RInt_ge_0; [auto|apply g0_int|intros; left; apply exp_pos]).
  apply is_lim_ext_loc with (fun x => sqrt (PI/4 - H x)).
  - exists 0. intros x X. rewrite <- (GH_const x) by lra. replace (G x*G x + H x - H x) with (G x*G x) by ring. apply sqrt_square. apply GP. lra.
  - replace (sqrt PI/2) with (sqrt (PI/4 - 0)).
    + unfold is_lim. apply filterlim_comp with (locally (PI/4 - 0)).
      * apply (is_lim_minus' (fun _ => PI/4) H p_infty (PI/4) 0); [apply is_lim_const|apply H_lim].
      * apply continuity_pt_filterlim. apply continuity_pt_sqrt. lra.
    + rewrite Rminus_0_r. replace (PI/4) with (PI*(/2*/2)) by field. rewrite sqrt_mult by lra. rewrite sqrt_square by lra. field.
Qed.
Lemma G_odd x : G (- x) = - G x.
Proof.
  unfold G. replace (RInt g0 0 (- x)) with (RInt g0 (-1*0 + 0) (-1*x + 0)) by (f_equal; ring). rewrite <- (RInt_comp_lin (V := R_CompleteNormedModule) g0 (-1) 0 0 x) by apply g0_int.
  rewrite (RInt_scal (V := R_CompleteNormedModule)).
  - unfold scal. simpl. unfold mult. simpl. replace (RInt (fun x0 => g0 (-1*x0 + 0)) 0 x) with (RInt g0 0 x); [ring|]. apply RInt_ext. intros t _. unfold g0. f_equal. ring.
  - apply (ex_RInt_continuous (V := R_CompleteNormedModule)). intros z _. apply (ex_derive_continuous (V := R_NormedModule)). unfold g0. auto_derive; auto.
Qed.

(** *** the standard normal distribution *)
Definition phi (z : R) : R := exp (- (z*z/2))/sqrt (2*PI).
Definition Phi (x : R) : R := G (x/sqrt 2)/sqrt PI.
Lemma sqrt_2_pos : 0 < sqrt 2. Proof. apply sqrt_lt_R0. lra. Qed.
Lemma sqrt_PI_pos : 0 < sqrt PI. Proof. apply sqrt_lt_R0. apply PI_RGT_0. Qed.
Lemma Phi_derive x : is_derive Phi x (phi x).
Proof.
  pose proof sqrt_2_pos. pose proof sqrt_PI_pos. unfold Phi, phi. rewrite sqrt_mult by (pose proof PI_RGT_0; lra).
  replace (exp (- (x*x/2))/(sqrt 2*sqrt PI)) with (/sqrt PI*(/sqrt 2*g0 (x/sqrt 2))).
  2: { unfold g0. replace (x/sqrt 2*(x/sqrt 2)) with (x*x/2). field. lra. replace 2 with (sqrt 2*sqrt 2) at 1 by (apply sqrt_sqrt; lra). field. lra. }
  apply is_derive_ext with (fun y => /sqrt PI*G (/sqrt 2*y)). { intro t. unfold Rdiv. rewrite (Rmult_comm (/sqrt 2)). apply Rmult_comm. }
  apply (is_derive_scal (fun y => G (/sqrt 2*y))). apply (is_derive_comp G (fun y => /sqrt 2*y) x (g0 (x/sqrt 2)) (/sqrt 2)).
  - replace (/sqrt 2*x) with (x/sqrt 2) by (unfold Rdiv; ring). apply G_derive.
  - auto_derive; auto. ring.
Qed.
Lemma scale_lim c : 0 < c -> is_lim (fun x => c*x) p_infty p_infty.
Proof.
  intro C. assert (E : Rbar_mult c p_infty = p_infty). { unfold Rbar_mult, Rbar_mult'. destruct (Rle_dec 0 c) as [K|K]; [|exfalso; lra]. destruct (Rle_lt_or_eq_dec 0 c K); [reflexivity|exfalso; lra]. }
  rewrite <- E at 2. apply is_lim_scal_l. apply is_lim_id.
Qed.
Lemma scale_lim_m c : 0 < c -> is_lim (fun x => - (c*x)) m_infty p_infty.
Proof.
  intro C. replace p_infty with (Rbar_opp m_infty) by reflexivity. apply is_lim_opp. assert (E : Rbar_mult c m_infty = m_infty). { unfold Rbar_mult, Rbar_mult'. destruct (Rle_dec 0 c) as [K|K]; [|exfalso; lra]. destruct (Rle_lt_or_eq_dec 0 c K); [reflexivity|exfalso; lra]. }
  rewrite <- E at 2. apply is_lim_scal_l. apply is_lim_id.
Qed.
Lemma Phi_lim : is_lim Phi p_infty (1/2).
Proof.
  pose proof sqrt_2_pos. pose proof sqrt_PI_pos. apply is_lim_ext with (fun y => /sqrt PI*G (/sqrt 2*y)). { intro t. unfold Phi, Rdiv. rewrite (Rmult_comm (/sqrt 2)). apply Rmult_comm. }
  replace (Finite (1/2)) with (Rbar_mult (/sqrt PI) (sqrt PI/2)) by (simpl; f_equal; field; lra). apply is_lim_scal_l.
  apply (is_lim_comp G (fun y => /sqrt 2*y) p_infty (sqrt PI/2) p_infty); [apply gauss|apply scale_lim; apply Rinv_0_lt_compat; auto|]. exists 0. intros y _. discriminate.
Qed.
Lemma Phi_lim_m : is_lim Phi m_infty (- (1/2)).
Proof.
  pose proof sqrt_2_pos. pose proof sqrt_PI_pos. apply is_lim_ext with (fun y => - /sqrt PI*G (- (/sqrt 2*y))). { intro t. rewrite G_odd. unfold Phi, Rdiv. rewrite (Rmult_comm (/sqrt 2)). ring. }
  replace (Finite (- (1/2))) with (Rbar_mult (- /sqrt PI) (sqrt PI/2)) by (simpl; f_equal; field; lra). apply is_lim_scal_l.
  apply (is_lim_comp G (fun y => - (/sqrt 2*y)) m_infty (sqrt PI/2) p_infty); [apply gauss|apply scale_lim_m; apply Rinv_0_lt_compat; auto|]. exists 0. intros y _. discriminate.
Qed.
Lemma phi_cont x : continuous phi x.
Proof. apply (ex_derive_continuous (V := R_NormedModule)). unfold phi. pose proof PI_RGT_0. assert (0 < sqrt (2*PI)) by (apply sqrt_lt_R0; lra). auto_derive; auto. Qed.

(** integrals over the line, from an antiderivative *)
Lemma integral_line (f F : R -> R) (L1 L2 : R) : (forall x, is_derive F x (f x)) -> (forall x, continuous f x) -> is_lim F m_infty L1 -> is_lim F p_infty L2 ->
  is_RInt_gen f (Rbar_locally m_infty) (Rbar_locally p_infty) (L2 - L1).
Proof.
  intros D C H1 H2. assert (I : forall a b, is_RInt f a b (F b - F a)).
  { intros a b. apply (is_RInt_derive (V := R_CompleteNormedModule) F f); intros; auto. }
  intros P [e HP]. unfold is_lim, filterlim, filter_le, filtermap in H1, H2.
  assert (E2 : 0 < e/2) by (destruct e; simpl; lra).
  destruct (H1 (ball L1 (mkposreal _ E2))) as [M1 K1]; [exists (mkposreal _ E2); auto|]. destruct (H2 (ball L2 (mkposreal _ E2))) as [M2 K2]; [exists (mkposreal _ E2); auto|].
  exists (fun x => x < M1) (fun y => M2 < y); [exists M1; auto|exists M2; auto|]. intros x y X Y. exists (F y - F x). split; [apply I|]. apply HP. specialize (K1 x X). specialize (K2 y Y).
  unfold ball in *. simpl in *. unfold AbsRing_ball, abs, minus, plus, opp in *. simpl in *. replace (F y - F x + - (L2 - L1)) with ((F y + - L2) + - (F x + - L1)) by ring.
  eapply Rle_lt_trans; [apply Rabs_triang|]. rewrite Rabs_Ropp. lra.
Qed.

Lemma phi_lim c d : is_lim (fun z => (c + d*z)*phi z) p_infty 0.
Proof.
  pose proof PI_RGT_0. assert (S : 0 < sqrt (2*PI)) by (apply sqrt_lt_R0; lra). assert (S1 : /sqrt (2*PI) <= 1). { rewrite <- Rinv_1. apply Rinv_le_contravar; [lra|]. rewrite <- sqrt_1. apply sqrt_le_1_alt. pose proof PI2_1. lra. }
  assert (B : forall z, 2 < z -> Rabs ((c + d*z)*phi z) <= (Rabs c + Rabs d)*(z*exp (- z))).
  { intros z Z. rewrite Rabs_mult. rewrite (Rabs_right (phi z)) by (apply Rle_ge; unfold phi; apply Rlt_le, Rdiv_lt_0_compat; [apply exp_pos|auto]).
    assert (A : Rabs (c + d*z) <= (Rabs c + Rabs d)*z). { eapply Rle_trans; [apply Rabs_triang|]. rewrite Rabs_mult, (Rabs_right z) by lra. pose proof (Rabs_pos c). nra. }
    assert (Q : phi z <= exp (- z)). { unfold phi, Rdiv. apply Rle_trans with (exp (- (z*z*/2))*1). apply Rmult_le_compat_l; [left; apply exp_pos|auto]. rewrite Rmult_1_r. left. apply exp_increasing. nra. }
    rewrite <- Rmult_assoc. apply Rmult_le_compat; auto; [apply Rabs_pos|]. unfold phi. left. apply Rdiv_lt_0_compat; [apply exp_pos|auto]. }
  assert (L : is_lim (fun z => (Rabs c + Rabs d)*(z*exp (- z))) p_infty 0). { replace (Finite 0) with (Rbar_mult (Rabs c + Rabs d) 0) by (simpl; f_equal; ring). apply is_lim_scal_l, x_exp_neg_lim. }
  apply is_lim_le_le_loc with (fun z => - ((Rabs c + Rabs d)*(z*exp (- z)))) (fun z => (Rabs c + Rabs d)*(z*exp (- z))).
  - exists 2. intros z Z. specialize (B z Z). apply Rabs_le_between in B. exact B.
  - replace (Finite 0) with (Rbar_opp 0) by (simpl; f_equal; ring). apply is_lim_opp. exact L.
  - exact L.
Qed.
Lemma phi_lim_m c d : is_lim (fun z => (c + d*z)*phi z) m_infty 0.
Proof.
  apply is_lim_ext with (fun z => (fun y => (c + - d*y)*phi y) (- (1*z))). { intro z. cbv beta. unfold phi. replace (- (1*z)*- (1*z)) with (z*z) by ring. change (@eq R ((c + - d*- (1*z))*(exp (- (z*z/2))/sqrt (2*PI))) ((c + d*z)*(exp (- (z*z/2))/sqrt (2*PI)))). ring. }
  apply (is_lim_comp (fun y => (c + - d*y)*phi y) (fun z => - (1*z)) m_infty 0 p_infty); [apply phi_lim|apply scale_lim_m; lra|]. exists 0. intros y _. discriminate.
Qed.
Lemma phi_derive (x : R) : is_derive phi x (- x*phi x).
Proof. unfold phi. pose proof PI_RGT_0. assert (S : 0 < sqrt (2*PI)) by (apply sqrt_lt_R0; lra). auto_derive; auto. match goal with |- ?a = ?b => change (@eq R a b) end.
unfold Rdiv. field. lra. Qed.

Lemma mean_normal_poly a b c : mean_normal (fun z => a + b*z + c*(z*z)) (a + c).
Proof.
  unfold mean_normal. fold phi. set (F := fun z => (a + c)*Phi z + (- b + - c*z)*phi z).
  replace (a + c) with (((a + c)*(1/2) + 0) - ((a + c)*(- (1/2)) + 0)) by field. apply (integral_line _ F).
  - intro x. unfold F. change (fun z => exp (- (z*z/2))/sqrt (2*PI)) with phi.
    replace ((a + b*x + c*(x*x))*(exp (- (x*x/2))/sqrt (2*PI))) with ((a + c)*phi x + (- c*phi x + (- b + - c*x)*(- x*phi x))) by (unfold phi; ring).
    apply (is_derive_plus (V := R_NormedModule) (fun z => (a + c)*Phi z) (fun z => (- b + - c*z)*phi z)).
    + apply (is_derive_scal Phi). apply Phi_derive.
    + apply (is_derive_mult (fun z => - b + - c*z) phi x (- c) (- x*phi x)); [|apply phi_derive|intros n m; apply Rmult_comm]. auto_derive; auto. ring.
  - intro x. apply (continuous_mult (K := R_AbsRing) (fun z => a + b*z + c*(z*z)) phi); [|apply phi_cont]. apply (ex_derive_continuous (V := R_NormedModule)). auto_derive; auto.
  - unfold F. apply is_lim_plus'; [|apply phi_lim_m]. replace (Finite ((a + c)*(- (1/2)))) with (Rbar_mult (a + c) (- (1/2))) by reflexivity. apply is_lim_scal_l. apply Phi_lim_m.
  - unfold F. apply is_lim_plus'; [|apply phi_lim]. replace (Finite ((a + c)*(1/2))) with (Rbar_mult (a + c) (1/2)) by reflexivity. apply is_lim_scal_l. apply Phi_lim.
Qed.
Lemma mean_normal_exp a b : mean_normal (fun z => exp (a + b*z)) (exp (a + b*b/2)).
Proof.
  unfold mean_normal. set (K := exp (a + b*b/2)). set (F := fun z => K*Phi (z + - b)).
  replace K with (K*(1/2) - K*(- (1/2))) by field. apply (integral_line _ F).
  - intro x. unfold F. replace (exp (a + b*x)*(exp (- (x*x/2))/sqrt (2*PI))) with (K*(1*phi (x + - b))).
    2: { unfold phi, K, Rdiv. rewrite Rmult_1_l, <- !Rmult_assoc, <- !exp_plus. f_equal. f_equal. field. }
    apply (is_derive_scal (fun z => Phi (z + - b))). apply (is_derive_comp Phi (fun z => z + - b) x (phi (x + - b)) 1); [apply Phi_derive|]. auto_derive; auto. 
  - intro x. apply (continuous_mult (K := R_AbsRing) (fun z => exp (a + b*z)) phi); [|apply phi_cont]. apply (ex_derive_continuous (V := R_NormedModule)). auto_derive; auto.
  - unfold F. replace (Finite (K*(- (1/2)))) with (Rbar_mult K (- (1/2))) by reflexivity. apply is_lim_scal_l. apply (is_lim_comp Phi (fun z => z + - b) m_infty (- (1/2)) m_infty); [apply Phi_lim_m| |exists 0; intros y _; discriminate].
    replace m_infty with (Rbar_plus m_infty (- b)) at 2 by reflexivity. apply is_lim_plus with m_infty (- b); [apply is_lim_id|apply is_lim_const|reflexivity].
  - unfold F. replace (Finite (K*(1/2))) with (Rbar_mult K (1/2)) by reflexivity. apply is_lim_scal_l. apply (is_lim_comp Phi (fun z => z + - b) p_infty (1/2) p_infty); [apply Phi_lim| |exists 0; intros y _; discriminate].
    replace p_infty with (Rbar_plus p_infty (- b)) at 2 by reflexivity. apply is_lim_plus with p_infty (- b); [apply is_lim_id|apply is_lim_const|reflexivity].
Qed.
