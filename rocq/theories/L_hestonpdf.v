(** The characteristic function of the Heston process is integrable. *)
From Coq Require Import Reals Lra Lia Psatz.
From Coquelicot Require Import Coquelicot.
From Verif Require Import M_analytical S_chf S_dist S_analytical L_complex L_heston L_heston2 L_line L_fourier P_chf P_heston.
Local Open Scope R_scope.

(** an integrable function *)
Definition bell (q u : R) : R := /(1 + (q*u)*(q*u)).
Lemma bell_den q u : 0 < 1 + (q*u)*(q*u). Proof. pose proof (Rle_0_sqr (q*u)) as H. unfold Rsqr in H. lra. Qed.
Lemma bell_cont q : cont_line (bell q).
Proof. intro x. apply (ex_derive_continuous (V := R_NormedModule)). unfold bell. auto_derive. pose proof (bell_den q x). lra. Qed.
Lemma bell_line q : 0 < q -> line (bell q) (PI/q).
Proof.
  intro Q. pose proof PI_RGT_0 as PP. apply line_intro; [apply bell_cont|]. intros eps EP. set (e := Rmin (eps*q/4) (PI/4)).
  assert (E0 : 0 < e) by (apply Rmin_glb_lt; nra). assert (E1 : e <= eps*q/4) by apply Rmin_l. assert (E2 : e <= PI/4) by apply Rmin_r.
  set (z := PI/2 - e). set (M := Rmax 1 (tan z/q)). assert (M1 : 1 <= M) by apply Rmax_l. assert (M2 : tan z/q <= M) by apply Rmax_r.
  exists M. split; [lra|]. intros a b A B.
  assert (I : is_RInt (bell q) a b (minus (atan (q*b)/q) (atan (q*a)/q))).
  { apply (is_RInt_derive (V := R_CompleteNormedModule) (fun u => atan (q*u)/q)); [|intros; apply bell_cont].
    intros x _. auto_derive; auto. unfold bell. pose proof (bell_den q x). match goal with |- ?a = ?b => change (@eq R a b) end. field. unfold Rsqr. split; lra. }
  rewrite (is_RInt_unique (V := R_CompleteNormedModule) _ _ _ _ I). unfold minus, plus, opp. simpl.
  assert (T : forall y, M < y -> z < atan (q*y) < PI/2).
  { intros y Y. split; [|apply atan_bound]. rewrite <- (atan_tan z) by (unfold z; lra). apply atan_increasing.
    apply Rle_lt_trans with (q*M); [|nra]. apply Rmult_le_reg_r with (/q); [apply Rinv_0_lt_compat; auto|]. replace (q*M*/q) with M by (field; lra). exact M2. }
  pose proof (T b B) as TB. pose proof (T (- a) ltac:(lra)) as TA. replace (q*- a) with (- (q*a)) in TA by ring. rewrite atan_opp in TA.
  replace (atan (q*b)/q + - (atan (q*a)/q) - PI/q) with ((atan (q*b) - atan (q*a) - PI)/q) by (field; lra).
  unfold Rdiv. rewrite Rabs_mult, (Rabs_pos_eq (/q)) by (left; apply Rinv_0_lt_compat; auto).
  apply Rmult_lt_reg_r with q; auto. rewrite Rmult_assoc, Rinv_l, Rmult_1_r by lra. unfold z in *. apply Rabs_def1; nra.
Qed.
Lemma exp_bell y : 0 <= y -> exp (- y) <= /(1 + y*y/2).
Proof.
  intro Y. rewrite exp_Ropp. apply Rinv_le_contravar; [nra|].
  destruct (MVT_gen (fun y => exp y - (1 + y + y*y/2)) 0 y (fun y => exp y - (1 + y))) as (c & B & E).
  - intros x _. auto_derive; auto. field.
  - intros x _. apply continuity_pt_filterlim. apply (ex_derive_continuous (K := R_AbsRing) (V := R_NormedModule) (fun y => exp y - (1 + y + y*y/2)) x). auto_derive; auto.
  - rewrite Rmin_left, Rmax_right in B by auto. pose proof (exp_ineq1_le c). rewrite exp_0 in E. nra.
Qed.

Section Decay.
Variables sigma k xi rho T : R.
Hypotheses (h_k : 0 < k) (h_xi : xi <> 0) (h_rho : -1 < rho < 1) (h_sigma : sigma <> 0) (h_T : 0 < T).
Let c1 := (1 - rho*rho)*(sigma*sigma).
Lemma c1_pos : 0 < c1. Proof. unfold c1. assert (0 < sigma*sigma) by nra. assert (0 < 1 - rho*rho) by nra. nra. Qed.
Let al := sqrt (c1/2)/Rabs xi.
Lemma al_pos : 0 < al.
Proof. apply Rdiv_lt_0_compat; [apply sqrt_lt_R0; pose proof c1_pos; lra|apply Rabs_pos_lt; auto]. Qed.
Lemma al_sq : xi*xi*(al*al) = c1/2.
Proof.
  pose proof c1_pos. assert (0 < Rabs xi) by (apply Rabs_pos_lt; auto). assert (X : Rabs xi*Rabs xi = xi*xi) by (rewrite <- Rabs_mult; apply Rabs_pos_eq; nra).
  unfold al. replace (xi*xi*(sqrt (c1/2)/Rabs xi*(sqrt (c1/2)/Rabs xi))) with (sqrt (c1/2)*sqrt (c1/2)*((xi*xi)/(Rabs xi*Rabs xi))) by (field; lra).
  rewrite sqrt_sqrt, X by lra. field. auto.
Qed.
Let U0 := 4*al*(/T + k)/c1.
Section Far.
Variable u : R.
Hypothesis far : U0 <= Rabs u.
Let w t := al*Rabs u*(t/(t + T)).
Lemma far_ineq : al*Rabs u*(/T + k) <= c1*(u*u)/4.
Proof.
  pose proof c1_pos. assert (X : Rabs u*Rabs u = u*u) by (rewrite <- Rabs_mult; apply Rabs_pos_eq; nra). pose proof (Rabs_pos u).
  assert (F : 4*al*(/T + k) <= c1*Rabs u). { unfold U0 in far. apply Rmult_le_reg_r with (/c1); [apply Rinv_0_lt_compat; auto|]. replace (c1*Rabs u*/c1) with (Rabs u) by (field; lra). exact far. }
  rewrite <- X. nra.
Qed.
Lemma frac t : 0 <= t -> 0 <= t/(t + T) <= 1.
Proof.
  intro H. assert (0 < t + T) by lra. split; [apply Rmult_le_pos; [lra|left; apply Rinv_0_lt_compat; auto]|].
  apply Rmult_le_reg_r with (t + T); auto. unfold Rdiv. rewrite Rmult_assoc, Rinv_l by lra. lra.
Qed.
Lemma D_decay t : 0 <= t -> fst (hD sigma k xi rho u t) + w t <= 0.
Proof.
  intro T0. pose proof al_pos as AP. pose proof (Rabs_pos u) as UP. assert (RH : -1 <= rho <= 1) by lra.
  apply (gronwall (fun t => fst (hD sigma k xi rho u t) + w t) (fun t => fst (hD' sigma k xi rho u t) + al*Rabs u*(T/((t + T)*(t + T))))
                  (fun t => xi*xi/2*(fst (hD sigma k xi rho u t) - w t) - k)); auto.
  - intros s S. apply (is_derive_plus (V := R_NormedModule)); [apply (hD_der sigma k xi rho u h_k h_xi RH s S)|].
    unfold w. auto_derive; [lra|]. match goal with |- ?a = ?b => change (@eq R a b) end. field. lra.
  - intros s S. destruct (cder_cont _ _ _ (hD_der sigma k xi rho u h_k h_xi RH s S)) as [C1 _].
    apply (continuous_minus (K := R_AbsRing) (V := R_NormedModule)); [|apply continuous_const]. apply (continuous_scal_r (K := R_AbsRing) (V := R_NormedModule)).
    apply (continuous_minus (K := R_AbsRing) (V := R_NormedModule)); [exact C1|]. apply (ex_derive_continuous (V := R_NormedModule)). unfold w. auto_derive. lra.
  - intros s S. unfold hD'. generalize (hD sigma k xi rho u s). intro z. destruct (frac s S) as [F0 F1]. set (f := s/(s + T)) in *.
    assert (AU : 0 <= al*Rabs u) by (apply Rmult_le_pos; lra).
    assert (W : 0 <= w s <= al*Rabs u).
    { unfold w. fold f. split; [apply Rmult_le_pos; lra|]. rewrite <- (Rmult_1_r (al*Rabs u)) at 2. apply Rmult_le_compat_l; lra. }
    set (ws := w s) in *.
    assert (WD : al*Rabs u*(T/((s + T)*(s + T))) <= al*Rabs u*/T).
    { apply Rmult_le_compat_l; [exact AU|]. apply Rmult_le_reg_r with (T*((s + T)*(s + T))); [apply Rmult_lt_0_compat; nra|].
      replace (T/((s + T)*(s + T))*(T*((s + T)*(s + T)))) with (T*T) by (field; lra). replace (/T*(T*((s + T)*(s + T)))) with ((s + T)*(s + T)) by (field; lra). nra. }
    pose proof far_ineq as FI. pose proof al_sq as AS.
    assert (W2 : xi*xi*(ws*ws) <= c1*(u*u)/2).
    { assert (X : Rabs u*Rabs u = u*u) by (rewrite <- Rabs_mult; apply Rabs_pos_eq; nra). assert (ws*ws <= (al*al)*(u*u)) by (rewrite <- X; nra). assert (0 <= xi*xi) by nra. nra. }
    unfold h_be, h_v, h_b. simpl.
    assert (0 <= (xi*snd z + rho*sigma*u)^2) by apply pow2_ge_0. unfold c1 in *. nra.
  - rewrite hD_0. unfold w. simpl. unfold Rdiv. lra.
Qed.
Lemma L_decay : fst (hL sigma k xi rho u T) <= - (al*Rabs u*(T/4)).
Proof.
  assert (RH : -1 <= rho <= 1) by lra. pose proof al_pos as AP. pose proof (Rabs_pos u) as UP.
  assert (M : fst (hL sigma k xi rho u T) + al*Rabs u*(T*T/(4*T)) <= fst (hL sigma k xi rho u 0) + al*Rabs u*(0*0/(4*T))).
  { apply (nonincr (fun t => fst (hL sigma k xi rho u t) + al*Rabs u*(t*t/(4*T))) (fun t => fst (hD sigma k xi rho u t) + al*Rabs u*(t/(2*T)))); [lra| |].
    - intros t HT. apply (is_derive_plus (V := R_NormedModule)); [apply (hL_der sigma k xi rho u h_k h_xi RH t (proj1 HT))|].
      auto_derive; [lra|]. match goal with |- ?a = ?b => change (@eq R a b) end. field. lra.
    - intros t [T0 T1]. pose proof (D_decay t T0) as D. unfold w in D. 
      assert (F : t/(2*T) <= t/(t + T)) by (apply Rmult_le_compat_l; auto; apply Rinv_le_contravar; lra). assert (AU : 0 <= al*Rabs u) by (apply Rmult_le_pos; lra).
      pose proof (Rmult_le_compat_l _ _ _ AU F). lra. }
  rewrite hL_0 in M by auto. change (fst (RtoC 0)) with 0 in M. replace (T*T/(4*T)) with (T/4) in M by (field; lra). replace (0*0/(4*T)) with 0 in M by (field; lra). rewrite Rmult_0_r in M. lra.
Qed.
End Far.
Lemma heston_integrable x0 mu y0 theta : 0 <= theta -> 0 <= y0 -> 0 < theta + y0 ->
  exists D V, cont_line D /\ line D V /\ forall u, Cmod (heston_log_chf x0 mu sigma y0 theta k xi rho T u) <= D u.
Proof.
  intros TH Y0 TY. assert (RH : -1 <= rho <= 1) by lra. pose proof al_pos as AP. pose proof c1_pos as CP.
  set (ka := al*(y0/2 + theta*k*T/4)). assert (KA : 0 < ka).
  { apply Rmult_lt_0_compat; auto. assert (0 < k*T) by nra. destruct (Req_dec theta 0) as [->|]; [|assert (0 < theta) by lra; nra]. nra. }
  assert (B : forall u, Cmod (heston_log_chf x0 mu sigma y0 theta k xi rho T u) <= exp (ka*U0) * exp (- (ka*Rabs u))).
  { intro u. rewrite <- exp_plus. destruct (Rle_dec U0 (Rabs u)) as [F|F].
    - rewrite heston_form, cexp_mod. pose proof (D_decay u F T ltac:(lra)) as HD. pose proof (L_decay u F) as HL.
      generalize dependent (hD sigma k xi rho u T). generalize dependent (hL sigma k xi rho u T). intros L HL D HD.
      replace (T/(T + T)) with (/2) in HD by (field; lra). pose proof (Rabs_pos u).
      assert (U : 0 <= ka*U0). { apply Rmult_le_pos; [lra|]. unfold U0. apply Rmult_le_pos; [|left; apply Rinv_0_lt_compat; auto]. assert (0 < /T) by (apply Rinv_0_lt_compat; auto). apply Rmult_le_pos; lra. }
      assert (G : forall x y, x <= y -> exp x <= exp y) by (intros x y [Q|Q]; [left; apply exp_increasing; auto|rewrite Q; lra]).
      apply G. unfold cj. simpl. assert (TK : 0 <= theta*k) by nra. unfold ka.
      assert (theta*k*fst L <= theta*k*(- (al*Rabs u*(T/4)))) by (apply Rmult_le_compat_l; auto). assert (y0*fst D <= y0*(- (al*Rabs u*/2))) by (apply Rmult_le_compat_l; auto; lra).
      unfold ka in U. nra.
    - eapply Rle_trans; [apply C57_heston_bounded; auto; lra|]. pose proof (exp_ineq1_le (ka*U0 + - (ka*Rabs u))). nra. }
  set (q := ka/2). exists (fun u => exp (ka*U0) * bell q u), (exp (ka*U0)*(PI/q)). split; [apply (L_fourier.cont_mult (fun _ => exp (ka*U0)) (bell q)); [apply L_fourier.cont_const|apply bell_cont]|].
  split; [apply line_scal, bell_line; unfold q; lra|]. intro u. eapply Rle_trans; [apply B|]. apply Rmult_le_compat_l; [left; apply exp_pos|].
  pose proof (Rabs_pos u). eapply Rle_trans; [apply exp_bell; nra|]. unfold bell, q. apply Rinv_le_contravar; [apply (bell_den (ka/2) u)|].
  assert (X : Rabs u*Rabs u = u*u) by (rewrite <- Rabs_mult; apply Rabs_pos_eq; nra). replace (ka*Rabs u*(ka*Rabs u)/2) with (ka*ka*(Rabs u*Rabs u)/2) by (unfold Rdiv; ring). rewrite X.
  assert (0 <= (ka*u)*(ka*u)) by (apply Rle_0_sqr). nra.
Qed.
End Decay.
