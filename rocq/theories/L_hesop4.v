(** Lemmas on the Euler scheme of the Heston process: errors of steps, for the characteristic function of the logarithm of
    the price. *)
From Coq Require Import Reals Lra Psatz Lia Classical FunctionalExtensionality.
From Coquelicot Require Import Coquelicot.
From Verif Require Import M_analytical S_rv S_dist S_chf S_law L_gauss L_gauss2 L_line L_complex L_law L_law3 L_gop L_cirop L_cirop2 L_cirop3 L_heston L_heston2 L_hesop L_hesop2 L_hesop3 P_chf.
Local Open Scope R_scope.

Lemma trig_lip x y : Rabs (cos x - cos y) <= Rabs (x - y) /\ Rabs (sin x - sin y) <= Rabs (x - y).
Proof.
  split.
  - destruct (MVT_gen cos y x (fun z => - sin z)) as (c & _ & E).
    + intros z _. apply is_derive_Reals. apply derivable_pt_lim_cos.
    + intros z _. apply continuity_cos.
    + rewrite E, Rabs_mult. rewrite <- (Rmult_1_l (Rabs (x - y))) at 2. apply Rmult_le_compat_r; [apply Rabs_pos|]. rewrite Rabs_Ropp. apply Rabs_le. apply SIN_bound.
  - destruct (MVT_gen sin y x cos) as (c & _ & E).
    + intros z _. apply is_derive_Reals. apply derivable_pt_lim_sin.
    + intros z _. apply continuity_sin.
    + rewrite E, Rabs_mult. rewrite <- (Rmult_1_l (Rabs (x - y))) at 2. apply Rmult_le_compat_r; [apply Rabs_pos|]. apply Rabs_le. apply COS_bound.
Qed.

Section Chf.
Variable trig : R -> R.
Hypothesis TRIG : trig = cos \/ trig = sin.
Lemma trig_le x : Rabs (trig x) <= 1.
Proof using TRIG. destruct TRIG as [-> | ->]; apply Rabs_le; [apply COS_bound|apply SIN_bound]. Qed.
Lemma trig_lip1 x y : Rabs (trig x - trig y) <= Rabs (x - y).
Proof using TRIG. destruct TRIG as [-> | ->]; apply trig_lip. Qed.
Lemma trig_cont x : continuous trig x.
Proof using TRIG. destruct TRIG as [-> | ->]; apply (ex_derive_continuous (V := R_NormedModule)); auto_derive; auto. Qed.
Lemma EN_ec a p b q : EN (fun z => exp (a + p*z)*trig (b + q*z)) = exp (a + (p*p - q*q)/2)*trig (b + p*q).
Proof using TRIG.
  assert (X := complex_scal mean_normal normal_linear _ _ (cexp (a, b)) (normal_exp (p, q))).
  assert (E : forall z, (cexp (a, b)*cexp ((p, q)*RtoC z))%C = cexp (a + p*z, b + q*z)).
  { intro z. rewrite <- cexp_add. f_equal. apply C_ext; simpl; ring. }
  assert (E2 : (cexp (a, b)*cexp ((p, q)*(p, q)*RtoC (/2)))%C = cexp (a + (p*p - q*q)/2, b + p*q)).
  { rewrite <- cexp_add. f_equal. apply C_ext; simpl; field. }
  rewrite E2 in X. destruct X as [X1 X2]. destruct TRIG as [-> | ->].
  - refine (eq_trans _ (EN_eq _ _ X1)). apply EN_ext. intro z. rewrite E. reflexivity.
  - refine (eq_trans _ (EN_eq _ _ X2)). apply EN_ext. intro z. rewrite E. reflexivity.
Qed.
Definition ec (a0 a2 b0 b1 b2 x y : R) : R := exp (a0 + a2*y)*trig (b0 + b1*x + b2*y).
Lemma ec_tame a0 a2 b0 b1 b2 : tame2 (ec a0 a2 b0 b1 b2).
Proof using TRIG.
  apply (tame2_mult (fun _ y => exp (a0 + a2*y)) (fun x y => trig (b0 + b1*x + b2*y))); [apply (tame2_y (fun y => exp (a0 + a2*y))), tame_exp|]. split.
  - intro p. unfold joint. apply (continuous_comp (fun p : R*R => b0 + b1*fst p + b2*snd p) trig); [|apply trig_cont].
    apply (continuous_plus (V := R_NormedModule) (fun p : R*R => b0 + b1*fst p) (fun p : R*R => b2*snd p)).
    + apply (continuous_comp fst (fun t => b0 + b1*t)); [apply continuous_fst|]. apply (ex_derive_continuous (V := R_NormedModule)). auto_derive. auto.
    + apply (continuous_comp snd (fun t => b2*t)); [apply continuous_snd|]. apply (ex_derive_continuous (V := R_NormedModule)). auto_derive. auto.
  - exists 1, 0. split; [lra|]. split; [lra|]. intros x y. rewrite Rmult_0_l, exp_0, Rmult_1_l. apply trig_le.
Qed.
Lemma ec_diff a b a' b' m : a <= m -> a' <= m -> Rabs (exp a*trig b - exp a'*trig b') <= (Rabs (a - a') + Rabs (b - b'))*exp m.
Proof using TRIG.
  intros A A'. replace (exp a*trig b - exp a'*trig b') with ((exp a - exp a')*trig b + exp a'*(trig b - trig b')) by ring. eapply Rle_trans; [apply Rabs_triang|]. rewrite !Rabs_mult, (Rabs_pos_eq (exp a')) by (left; apply exp_pos).
  assert (X := exp_lip (- a) (- a') m ltac:(lra) ltac:(lra)). rewrite !Ropp_involutive in X. replace (- a - - a') with (- (a - a')) in X by ring. rewrite Rabs_Ropp in X. assert (T := trig_le b). assert (T' := trig_lip1 b b'). assert (E := exp_le _ _ A'). assert (P := exp_pos a').
  assert (Z1 : Rabs (exp a - exp a')*Rabs (trig b) <= Rabs (a - a')*exp m*1) by (apply Rmult_le_compat; auto; apply Rabs_pos).
  assert (Z2 : exp a'*Rabs (trig b - trig b') <= exp m*Rabs (b - b')) by (apply Rmult_le_compat; auto; [lra|apply Rabs_pos]). lra.
Qed.

Variables mu sigma rho theta k xi u : R.
Hypothesis K0 : 0 < k.
Hypothesis T0 : 0 < theta.
Hypothesis XI : xi <> 0.
Hypothesis RH : -1 <= rho <= 1.
Lemma R1 : rho*rho <= 1. Proof using RH. nra. Qed.
Notation HQ := (L_hesop2.HQ mu sigma rho theta k xi).
Notation itr2 := (L_hesop2.itr2 mu sigma rho theta k xi).
Notation D := (hD sigma k xi rho u).
Notation D' := (hD' sigma k xi rho u).
Notation L := (hL sigma k xi rho u).
Lemma HQ_ec h a0 a2 b0 b2 x y : 0 <= h -> HQ h (ec a0 a2 b0 u b2) x y =
  exp (a0 + a2*Aa theta k h y + (xi*xi*(a2*a2) - (u*sigma*rho + b2*xi)*(u*sigma*rho + b2*xi) - u*u*(sigma*sigma)*(1 - rho*rho))*(pos y*h)/2) *
  trig (b0 + u*(x + drift mu sigma h y) + b2*Aa theta k h y + a2*xi*(u*sigma*rho + b2*xi)*(pos y*h)).
Proof using TRIG RH.
  intro H. rewrite HQ_eq. rewrite <- (sd2 h y H), <- (rr_sq rho R1). set (s := sd h y). set (X := x + drift mu sigma h y). set (Y := Aa theta k h y). set (q := rr rho).
  rewrite (EN_ext _ (fun z => exp ((a0 + a2*Y - u*sigma*q*s*(u*sigma*q*s)/2) + (a2*xi*s)*z)*trig ((b0 + u*X + b2*Y) + (u*sigma*rho*s + b2*xi*s)*z))).
  - rewrite EN_ec. f_equal; f_equal; field.
  - intro z. rewrite (EN_ext _ (fun z' => exp ((a0 + a2*(Y + xi*s*z)) + 0*z')*trig ((b0 + u*(X + sigma*rho*s*z) + b2*(Y + xi*s*z)) + (u*(sigma*q*s))*z'))) by (intro; unfold ec; f_equal; f_equal; ring). rewrite EN_ec. f_equal; f_equal; field.
Qed.
Definition ca (r : R) : R := theta*k*fst (L r).
Definition cb (r : R) : R := u*mu*r + theta*k*snd (L r).
Definition ga (r : R) : R := fst (D r).
Definition gb (r : R) : R := snd (D r).
Definition ca' (r : R) : R := theta*k*fst (D r).
Definition cb' (r : R) : R := u*mu + theta*k*snd (D r).
Definition ga' (r : R) : R := fst (D' r).
Definition gb' (r : R) : R := snd (D' r).
Definition vchf (r x y : R) : R := ec (ca r) (ga r) (cb r) u (gb r) x y.
Lemma ga'_eq r : ga' r = xi*xi/2*(ga r*ga r - gb r*gb r) - (k*ga r + rho*sigma*xi*u*gb r) - sigma*sigma*(u*u)/2.
Proof. unfold ga', gb, ga, hD'. generalize (D r). intros [a b]. unfold h_be, h_v, h_b. simpl. field. Qed.
Lemma gb'_eq r : gb' r = xi*xi*(ga r*gb r) - (k*gb r - rho*sigma*xi*u*ga r) - sigma*sigma*u/2.
Proof. unfold gb', gb, ga, hD'. generalize (D r). intros [a b]. unfold h_be, h_v, h_b. simpl. field. Qed.
(** the exponent after a step, and that of a later time *)
Lemma chf_step_eq d r x y : 0 <= d -> HQ d (vchf r) x y =
  exp (ca (d + r) + ga (d + r)*y + aff_err ca ca' ga ga' d r y)*trig (cb (d + r) + u*x + gb (d + r)*y + aff_err cb cb' gb gb' d r y).
Proof using TRIG RH.
  intro H. unfold vchf. rewrite HQ_ec by auto. f_equal; f_equal.
  - unfold aff_err. rewrite ga'_eq. unfold Aa, ca', neg, ga. field.
  - unfold aff_err. rewrite gb'_eq. unfold Aa, drift, cb', neg, gb, ga. field.
Qed.
Definition D2 (r : R) : C := ((xi*xi)%R*(D r*D' r) - h_be sigma k xi rho u*D' r)%C.
Lemma D_dt2 r : 0 <= r -> cder D' r (D2 r).
Proof using K0 XI RH.
  intro H. assert (X := hD_der sigma k xi rho u K0 XI RH r H). unfold hD'. eapply cder_eq.
  - apply cder_minus; [apply cder_minus; [apply cder_scal, cder_mult; exact X|apply cder_scal; exact X]|apply cder_const].
  - unfold D2. generalize (D r) (D' r) (h_be sigma k xi rho u). intros [a b] [a' b'] [e f]. apply C_ext; simpl; field.
Qed.
Lemma D2_cont r : 0 <= r -> continuous (fun r => fst (D2 r)) r /\ continuous (fun r => snd (D2 r)) r.
Proof using K0 XI RH.
  intro H. assert (X := hD_der sigma k xi rho u K0 XI RH r H). assert (X2 := D_dt2 r H). eapply cder_cont. unfold D2.
  apply cder_minus; [apply cder_scal, cder_mult; [exact X|exact X2]|apply cder_scal; exact X2].
Qed.
Lemma chf_bound T : 0 <= T -> exists M, 0 <= M /\ tbound ca ca' T M /\ tbound cb cb' T M /\ tbound ga ga' T M /\ tbound gb gb' T M.
Proof using K0 XI RH.
  intro HT. assert (DD : forall z, 0 <= z -> is_derive ga z (ga' z) /\ is_derive gb z (gb' z)) by (intros z Z; exact (hD_der sigma k xi rho u K0 XI RH z Z)).
  assert (DD2 : forall z, 0 <= z -> is_derive ga' z (fst (D2 z)) /\ is_derive gb' z (snd (D2 z))) by (intros z Z; exact (D_dt2 z Z)).
  assert (DL : forall z, 0 <= z -> is_derive (fun r => fst (L r)) z (fst (D z)) /\ is_derive (fun r => snd (L r)) z (snd (D z))) by (intros z Z; exact (hL_der sigma k xi rho u K0 XI RH z Z)).
  destruct (taylor_on ga ga' (fun r => fst (D2 r)) T HT) as (M1 & A1 & B1); [intros z Z; exact (proj1 (DD z (proj1 Z)))|intros z Z; exact (proj1 (DD2 z (proj1 Z)))|intros z Z; exact (proj1 (D2_cont z (proj1 Z)))|].
  destruct (taylor_on gb gb' (fun r => snd (D2 r)) T HT) as (M2 & A2 & B2); [intros z Z; exact (proj2 (DD z (proj1 Z)))|intros z Z; exact (proj2 (DD2 z (proj1 Z)))|intros z Z; exact (proj2 (D2_cont z (proj1 Z)))|].
  destruct (taylor_on ca ca' (fun r => theta*k*ga' r) T HT) as (M3 & A3 & B3).
  { intros z Z. exact (is_derive_scal (fun r => fst (L r)) z (theta*k) _ (proj1 (DL z (proj1 Z)))). }
  { intros z Z. exact (is_derive_scal (fun r => fst (D r)) z (theta*k) _ (proj1 (DD z (proj1 Z)))). }
  { intros z Z. apply cont_lin. exact (cont_of ga' (fun z => fst (D2 z)) z (proj1 (DD2 z (proj1 Z)))). }
  destruct (taylor_on cb cb' (fun r => theta*k*gb' r) T HT) as (M4 & A4 & B4).
  { intros z Z. unfold cb, cb'. apply (is_derive_plus (V := R_NormedModule) (fun r => u*mu*r) (fun r => theta*k*snd (L r))); [auto_derive; auto; ring|]. exact (is_derive_scal (fun r => snd (L r)) z (theta*k) _ (proj2 (DL z (proj1 Z)))). }
  { intros z Z. unfold cb'. eapply deq; [apply (is_derive_plus (V := R_NormedModule) (fun r => u*mu) (fun r => theta*k*snd (D r))); [apply is_derive_const|exact (is_derive_scal (fun r => snd (D r)) z (theta*k) _ (proj2 (DD z (proj1 Z))))]|]. apply Rplus_0_l. }
  { intros z Z. apply cont_lin. exact (cont_of gb' (fun z => snd (D2 z)) z (proj2 (DD2 z (proj1 Z)))). }
  exists (M1 + M2 + M3 + M4). split; [lra|]. split; [apply (tbound_mono _ _ _ M3); auto; lra|]. split; [apply (tbound_mono _ _ _ M4); auto; lra|]. split; [apply (tbound_mono _ _ _ M1); auto; lra|apply (tbound_mono _ _ _ M2); auto; lra].
Qed.
Lemma ga_sign r : 0 <= r -> ga r <= 0 /\ ga' r <= ga r*(xi*xi/2*ga r - k) /\ ca r <= 0.
Proof using K0 T0 XI RH.
  intro H. assert (A := hD_sign sigma k xi rho u K0 XI RH r H). assert (B := hL_sign sigma k xi rho u K0 XI RH r H). split; [exact A|]. split.
  - rewrite ga'_eq. set (a := ga r). set (b := gb r). assert (Z1 := Rle_0_sqr (xi*b + rho*sigma*u)). assert (Z2 := Rle_0_sqr (sigma*u)). assert (Z3 := R1). unfold Rsqr in *. assert (Z4 : 0 <= (1 - rho*rho)*(sigma*u*(sigma*u))) by (apply Rmult_le_pos; lra). lra.
  - unfold ca. assert (0 < theta*k) by nra. nra.
Qed.
Lemma vchf_step T : 0 <= T -> exists hm, 0 < hm /\ close_steps mu sigma rho theta k xi vchf T hm.
Proof using TRIG K0 T0 XI RH.
  intro HT. destruct (chf_bound T HT) as (M & M0 & BCA & BCB & BGA & BGB). assert (W := ww_pos xi). assert (MW : 0 <= M*ww xi) by nra. exists (/(4*(M*ww xi) + 1)). split; [apply Rinv_0_lt_compat; lra|].
  exists (2*M*(3 + 4*ww xi)). split; [apply Rmult_le_pos; lra|]. intros h (H & H4 & H1) HM d r x y DH R0 DT. assert (D0 : 0 <= d) by lra. assert (D1 : d <= 1) by lra. assert (MD : 0 <= M*d) by (apply Rmult_le_pos; auto). assert (WH : 0 < ww xi*h) by (apply Rmult_lt_0_compat; auto).
  assert (HW : 4*(M*ww xi)*h <= 1). { apply Rle_trans with ((4*(M*ww xi) + 1)*h); [rewrite Rmult_plus_distr_r; lra|]. apply Rle_trans with ((4*(M*ww xi) + 1)*/(4*(M*ww xi) + 1)); [apply Rmult_le_compat_l; lra|]. rewrite Rinv_r; lra. }
  rewrite chf_step_eq by auto. unfold vchf, ec. set (e1 := aff_err ca ca' ga ga' d r y). set (e2 := aff_err cb cb' gb gb' d r y).
  assert (E1 := aff_bound ca ca' ga ga' T M h d r y M0 BCA BGA DH R0 DT). assert (E2 := aff_bound cb cb' gb gb' T M h d r y M0 BCB BGB DH R0 DT). fold e1 in E1. fold e2 in E2.
  destruct (ga_sign r R0) as (S1 & S2 & S3). destruct (ga_sign (d + r) ltac:(lra)) as (S1' & S2' & S3'). assert (PY := Rabs_pos y). assert (Q1 := sq2_ge x y). assert (LO := low_pos xi h y).
  assert (TK : 0 < theta*k) by (apply Rmult_lt_0_compat; auto). assert (GM : Rabs (ga r) <= M) by (destruct (BGA r 0 R0 ltac:(lra) ltac:(lra)) as (Z & _); exact Z). assert (GM' : Rabs (ga (d + r)) <= M) by (destruct (BGA (d + r) 0 ltac:(lra) ltac:(lra) ltac:(lra)) as (Z & _); exact Z).
  assert (F1 : ca (d + r) + ga (d + r)*y + e1 = ca r + ca' r*d + ga r*y + ga' r*d*pos y) by (unfold e1, aff_err, neg; ring).
  assert (CA : ca' r*d <= 0). { unfold ca'. change (fst (D r)) with (ga r). assert (Z : 0 <= theta*k*(- ga r)*d) by (apply Rmult_le_pos; [apply Rmult_le_pos; lra|auto]). lra. }
  assert (Y2 : 1 + Rabs y <= 2*sq2 x y). { unfold sq2. assert (Y : Rabs y*Rabs y = y*y) by (rewrite <- Rabs_mult; apply Rabs_pos_eq, Rle_0_sqr). assert (Z := Rle_0_sqr (Rabs y - 1)). assert (Z' := Rle_0_sqr x). assert (Z2 := Rle_0_sqr y). unfold Rsqr in *. lra. }
  set (B := h*(1 + Rabs y) + neg y) in *. unfold weight2.
  destruct (pos_cases y) as [[Y E]|[Y E]].
  - assert (N : neg y = 0) by (unfold neg; rewrite E; ring).
    assert (U1 : ca (d + r) + ga (d + r)*y + e1 <= 0).
    { rewrite F1, E. assert (G : ga r + ga' r*d <= 0).
      { assert (Z1 : ga' r*d <= ga r*(xi*xi/2*ga r - k)*d) by (apply Rmult_le_compat_r; auto). assert (Z2 : - ga r <= M) by (rewrite Rabs_left1 in GM by auto; exact GM). assert (Z3 : 0 <= xi*xi <= ww xi) by (unfold ww; assert (Z := Rle_0_sqr xi); unfold Rsqr in Z; lra).
        assert (Z4 : xi*xi*(- ga r) <= ww xi*M) by (apply Rmult_le_compat; lra). assert (Z5 : 0 <= xi*xi*(- ga r)) by (apply Rmult_le_pos; lra). assert (Z6 : d*(xi*xi*(- ga r)) <= h*(ww xi*M)) by (apply Rmult_le_compat; lra). assert (Z7 : k*d <= k*h) by (apply Rmult_le_compat_l; lra).
        assert (Z8 : 0 <= 1 - k*d - d*(xi*xi*(- ga r))/2) by lra. assert (Z9 : 0 <= (- ga r)*(1 - k*d - d*(xi*xi*(- ga r))/2)) by (apply Rmult_le_pos; lra). lra. }
      assert (G2 : 0 <= (- (ga r + ga' r*d))*y) by (apply Rmult_le_pos; lra). lra. }
    assert (U2 : ca (d + r) + ga (d + r)*y <= 0) by (assert (Z : 0 <= (- ga (d + r))*y) by (apply Rmult_le_pos; lra); lra).
    eapply Rle_trans; [apply (ec_diff _ _ _ _ 0 U1 U2)|]. rewrite exp_0, Rmult_1_r. match goal with |- Rabs ?a + Rabs ?b <= _ => replace a with e1 by ring; replace b with e2 by ring end.
    assert (BB : B <= h*(2*sq2 x y)) by (unfold B; rewrite N, Rplus_0_r; apply Rmult_le_compat_l; lra). apply Rle_trans with (2*M*d*(h*(2*sq2 x y))).
    + assert (M*d*B <= M*d*(h*(2*sq2 x y))) by (apply Rmult_le_compat_l; auto). lra.
    + replace (2*M*(3 + 4*ww xi)*h*(d*(sq2 x y + low xi h y))) with (2*M*d*(h*((3 + 4*ww xi)*(sq2 x y + low xi h y)))) by ring. apply Rmult_le_compat_l; [lra|]. apply Rmult_le_compat_l; [lra|]. apply Rmult_le_compat; lra.
  - assert (AY : Rabs y = - y) by (apply Rabs_left; auto). assert (N : neg y = Rabs y) by (unfold neg; rewrite E; lra). set (w := Rabs y) in *.
    assert (U1 : ca (d + r) + ga (d + r)*y + e1 <= M*w). { rewrite F1, E. assert (- ga r <= M) by (rewrite Rabs_left1 in GM by auto; exact GM). assert (ga r*y <= M*w) by (replace (ga r*y) with (- ga r*w) by (rewrite AY; ring); apply Rmult_le_compat_r; auto). lra. }
    assert (U2 : ca (d + r) + ga (d + r)*y <= M*w). { assert (- ga (d + r) <= M) by (rewrite Rabs_left1 in GM' by auto; exact GM'). assert (ga (d + r)*y <= M*w) by (replace (ga (d + r)*y) with (- ga (d + r)*w) by (rewrite AY; ring); apply Rmult_le_compat_r; auto). lra. }
    eapply Rle_trans; [apply (ec_diff _ _ _ _ (M*w) U1 U2)|]. match goal with |- (Rabs ?a + Rabs ?b)*_ <= _ => replace a with e1 by ring; replace b with e2 by ring end.
    set (la := lam xi h). assert (LE := lam_eq xi h H). assert (LP := lam_pos xi h H). fold la in LE, LP.
    set (p := exp (la*w/2)). assert (LL : low xi h y = p*p) by (unfold low, p; rewrite <- exp_plus; f_equal; fold la; rewrite AY; field).
    assert (Z := exp_ineq1_le (la*w/2)). fold p in Z. assert (LW : 0 <= la*w) by (apply Rmult_le_pos; lra). assert (PP : 1 <= p) by lra.
    assert (SL : exp (M*w) <= p). { unfold p. apply exp_le. assert (2*M <= la). { apply Rmult_le_reg_r with (ww xi*h); [auto|]. rewrite LE. lra. } assert (2*M*w <= la*w) by (apply Rmult_le_compat_r; auto). lra. }
    assert (PYW : w <= 2*(ww xi*h)*p). { replace w with (2*(ww xi*h)*(la*w/2)) at 1 by (transitivity (la*(ww xi*h)*w); [field|rewrite LE; ring]). apply Rmult_le_compat_l; lra. }
    assert (BB : B <= h*(1 + 4*ww xi)*p). { unfold B. rewrite N. assert (h*w <= 1*w) by (apply Rmult_le_compat_r; lra). assert (h*1 <= h*p) by (apply Rmult_le_compat_l; lra). lra. }
    assert (B0 : 0 <= B) by (unfold B; rewrite N; assert (0 <= h*(1 + w)) by (apply Rmult_le_pos; lra); lra).
    apply Rle_trans with (2*(M*d*B)*p); [apply Rmult_le_compat; try lra; [assert (X1 := Rabs_pos e1); assert (X2 := Rabs_pos e2); lra|left; apply exp_pos]|].
    replace (2*(M*d*B)*p) with (2*M*d*(B*p)) by ring. replace (2*M*(3 + 4*ww xi)*h*(d*(sq2 x y + low xi h y))) with (2*M*d*(h*(3 + 4*ww xi)*(sq2 x y + low xi h y))) by ring. apply Rmult_le_compat_l; [lra|].
    rewrite LL. assert (Z2 : B*p <= h*(1 + 4*ww xi)*p*p) by (apply Rmult_le_compat_r; lra). assert (Z3 : 0 <= h*(3 + 4*ww xi)*sq2 x y) by (apply Rmult_le_pos; [apply Rmult_le_pos; lra|lra]). assert (Z4 : 0 <= h*(p*p)) by (apply Rmult_le_pos; [lra|apply Rmult_le_pos; lra]). lra.
Qed.
Lemma vchf_many x0 y0 T : 0 <= y0 -> 0 <= T -> exists C hm, 0 <= C /\ 0 < hm /\ forall hs N h, small k h -> h <= hm -> (forall n, (n < N)%nat -> 0 <= hs n <= h) -> span hs N 0 <= T ->
  Rabs (itr2 hs N 0 (fun x _ => trig (u*x)) x0 y0 - vchf (span hs N 0) x0 y0) <= C*h.
Proof using TRIG K0 T0 XI RH.
  intros Y0 TT. destruct (vchf_step T TT) as (hm & HM & CS). destruct (many_steps2 mu sigma rho theta k xi K0 T0 R1 vchf T hm x0 y0 Y0 TT (fun r _ => ec_tame _ _ _ _ _) CS) as (C & C0 & H). exists C, hm. split; auto. split; auto. intros hs N h SM HH HS SP. specialize (H hs N h SM HH HS SP).
  replace (fun x _ : R => trig (u*x)) with (vchf 0); [exact H|]. apply functional_extensionality. intro x. apply functional_extensionality. intro y. unfold vchf, ec, ca, cb, ga, gb. rewrite (hD_0 sigma k xi rho u), (hL_0 sigma k xi rho u K0 RH). cbn [fst snd RtoC].
  replace (theta*k*0 + 0*y) with 0 by ring. rewrite exp_0, Rmult_1_l. f_equal. ring.
Qed.
End Chf.
Lemma vchf_eq mu sigma rho theta k xi u r x0 y0 :
  heston_log_chf x0 mu sigma y0 theta k xi rho r u = (vchf cos mu sigma rho theta k xi u r (ln x0) y0, vchf sin mu sigma rho theta k xi u r (ln x0) y0).
Proof.
  rewrite heston_form. unfold vchf, ec, ca, cb, ga, gb. destruct (hL sigma k xi rho u r) as [l1 l2], (hD sigma k xi rho u r) as [d1 d2]. unfold cexp, cj. cbn [fst snd RtoC Cplus Cmult].
  f_equal; f_equal; f_equal; ring.
Qed.
