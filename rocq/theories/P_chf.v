(** Properties of the characteristic functions: C57. *)
From Coq Require Import List Arith Bool Reals Lra Lia.
From Coquelicot Require Import Coquelicot.
From Verif Require Import Base M_analytical S_analytical.
Local Open Scope C_scope.

Lemma C_eq (a b c d : R) : a = c -> b = d -> (a, b) = ((c, d) : C).
Proof. intros -> ->. reflexivity. Qed.
Ltac cparts := apply C_eq; simpl; unfold Rdiv; try ring; try field.
Lemma cexp_add a b : cexp (a + b) = cexp a * cexp b.
Proof.
  destruct a as [a1 a2], b as [b1 b2]. unfold cexp, Cplus, Cmult. simpl. rewrite exp_plus, cos_plus, sin_plus. f_equal; ring.
Qed.
Lemma cexp_0 : cexp 0 = 1.
Proof. unfold cexp. simpl. rewrite exp_0, cos_0, sin_0. apply C_eq; ring. Qed.
Lemma cexp_mod z : Cmod (cexp z) = exp (fst z).
Proof.
  unfold cexp, Cmod. simpl. pose proof (sin2_cos2 (snd z)) as E. unfold Rsqr in E.
  replace (_ + _)%R with (exp (fst z) * exp (fst z) * (sin (snd z) * sin (snd z) + cos (snd z) * cos (snd z)))%R by ring.
  rewrite E, Rmult_1_r. apply sqrt_square. left. apply exp_pos.
Qed.
Lemma cexp_conj z : cexp (Cconj z) = Cconj (cexp z).
Proof. unfold cexp, Cconj. simpl. rewrite cos_neg, sin_neg. f_equal. ring. Qed.

(** the distribution of a Wiener process with drift, and of the logarithm of a lognormal process: normal, with the mean
    and variance of the process *)
Theorem C57_wiener x0 mu sigma t u : (0 <= t)%R ->
  wiener_chf x0 mu sigma t u = normal_chf (wiener_mean x0 mu sigma t) (sqrt (wiener_var x0 mu sigma t)) u.
Proof.
  intro T. unfold wiener_chf, normal_chf, wiener_mean, wiener_var. f_equal. rewrite sqrt_sqrt.
  - unfold cj. cparts.
  - apply Rmult_le_pos; auto. nra.
Qed.
Theorem C57_lognorm x0 mu sigma t u : (0 <= t)%R ->
  lognorm_log_chf x0 mu sigma t u = normal_chf (ln x0 + (mu - sigma*sigma/2)*t) (sqrt (sigma*sigma*t)) u.
Proof.
  intro T. unfold lognorm_log_chf, normal_chf. f_equal. rewrite sqrt_sqrt.
  - unfold cj. cparts.
  - apply Rmult_le_pos; auto. nra.
Qed.
(** jump diffusions: the diffusion part, times the characteristic function of the sum of a Poisson number of jumps. The drift
    mu is that of the diffusion part: no compensation of the jumps is applied *)
Theorem C57_merton x0 mu sigma lam a b t u :
  mjd_log_chf x0 mu sigma lam a b t u = lognorm_log_chf x0 mu sigma t u * compound_poisson_chf lam t (normal_chf a b u).
Proof.
  unfold mjd_log_chf, lognorm_log_chf, compound_poisson_chf. rewrite <- cexp_add. f_equal.
  replace (normal_chf a b u) with (cexp (cj a * u - (b*b*u*u/2)%R)) by (unfold normal_chf; f_equal; unfold cj; cparts).
  rewrite RtoC_mult. ring.
Qed.
Lemma real_part_ne (a u : R) : a <> 0%R -> (a : C) + cj u <> 0.
Proof. intros A E. apply A. apply (f_equal fst) in E. simpl in E. lra. Qed.
Theorem C57_kou x0 mu sigma lam a b pa t u : a <> 0%R -> b <> 0%R ->
  kou_log_chf x0 mu sigma lam a b pa t u = lognorm_log_chf x0 mu sigma t u * compound_poisson_chf lam t (double_exp_chf a b pa u).
Proof.
  intros A B. unfold kou_log_chf, lognorm_log_chf, compound_poisson_chf. rewrite <- cexp_add. f_equal.
  assert (NA : ((1/a)%R : C) - cj u <> 0).
  { intro E. apply (f_equal fst) in E. simpl in E. apply (Rinv_neq_0_compat a A). lra. }
  assert (NB : ((1/b)%R : C) + cj u <> 0) by (apply real_part_ne; unfold Rdiv; rewrite Rmult_1_l; apply Rinv_neq_0_compat; auto).
  assert (EA : exp_chf a u = (1/a)%R / ((1/a)%R - cj u)).
  { unfold exp_chf. assert (NA2 : 1 - Ci * a * u <> 0) by (intro E; apply (f_equal fst) in E; simpl in E; lra).
    assert (E : 1 - Ci * a * u = a * ((1/a)%R - cj u)) by (unfold cj; cparts; auto).
    rewrite E. clear E. unfold Rdiv in *. rewrite Rmult_1_l, RtoC_inv in * by auto. assert (a <> 0 :> C) by (intro Z; apply A; apply (f_equal fst) in Z; exact Z).
    set (w := / (a:C) - cj u) in *. assert (NW : w <> 0) by (unfold w in *; auto).
    clearbody w. field. split; auto. }
  assert (EB : exp_chf b (-u) = (1/b)%R / ((1/b)%R + cj u)).
  { unfold exp_chf. assert (E : 1 - Ci * b * (-u)%R = b * ((1/b)%R + cj u)) by (unfold cj; cparts; auto).
    rewrite E. clear E. unfold Rdiv in *. rewrite Rmult_1_l, RtoC_inv in * by auto. assert (b <> 0 :> C) by (intro Z; apply B; apply (f_equal fst) in Z; exact Z).
    set (w := / (b:C) + cj u) in *. assert (NW : w <> 0) by (unfold w in *; auto).
    clearbody w. field. split; auto. }
  unfold double_exp_chf. rewrite EA, EB, RtoC_mult.
  match goal with |- ?x = ?y => cut (x - y = 0); [intro Z; replace x with ((x - y) + y) by ring; rewrite Z; ring|] end.
  assert (EP : ((1 - pa)%R : C) = 1 - pa) by (apply RtoC_minus). rewrite EP. field. auto.
Qed.

(** at u = 0 all are 1 *)
Theorem C57_at_0 x0 mu sigma lam a b pa t : a <> 0%R -> b <> 0%R ->
  wiener_chf x0 mu sigma t 0 = 1 /\ lognorm_log_chf x0 mu sigma t 0 = 1 /\
  mjd_log_chf x0 mu sigma lam a b t 0 = 1 /\ kou_log_chf x0 mu sigma lam a b pa t 0 = 1.
Proof.
  intros A B. assert (L : lognorm_log_chf x0 mu sigma t 0 = 1).
  { unfold lognorm_log_chf. rewrite <- cexp_0. f_equal. unfold cj. cparts. }
  assert (P : compound_poisson_chf lam t 1 = 1) by (unfold compound_poisson_chf; rewrite <- cexp_0; f_equal; ring).
  split; [|split; [exact L|split]].
  - unfold wiener_chf. rewrite <- cexp_0. f_equal. unfold cj. cparts.
  - rewrite C57_merton, L. replace (normal_chf a b 0) with (1 : C); [rewrite P; ring|].
    unfold normal_chf. rewrite <- cexp_0. f_equal. cparts.
  - rewrite C57_kou, L by auto. replace (double_exp_chf a b pa 0) with (1 : C); [rewrite P; ring|].
    assert (E : forall c, exp_chf c 0 = 1) by (intro c; unfold exp_chf; replace (1 - Ci * c * 0) with (1 : C) by ring; field; intro Z; apply (f_equal fst) in Z; simpl in Z; lra).
    unfold double_exp_chf. rewrite Ropp_0, !E, RtoC_minus. ring.
Qed.
Theorem C57_heston_at_0 x0 mu sigma y0 theta k xi rho t : (0 < k)%R -> heston_log_chf x0 mu sigma y0 theta k xi rho t 0 = 1.
Proof.
  intro K. unfold heston_log_chf. cbv zeta.
  set (d := csqrt _). assert (E : d = k).
  { unfold d. match goal with |- csqrt ?z = _ => replace z with ((k*k)%R : C) by (unfold cj; cparts) end.
    unfold csqrt. assert (M : Cmod (k*k)%R = (k*k)%R) by (rewrite Cmod_R; apply Rabs_pos_eq; nra). rewrite M. simpl.
    destruct (Rlt_dec 0 0); [lra|]. replace ((k*k + k*k)/2)%R with (k*k)%R by field. replace ((k*k - k*k)/2)%R with 0%R by field.
    rewrite sqrt_0, sqrt_square by lra. reflexivity. }
  rewrite E. clear d E. replace (k - cj (rho*sigma*xi*0) - k) with (0 : C) by (unfold cj; cparts).
  replace (0 / (k - cj (rho*sigma*xi*0) + k)) with (0 : C) by (unfold Cdiv; ring).
  set (al := cexp (- k * t)). replace ((1 - 0 * al)/(1 - 0)) with (1 : C) by (field; intro Z; apply (f_equal fst) in Z; simpl in Z; lra).
  assert (EL : clog 1 = 0).
  { unfold clog, carg. replace (Cmod 1) with 1%R by (rewrite Cmod_R; symmetry; apply Rabs_R1). rewrite ln_1. simpl.
    destruct (Rlt_dec 0 0); [lra|]. unfold Rdiv. rewrite Rinv_1, Rmult_1_r, acos_1. reflexivity. }
  rewrite EL, <- cexp_0. f_equal. unfold Cdiv. replace (cj 0) with (0 : C) by reflexivity. ring.
Qed.
(** at t = 0 the distribution is concentrated at the starting point *)
Theorem C57_start x0 mu sigma lam a b pa u :
  wiener_chf x0 mu sigma 0 u = cexp (cj (u * x0)) /\ lognorm_log_chf x0 mu sigma 0 u = cexp (cj (u * ln x0)) /\
  mjd_log_chf x0 mu sigma lam a b 0 u = cexp (cj (u * ln x0)) /\ kou_log_chf x0 mu sigma lam a b pa 0 u = cexp (cj (u * ln x0)).
Proof.
  assert (E : forall y, cj u * RtoC y = cj (u * y)) by (intro y; unfold cj; cparts).
  repeat split; unfold wiener_chf, lognorm_log_chf, mjd_log_chf, kou_log_chf; cbv zeta; f_equal; rewrite <- E; ring.
Qed.
(** bounded by 1, as any characteristic function *)
Lemma normal_chf_bound a b u : (Cmod (normal_chf a b u) <= 1)%R.
Proof.
  unfold normal_chf. rewrite cexp_mod. simpl. rewrite <- exp_0.
  destruct (Req_dec (b*u) 0) as [Z|Z].
  - replace (- (b*b*u*u/2))%R with (-((b*u)*(b*u)/2))%R by field. rewrite Z. right. f_equal. field.
  - left. apply exp_increasing. assert (0 < (b*u)*(b*u))%R by nra. nra.
Qed.
Lemma compound_bound lam t phi : (0 <= lam*t)%R -> (Cmod phi <= 1)%R -> (Cmod (compound_poisson_chf lam t phi) <= 1)%R.
Proof.
  intros L P. unfold compound_poisson_chf. rewrite cexp_mod. simpl.
  assert (R1 : (fst phi <= 1)%R) by (pose proof (Rmax_Cmod phi) as M; pose proof (Rmax_l (Rabs (fst phi)) (Rabs (snd phi))); pose proof (Rle_abs (fst phi)); lra).
  match goal with |- (exp ?z <= 1)%R => replace z with (lam*t*(fst phi - 1))%R by ring end.
  apply Rle_trans with (exp 0); [|rewrite exp_0; lra].
  assert (H : (lam*t*(fst phi - 1) <= 0)%R) by nra. destruct H as [H|H]; [left; apply exp_increasing; auto|right; rewrite H; auto].
Qed.
Lemma exp_chf_bound a u : (Cmod (exp_chf a u) <= 1)%R.
Proof.
  unfold exp_chf. assert (N : 1 - Ci * a * u <> 0) by (intro E; apply (f_equal fst) in E; simpl in E; lra).
  rewrite Cmod_inv by auto. set (z := 1 - Ci * a * u) in *. assert (F : fst z = 1%R) by (simpl; ring).
  assert (G : (1 <= Cmod z)%R).
  { pose proof (Rmax_Cmod z) as M. pose proof (Rmax_l (Rabs (fst z)) (Rabs (snd z))). pose proof (Rle_abs (fst z)). lra. }
  rewrite <- Rinv_1. apply Rinv_le_contravar; lra.
Qed.
Theorem C57_bounded x0 mu sigma lam a b pa t u : (0 <= t)%R -> (0 <= lam)%R -> a <> 0%R -> b <> 0%R -> (0 <= pa <= 1)%R ->
  (Cmod (wiener_chf x0 mu sigma t u) <= 1)%R /\ (Cmod (lognorm_log_chf x0 mu sigma t u) <= 1)%R /\
  (Cmod (mjd_log_chf x0 mu sigma lam a b t u) <= 1)%R /\ (Cmod (kou_log_chf x0 mu sigma lam a b pa t u) <= 1)%R.
Proof.
  intros T L A B P. assert (LT : (0 <= lam*t)%R) by (apply Rmult_le_pos; auto).
  assert (M : forall x y : C, (Cmod x <= 1)%R -> (Cmod y <= 1)%R -> (Cmod (x * y)%C <= 1)%R).
  { intros x y X Y. rewrite Cmod_mult. pose proof (Cmod_ge_0 x). pose proof (Cmod_ge_0 y). nra. }
  assert (N : (Cmod (lognorm_log_chf x0 mu sigma t u) <= 1)%R) by (rewrite C57_lognorm by auto; apply normal_chf_bound).
  split; [rewrite C57_wiener by auto; apply normal_chf_bound|]. split; [exact N|]. split.
  - rewrite C57_merton. apply M; auto. apply compound_bound; auto. apply normal_chf_bound.
  - rewrite C57_kou by auto. apply M; auto. apply compound_bound; auto. unfold double_exp_chf.
    eapply Rle_trans; [apply Cmod_triangle|]. rewrite !Cmod_mult, !Cmod_R, !Rabs_pos_eq by lra.
    pose proof (exp_chf_bound a u). pose proof (exp_chf_bound b (-u)). nra.
Qed.
Print Assumptions C57_wiener.
Print Assumptions C57_lognorm.
Print Assumptions C57_merton.
Print Assumptions C57_kou.
Print Assumptions C57_at_0.
Print Assumptions C57_heston_at_0.
Print Assumptions C57_start.
Print Assumptions C57_bounded.

(** one exponential jump with mean 1 per unit of time, u = 1: 1/(1 - i) = (1 + i)/2 *)
Example C57_ex : kou_log_chf 1 (1/2) 1 2 1 1 1 1 1 = cexp ((-(3/2))%R, 1%R).
Proof.
  rewrite C57_kou by lra. unfold lognorm_log_chf, compound_poisson_chf, double_exp_chf, exp_chf. rewrite <- cexp_add. f_equal.
  rewrite ln_1. unfold cj. apply C_eq; simpl; field; lra.
Qed.
