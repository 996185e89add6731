(** Lemmas on integrations of linear equations: distance of means and covariances from those of the process. *)
From Coq Require Import List Arith Bool ZArith Reals Lra Lia.
From Coquelicot Require Import Coquelicot.
From Verif Require Import Base BaseNum BaseArr L_euler2 M_analytical S_gval L_gval L_gval2.
Import ListNotations.
Local Open Scope R_scope.

Lemma exp_mono x y : x <= y -> exp x <= exp y.
Proof. intros [H|H]; [left; apply exp_increasing; auto|rewrite H; lra]. Qed.
Lemma exp_ge1 x : 0 <= x -> 1 <= exp x.
Proof. intro H. rewrite <- exp_0. apply exp_mono; auto. Qed.
Lemma abs_exp x : Rabs (exp x) = exp x.
Proof. apply Rabs_pos_eq. left. apply exp_pos. Qed.
(** 1 - e^-y and 1 - y - e^-y *)
Lemma exp_lip a y : Rabs y <= a -> Rabs (exp y - 1) <= exp a * Rabs y.
Proof.
  intro H. destruct (MVT_abs exp exp 0 y) as (z & E & I).
  - intros z _. apply derivable_pt_lim_exp.
  - rewrite exp_0 in E. rewrite E, abs_exp, Rminus_0_r. apply Rmult_le_compat_r; [apply Rabs_pos|]. apply exp_mono.
    apply Rle_trans with (2 := H). apply Rle_trans with (Rmax 0 y); [apply I|]. apply Rmax_lub; [apply Rabs_pos|apply Rle_abs].
Qed.
Lemma one_step_err k d K : Rabs k <= K -> 0 <= d -> Rabs (1 - k*d - exp (- (k*d))) <= exp (K*d) * (K*d * (K*d)).
Proof.
  intros HK Hd. assert (KP := Rabs_pos k). assert (B : Rabs (k*d) <= K*d) by (rewrite Rabs_mult, (Rabs_pos_eq d) by auto; apply Rmult_le_compat_r; auto).
  assert (KD : 0 <= K*d) by (apply Rmult_le_pos; lra).
  destruct (MVT_abs (fun y => 1 - y - exp (- y)) (fun y => -1 + exp (- y)) 0 (k*d)) as (z & E & I).
  - intros z _. apply is_derive_Reals. auto_derive; auto. match goal with |- ?a = ?b => change (@eq R a b) end. ring.
  - replace (1 - 0 - exp (-0)) with 0 in E by (rewrite Ropp_0, exp_0; ring). rewrite Rminus_0_r in E. rewrite E, Rminus_0_r.
    assert (ZB : Rabs (- z) <= K*d).
    { rewrite Rabs_Ropp. apply Rabs_le. apply Rabs_le_between in B. unfold Rmin, Rmax in I. destruct (Rle_dec 0 (k*d)); lra. }
    replace (-1 + exp (-z)) with (exp (-z) - 1) by ring. rewrite <- Rmult_assoc.
    apply Rmult_le_compat; [apply Rabs_pos|apply Rabs_pos| |exact B].
    eapply Rle_trans; [apply (exp_lip (K*d)); exact ZB|]. apply Rmult_le_compat_l; [left; apply exp_pos|exact ZB].
Qed.

Section Grid.
Variables (gr : list R) (h T K : R).
Notation u := (fun n => nth n gr 0 - nth 0 gr 0).
Hypothesis GP : forall n, (S n < List.length gr)%nat -> 0 < gap gr n <= h.
Hypothesis HK : 0 <= K.
Hypothesis Hh : 0 <= h.

Lemma u_S n : nth (S n) gr 0 = nth n gr 0 + gap gr n. Proof. unfold gap. ring. Qed.
Lemma u_mono n m : (n <= m)%nat -> (m < List.length gr)%nat -> nth n gr 0 <= nth m gr 0.
Proof using GP. intro H. induction H as [|m H IH]; intro Hm; [lra|]. rewrite u_S. specialize (GP m Hm). specialize (IH ltac:(lia)). lra. Qed.
Lemma h_pos n : (S n < List.length gr)%nat -> 0 < h.
Proof using GP. intro H. specialize (GP n H). lra. Qed.

(** products of 1 - k gap *)
Lemma factor_bound k d : Rabs k <= K -> 0 <= d -> Rabs (1 - k*d) <= exp (K*d).
Proof.
  intros Hk Hd. apply Rle_trans with (1 + K*d).
  - apply Rle_trans with (1 := Rabs_triang 1 (- (k*d))). rewrite Rabs_R1, Rabs_Ropp, Rabs_mult, (Rabs_pos_eq d) by auto.
    apply Rplus_le_compat_l. apply Rmult_le_compat_r; auto.
  - apply exp_ineq1_le.
Qed.
Lemma prod_close k tau d e x : Rabs k <= K -> 0 <= tau -> 0 < d <= h -> Rabs e <= exp (K*tau) -> Rabs x <= exp (K*tau) ->
  Rabs (e - x) <= exp (K*tau) * (K*K*h*tau) ->
  Rabs ((1 - k*d)*e) <= exp (K*(tau + d)) /\ Rabs (exp (-(k*d)) * x) <= exp (K*(tau + d)) /\
  Rabs ((1 - k*d)*e - exp (-(k*d)) * x) <= exp (K*(tau + d)) * (K*K*h*(tau + d)).
Proof.
  intros Hk Ht Hd He Hx Hex. assert (FB := factor_bound k d Hk ltac:(lra)). assert (SE := one_step_err k d K Hk ltac:(lra)).
  rewrite Rmult_plus_distr_l, exp_plus. assert (E1 := exp_pos (K*tau)). assert (E2 := exp_pos (K*d)).
  assert (XB : Rabs (exp (-(k*d))) <= exp (K*d)).
  { rewrite abs_exp. apply exp_mono. apply Rabs_le_between in Hk. nra. }
  split; [|split].
  - rewrite Rabs_mult, Rmult_comm. apply Rmult_le_compat; auto; apply Rabs_pos.
  - rewrite Rabs_mult, Rmult_comm. apply Rmult_le_compat; auto; apply Rabs_pos.
  - replace ((1 - k*d)*e - exp (-(k*d)) * x) with ((1 - k*d)*(e - x) + (1 - k*d - exp (-(k*d)))*x) by ring.
    apply Rle_trans with (1 := Rabs_triang _ _). rewrite !Rabs_mult.
    apply Rle_trans with (exp (K*d) * (exp (K*tau) * (K*K*h*tau)) + exp (K*d) * (K*d*(K*d)) * exp (K*tau)).
    + apply Rplus_le_compat; apply Rmult_le_compat; auto; apply Rabs_pos.
    + replace (exp (K*tau) * exp (K*d) * (K*K*h*(tau+d))) with (exp (K*d) * (exp (K*tau) * (K*K*h*tau)) + exp (K*d) * (K*K*(h*d)) * exp (K*tau)) by ring.
      apply Rplus_le_compat_l. apply Rmult_le_compat_r; [lra|]. apply Rmult_le_compat_l; [lra|].
      replace (K*d*(K*d)) with (K*K*(d*d)) by ring. apply Rmult_le_compat_l; [nra|]. nra.
Qed.

(** the effect at N of what happens at n *)
Lemma effect_close k n : Rabs k <= K -> forall N, (n < N)%nat -> (N < List.length gr)%nat ->
  let tau := nth N gr 0 - nth (S n) gr 0 in
  Rabs (effect gr k N n) <= exp (K*tau) /\ Rabs (exp (-k*tau)) <= exp (K*tau) /\
  Rabs (effect gr k N n - exp (-k*tau)) <= exp (K*tau) * (K*K*h*tau).
Proof using GP HK Hh.
  intros Hk N. induction N as [|N IH]; intros H1 H2 tau; [lia|]. cbn [effect]. destruct (Nat.eq_dec n N) as [->|NE].
  - replace tau with 0 by (unfold tau; ring). rewrite !Rmult_0_r, exp_0, Rabs_R1, Rminus_diag_eq, Rabs_R0 by auto. lra.
  - specialize (IH ltac:(lia) ltac:(lia)). cbv zeta in IH. assert (UM := u_mono (S n) N ltac:(lia) ltac:(lia)).
    set (ta := nth N gr 0 - nth (S n) gr 0) in *. destruct IH as (I1 & I2 & I3).
    assert (P := prod_close k ta (gap gr N) (effect gr k N n) (exp (-k*ta)) Hk ltac:(unfold ta; lra) (GP N H2) I1 I2 I3).
    replace (ta + gap gr N) with tau in P by (unfold tau, ta; rewrite (u_S N); ring).
    replace (exp (- (k * gap gr N)) * exp (- k * ta)) with (exp (-k*tau)) in P; [exact P|].
    rewrite <- exp_plus. f_equal. unfold tau, ta. rewrite (u_S N). ring.
Qed.
(** the mean, if the drift is k (theta - x) *)
Lemma mean_close k x theta : Rabs k <= K -> forall N, (N < List.length gr)%nat ->
  let tau := nth N gr 0 - nth 0 gr 0 in
  Rabs (mpath gr (k*theta) k x N - (theta - exp (-k*tau) * (theta - x))) <= Rabs (x - theta) * (exp (K*tau) * (K*K*h*tau)).
Proof using GP HK Hh.
  intro Hk.
  assert (P : forall N, (N < List.length gr)%nat -> exists p, mpath gr (k*theta) k x N = theta + p * (x - theta) /\
    let tau := nth N gr 0 - nth 0 gr 0 in Rabs p <= exp (K*tau) /\ Rabs (exp (-k*tau)) <= exp (K*tau) /\ Rabs (p - exp (-k*tau)) <= exp (K*tau) * (K*K*h*tau)).
  { induction N as [|N IH]; intro HN.
    - exists 1. split; [cbn [mpath]; ring|]. replace (nth 0 gr 0 - nth 0 gr 0) with 0 by ring. cbv zeta. rewrite !Rmult_0_r, exp_0, Rabs_R1, Rminus_diag_eq, Rabs_R0 by auto. lra.
    - destruct (IH ltac:(lia)) as (p & EP & I1 & I2 & I3). exists ((1 - k * gap gr N) * p). split; [cbn [mpath]; rewrite EP; ring|]. intro tau.
      assert (UM := u_mono 0 N ltac:(lia) ltac:(lia)). set (ta := nth N gr 0 - nth 0 gr 0) in *.
      assert (P := prod_close k ta (gap gr N) p (exp (-k*ta)) Hk ltac:(unfold ta; lra) (GP N HN) I1 I2 I3).
      replace (ta + gap gr N) with tau in P by (unfold tau, ta; rewrite (u_S N); ring).
      replace (exp (- (k * gap gr N)) * exp (- k * ta)) with (exp (-k*tau)) in P; [exact P|].
      rewrite <- exp_plus. f_equal. unfold tau, ta. rewrite (u_S N). ring. }
  intros N HN tau. destruct (P N HN) as (p & EP & _ & _ & I3). rewrite EP.
  replace (theta + p * (x - theta) - (theta - exp (-k*tau) * (theta - x))) with ((x - theta) * (p - exp (-k*tau))) by ring.
  rewrite Rabs_mult. apply Rmult_le_compat_l; [apply Rabs_pos|exact I3].
Qed.

(** the covariance *)
Definition cov_const : R := (2*(K*K*T) + 2*K) * exp (2*(K*T)) * T.
Lemma exp_prod_bound k1 k2 s t r : Rabs k1 <= K -> Rabs k2 <= K -> 0 <= s - r <= T -> 0 <= t - r <= T -> exp (-k1*(s - r)) * exp (-k2*(t - r)) <= exp (2*(K*T)).
Proof using HK Hh.
  intros H1 H2 H3 H4. rewrite <- exp_plus. apply exp_mono. apply Rabs_le_between in H1. apply Rabs_le_between in H2.
  assert (-k1*(s-r) <= K*T) by nra. assert (-k2*(t-r) <= K*T) by nra. lra.
Qed.
Lemma term_close k1 k2 N M n r : Rabs k1 <= K -> Rabs k2 <= K -> (n < N)%nat -> (n < M)%nat -> (N < List.length gr)%nat -> (M < List.length gr)%nat -> nth N gr 0 - nth 0 gr 0 <= T -> nth M gr 0 - nth 0 gr 0 <= T ->
  nth n gr 0 <= r <= nth (S n) gr 0 ->
  Rabs (effect gr k1 N n * effect gr k2 M n - exp (-k1*(nth N gr 0 - r)) * exp (-k2*(nth M gr 0 - r))) <= (2*(K*K*T) + 2*K) * exp (2*(K*T)) * h.
Proof using GP HK Hh.
  intros H1 H2 L1 L2 B1 B2 T1 T2 Hr.
  destruct (effect_close k1 n H1 N L1 B1) as (P1 & P2 & P3). destruct (effect_close k2 n H2 M L2 B2) as (Q1 & Q2 & Q3).
  assert (HP := h_pos n ltac:(lia)). assert (G := GP n ltac:(lia)).
  assert (U0 := u_mono 0 n ltac:(lia) ltac:(lia)). assert (U1 := u_mono (S n) N ltac:(lia) B1). assert (U2 := u_mono (S n) M ltac:(lia) B2).
  assert (US := u_S n).
  set (ta := nth N gr 0 - nth (S n) gr 0) in *. set (tb := nth M gr 0 - nth (S n) gr 0) in *.
  set (e1 := effect gr k1 N n) in *. set (e2 := effect gr k2 M n) in *. set (x1 := exp (-k1*ta)) in *. set (x2 := exp (-k2*tb)) in *.
  assert (A0 : 0 <= ta <= T) by (unfold ta; lra). assert (B0 : 0 <= tb <= T) by (unfold tb; lra).
  assert (EA : exp (K*ta) <= exp (K*T)) by (apply exp_mono; apply Rmult_le_compat_l; lra).
  assert (EB : exp (K*tb) <= exp (K*T)) by (apply exp_mono; apply Rmult_le_compat_l; lra).
  assert (ET := exp_pos (K*T)). assert (EE : exp (2*(K*T)) = exp (K*T) * exp (K*T)) by (rewrite <- exp_plus; f_equal; ring).
  assert (KK : 0 <= K*K) by nra.
  assert (Z : forall e x t, 0 <= t <= T -> Rabs (e - x) <= exp (K*t) * (K*K*h*t) -> exp (K*t) <= exp (K*T) -> Rabs (e - x) <= exp (K*T) * (K*K*T*h)).
  { intros e x t It He Hx. eapply Rle_trans; [exact He|]. apply Rmult_le_compat; [left; apply exp_pos| |exact Hx|].
    - apply Rmult_le_pos; [|lra]. apply Rmult_le_pos; lra.
    - replace (K*K*T*h) with (K*K*h*T) by ring. apply Rmult_le_compat_l; [|lra]. apply Rmult_le_pos; lra. }
  assert (Z1 := Z _ _ _ A0 P3 EA). assert (Z2 := Z _ _ _ B0 Q3 EB). clear Z.
  assert (D1 : Rabs (e1*e2 - x1*x2) <= 2*(K*K*T) * exp (2*(K*T)) * h).
  { replace (e1*e2 - x1*x2) with (e1*(e2 - x2) + x2*(e1 - x1)) by ring. apply Rle_trans with (1 := Rabs_triang _ _). rewrite !Rabs_mult.
    apply Rle_trans with (exp (K*T) * (exp (K*T) * (K*K*T*h)) + exp (K*T) * (exp (K*T) * (K*K*T*h))).
    - apply Rplus_le_compat; apply Rmult_le_compat; auto; try apply Rabs_pos; eapply Rle_trans; eauto.
    - rewrite EE. apply Req_le. ring. }
  assert (D2 : Rabs (x1*x2 - exp (-k1*(nth N gr 0 - r)) * exp (-k2*(nth M gr 0 - r))) <= 2*K * exp (2*(K*T)) * h).
  { set (f := fun y => exp (-k1*(nth N gr 0 - y)) * exp (-k2*(nth M gr 0 - y))).
    destruct (MVT_abs f (fun y => (k1 + k2) * f y) r (nth (S n) gr 0)) as (z & E & I).
    - intros y _. apply is_derive_Reals. unfold f. auto_derive; auto. match goal with |- ?a = ?b => change (@eq R a b) end. unfold Rminus; ring.
    - rewrite Rmin_left, Rmax_right in I by lra. change (Rabs (f (nth (S n) gr 0) - f r) <= 2*K*exp (2*(K*T))*h). rewrite E, Rabs_mult.
      rewrite (Rabs_pos_eq (nth (S n) gr 0 - r)) by lra. apply Rmult_le_compat; [apply Rmult_le_pos; apply Rabs_pos|lra| |lra].
      apply Rmult_le_compat; [apply Rabs_pos|apply Rabs_pos| |].
      + apply Rle_trans with (1 := Rabs_triang _ _). lra.
      + unfold f. rewrite Rabs_mult, !abs_exp. apply exp_prod_bound; auto; lra. }
  replace (e1*e2 - _) with ((e1*e2 - x1*x2) + (x1*x2 - exp (-k1*(nth N gr 0 - r)) * exp (-k2*(nth M gr 0 - r)))) by ring.
  apply Rle_trans with (1 := Rabs_triang _ _). lra.
Qed.
Lemma f_int k1 k2 s t a b : ex_RInt (fun r => exp (-k1*(s - r)) * exp (-k2*(t - r))) a b.
Proof.
  apply (@ex_RInt_continuous R_CompleteNormedModule). intros z _. apply (ex_derive_continuous (fun r => exp (-k1*(s - r)) * exp (-k2*(t - r)))). auto_derive. auto.
Qed.
Lemma sum_close k1 k2 N M : Rabs k1 <= K -> Rabs k2 <= K -> (N < List.length gr)%nat -> (M < List.length gr)%nat -> nth N gr 0 - nth 0 gr 0 <= T -> nth M gr 0 - nth 0 gr 0 <= T ->
  forall n, (n <= N)%nat -> (n <= M)%nat ->
  Rabs (rsum (fun m => effect gr k1 N m * effect gr k2 M m * gap gr m) (seq 0 n) -
        RInt (fun r => exp (-k1*(nth N gr 0 - r)) * exp (-k2*(nth M gr 0 - r))) (nth 0 gr 0) (nth n gr 0))
  <= (2*(K*K*T) + 2*K) * exp (2*(K*T)) * h * (nth n gr 0 - nth 0 gr 0).
Proof using GP HK Hh.
  intros H1 H2 B1 B2 T1 T2. set (f := fun r => exp (-k1*(nth N gr 0 - r)) * exp (-k2*(nth M gr 0 - r))). set (B := (2*(K*K*T) + 2*K) * exp (2*(K*T)) * h).
  assert (FI : forall a b, ex_RInt f a b) by (intros; apply f_int).
  induction n as [|n IH]; intros L1 L2.
  - rewrite RInt_point. cbn [seq]. unfold rsum, zero. cbn. replace (0 - 0) with 0 by ring. rewrite Rabs_R0. lra.
  - specialize (IH ltac:(lia) ltac:(lia)). rewrite rsum_seq_S. assert (G := GP n ltac:(lia)). assert (US := u_S n).
    rewrite <- (RInt_Chasles f (nth 0 gr 0) (nth n gr 0) (nth (S n) gr 0)) by auto. unfold plus. cbn [AbelianGroup.plus AbelianGroup.class R_AbelianGroup].
    set (I0 := RInt f (nth 0 gr 0) (nth n gr 0)) in *. set (I1 := RInt f (nth n gr 0) (nth (S n) gr 0)). set (S0 := rsum _ (seq 0 n)) in *.
    set (e := effect gr k1 N n * effect gr k2 M n).
    assert (J : Rabs (e * gap gr n - I1) <= gap gr n * B).
    { assert (IR : is_RInt (fun r => e - f r) (nth n gr 0) (nth (S n) gr 0) (e * gap gr n - I1)).
      { assert (X := is_RInt_minus (fun _ => e) f (nth n gr 0) (nth (S n) gr 0) _ _ (is_RInt_const (nth n gr 0) (nth (S n) gr 0) e) (RInt_correct f _ _ (FI _ _))).
        unfold minus, plus, opp, scal in X. cbn in X. unfold mult in X. cbn in X.
        replace (e * gap gr n - I1) with ((nth (S n) gr 0 - nth n gr 0) * e + - I1) by (match goal with |- ?a = ?b => change (@eq R a b) end; unfold gap; ring). exact X. }
      replace (gap gr n * B) with ((nth (S n) gr 0 - nth n gr 0) * B) by (unfold gap; ring).
      apply (norm_RInt_le_const (fun r => e - f r) (nth n gr 0) (nth (S n) gr 0) (e * gap gr n - I1) B); [lra| |exact IR].
      intros r Hr. apply term_close; auto; lia. }
    change (Rabs (S0 + e * gap gr n - (I0 + I1)) <= B * (nth (S n) gr 0 - nth 0 gr 0)).
    replace (S0 + e * gap gr n - (I0 + I1)) with ((S0 - I0) + (e * gap gr n - I1)) by ring.
    apply Rle_trans with (1 := Rabs_triang _ _). rewrite US. lra.
Qed.
Lemma rsum_tail (f : nat -> R) n m : (n <= m)%nat -> (forall j, (n <= j < m)%nat -> f j = 0) -> rsum f (seq 0 m) = rsum f (seq 0 n).
Proof. intro H. induction H as [|m H IH]; intro Z; [reflexivity|]. rewrite rsum_seq_S, Z by lia. rewrite IH by (intros; apply Z; lia). ring. Qed.
Lemma cov_close k1 k2 N M : Rabs k1 <= K -> Rabs k2 <= K -> (N < List.length gr)%nat -> (M < List.length gr)%nat -> nth N gr 0 - nth 0 gr 0 <= T -> nth M gr 0 - nth 0 gr 0 <= T ->
  Rabs (rsum (fun m => effect gr k1 N m * effect gr k2 M m * gap gr m) (seq 0 (List.length gr - 1)) -
        revert_cov k1 k2 (nth N gr 0 - nth 0 gr 0) (nth M gr 0 - nth 0 gr 0)) <= cov_const * h.
Proof using GP HK Hh.
  intros H1 H2 B1 B2 T1 T2. set (n := Nat.min N M).
  rewrite (rsum_tail _ n).
  2: unfold n; lia.
  2: { intros j Hj. destruct (Nat.le_gt_cases N j); [rewrite (effect_after gr k1 N) by lia; ring|rewrite (effect_after gr k2 M) by (unfold n in Hj; lia); ring]. }
  assert (X := sum_close k1 k2 N M H1 H2 B1 B2 T1 T2 n ltac:(unfold n; lia) ltac:(unfold n; lia)).
  assert (EQ : revert_cov k1 k2 (nth N gr 0 - nth 0 gr 0) (nth M gr 0 - nth 0 gr 0) = RInt (fun r => exp (-k1*(nth N gr 0 - r)) * exp (-k2*(nth M gr 0 - r))) (nth 0 gr 0) (nth n gr 0)).
  { unfold revert_cov. replace (Rmin (nth N gr 0 - nth 0 gr 0) (nth M gr 0 - nth 0 gr 0)) with (nth n gr 0 - nth 0 gr 0).
    2: { unfold n. destruct (Nat.le_ge_cases N M) as [C|C]; [rewrite Nat.min_l by auto|rewrite Nat.min_r by auto].
         - rewrite Rmin_left; auto. assert (Y := u_mono N M C B2). lra.
         - rewrite Rmin_right; auto. assert (Y := u_mono M N C B1). lra. }
    assert (CL := RInt_comp_lin (fun r => exp (-k1*(nth N gr 0 - r)) * exp (-k2*(nth M gr 0 - r))) 1 (nth 0 gr 0) 0 (nth n gr 0 - nth 0 gr 0)).
    replace (1 * 0 + nth 0 gr 0) with (nth 0 gr 0) in CL by ring. replace (1 * (nth n gr 0 - nth 0 gr 0) + nth 0 gr 0) with (nth n gr 0) in CL by ring.
    rewrite <- CL by apply f_int. apply RInt_ext. intros x _. unfold scal. cbn. unfold mult. cbn. rewrite Rmult_1_l. f_equal; f_equal; ring. }
  assert (NL : (n < List.length gr)%nat) by (unfold n; lia). assert (TN := Rle_trans _ _ _ (Rplus_le_compat_r (- nth 0 gr 0) _ _ (u_mono n N ltac:(unfold n; lia) B1)) T1). assert (U := u_mono 0 n ltac:(lia) NL).
  replace (RInt _ (nth 0 gr 0) (nth n gr 0)) with (revert_cov k1 k2 (nth N gr 0 - nth 0 gr 0) (nth M gr 0 - nth 0 gr 0)) in X.
  eapply Rle_trans; [exact X|]. unfold cov_const.
  destruct n as [|n0] eqn:EN.
  - replace (nth 0 gr 0 - nth 0 gr 0) with 0 in * by ring. assert (E := exp_pos (2*(K*T))). assert (0 <= K*K*T) by (apply Rmult_le_pos; nra). rewrite Rmult_0_r. apply Rmult_le_pos; [|auto]. apply Rmult_le_pos; [|lra]. apply Rmult_le_pos; lra.
  - assert (HP := h_pos n0 NL). replace ((2*(K*K*T) + 2*K) * exp (2*(K*T)) * T * h) with ((2*(K*K*T) + 2*K) * exp (2*(K*T)) * h * T) by ring.
    apply Rmult_le_compat_l; [|lra]. assert (E := exp_pos (2*(K*T))). assert (0 <= K*K*T) by (apply Rmult_le_pos; nra). apply Rmult_le_pos; [|lra]. apply Rmult_le_pos; lra.
Qed.
End Grid.
