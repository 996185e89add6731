(** Lemmas on the accuracy of simulated lognormal processes. *)
From Coq Require Import String List ZArith Bool Reals Lra Lia Psatz.
From Flocq Require Import IEEE754.BinarySingleNaN Core Relative.
From Verif Require Import Base BaseOrd BaseNum BaseArr BaseFloat M_float M_presets S_float L_float L_presets L_float2.
Local Open Scope R_scope.

Lemma B2R_2 : B2R (f_int 2) = 2.
Proof.
  pose proof (binary_normalize_correct 53 1024 eq_refl eq_refl mode_NE 2 0 false) as C.
  assert (E : F2R (Float radix2 2 0) = 2) by (unfold F2R; simpl; lra).
  cbv zeta in C. rewrite E in C.
  assert (G : round radix2 (SpecFloat.fexp 53 1024) (round_mode mode_NE) 2 = 2).
  { apply round_generic; auto with typeclass_instances. replace 2 with (bpow radix2 1) by (simpl; lra). apply generic_format_bpow. vm_compute. discriminate. }
  rewrite G in C. rewrite Rlt_bool_true in C. - exact (proj1 C).
  - rewrite Rabs_pos_eq by lra. replace 2 with (bpow radix2 1) by (simpl; lra). apply bpow_lt. lia.
Qed.
Lemma half_fin x : is_finite (f_div x (f_int 2)) = true -> is_finite x = true /\ B2R (f_div x (f_int 2)) = rnd (B2R x / 2).
Proof.
  intro H. unfold f_div in *.
  assert (N2 : B2R (f_int 2) <> 0) by (rewrite B2R_2; lra).
  pose proof (Bdiv_correct 53 1024 _ _ mode_NE x (f_int 2) N2) as C. rewrite B2R_2 in C.
  destruct (Rlt_bool _ _) in C.
  - destruct C as (C1 & C2 & _). rewrite C2 in H. split; auto.
  - apply overflow_inf in C. rewrite C in H. discriminate.
Qed.
(** mu - sigma * sigma / 2 *)
Definition f_drift (m s : float64) : float64 := f_sub m (f_div (f_mul s s) (f_int 2)).
Lemma f_drift_error m s : is_finite (f_drift m s) = true ->
  Rabs (B2R (f_drift m s) - (B2R m - B2R s * B2R s / 2)) <= 4 * uu * (Rabs (B2R m) + B2R s * B2R s) + 4 * eta.
Proof.
  unfold f_drift. intro H. destruct (sub_fin _ _ H) as (Fm & Fh & E1). destruct (half_fin _ Fh) as (Fs & E2). destruct (mul_fin _ _ Fs) as (_ & _ & E3).
  rewrite E1, E2, E3. set (M := B2R m). set (S := B2R s * B2R s).
  assert (S0 : 0 <= S) by (unfold S; pose proof (Rle_0_sqr (B2R s)); unfold Rsqr in *; lra).
  pose proof (rnd_error S) as R1. pose proof (rnd_error (rnd S / 2)) as R2. pose proof (rnd_error (M - rnd (rnd S / 2))) as R3.
  set (q := rnd S) in *. set (h := rnd (q / 2)) in *. set (d := rnd (M - h)) in *.
  pose proof uu_pos as U0. pose proof uu_small as U1. pose proof eta_pos as N0.
  rewrite (Rabs_pos_eq S S0) in R1.
  assert (Q1 : Rabs q <= S + (uu * S + eta)).
  { replace q with (S + (q - S)) by ring. eapply Rle_trans; [apply Rabs_triang|]. rewrite (Rabs_pos_eq S S0). lra. }
  assert (US : 0 <= uu * S) by (apply Rmult_le_pos; lra). assert (UM : 0 <= uu * Rabs M) by (apply Rmult_le_pos; [lra|apply Rabs_pos]).
  assert (UUS : uu * (uu * S) <= /1024 * (uu * S)) by (apply Rmult_le_compat_r; lra).
  assert (UE : uu * eta <= /1024 * eta) by (apply Rmult_le_compat_r; lra).
  assert (A2 : Rabs (q / 2) = Rabs q / 2) by (unfold Rdiv; rewrite Rabs_mult, (Rabs_pos_eq (/2)) by lra; ring). rewrite A2 in R2.
  assert (UQ : uu * Rabs q <= uu * S + (/1024 * (uu * S) + /1024 * eta)).
  { apply Rle_trans with (uu * (S + (uu * S + eta))); [apply Rmult_le_compat_l; lra|]. lra. }
  assert (H2 : Rabs (h - S / 2) <= (uu * S + /1024 * (uu * S)) + (eta + eta)).
  { replace (h - S/2) with ((h - q/2) + (q - S) * /2) by field. eapply Rle_trans; [apply Rabs_triang|]. rewrite Rabs_mult, (Rabs_pos_eq (/2)) by lra.
    assert (uu * (Rabs q / 2) = uu * Rabs q / 2) by field. lra. }
  assert (US2 : uu * S <= /1024 * S) by (apply Rmult_le_compat_r; lra).
  assert (H3 : Rabs (M - h) <= Rabs M + S + 2 * eta).
  { replace (M - h) with (M + (- (S/2) + - (h - S/2))) by ring. eapply Rle_trans; [apply Rabs_triang|]. eapply Rle_trans; [apply Rplus_le_compat_l; apply Rabs_triang|].
    rewrite !Rabs_Ropp, (Rabs_pos_eq (S/2)) by lra. lra. }
  assert (UH : uu * Rabs (M - h) <= uu * Rabs M + uu * S + 2 * (/1024 * eta)).
  { apply Rle_trans with (uu * (Rabs M + S + 2 * eta)); [apply Rmult_le_compat_l; lra|]. lra. }
  replace (d - (M - S / 2)) with ((d - (M - h)) + - (h - S / 2)) by ring. eapply Rle_trans; [apply Rabs_triang|]. rewrite Rabs_Ropp. lra.
Qed.

(** errors of exponents, and relative errors *)
Lemma exp_error r E e v y : 0 <= r -> Rabs (v - e) <= E -> Rabs (y - exp v) <= r * exp v -> Rabs (y - exp e) <= ((1 + r) * exp E - 1) * exp e.
Proof.
  intros R0 HE HY. pose proof (exp_pos e) as X0. pose proof (exp_pos v) as X1. pose proof (exp_pos E) as X2.
  apply Rabs_le_inv in HE. apply Rabs_le_inv in HY.
  assert (U : exp v <= exp E * exp e) by (rewrite <- exp_plus; destruct (Req_dec v (E + e)) as [-> |N]; [lra|left; apply exp_increasing; lra]).
  assert (L : exp (- E) * exp e <= exp v) by (rewrite <- exp_plus; destruct (Req_dec v (- E + e)) as [-> |N]; [lra|left; apply exp_increasing; lra]).
  assert (M : exp E * exp (- E) = 1) by (rewrite <- exp_plus; replace (E + - E) with 0 by ring; apply exp_0).
  assert (E0 : 1 <= exp E) by (pose proof (exp_ineq1_le E); lra).
  assert (M2 : 2 <= exp E + exp (- E)) by (pose proof (exp_pos (- E)); nra).
  apply Rabs_le. split.
  - assert (r * exp v <= r * (exp E * exp e)) by (apply Rmult_le_compat_l; lra).
    assert (2 * exp e <= (exp E + exp (- E)) * exp e) by (apply Rmult_le_compat_r; lra). lra.
  - assert ((1 + r) * exp v <= (1 + r) * (exp E * exp e)) by (apply Rmult_le_compat_l; lra). lra.
Qed.

Section D.
Variables (fexp flog : float64 -> float64) (w : list nat).
Let NV : Num float64 := Num_float64 fexp flog.
Existing Instance NV.
Lemma log_drift_float (m s : arr float64) : can (shp m) w = true -> can (shp s) w = true ->
  exists d, log_drift m s = Ok d /\ can (shp d) w = true /\ forall ix, bget d ix = f_drift (bget m ix) (bget s ix).
Proof.
  intros C1 C2. unfold log_drift.
  destruct (aop_ok nmul s s w C2 C2) as (ss & E1 & C3). rewrite E1. cbn [rbind].
  destruct (aop_ok ndiv ss two w C3 (can_nil _)) as (h & E2 & C4). rewrite E2. cbn [rbind].
  destruct (aop_ok nsub m h w C1 C4) as (d & E3 & C5). rewrite E3. exists d. repeat split; auto.
  intros ix. rewrite (aop_get _ _ _ _ ix E3), (aop_get _ _ _ _ ix E2), (aop_get _ _ _ _ ix E1). reflexivity.
Qed.
End D.
