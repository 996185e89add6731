(** Lemmas on square roots and maxima of floating point numbers. *)
From Coq Require Import String List ZArith Bool Reals Lra Lia Psatz.
From Flocq Require Import IEEE754.BinarySingleNaN Core Relative.
From Verif Require Import Base BaseOrd BaseNum BaseArr BaseFloat M_float M_presets S_float L_float.
Local Open Scope R_scope.

Lemma max_fin (x y : float64) : is_finite x = true -> is_finite y = true -> is_finite (f_max x y) = true /\ B2R (f_max x y) = Rmax (B2R x) (B2R y).
Proof.
  intros Fx Fy. unfold f_max. assert (Nx : is_nan x = false) by (destruct x; easy). assert (Ny : is_nan y = false) by (destruct y; easy). rewrite Nx, Ny.
  rewrite (Bltb_correct _ _ _ _ Fx Fy). destruct (Rlt_bool_spec (B2R x) (B2R y)).
  - split; auto. rewrite Rmax_right; lra.
  - split; auto. rewrite Rmax_left; lra.
Qed.
Lemma max_nan (x y : float64) : is_nan x = true \/ is_nan y = true -> is_nan (f_max x y) = true.
Proof. unfold f_max. intros [H|H]; destruct (is_nan x) eqn:E; auto; try congruence. rewrite H. exact H. Qed.
Lemma sqrt_fin (x : float64) : is_finite x = true -> 0 <= B2R x -> is_finite (Bsqrt mode_NE x) = true /\ B2R (Bsqrt mode_NE x) = rnd (sqrt (B2R x)).
Proof.
  intros Fx Px. destruct (Bsqrt_correct 53 1024 _ _ mode_NE x) as (A & B & _). split; [|exact A]. rewrite B.
  destruct x as [|[]| |[] m e H]; try discriminate; auto. exfalso. cbn in Px. unfold F2R in Px. cbn in Px.
  assert (0 < bpow radix2 e) by apply bpow_gt_0. assert (IZR (Z.neg m) < 0) by (apply IZR_lt; lia). nra.
Qed.
Lemma mul_nnan (x y : float64) : is_finite x = true -> is_finite y = true -> is_nan (f_mul x y) = false.
Proof.
  intros Fx Fy. pose proof (Bmult_correct 53 1024 _ _ mode_NE x y) as C. destruct (Rlt_bool _ _) in C.
  - destruct C as (_ & C & _). rewrite Fx, Fy in C. unfold f_mul. destruct (Bmult mode_NE x y); easy.
  - unfold f_mul. destruct (Bmult mode_NE x y); auto. cbn in C. unfold binary_overflow in C. cbn in C. discriminate C.
Qed.
Lemma sub_nnan (x y : float64) : is_finite x = true -> is_finite y = true -> is_nan (f_sub x y) = false.
Proof.
  intros Fx Fy. pose proof (Bminus_correct 53 1024 _ _ mode_NE x y Fx Fy) as C. destruct (Rlt_bool _ _) in C.
  - destruct C as (_ & C & _). unfold f_sub. destruct (Bminus mode_NE x y); easy.
  - unfold f_sub. destruct C as [C _]. destruct (Bminus mode_NE x y); auto. cbn in C. unfold binary_overflow in C. cbn in C. discriminate C.
Qed.
Lemma mul_nan_r (x y : float64) : is_nan y = true -> is_nan (f_mul x y) = true.
Proof. destruct y; try discriminate. destruct x; reflexivity. Qed.
Lemma sub_nan_r (x y : float64) : is_nan y = true -> is_nan (f_sub x y) = true.
Proof. destruct y; try discriminate. destruct x; reflexivity. Qed.
Lemma sqrt_nan (x : float64) : is_nan x = true -> is_nan (Bsqrt mode_NE x) = true.
Proof. destruct x; try discriminate. reflexivity. Qed.
Lemma sqrt_plus (x : float64) : is_finite x = true ->
  let y := Bsqrt mode_NE (f_max x f_zero) in is_finite y = true /\ B2R y = rnd (sqrt (Rmax (B2R x) 0)).
Proof.
  intro Fx. destruct (max_fin x f_zero Fx eq_refl) as [A B]. change (B2R f_zero) with 0 in B. cbv zeta. rewrite <- B. apply sqrt_fin; auto.
  rewrite B. apply Rmax_r.
Qed.
(** error of a rounded product with a rounded square root *)
Lemma sqrt_error a z : Rabs (rnd (a * rnd (sqrt z)) - a * sqrt z) <= 3 * uu * (Rabs a * sqrt z) + 2 * (Rabs a * eta) + eta.
Proof.
  set (s := sqrt z). assert (0 <= s) by apply sqrt_pos. pose proof (rnd_error s) as E1. pose proof (rnd_error (a * rnd s)) as E2. pose proof uu_pos. pose proof uu_small. pose proof eta_pos.
  rewrite (Rabs_pos_eq s) in E1 by assumption. rewrite Rabs_mult in E2. pose proof (Rabs_pos a).
  assert (E3 : Rabs (rnd s) <= s + (uu * s + eta)). { replace (rnd s) with (s + (rnd s - s)) by ring. eapply Rle_trans; [apply Rabs_triang|]. rewrite (Rabs_pos_eq s) by assumption. lra. }
  replace (rnd (a * rnd s) - a * s) with ((rnd (a * rnd s) - a * rnd s) + a * (rnd s - s)) by ring.
  eapply Rle_trans; [apply Rabs_triang|]. rewrite Rabs_mult.
  assert (Rabs a * Rabs (rnd s - s) <= Rabs a * (uu * s + eta)) by (apply Rmult_le_compat_l; auto).
  assert (Rabs a * Rabs (rnd s) <= Rabs a * (s + (uu * s + eta))) by (apply Rmult_le_compat_l; auto).
  assert (uu * (Rabs a * Rabs (rnd s)) <= uu * (Rabs a * (s + (uu * s + eta)))) by (apply Rmult_le_compat_l; lra).
  assert (0 <= Rabs a * s) by (apply Rmult_le_pos; lra). assert (0 <= Rabs a * eta) by (apply Rmult_le_pos; lra).
  assert (uu * (uu * (Rabs a * s)) <= uu * (Rabs a * s)). { apply Rmult_le_compat_l; [lra|]. nra. }
  assert (uu * (Rabs a * eta) <= Rabs a * eta) by nra. nra.
Qed.
