(** Lemmas on the accuracy of floating point operations. *)
From Coq Require Import ZArith Bool Reals Lra Lia Psatz.
From Flocq Require Import IEEE754.BinarySingleNaN Core Relative.
From Verif Require Import BaseNum BaseFloat M_float S_float.
Local Open Scope R_scope.

Definition rnd (z : R) : R := round radix2 (FLT_exp (-1074) 53) ZnearestE z.
Lemma uu_pos : 0 < uu. Proof. apply bpow_gt_0. Qed.
Lemma eta_pos : 0 < eta. Proof. apply bpow_gt_0. Qed.
Lemma uu_small : uu <= /1024.
Proof.
  unfold uu. apply Rle_trans with (bpow radix2 (-10)); [apply bpow_le; lia|]. right.
  simpl. lra.
Qed.
Lemma eta_small : eta <= /1024.
Proof.
  unfold eta. apply Rle_trans with (bpow radix2 (-10)); [apply bpow_le; lia|]. right.
  simpl. lra.
Qed.

Lemma rnd_error z : Rabs (rnd z - z) <= uu * Rabs z + eta.
Proof.
  destruct (error_N_FLT radix2 (-1074) 53 eq_refl (fun x => negb (Z.even x)) z) as (e & h & He & Hh & _ & E).
  unfold rnd. rewrite E.
  assert (A : /2 * bpow radix2 (- (53) + 1) = uu).
  { unfold uu. change (- (53) + 1)%Z with (1 + -53)%Z. rewrite bpow_plus. change (bpow radix2 1) with 2. field. }
  assert (B : /2 * bpow radix2 (-1074) = eta).
  { unfold eta. replace (-1074)%Z with (1 + -1075)%Z by lia. rewrite bpow_plus. change (bpow radix2 1) with 2. field. }
  rewrite A in He. rewrite B in Hh.
  replace (z*(1+e) + h - z) with (e*z + h) by ring. eapply Rle_trans; [apply Rabs_triang|]. rewrite Rabs_mult.
  pose proof (Rabs_pos z). apply Rplus_le_compat; auto. apply Rmult_le_compat_r; auto.
Qed.
Lemma rnd_0 : rnd 0 = 0. Proof. apply round_0. auto with typeclass_instances. Qed.
Lemma rnd_B2R (x : float64) : rnd (B2R x) = B2R x.
Proof. apply round_generic; auto with typeclass_instances. apply (generic_format_B2R 53 1024 x). Qed.

(** *** finite results *)
Lemma overflow_inf (x : float64) s : B2SF x = binary_overflow 53 1024 mode_NE s -> is_finite x = false.
Proof. destruct x; cbn; intro H; try discriminate H; reflexivity. Qed.
Lemma add_fin x y : is_finite (f_add x y) = true -> is_finite x = true /\ is_finite y = true /\ B2R (f_add x y) = rnd (B2R x + B2R y).
Proof.
  unfold f_add. intro H. assert (F : is_finite x = true /\ is_finite y = true).
  { destruct x as [?|[]| |], y as [?|[]| |]; simpl in H; try discriminate H; auto. }
  destruct F as [Fx Fy]. split; auto. split; auto.
  pose proof (Bplus_correct 53 1024 _ _ mode_NE x y Fx Fy) as C.
  destruct (Rlt_bool _ _) in C; [exact (proj1 C)|]. destruct C as [C _]. apply overflow_inf in C. rewrite C in H. discriminate.
Qed.
Lemma sub_fin x y : is_finite (f_sub x y) = true -> is_finite x = true /\ is_finite y = true /\ B2R (f_sub x y) = rnd (B2R x - B2R y).
Proof.
  unfold f_sub. intro H. assert (F : is_finite x = true /\ is_finite y = true).
  { destruct x as [?|[]| |], y as [?|[]| |]; simpl in H; try discriminate H; auto. }
  destruct F as [Fx Fy]. split; auto. split; auto.
  pose proof (Bminus_correct 53 1024 _ _ mode_NE x y Fx Fy) as C.
  destruct (Rlt_bool _ _) in C; [exact (proj1 C)|]. destruct C as [C _]. apply overflow_inf in C. rewrite C in H. discriminate.
Qed.
Lemma mul_fin x y : is_finite (f_mul x y) = true -> is_finite x = true /\ is_finite y = true /\ B2R (f_mul x y) = rnd (B2R x * B2R y).
Proof.
  unfold f_mul. intro H. pose proof (Bmult_correct 53 1024 _ _ mode_NE x y) as C.
  destruct (Rlt_bool _ _) in C.
  - destruct C as (C1 & C2 & _). rewrite C2 in H. apply andb_true_iff in H. destruct H. auto.
  - apply overflow_inf in C. rewrite C in H. discriminate.
Qed.
(** *** results that are not too large *)
Definition big : R := bpow radix2 1022.
Lemma big_rnd z : Rabs z <= big -> Rabs (rnd z) < bpow radix2 1024.
Proof.
  intro H. assert (G : Rabs (rnd z) <= big).
  { unfold rnd. rewrite <- round_NE_abs by auto with typeclass_instances.
    rewrite <- (round_generic radix2 (FLT_exp (-1074) 53) ZnearestE big).
    - apply round_le; auto with typeclass_instances.
    - apply generic_format_FLT_bpow; [reflexivity|lia]. }
  eapply Rle_lt_trans; [exact G|]. unfold big. apply bpow_lt. lia.
Qed.
Lemma add_ok x y : is_finite x = true -> is_finite y = true -> Rabs (B2R x + B2R y) <= big ->
  is_finite (f_add x y) = true.
Proof.
  intros Fx Fy H. pose proof (Bplus_correct 53 1024 _ _ mode_NE x y Fx Fy) as C.
  rewrite Rlt_bool_true in C by (apply big_rnd in H; exact H). exact (proj1 (proj2 C)).
Qed.
Lemma sub_ok x y : is_finite x = true -> is_finite y = true -> Rabs (B2R x - B2R y) <= big ->
  is_finite (f_sub x y) = true.
Proof.
  intros Fx Fy H. pose proof (Bminus_correct 53 1024 _ _ mode_NE x y Fx Fy) as C.
  rewrite Rlt_bool_true in C by (apply big_rnd in H; exact H). exact (proj1 (proj2 C)).
Qed.
Lemma mul_ok x y : is_finite x = true -> is_finite y = true -> Rabs (B2R x * B2R y) <= big ->
  is_finite (f_mul x y) = true.
Proof.
  intros Fx Fy H. pose proof (Bmult_correct 53 1024 _ _ mode_NE x y) as C.
  rewrite Rlt_bool_true in C by (apply big_rnd in H; exact H). unfold f_mul. destruct C as (_ & C & _). etransitivity; [exact C|]. rewrite Fx, Fy. reflexivity.
Qed.

(** *** one step *)
Lemma step_error (x a b z t t' : float64) (xs dW P delta e : R) :
  let x' := f_add x (f_add (f_add f_zero (f_mul a (f_sub t' t))) (f_mul b z)) in
  let A := B2R a in let B := B2R b in let dt := B2R t' - B2R t in
  is_finite x' = true -> 0 <= P -> 0 <= delta -> Rabs (B2R x - xs) <= e ->
  Rabs (A * dt) <= P -> Rabs (B * dW) <= P -> Rabs (B2R z - dW) <= delta -> Rabs (xs + A * dt + B * dW) <= P ->
  Rabs (B2R x' - (xs + A * dt + B * dW)) <= (1 + uu) * e + (8 * uu * P + 2 * (Rabs B * delta) + 8 * ((1 + Rabs A) * eta)).
Proof.
  intros x' A B dt F HP HD HE HA HB HZ HX. unfold x' in *.
  destruct (add_fin _ _ F) as (F1 & F2 & E1). destruct (add_fin _ _ F2) as (F3 & F4 & E2).
  destruct (add_fin _ _ F3) as (_ & F5 & E3). destruct (mul_fin _ _ F5) as (_ & F6 & E4).
  destruct (mul_fin _ _ F4) as (_ & _ & E5). destruct (sub_fin _ _ F6) as (_ & _ & E6).
  rewrite E1. change (B2R f_zero) with 0 in E3. rewrite Rplus_0_l, rnd_B2R in E3. rewrite E3, E4 in E2. rewrite E5, E6 in E2. clear E3 E4 E5 E6.
  fold A B dt in E2. set (s := B2R (f_add (f_add f_zero (f_mul a (f_sub t' t))) (f_mul b z))) in *.
  set (X := B2R x) in *. set (Z := B2R z) in *. clearbody s X Z. clear F F1 F2 F3 F4 F5 F6 x'.
  pose proof uu_pos as U0. pose proof uu_small as U1. pose proof eta_pos as H0.
  assert (SC : forall v, 0 <= v -> uu * v <= v / 1024) by (intros v V; assert (uu*v <= /1024*v) by (apply Rmult_le_compat_r; auto); lra).
  set (K := Rabs A * eta). assert (K0 : 0 <= K) by (apply Rmult_le_pos; [apply Rabs_pos|lra]).
  set (D := Rabs B * delta). assert (D0 : 0 <= D) by (apply Rmult_le_pos; [apply Rabs_pos|auto]).
  set (Q := uu * P). assert (Q0 : 0 <= Q) by (apply Rmult_le_pos; lra).
  assert (A1 : Rabs (A * rnd dt - A * dt) <= Q + K).
  { replace (A * rnd dt - A*dt) with (A * (rnd dt - dt)) by ring. rewrite Rabs_mult.
    eapply Rle_trans; [apply Rmult_le_compat_l; [apply Rabs_pos|apply rnd_error]|].
    replace (Rabs A * (uu * Rabs dt + eta)) with (uu * (Rabs A * Rabs dt) + K) by (unfold K; ring).
    rewrite <- Rabs_mult. apply Rplus_le_compat_r. unfold Q. apply Rmult_le_compat_l; lra. }
  set (m1 := A * rnd dt) in *.
  assert (M1 : Rabs m1 <= P + Q + K).
  { replace m1 with (A*dt + (m1 - A*dt)) by ring. eapply Rle_trans; [apply Rabs_triang|]. lra. }
  assert (A2 : Rabs (rnd m1 - m1) <= Q + Q/1024 + K/1024 + eta).
  { eapply Rle_trans; [apply rnd_error|]. assert (uu * Rabs m1 <= uu * (P + Q + K)) by (apply Rmult_le_compat_l; lra).
    pose proof (SC (Q + K) ltac:(lra)). unfold Q in *. lra. }
  assert (A3 : Rabs (B * Z - B * dW) <= D).
  { replace (B*Z - B*dW) with (B * (Z - dW)) by ring. rewrite Rabs_mult. apply Rmult_le_compat_l; [apply Rabs_pos|auto]. }
  set (m2 := B * Z) in *.
  assert (M2 : Rabs m2 <= P + D).
  { replace m2 with (B*dW + (m2 - B*dW)) by ring. eapply Rle_trans; [apply Rabs_triang|]. lra. }
  assert (A4 : Rabs (rnd m2 - m2) <= Q + D/1024 + eta).
  { eapply Rle_trans; [apply rnd_error|]. assert (uu * Rabs m2 <= uu * (P + D)) by (apply Rmult_le_compat_l; lra).
    pose proof (SC D D0). unfold Q in *. lra. }
  set (q := rnd m1 + rnd m2) in *. set (c := A*dt + B*dW).
  assert (AB : forall u v r, Rabs (u - v) <= r -> - r <= u - v <= r) by (intros u v r; unfold Rabs; destruct (Rcase_abs (u - v)); lra).
  apply AB in A1. apply AB in A2. apply AB in A3. apply AB in A4.
  set (r5 := 3*Q + Q/1024 + 2*K + 2*eta + (D + D/1024)). assert (R5 : 0 <= r5) by (unfold r5; lra).
  assert (A5 : Rabs (q - c) <= r5).
  { apply Rabs_le. unfold q, c, r5. lra. }
  assert (C1 : Rabs c <= 2*P). { unfold c. eapply Rle_trans; [apply Rabs_triang|]. lra. }
  assert (M3 : Rabs q <= 2*P + r5).
  { replace q with (c + (q - c)) by ring. eapply Rle_trans; [apply Rabs_triang|]. lra. }
  assert (A6 : Rabs (s - q) <= 2*Q + r5/1024 + eta).
  { rewrite E2. eapply Rle_trans; [apply rnd_error|]. assert (uu * Rabs q <= uu * (2*P + r5)) by (apply Rmult_le_compat_l; lra).
    pose proof (SC r5 R5). unfold Q in *. lra. }
  set (r6 := r5 + r5/1024 + 2*Q + eta). assert (R6 : 0 <= r6) by (unfold r6; lra).
  assert (A7 : Rabs (X + s - (xs + A*dt + B*dW)) <= e + r6).
  { replace (X + s - (xs + A*dt + B*dW)) with ((X - xs) + ((s - q) + (q - c))) by (unfold c; ring).
    eapply Rle_trans; [apply Rabs_triang|]. apply Rplus_le_compat; auto. eapply Rle_trans; [apply Rabs_triang|]. unfold r6. lra. }
  set (y := xs + A*dt + B*dW) in *.
  assert (E0 : 0 <= e) by (eapply Rle_trans; [apply Rabs_pos|exact HE]).
  assert (M4 : Rabs (X + s) <= P + e + r6).
  { replace (X + s) with (y + (X + s - y)) by ring. eapply Rle_trans; [apply Rabs_triang|]. lra. }
  assert (A8 : Rabs (rnd (X + s) - (X + s)) <= Q + uu*e + r6/1024 + eta).
  { eapply Rle_trans; [apply rnd_error|]. assert (uu * Rabs (X + s) <= uu * (P + e + r6)) by (apply Rmult_le_compat_l; lra).
    pose proof (SC r6 R6). unfold Q in *. lra. }
  replace (rnd (X + s) - y) with ((rnd (X + s) - (X + s)) + (X + s - y)) by ring.
  eapply Rle_trans; [apply Rabs_triang|]. eapply Rle_trans; [apply Rplus_le_compat; [exact A8|exact A7]|].
  replace (8*uu*P) with (8*Q) by (unfold Q; ring). replace (8*((1 + Rabs A)*eta)) with (8*eta + 8*K) by (unfold K; ring).
  unfold r6, r5. lra.
Qed.

(** *** many steps *)
Definition err (c : R) (n : nat) : R := INR n * c * (1 + uu)^n.
Lemma err_next c n m : 0 <= c -> (n < m)%nat -> (1 + uu) * err c n + c <= err c m.
Proof.
  intros C H. unfold err. pose proof uu_pos as U.
  assert (P1 : 1 <= (1 + uu)^m) by (apply pow_R1_Rle; lra).
  assert (P2 : (1+uu)*(1+uu)^n <= (1+uu)^m).
  { change ((1+uu)*(1+uu)^n) with ((1+uu)^(S n)). apply Rle_pow; [lra|lia]. }
  assert (N : INR n + 1 <= INR m) by (rewrite <- S_INR; apply le_INR; lia).
  assert (N0 : 0 <= INR n) by apply pos_INR.
  assert (N1 : 0 <= INR n * c) by (apply Rmult_le_pos; auto).
  apply Rle_trans with ((INR n * c) * (1+uu)^m + c * (1+uu)^m).
  - apply Rplus_le_compat.
    + replace ((1+uu)*(INR n * c * (1+uu)^n)) with (INR n * c * ((1+uu)*(1+uu)^n)) by ring. apply Rmult_le_compat_l; auto.
    + rewrite <- (Rmult_1_r c) at 1. apply Rmult_le_compat_l; auto.
  - rewrite <- Rmult_plus_distr_r. apply Rmult_le_compat_r; [lra|].
    replace (INR n * c + c) with ((INR n + 1) * c) by ring. apply Rmult_le_compat_r; auto.
Qed.
Lemma err_mono c n m : 0 <= c -> (n <= m)%nat -> err c n <= err c m.
Proof.
  intros C H. destruct (Nat.eq_dec n m) as [-> |E]; [lra|].
  eapply Rle_trans; [|apply (err_next c n m C); lia]. pose proof uu_pos.
  assert (0 <= err c n) by (unfold err; apply Rmult_le_pos; [apply Rmult_le_pos; [apply pos_INR|auto]|apply pow_le; lra]).
  assert (0 <= uu * err c n) by (apply Rmult_le_pos; lra). lra.
Qed.
Lemma err_bound c n : 0 <= c -> INR n * uu <= /2 -> err c n <= 2 * INR n * c.
Proof.
  intros C H. unfold err. pose proof uu_pos.
  assert (E : (1 + uu)^n <= 2).
  { apply Rle_trans with (exp (INR n * uu)).
    - clear - H0. induction n as [|n IH]; [simpl; rewrite Rmult_0_l, exp_0; lra|].
      rewrite S_INR. replace ((INR n + 1)*uu) with (uu + INR n * uu) by ring. rewrite exp_plus. simpl.
      apply Rmult_le_compat; auto; [lra|apply pow_le; lra|]. pose proof (exp_ineq1_le uu). lra.
    - apply Rle_trans with (exp (/2)).
      + destruct H as [H|H]; [left; apply exp_increasing; auto|rewrite H; lra].
      + assert (G : exp (/2) * exp (/2) <= 3) by (rewrite <- exp_plus; replace (/2 + /2) with 1 by field; apply exp_le_3).
        pose proof (exp_pos (/2)). nra. }
  replace (2 * INR n * c) with (INR n * c * 2) by ring. apply Rmult_le_compat_l; auto. apply Rmult_le_pos; [apply pos_INR|auto].
Qed.

(** *** no overflow *)
Definition MM : R := bpow radix2 1000.
Lemma MM_1 : 1 <= MM. Proof. change 1 with (bpow radix2 0). apply bpow_le. lia. Qed.
Lemma MM_big : 64 * MM <= big.
Proof. change 64 with (bpow radix2 6). unfold MM, big. rewrite <- bpow_plus. apply bpow_le. lia. Qed.
Lemma A_eta (a : float64) : Rabs (B2R a) * eta <= 1.
Proof.
  pose proof (abs_B2R_lt_emax 53 1024 a). unfold eta. apply Rle_trans with (bpow radix2 1024 * bpow radix2 (-1075)).
  - apply Rmult_le_compat_r; [apply bpow_ge_0|lra].
  - rewrite <- bpow_plus. change 1 with (bpow radix2 0). apply bpow_le. lia.
Qed.
Lemma step_finite (x a b z t t' : float64) (xs dW P delta e : R) :
  let x' := f_add x (f_add (f_add f_zero (f_mul a (f_sub t' t))) (f_mul b z)) in
  let A := B2R a in let B := B2R b in let dt := B2R t' - B2R t in
  is_finite x = true -> is_finite a = true -> is_finite b = true -> (is_finite (f_sub t' t) = true -> is_finite z = true) ->
  is_finite t = true -> is_finite t' = true ->
  0 <= P <= MM -> 0 <= delta -> Rabs B * delta <= MM -> Rabs (B2R x - xs) <= e -> e <= 20 * MM -> Rabs dt <= MM ->
  Rabs (A * dt) <= P -> Rabs (B * dW) <= P -> (is_finite z = true -> Rabs (B2R z - dW) <= delta) -> Rabs (xs + A * dt + B * dW) <= P ->
  is_finite x' = true.
Proof.
  intros x' A B dt Fx Fa Fb Fz Ft Ft' [HP PM] HD DM HE EM TM HA HB HZ HX. unfold x' in *. pose proof MM_1 as M1. pose proof MM_big as M2.
  pose proof uu_pos as U0. pose proof uu_small as U1. pose proof eta_pos as H0. pose proof eta_small as H1.
  assert (SC : forall v, 0 <= v -> uu * v <= v / 1024) by (intros v V; assert (uu*v <= /1024*v) by (apply Rmult_le_compat_r; auto); lra).
  assert (RB : forall v, Rabs (rnd v) <= 2 * Rabs v + 1).
  { intro v. replace (rnd v) with (v + (rnd v - v)) by ring. eapply Rle_trans; [apply Rabs_triang|].
    pose proof (rnd_error v). pose proof (SC (Rabs v) (Rabs_pos v)). pose proof (Rabs_pos v). lra. }
  assert (F1 : is_finite (f_sub t' t) = true) by (apply sub_ok; auto; fold dt; lra).
  destruct (sub_fin _ _ F1) as (_ & _ & E1). fold dt in E1.
  specialize (Fz F1). specialize (HZ Fz).
  assert (K1 : Rabs A * eta <= 1) by apply A_eta.
  assert (A1 : Rabs (A * rnd dt) <= 2 * P + 1).
  { replace (A * rnd dt) with (A*dt + A*(rnd dt - dt)) by ring. eapply Rle_trans; [apply Rabs_triang|]. rewrite (Rabs_mult A (rnd dt - dt)).
    assert (Rabs A * Rabs (rnd dt - dt) <= Rabs A * (uu * Rabs dt + eta)) by (apply Rmult_le_compat_l; [apply Rabs_pos|apply rnd_error]).
    replace (Rabs A * (uu * Rabs dt + eta)) with (uu * (Rabs A * Rabs dt) + Rabs A * eta) in H by ring. rewrite <- (Rabs_mult A dt) in H.
    pose proof (SC (Rabs (A*dt)) (Rabs_pos _)). lra. }
  assert (F2 : is_finite (f_mul a (f_sub t' t)) = true) by (apply mul_ok; auto; rewrite E1; fold A; lra).
  destruct (mul_fin _ _ F2) as (_ & _ & E2). rewrite E1 in E2. fold A in E2.
  assert (B2 : Rabs (B2R (f_mul a (f_sub t' t))) <= 4*P + 3) by (rewrite E2; pose proof (RB (A * rnd dt)); lra).
  assert (F3 : is_finite (f_add f_zero (f_mul a (f_sub t' t))) = true).
  { apply add_ok; auto. change (B2R f_zero) with 0. rewrite Rplus_0_l. lra. }
  destruct (add_fin _ _ F3) as (_ & _ & E3). change (B2R f_zero) with 0 in E3. rewrite Rplus_0_l, rnd_B2R in E3. rewrite <- E3 in B2.
  assert (A4 : Rabs (B * B2R z) <= 2*MM).
  { replace (B * B2R z) with (B*dW + B*(B2R z - dW)) by ring. eapply Rle_trans; [apply Rabs_triang|]. rewrite (Rabs_mult B (B2R z - dW)).
    assert (Rabs B * Rabs (B2R z - dW) <= Rabs B * delta) by (apply Rmult_le_compat_l; [apply Rabs_pos|auto]). lra. }
  assert (F4 : is_finite (f_mul b z) = true) by (apply mul_ok; auto; fold B; lra).
  destruct (mul_fin _ _ F4) as (_ & _ & E4). fold B in E4.
  assert (B4 : Rabs (B2R (f_mul b z)) <= 4*MM + 1) by (rewrite E4; pose proof (RB (B * B2R z)); lra).
  set (p1 := f_add f_zero (f_mul a (f_sub t' t))) in *. set (p2 := f_mul b z) in *.
  assert (B5 : Rabs (B2R p1 + B2R p2) <= 12*MM) by (eapply Rle_trans; [apply Rabs_triang|lra]).
  assert (F5 : is_finite (f_add p1 p2) = true) by (apply add_ok; auto; lra).
  destruct (add_fin _ _ F5) as (_ & _ & E5).
  assert (B6 : Rabs (B2R (f_add p1 p2)) <= 25*MM) by (rewrite E5; pose proof (RB (B2R p1 + B2R p2)); lra).
  apply add_ok; auto. eapply Rle_trans; [apply Rabs_triang|].
  assert (XS : Rabs xs <= 3*MM).
  { replace xs with ((xs + A*dt + B*dW) + (- (A*dt) + - (B*dW))) by ring. eapply Rle_trans; [apply Rabs_triang|].
    pose proof (Rabs_triang (- (A*dt)) (- (B*dW))). rewrite !Rabs_Ropp in H. lra. }
  assert (XX : Rabs (B2R x) <= 23*MM).
  { replace (B2R x) with (xs + (B2R x - xs)) by ring. eapply Rle_trans; [apply Rabs_triang|]. lra. }
  lra.
Qed.
Lemma bound_range (a : float64) (B P delta : R) n : 0 <= P <= MM -> 0 <= delta -> Rabs B * delta <= bpow radix2 900 -> INR n * uu <= /2 ->
  rounding_bound n (B2R a) B P delta <= 20 * MM.
Proof.
  intros [HP PM] HD DM HN. unfold rounding_bound. pose proof MM_1 as M1. pose proof uu_pos as U0. pose proof eta_pos as H0.
  set (c := 8 * uu * P + 2 * (Rabs B * delta) + 8 * ((1 + Rabs (B2R a)) * eta)).
  set (c' := 8*P + 2*(bpow radix2 953) + 8*(bpow radix2 4)).
  assert (CC : c <= uu * c').
  { unfold c, c'. assert (E1 : bpow radix2 900 = uu * bpow radix2 953) by (unfold uu; rewrite <- bpow_plus; reflexivity).
    assert (E2 : (1 + Rabs (B2R a)) * eta <= uu * bpow radix2 4).
    { apply Rle_trans with (bpow radix2 1025 * eta).
      - apply Rmult_le_compat_r; [lra|]. pose proof (abs_B2R_lt_emax 53 1024 a) as L. change (bpow radix2 1025) with (bpow radix2 (1 + 1024)). rewrite bpow_plus.
        change (bpow radix2 1) with 2. assert (1 <= bpow radix2 1024) by (change 1 with (bpow radix2 0); apply bpow_le; lia). lra.
      - unfold eta, uu. rewrite <- !bpow_plus. apply bpow_le. lia. }
    replace (uu * (8*P + 2*bpow radix2 953 + 8*bpow radix2 4)) with (8*uu*P + 2*(uu*bpow radix2 953) + 8*(uu*bpow radix2 4)) by ring. lra. }
  assert (N0 : 0 <= INR n) by apply pos_INR.
  apply Rle_trans with (2 * INR n * (uu * c')); [apply Rmult_le_compat_l; lra|].
  assert (C0 : 0 <= c') by (unfold c'; pose proof (bpow_ge_0 radix2 953); pose proof (bpow_ge_0 radix2 4); lra).
  replace (2 * INR n * (uu * c')) with (2 * (INR n * uu) * c') by ring. apply Rle_trans with (1 * c').
  - apply Rmult_le_compat_r; auto. lra.
  - unfold c'. assert (bpow radix2 953 <= MM) by (apply bpow_le; lia). assert (8 * bpow radix2 4 <= MM).
    { change 8 with (bpow radix2 3). rewrite <- bpow_plus. apply bpow_le. lia. } lra.
Qed.
