(** Lemmas on the accuracy of simulated Ornstein-Uhlenbeck processes. *)
From Coq Require Import String List Arith Bool ZArith Reals Lra Lia Psatz Sorting.Sorted.
From Flocq Require Import IEEE754.BinarySingleNaN Core.
From Verif Require Import Base BaseOrd BaseNum BaseArr BaseFloat M_float M_paths S_paths S_run L_ord L_paths8
  M_sde S_sde L_sde L_sde2 L_sde3 M_presets S_presets L_presets L_euler S_float S_float2 L_float L_float2.
Import ListNotations.
Local Open Scope R_scope.

(** *** the grid *)
Lemma flt_iff (x y : float64) : is_finite x = true -> is_finite y = true -> (tltb x y = true <-> B2R x < B2R y).
Proof. intros Fx Fy. cbn [tltb TOrd_float64]. rewrite (Bltb_correct _ _ _ _ Fx Fy). destruct (Rlt_bool_spec (B2R x) (B2R y)); split; intros; try lra; auto; discriminate. Qed.
Lemma feq_iff (x y : float64) : is_finite x = true -> is_finite y = true -> (teqb x y = true <-> B2R x = B2R y).
Proof. intros Fx Fy. cbn [teqb TOrd_float64]. rewrite (Beqb_correct _ _ _ _ Fx Fy). destruct (Req_bool_spec (B2R x) (B2R y)); split; intros; auto; try discriminate; contradiction. Qed.
Lemma fnum (x : float64) : is_finite x = true -> isnum x.
Proof. intro F. unfold isnum. apply feq_iff; auto. Qed.
Lemma fle (x y : float64) : is_finite x = true -> is_finite y = true -> (tleb x y = true <-> B2R x <= B2R y).
Proof. intros Fx Fy. unfold tleb. rewrite orb_true_iff, (flt_iff x y Fx Fy), (feq_iff x y Fx Fy). split; [intros [H|H]; lra|intro H; destruct H; auto]. Qed.

Lemma grid_next rv (timeline pc : list float64) t0 g : In t0 timeline -> (forall s, In s (timeline ++ pc) -> is_finite s = true) -> grid_spec rv timeline pc t0 g ->
  Sorted (fun t t' => (cnt (timeline ++ pc) t0 t < cnt (timeline ++ pc) t0 t')%nat /\ InT t (timeline ++ pc) /\ InT t' (timeline ++ pc) /\ next_point timeline pc (B2R t0) (B2R t) (B2R t')) g.
Proof.
  intros I0 FA [SS HG]. apply (sorted_mid (before rv)); auto. intros pre a b post Eg Hab MID.
  assert (F0 : is_finite t0 = true) by (apply FA, in_or_app; auto).
  assert (NA : isnum a /\ isnum b) by (eapply before_num; eauto).
  assert (GI : forall t, isnum t -> In t g -> InT t (timeline ++ pc) /\ is_finite t = true /\ grid_point timeline pc (B2R t) /\ (teqb t0 t = true \/ before rv t0 t)).
  { intros t N Ht. apply (InT_In _ _ N) in Ht. apply HG in Ht. destruct Ht as [H1 H2].
    assert (IT : InT t (timeline ++ pc)) by (apply InT_app; tauto). split; [exact IT|]. split; [eapply InT_finite; eauto|]. split; [|exact H2].
    destruct H1 as [H1|[H1 (u & v & Hu & Hv & L1 & L2)]].
    - destruct (InT_B2R _ _ H1) as (q & Q1 & Q2). exists q. auto.
    - destruct (InT_B2R _ _ H1) as (q & Q1 & Q2). destruct (InT_B2R _ _ Hu) as (u' & U1 & U2). destruct (InT_B2R _ _ Hv) as (v' & V1 & V2). exists q. split; auto. right. split; auto. exists u', v'.
      assert (FT := InT_finite _ _ IT FA). assert (FU : is_finite u = true) by (eapply InT_finite; [exact Hu|intros; apply FA, in_or_app; auto]). assert (FV : is_finite v = true) by (eapply InT_finite; [exact Hv|intros; apply FA, in_or_app; auto]).
      apply (fle _ _ FU FT) in L1. apply (fle _ _ FT FV) in L2. rewrite Q2, U2, V2. auto. }
  assert (Ia : In a g) by (subst g; apply in_or_app; right; left; auto). assert (Ib : In b g) by (subst g; apply in_or_app; right; right; left; auto).
  destruct (GI a (proj1 NA) Ia) as (A1 & FA1 & PA & A2). destruct (GI b (proj2 NA) Ib) as (B1 & FB1 & PB & B2).
  split; [eapply cnt_step; eauto|]. split; [exact A1|]. split; [exact B1|]. split; [exact PA|]. split; [exact PB|].
  assert (DIR : if rv then B2R b < B2R a <= B2R t0 else B2R t0 <= B2R a < B2R b).
  { destruct rv; cbn [before] in *.
    - apply (flt_iff _ _ FB1 FA1) in Hab. destruct A2 as [A2|A2]; [apply (feq_iff _ _ F0 FA1) in A2|apply (flt_iff _ _ FA1 F0) in A2]; lra.
    - apply (flt_iff _ _ FA1 FB1) in Hab. destruct A2 as [A2|A2]; [apply (feq_iff _ _ F0 FA1) in A2|apply (flt_iff _ _ F0 FA1) in A2]; lra. }
  split; [destruct rv; auto|]. intros q (q0 & EQ & HQ) BT. rewrite <- EQ in BT.
  assert (FQ : is_finite q0 = true) by (apply FA, in_or_app; tauto).
  assert (IQ : InT q0 g).
  { apply HG. split.
    - destruct HQ as [HQ|[HQ (u & v & Hu & Hv & LU)]]; [left; apply InT_In; [apply fnum; auto|auto]|]. right. split; [apply InT_In; [apply fnum; auto|auto]|].
      assert (FU : is_finite u = true) by (apply FA, in_or_app; auto). assert (FV : is_finite v = true) by (apply FA, in_or_app; auto). exists u, v.
      split; [apply InT_In; [apply fnum; auto|auto]|]. split; [apply InT_In; [apply fnum; auto|auto]|]. split; apply fle; auto; lra.
    - right. destruct rv; cbn [before].
      + rewrite Rmin_right, Rmax_left in BT by lra. apply flt_iff; auto. lra.
      + rewrite Rmin_left, Rmax_right in BT by lra. apply flt_iff; auto. lra. }
  destruct IQ as (p & Ip & Ep). assert (NP : isnum p) by (unfold isnum; eapply teq_trans; [apply teq_sym; exact Ep|exact Ep]).
  destruct (GI p NP Ip) as (_ & FP & _). apply (feq_iff _ _ FQ FP) in Ep. rewrite Ep in BT.
  destruct (MID p Ip) as [-> |[-> |[M|M]]].
  - destruct rv; [rewrite Rmin_right, Rmax_left in BT by lra|rewrite Rmin_left, Rmax_right in BT by lra]; lra.
  - destruct rv; [rewrite Rmin_right, Rmax_left in BT by lra|rewrite Rmin_left, Rmax_right in BT by lra]; lra.
  - destruct rv; cbn [before] in M; [rewrite Rmin_right, Rmax_left in BT by lra|rewrite Rmin_left, Rmax_right in BT by lra]; apply flt_iff in M; auto; lra.
  - destruct rv; cbn [before] in M; [rewrite Rmin_right, Rmax_left in BT by lra|rewrite Rmin_left, Rmax_right in BT by lra]; apply flt_iff in M; auto; lra.
Qed.

(** *** one step *)
Lemma k_eta (k : float64) : Rabs (B2R k) * eta <= 4 * uu.
Proof.
  pose proof (abs_B2R_lt_emax 53 1024 k). unfold eta, uu. apply Rle_trans with (bpow radix2 1024 * bpow radix2 (-1075)).
  - apply Rmult_le_compat_r; [apply bpow_ge_0|lra].
  - rewrite <- bpow_plus. change 4 with (bpow radix2 2). rewrite <- bpow_plus. apply bpow_le. lia.
Qed.
Lemma coef_error (kk d : R) : let A := rnd (kk * rnd d) in Rabs (A - kk * d) <= 3 * uu * Rabs (kk * d) + 2 * (Rabs kk * eta) + eta.
Proof.
  intro A. pose proof uu_pos. pose proof uu_small. pose proof eta_pos. pose proof (Rabs_pos kk) as KP. pose proof (Rabs_pos d) as DP.
  pose proof (rnd_error d) as E1. pose proof (rnd_error (kk * rnd d)) as E2. fold A in E2. rewrite Rabs_mult in E2.
  assert (E3 : Rabs (rnd d) <= Rabs d + (uu * Rabs d + eta)). { replace (rnd d) with (d + (rnd d - d)) by ring. eapply Rle_trans; [apply Rabs_triang|]. lra. }
  replace (A - kk * d) with ((A - kk * rnd d) + kk * (rnd d - d)) by ring. eapply Rle_trans; [apply Rabs_triang|]. rewrite (Rabs_mult kk (rnd d - d)), (Rabs_mult kk d).
  assert (Rabs kk * Rabs (rnd d - d) <= Rabs kk * (uu * Rabs d + eta)) by (apply Rmult_le_compat_l; auto).
  assert (Rabs kk * Rabs (rnd d) <= Rabs kk * (Rabs d + (uu * Rabs d + eta))) by (apply Rmult_le_compat_l; auto).
  assert (uu * (Rabs kk * Rabs (rnd d)) <= uu * (Rabs kk * (Rabs d + (uu * Rabs d + eta)))) by (apply Rmult_le_compat_l; lra).
  assert (0 <= Rabs kk * Rabs d) by (apply Rmult_le_pos; lra). assert (0 <= Rabs kk * eta) by (apply Rmult_le_pos; lra).
  assert (uu * (uu * (Rabs kk * Rabs d)) <= uu * (Rabs kk * Rabs d)). { apply Rmult_le_compat_l; [lra|]. nra. }
  assert (uu * (Rabs kk * eta) <= Rabs kk * eta) by nra. nra.
Qed.

Lemma ou_step_error (x k theta b z t t' : float64) (ys dW P delta tau e : R) :
  let a := f_mul k (f_sub theta x) in
  let x' := f_add x (f_add (f_add f_zero (f_mul a (f_sub t' t))) (f_mul b z)) in
  let K := B2R k in let TH := B2R theta in let B := B2R b in let dt := B2R t' - B2R t in
  let ys' := ys + K * (TH - ys) * dt + B * dW in
  is_finite x' = true -> 0 <= P -> 0 <= delta -> Rabs (B2R x - ys) <= e ->
  0 <= K * dt <= 2 -> Rabs dt <= tau -> Rabs (K * (TH - ys) * dt) <= P -> Rabs (B * dW) <= P -> Rabs ys <= P -> Rabs ys' <= P -> Rabs (B2R z - dW) <= delta ->
  Rabs (B2R x' - ys') <= (1 + 128 * uu) * e + (20 * uu * P + 2 * (Rabs B * delta) + (20 + 2 * tau + 16 * (Rabs K * (Rabs TH + P))) * eta).
Proof.
  intros a x' K TH B dt ys' F HP HD HE HK HT HA HB HY HY' HZ. pose proof uu_pos as U0. pose proof uu_small as U1. pose proof eta_pos as H0. pose proof eta_small as H1.
  assert (FF : B2R a = rnd (K * rnd (TH - B2R x))).
  { unfold x' in F. destruct (add_fin _ _ F) as (_ & F2 & _). destruct (add_fin _ _ F2) as (F3 & _ & _). destruct (add_fin _ _ F3) as (_ & F5 & _). destruct (mul_fin _ _ F5) as (Fa & _ & _).
    unfold a in Fa |- *. destruct (mul_fin _ _ Fa) as (_ & Fs & ->). destruct (sub_fin _ _ Fs) as (_ & _ & ->). reflexivity. }
  set (X := B2R x) in *. set (A := B2R a) in *. set (d := X - ys) in *.
  assert (E0 : 0 <= e) by (eapply Rle_trans; [apply Rabs_pos|exact HE]).
  assert (T0 : 0 <= tau) by (eapply Rle_trans; [apply Rabs_pos|exact HT]).
  pose proof (coef_error K (TH - X)) as CE. cbv zeta in CE. rewrite <- FF in CE.
  assert (KD : Rabs (K * dt) <= 2) by (rewrite Rabs_pos_eq; lra).
  assert (KX : Rabs (K * (TH - X) * dt) <= P + 2 * e).
  { replace (K * (TH - X) * dt) with (K * (TH - ys) * dt + - (K * dt * d)) by (unfold d; ring). eapply Rle_trans; [apply Rabs_triang|]. rewrite Rabs_Ropp, (Rabs_mult (K * dt) d).
    assert (Rabs (K * dt) * Rabs d <= 2 * e) by (apply Rmult_le_compat; auto using Rabs_pos). lra. }
  set (D := (A - K * (TH - X)) * dt).
  assert (DB : Rabs D <= 3 * uu * (P + 2 * e) + (4 + tau) * eta).
  { unfold D. rewrite Rabs_mult. apply Rle_trans with ((3 * uu * Rabs (K * (TH - X)) + 2 * (Rabs K * eta) + eta) * Rabs dt); [apply Rmult_le_compat_r; [apply Rabs_pos|exact CE]|].
    replace ((3 * uu * Rabs (K * (TH - X)) + 2 * (Rabs K * eta) + eta) * Rabs dt) with (3 * uu * (Rabs (K * (TH - X)) * Rabs dt) + 2 * (Rabs K * Rabs dt) * eta + Rabs dt * eta) by ring.
    rewrite <- !Rabs_mult. assert (3 * uu * Rabs (K * (TH - X) * dt) <= 3 * uu * (P + 2 * e)) by (apply Rmult_le_compat_l; lra).
    assert (2 * Rabs (K * dt) * eta <= 4 * eta) by (apply Rmult_le_compat_r; lra). assert (Rabs dt * eta <= tau * eta) by (apply Rmult_le_compat_r; lra). lra. }
  assert (SC : forall v, 0 <= v -> uu * v <= v / 1024) by (intros v V; assert (uu*v <= /1024*v) by (apply Rmult_le_compat_r; auto); lra).
  set (te := (4 + tau) * eta) in *. assert (TE : 0 <= te) by (apply Rmult_le_pos; lra).
  set (P1 := 2 * P + 3 * e + te).
  pose proof (SC (P + 2 * e) ltac:(lra)) as S1.
  assert (A1 : Rabs (A * dt) <= P1).
  { replace (A * dt) with (K * (TH - X) * dt + D) by (unfold D; ring). eapply Rle_trans; [apply Rabs_triang|]. unfold P1. lra. }
  assert (EX : X + A * dt + B * dW = ys' + ((1 - K * dt) * d + D)) by (unfold ys', D, d; ring).
  assert (DD : Rabs ((1 - K * dt) * d) <= e). { rewrite Rabs_mult. apply Rle_trans with (1 * e); [|lra]. apply Rmult_le_compat; auto using Rabs_pos. apply Rabs_le. lra. }
  assert (A3 : Rabs (X + A * dt + B * dW) <= P1).
  { rewrite EX. eapply Rle_trans; [apply Rabs_triang|]. eapply Rle_trans; [apply Rplus_le_compat_l, Rabs_triang|]. unfold P1. lra. }
  assert (P10 : 0 <= P1) by (unfold P1; lra). assert (A2 : Rabs (B * dW) <= P1) by (unfold P1; lra).
  pose proof (step_error x a b z t t' X dW P1 delta 0 F P10 HD ltac:(replace (B2R x - X) with 0 by (unfold X; ring); rewrite Rabs_R0; lra) A1 A2 HZ A3) as SE.
  fold A B dt in SE. fold x' in SE. rewrite Rmult_0_r, Rplus_0_l in SE.
  assert (AA : Rabs A * eta <= 2 * (Rabs K * (Rabs TH + P)) * eta + 8 * uu * e + eta / 64).
  { assert (Rabs (K * (TH - X)) <= Rabs K * (Rabs TH + P + e)).
    { rewrite Rabs_mult. apply Rmult_le_compat_l; [apply Rabs_pos|]. replace (TH - X) with (TH + (- ys + - d)) by (unfold d; ring).
      eapply Rle_trans; [apply Rabs_triang|]. eapply Rle_trans; [apply Rplus_le_compat_l, Rabs_triang|]. rewrite !Rabs_Ropp. lra. }
    pose proof (Rabs_pos (K * (TH - X))) as S4. pose proof (SC _ S4) as S2.
    assert (Rabs A <= 2 * (Rabs K * (Rabs TH + P + e)) + 2 * (Rabs K * eta) + eta).
    { replace A with (K * (TH - X) + (A - K * (TH - X))) by ring. eapply Rle_trans; [apply Rabs_triang|]. lra. }
    pose proof (k_eta k) as KE. fold K in KE.
    apply Rle_trans with ((2 * (Rabs K * (Rabs TH + P + e)) + 2 * (Rabs K * eta) + eta) * eta); [apply Rmult_le_compat_r; lra|].
    replace ((2 * (Rabs K * (Rabs TH + P + e)) + 2 * (Rabs K * eta) + eta) * eta) with (2 * (Rabs K * (Rabs TH + P)) * eta + 2 * (Rabs K * eta) * e + (2 * (Rabs K * eta) + eta) * eta) by ring.
    assert (2 * (Rabs K * eta) * e <= 2 * (4 * uu) * e) by (apply Rmult_le_compat_r; lra). assert ((2 * (Rabs K * eta) + eta) * eta <= /64 * eta) by (apply Rmult_le_compat_r; lra). lra. }
  replace (B2R x' - ys') with ((B2R x' - (X + A * dt + B * dW)) + ((1 - K * dt) * d + D)) by (rewrite EX; ring).
  eapply Rle_trans; [apply Rabs_triang|]. assert (Q := Rabs_triang ((1 - K * dt) * d) D).
  apply Rle_trans with (8 * uu * P1 + 2 * (Rabs B * delta) + 8 * ((1 + Rabs A) * eta) + (e + (3 * uu * (P + 2 * e) + te))); [lra|].
  pose proof (SC te TE) as S3. replace (8 * ((1 + Rabs A) * eta)) with (8 * eta + 8 * (Rabs A * eta)) by ring. unfold P1. replace (8 * uu * (2 * P + 3 * e + te)) with (16 * (uu * P) + 24 * (uu * e) + 8 * (uu * te)) by ring.
  replace (3 * uu * (P + 2 * e)) with (3 * (uu * P) + 6 * (uu * e)) by ring.
  assert (0 <= uu * P) by (apply Rmult_le_pos; lra). assert (0 <= uu * e) by (apply Rmult_le_pos; lra). assert (0 <= tau * eta) by (apply Rmult_le_pos; lra).
  set (M := Rabs K * (Rabs TH + P)) in *. assert (ET : te = 4 * eta + tau * eta) by (unfold te; ring).
  replace ((20 + 2 * tau + 16 * M) * eta) with (20 * eta + 2 * (tau * eta) + 16 * (M * eta)) by ring. replace (2 * M * eta) with (2 * (M * eta)) in AA by ring. replace ((1 + 128 * uu) * e) with (e + 128 * (uu * e)) by ring.
  replace (8 * uu * e) with (8 * (uu * e)) in AA by ring. replace (20 * uu * P) with (20 * (uu * P)) by ring.
  set (ue := uu * e) in *. set (up := uu * P) in *. set (me := M * eta) in *. set (ta := tau * eta) in *. set (ae := Rabs A * eta) in *. set (bd := Rabs B * delta) in *. set (ut := uu * te) in *.
  clearbody ue up me ta ae bd ut te. clear - AA S3 ET H H2 H3 H0. lra.
Qed.

(** *** many steps *)
Definition errs (c : R) (n : nat) : R := INR n * c * (1 + 128 * uu)^n.
Lemma errs_pos c n : 0 <= c -> 0 <= errs c n.
Proof. intro C. pose proof uu_pos. unfold errs. apply Rmult_le_pos; [apply Rmult_le_pos; [apply pos_INR|auto]|apply pow_le; lra]. Qed.
Lemma errs_next c n m : 0 <= c -> (n < m)%nat -> (1 + 128 * uu) * errs c n + c <= errs c m.
Proof.
  intros C H. unfold errs. pose proof uu_pos as U. set (v := 128 * uu). assert (V : 0 < v) by (unfold v; lra).
  assert (P1 : 1 <= (1 + v)^m) by (apply pow_R1_Rle; lra).
  assert (P2 : (1+v)*(1+v)^n <= (1+v)^m). { change ((1+v)*(1+v)^n) with ((1+v)^(S n)). apply Rle_pow; [lra|lia]. }
  assert (N : INR n + 1 <= INR m) by (rewrite <- S_INR; apply le_INR; lia).
  assert (N1 : 0 <= INR n * c) by (apply Rmult_le_pos; auto; apply pos_INR).
  apply Rle_trans with ((INR n * c) * (1+v)^m + c * (1+v)^m).
  - apply Rplus_le_compat.
    + replace ((1+v)*(INR n * c * (1+v)^n)) with (INR n * c * ((1+v)*(1+v)^n)) by ring. apply Rmult_le_compat_l; auto.
    + rewrite <- (Rmult_1_r c) at 1. apply Rmult_le_compat_l; auto.
  - rewrite <- Rmult_plus_distr_r. apply Rmult_le_compat_r; [lra|]. replace (INR n * c + c) with ((INR n + 1) * c) by ring. apply Rmult_le_compat_r; auto.
Qed.
Lemma errs_mono c n m : 0 <= c -> (n <= m)%nat -> errs c n <= errs c m.
Proof.
  intros C H. destruct (Nat.eq_dec n m) as [-> |E]; [lra|]. eapply Rle_trans; [|apply (errs_next c n m C); lia]. pose proof uu_pos. pose proof (errs_pos c n C).
  assert (0 <= uu * errs c n) by (apply Rmult_le_pos; lra). lra.
Qed.
Lemma errs_bound c n : 0 <= c -> 128 * (INR n * uu) <= /2 -> errs c n <= 2 * INR n * c.
Proof.
  intros C H. unfold errs. pose proof uu_pos as U. set (v := 128 * uu). assert (V : 0 < v) by (unfold v; lra).
  assert (E : (1 + v)^n <= 2).
  { apply Rle_trans with (exp (INR n * v)).
    - clear - V. induction n as [|n IH]; [simpl; rewrite Rmult_0_l, exp_0; lra|].
      rewrite S_INR. replace ((INR n + 1)*v) with (v + INR n * v) by ring. rewrite exp_plus. simpl.
      apply Rmult_le_compat; auto; [lra|apply pow_le; lra|]. pose proof (exp_ineq1_le v). lra.
    - apply Rle_trans with (exp (/2)).
      + assert (H' : INR n * v <= /2) by (unfold v; lra). destruct H' as [H'|H']; [left; apply exp_increasing; auto|rewrite H'; lra].
      + assert (G : exp (/2) * exp (/2) <= 3) by (rewrite <- exp_plus; replace (/2 + /2) with 1 by field; apply exp_le_3).
        pose proof (exp_pos (/2)). nra. }
  replace (2 * INR n * c) with (INR n * c * 2) by ring. apply Rmult_le_compat_l; auto. apply Rmult_le_pos; [apply pos_INR|auto].
Qed.

(** *** no overflow *)
Definition QQ : R := bpow radix2 900.
Lemma QQ_1 : 1 <= QQ. Proof. change 1 with (bpow radix2 0). apply bpow_le. lia. Qed.
Lemma QQ_MM : 64 * QQ <= MM.
Proof. change 64 with (bpow radix2 6). unfold QQ, MM. rewrite <- bpow_plus. apply bpow_le. lia. Qed.
Lemma QQ_big : 64 * (bpow radix2 100 * QQ) <= big.
Proof. change 64 with (bpow radix2 6). unfold QQ, big. rewrite <- !bpow_plus. apply bpow_le. lia. Qed.
Lemma ou_step_finite (x k theta b z t t' : float64) (ys dW P delta tau e : R) :
  let a := f_mul k (f_sub theta x) in
  let x' := f_add x (f_add (f_add f_zero (f_mul a (f_sub t' t))) (f_mul b z)) in
  let K := B2R k in let TH := B2R theta in let B := B2R b in let dt := B2R t' - B2R t in
  let ys' := ys + K * (TH - ys) * dt + B * dW in
  is_finite x = true -> is_finite k = true -> is_finite theta = true -> is_finite b = true -> (is_finite (f_sub t' t) = true -> is_finite z = true) ->
  is_finite t = true -> is_finite t' = true ->
  0 <= P <= QQ -> 0 <= delta -> Rabs B * delta <= QQ -> Rabs TH <= QQ -> Rabs K <= bpow radix2 100 -> tau <= QQ -> Rabs (B2R x - ys) <= e -> e <= 3 * QQ ->
  0 <= K * dt <= 2 -> Rabs dt <= tau -> Rabs (K * (TH - ys) * dt) <= P -> Rabs (B * dW) <= P -> Rabs ys <= P -> Rabs ys' <= P ->
  (is_finite z = true -> Rabs (B2R z - dW) <= delta) ->
  is_finite x' = true.
Proof.
  intros a x' K TH B dt ys' Fx Fk Ft Fb Fz F1 F2 [HP PQ] HD HBD HTH HKK HTQ HE EQ HK HT HA HB HY HY' HZ.
  pose proof uu_pos as U0. pose proof uu_small as U1. pose proof eta_pos as H0. pose proof eta_small as H1. pose proof QQ_1 as Q1. pose proof QQ_MM as QM. pose proof QQ_big as QB. pose proof MM_big as MB. pose proof MM_1 as M1.
  set (X := B2R x) in *. set (d := X - ys) in *.
  assert (E0 : 0 <= e) by (eapply Rle_trans; [apply Rabs_pos|exact HE]).
  assert (T0 : 0 <= tau) by (eapply Rle_trans; [apply Rabs_pos|exact HT]).
  assert (SC : forall v, 0 <= v -> uu * v <= v / 1024) by (intros v V; assert (uu*v <= /1024*v) by (apply Rmult_le_compat_r; auto); lra).
  assert (DX : Rabs (TH - X) <= 5 * QQ).
  { replace (TH - X) with (TH + (- ys + - d)) by (unfold d; ring). eapply Rle_trans; [apply Rabs_triang|]. eapply Rle_trans; [apply Rplus_le_compat_l, Rabs_triang|]. rewrite !Rabs_Ropp. lra. }
  assert (F3 : is_finite (f_sub theta x) = true) by (apply sub_ok; auto; fold TH X; lra).
  destruct (sub_fin _ _ F3) as (_ & _ & E3). fold TH X in E3.
  assert (RX : Rabs (rnd (TH - X)) <= 11 * QQ).
  { replace (rnd (TH - X)) with ((TH - X) + (rnd (TH - X) - (TH - X))) by ring. eapply Rle_trans; [apply Rabs_triang|]. pose proof (rnd_error (TH - X)). pose proof (SC _ (Rabs_pos (TH - X))). lra. }
  assert (Fa : is_finite a = true).
  { apply mul_ok; auto. rewrite E3. fold K. rewrite Rabs_mult. apply Rle_trans with (bpow radix2 100 * (11 * QQ)); [apply Rmult_le_compat; auto using Rabs_pos|].
    assert (0 <= bpow radix2 100 * QQ) by (apply Rmult_le_pos; [apply bpow_ge_0|lra]). lra. }
  assert (FF : B2R a = rnd (K * rnd (TH - X))) by (unfold a in Fa |- *; destruct (mul_fin _ _ Fa) as (_ & _ & ->); rewrite E3; reflexivity).
  set (A := B2R a) in *. pose proof (coef_error K (TH - X)) as CE. cbv zeta in CE. rewrite <- FF in CE.
  assert (KD : Rabs (K * dt) <= 2) by (rewrite Rabs_pos_eq; lra).
  assert (KX : Rabs (K * (TH - X) * dt) <= P + 2 * e).
  { replace (K * (TH - X) * dt) with (K * (TH - ys) * dt + - (K * dt * d)) by (unfold d; ring). eapply Rle_trans; [apply Rabs_triang|]. rewrite Rabs_Ropp, (Rabs_mult (K * dt) d).
    assert (Rabs (K * dt) * Rabs d <= 2 * e) by (apply Rmult_le_compat; auto using Rabs_pos). lra. }
  set (D := (A - K * (TH - X)) * dt).
  assert (DB : Rabs D <= 3 * uu * (P + 2 * e) + (4 + tau) * eta).
  { unfold D. rewrite Rabs_mult. apply Rle_trans with ((3 * uu * Rabs (K * (TH - X)) + 2 * (Rabs K * eta) + eta) * Rabs dt); [apply Rmult_le_compat_r; [apply Rabs_pos|exact CE]|].
    replace ((3 * uu * Rabs (K * (TH - X)) + 2 * (Rabs K * eta) + eta) * Rabs dt) with (3 * uu * (Rabs (K * (TH - X)) * Rabs dt) + 2 * (Rabs K * Rabs dt) * eta + Rabs dt * eta) by ring.
    rewrite <- !Rabs_mult. assert (3 * uu * Rabs (K * (TH - X) * dt) <= 3 * uu * (P + 2 * e)) by (apply Rmult_le_compat_l; lra).
    assert (2 * Rabs (K * dt) * eta <= 4 * eta) by (apply Rmult_le_compat_r; lra). assert (Rabs dt * eta <= tau * eta) by (apply Rmult_le_compat_r; lra). lra. }
  pose proof (SC (P + 2 * e) ltac:(lra)) as S1.
  assert (TE : 0 <= (4 + tau) * eta <= 5 * QQ).
  { split; [apply Rmult_le_pos; lra|]. apply Rle_trans with ((4 + tau) * 1); [apply Rmult_le_compat_l; lra|lra]. }
  assert (A1 : Rabs (A * dt) <= 20 * QQ).
  { replace (A * dt) with (K * (TH - X) * dt + D) by (unfold D; ring). eapply Rle_trans; [apply Rabs_triang|]. lra. }
  assert (A3 : Rabs (X + A * dt + B * dW) <= 20 * QQ).
  { replace (X + A * dt + B * dW) with (ys' + ((1 - K * dt) * d + D)) by (unfold ys', D, d; ring).
    assert (DD : Rabs ((1 - K * dt) * d) <= e). { rewrite Rabs_mult. apply Rle_trans with (1 * e); [|lra]. apply Rmult_le_compat; auto using Rabs_pos. apply Rabs_le. lra. }
    eapply Rle_trans; [apply Rabs_triang|]. eapply Rle_trans; [apply Rplus_le_compat_l, Rabs_triang|]. lra. }
  apply (step_finite x a b z t t' X dW (20 * QQ) delta 0); auto; fold A B dt; try lra.
  replace (B2R x - X) with 0 by (unfold X; ring). rewrite Rabs_R0. lra.
Qed.
Lemma stable_le n theta k sigma P tau delta : 0 <= P <= QQ -> 0 <= tau <= QQ -> 0 <= delta -> Rabs sigma * delta <= bpow radix2 800 -> Rabs k <= bpow radix2 100 -> Rabs theta <= QQ ->
  128 * (INR n * uu) <= /2 -> stable_bound n theta k sigma P tau delta <= 3 * QQ.
Proof.
  intros [HP PQ] [HT TQ] HD DB KB TB HN. unfold stable_bound. pose proof uu_pos as U0. pose proof eta_pos as H0. pose proof QQ_1 as Q1.
  set (c := 20 * uu * P + 2 * (Rabs sigma * delta) + (20 + 2 * tau + 16 * (Rabs k * (Rabs theta + P))) * eta).
  assert (E1 : bpow radix2 800 <= uu * QQ) by (unfold uu, QQ; rewrite <- bpow_plus; apply bpow_le; lia).
  assert (E2 : Rabs k * (Rabs theta + P) <= bpow radix2 101 * QQ).
  { apply Rle_trans with (bpow radix2 100 * (2 * QQ)); [apply Rmult_le_compat; try apply Rabs_pos; auto; try (pose proof (Rabs_pos theta); lra)|].
    change (bpow radix2 101) with (bpow radix2 (1 + 100)). rewrite bpow_plus. change (bpow radix2 1) with 2. lra. }
  assert (E3 : 1 <= bpow radix2 101) by (change 1 with (bpow radix2 0); apply bpow_le; lia).
  assert (E4 : QQ <= bpow radix2 101 * QQ) by (rewrite <- (Rmult_1_l QQ) at 1; apply Rmult_le_compat_r; lra).
  assert (E5 : (64 * (bpow radix2 101 * QQ)) * eta <= uu * QQ).
  { change 64 with (bpow radix2 6). unfold QQ, uu, eta. rewrite <- !bpow_plus. apply bpow_le. lia. }
  assert (E6 : (20 + 2 * tau + 16 * (Rabs k * (Rabs theta + P))) * eta <= uu * QQ) by (eapply Rle_trans; [apply Rmult_le_compat_r; [lra|]|exact E5]; lra).
  assert (E7 : uu * P <= uu * QQ) by (apply Rmult_le_compat_l; lra).
  assert (E8 : 0 <= uu * QQ) by (apply Rmult_le_pos; lra). assert (CC : c <= 24 * (uu * QQ)).
  { unfold c. replace (20 * uu * P) with (20 * (uu * P)) by ring. lra. }
  apply Rle_trans with (2 * INR n * (24 * (uu * QQ))); [apply Rmult_le_compat_l; auto; pose proof (pos_INR n); lra|].
  replace (2 * INR n * (24 * (uu * QQ))) with (48 * ((INR n * uu) * QQ)) by ring. assert (INR n * uu * QQ <= /256 * QQ) by (apply Rmult_le_compat_r; lra). lra.
Qed.
