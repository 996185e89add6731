(** Lemmas on the accuracy of cumulated means. *)
From Coq Require Import String List Arith Bool ZArith Reals Lra Lia Psatz.
From Flocq Require Import IEEE754.BinarySingleNaN Core.
From Verif Require Import Base BaseNum BaseArr BaseNd BaseFloat M_float M_mc S_mc S_float S_float3 L_nd L_mc L_float.
Import ListNotations.
Local Open Scope R_scope.

(** *** operations *)
Lemma int_ok n : INR n <= bpow radix2 52 -> is_finite (f_int (Z.of_nat n)) = true /\ B2R (f_int (Z.of_nat n)) = INR n.
Proof.
  intro H. rewrite INR_IZR_INZ in *. set (z := Z.of_nat n) in *. assert (Z0 : (0 <= z)%Z) by (unfold z; lia). clearbody z.
  pose proof (binary_normalize_correct 53 1024 eq_refl eq_refl mode_NE z 0 false) as C. cbv zeta in C.
  assert (E : F2R (Float radix2 z 0) = IZR z) by (unfold F2R; simpl; lra). rewrite E in C.
  assert (H' : (z <= 2^52)%Z) by (apply le_IZR; exact H).
  assert (G : round radix2 (SpecFloat.fexp 53 1024) (round_mode mode_NE) (IZR z) = IZR z).
  { apply round_generic; auto with typeclass_instances. apply generic_format_FLT. exists (Float radix2 z 0); [symmetry; exact E|cbn [Fnum]; rewrite Z.abs_eq by lia; change (Zpower radix2 53) with (2 * 2^52)%Z; lia|vm_compute; discriminate]. }
  rewrite G in C. rewrite Rlt_bool_true in C; [split; apply C|].
  rewrite Rabs_pos_eq by (apply IZR_le; auto). eapply Rle_lt_trans; [exact H|]. apply bpow_lt. lia.
Qed.
Lemma div_ok x y : is_finite x = true -> B2R y <> 0 -> Rabs (B2R x / B2R y) <= big -> is_finite (f_div x y) = true /\ B2R (f_div x y) = rnd (B2R x / B2R y).
Proof.
  intros Fx Ny H. unfold f_div. pose proof (Bdiv_correct 53 1024 _ _ mode_NE x y Ny) as C.
  rewrite Rlt_bool_true in C by (apply big_rnd in H; exact H). destruct C as (C1 & C2 & _). split; [etransitivity; [exact C2|exact Fx]|exact C1].
Qed.
Lemma rnd_le z c : Rabs z <= c -> Rabs (rnd z - z) <= uu * c + eta.
Proof. intro H. pose proof (rnd_error z). pose proof uu_pos. assert (uu * Rabs z <= uu * c) by (apply Rmult_le_compat_l; lra). lra. Qed.
Lemma abs_near x y e : Rabs (x - y) <= e -> Rabs x <= Rabs y + e.
Proof. intro H. replace x with (y + (x - y)) by ring. eapply Rle_trans; [apply Rabs_triang|]. lra. Qed.
Lemma eta_uu P : bpow radix2 (-1022) <= P -> eta <= uu * P.
Proof. intro H. apply Rle_trans with (uu * bpow radix2 (-1022)); [unfold uu, eta; rewrite <- bpow_plus; apply bpow_le; lia|]. apply Rmult_le_compat_l; [left; apply uu_pos|exact H]. Qed.
Lemma scaled N P c : 0 <= c <= 16 -> 0 <= P <= bpow radix2 900 -> N <= bpow radix2 53 -> 0 <= N -> c * N * P <= big.
Proof.
  intros [C0 C] [HP PB] HN N0. apply Rle_trans with (bpow radix2 4 * bpow radix2 53 * bpow radix2 900).
  - assert (H16 : bpow radix2 4 = 16) by reflexivity.
    apply Rmult_le_compat; [apply Rmult_le_pos; assumption|assumption| |assumption]. apply Rmult_le_compat; lra.
  - unfold big. rewrite <- !bpow_plus. apply bpow_le. lia.
Qed.

Section Bounds.
Variable P : R.
Hypothesis PB : bpow radix2 (-1022) <= P <= bpow radix2 900.
Let U := uu * P.
Lemma P_pos : 0 < P. Proof using PB. clear U. destruct PB as [H _]. eapply Rlt_le_trans; [apply bpow_gt_0|exact H]. Qed.
Lemma U_facts : 0 < U /\ eta <= U /\ 1024 * U <= P.
Proof using PB.
  pose proof P_pos. pose proof uu_pos. split; [apply Rmult_lt_0_compat; lra|]. split; [apply eta_uu; tauto|]. unfold U. pose proof uu_small.
  assert (uu * P <= /1024 * P) by (apply Rmult_le_compat_r; lra). lra.
Qed.

(** *** sums *)
Lemma sum_error (M : nat) : INR M <= bpow radix2 52 -> (2 * INR M + 1) * uu <= 1 -> forall l s S j, (j + length l <= M)%nat ->
  (forall z, In z l -> is_finite z = true /\ Rabs (B2R z) <= P) -> is_finite s = true ->
  Rabs (B2R s - S) <= INR j * ((2 * INR M + 1) * U) -> Rabs S <= INR j * P ->
  is_finite (fold_left f_add l s) = true /\
  Rabs (B2R (fold_left f_add l s) - (S + total (map B2R l))) <= INR (j + length l) * ((2 * INR M + 1) * U) /\
  Rabs (S + total (map B2R l)) <= INR (j + length l) * P.
Proof using PB.
  intros HM HU. pose proof P_pos as P0. destruct U_facts as (U0 & EU & _). pose proof (pos_INR M) as M0.
  induction l as [|z l IH]; intros s S j HL HG Fs HE HS; cbn [fold_left map total fold_right length].
  - rewrite Nat.add_0_r. unfold total. cbn [fold_right]. rewrite Rplus_0_r. auto.
  - cbn [length] in HL. destruct (HG z (or_introl eq_refl)) as [Fz Hz].
    assert (J1 : INR j + 1 <= INR M) by (rewrite <- S_INR; apply le_INR; lia). pose proof (pos_INR j) as J0.
    assert (CP : (2 * INR M + 1) * U <= P). { unfold U. rewrite <- Rmult_assoc. rewrite <- (Rmult_1_l P) at 2. apply Rmult_le_compat_r; lra. }
    assert (JE : INR j * ((2 * INR M + 1) * U) <= INR j * P) by (apply Rmult_le_compat_l; auto).
    assert (JP : (INR j + 1) * P <= INR M * P) by (apply Rmult_le_compat_r; lra).
    assert (SX : Rabs (B2R s + B2R z) <= 2 * INR M * P).
    { eapply Rle_trans; [apply Rabs_triang|]. pose proof (abs_near _ _ _ HE). lra. }
    assert (B53 : INR M <= bpow radix2 53) by (eapply Rle_trans; [exact HM|apply bpow_le; lia]).
    assert (F : is_finite (f_add s z) = true). { apply add_ok; auto. eapply Rle_trans; [exact SX|]. apply scaled; try lra; tauto. }
    destruct (add_fin _ _ F) as (_ & _ & EA).
    assert (RE := rnd_le _ _ SX). rewrite <- EA in RE. replace (uu * (2 * INR M * P)) with (2 * INR M * U) in RE by (unfold U; ring).
    destruct (IH (f_add s z) (S + B2R z) (Datatypes.S j)) as (I1 & I2 & I3); auto.
    + lia.
    + intros y Hy. apply HG. right. exact Hy.
    + rewrite S_INR. replace (B2R (f_add s z) - (S + B2R z)) with ((B2R (f_add s z) - (B2R s + B2R z)) + (B2R s - S)) by ring. eapply Rle_trans; [apply Rabs_triang|]. lra.
    + rewrite S_INR. eapply Rle_trans; [apply Rabs_triang|]. lra.
    + replace (j + Datatypes.S (length l))%nat with (Datatypes.S j + length l)%nat by lia. replace (S + (B2R z + fold_right Rplus 0 (map B2R l))) with (S + B2R z + total (map B2R l)) by (unfold total; ring). auto.
Qed.

(** the mean of a sample *)
Lemma mean_error fexp flog l : let M := INR (length l) in let mean := nmean (NV := Num_float64 fexp flog) l in
  (0 < length l)%nat -> M <= bpow radix2 52 -> (2 * M + 4) * uu <= 1 -> (forall z, In z l -> is_finite z = true /\ Rabs (B2R z) <= P) ->
  is_finite mean = true /\ Rabs (B2R mean - average (map B2R l)) <= (2 * M + 4) * U /\ Rabs (average (map B2R l)) <= P.
Proof using PB.
  intros M mean HL HM HU HG. pose proof P_pos as P0. destruct U_facts as (U0 & EU & UP). pose proof uu_pos as u0.
  assert (M1 : 1 <= M) by (change 1 with (INR 1); apply le_INR; lia).
  destruct (sum_error (length l) HM ltac:(fold M; lra) l f_zero 0 0%nat (le_n _) HG eq_refl) as (F & E & T).
  { change (B2R f_zero) with 0. rewrite Rminus_0_r, Rabs_R0. simpl. lra. } { rewrite Rabs_R0. simpl. lra. }
  rewrite Rplus_0_l in E, T. cbn [Nat.add] in E, T. fold M in E, T.
  unfold average. rewrite map_length. fold M. assert (EM : mean = f_div (fold_left f_add l f_zero) (f_int (Z.of_nat (length l)))) by reflexivity. rewrite EM. clear EM mean.
  destruct (int_ok (length l) HM) as [FI EI]. fold M in EI. set (s := fold_left f_add l f_zero) in *. set (T0 := total (map B2R l)) in *.
  assert (DM : forall y c, Rabs y <= M * c -> Rabs (y / M) <= c).
  { intros y c H. unfold Rdiv. rewrite Rabs_mult, (Rabs_pos_eq (/M)) by (left; apply Rinv_0_lt_compat; lra). apply Rmult_le_reg_l with M; [lra|]. replace (M * (Rabs y * / M)) with (Rabs y) by (field; lra). exact H. }
  assert (A : Rabs (T0 / M) <= P) by (apply DM; exact T).
  assert (B : Rabs (B2R s / M - T0 / M) <= (2 * M + 1) * U) by (replace (B2R s / M - T0 / M) with ((B2R s - T0) / M) by (field; lra); apply DM; exact E).
  assert (CP : (2 * M + 1) * U <= P). { unfold U. rewrite <- Rmult_assoc. rewrite <- (Rmult_1_l P) at 2. apply Rmult_le_compat_r; lra. }
  assert (Q : Rabs (B2R s / M) <= 2 * P) by (pose proof (abs_near _ _ _ B); lra).
  destruct (div_ok s (f_int (Z.of_nat (length l))) F) as [D1 D2]; [rewrite EI; lra|rewrite EI; eapply Rle_trans; [exact Q|]|].
  { replace (2 * P) with (2 * 1 * P) by ring. apply scaled; try lra; change 1 with (bpow radix2 0); apply bpow_le; lia. }
  rewrite EI in D2. split; [exact D1|]. split; [|exact A]. rewrite D2. assert (RE := rnd_le _ _ Q). replace (uu * (2 * P)) with (2 * U) in RE by (unfold U; ring).
  change (INR (length l)) with M. replace (rnd (B2R s / M) - T0 / M) with ((rnd (B2R s / M) - B2R s / M) + (B2R s / M - T0 / M)) by ring. eapply Rle_trans; [apply Rabs_triang|]. lra.
Qed.

(** two means *)
Lemma cum_error (N M : nat) (m b : float64) (A B E : R) : (0 < M)%nat -> INR (N + M) <= bpow radix2 52 -> is_finite m = true -> is_finite b = true ->
  Rabs (B2R m - A) <= E -> Rabs (B2R b - B) <= E -> Rabs A <= P -> Rabs B <= P -> E <= P ->
  let r := f_div (f_add (f_mul (f_int (Z.of_nat N)) m) (f_mul (f_int (Z.of_nat M)) b)) (f_int (Z.of_nat (N + M))) in
  is_finite r = true /\ Rabs (B2R r - (INR N * A + INR M * B) / INR (N + M)) <= E + 12 * U.
Proof using PB.
  intros HM HN Fm Fb HA HB PA PBB EP r. pose proof P_pos as P0. destruct U_facts as (U0 & EU & UP). pose proof (pos_INR N) as N0.
  assert (M1 : 1 <= INR M) by (change 1 with (INR 1); apply le_INR; lia).
  assert (HN' : INR N <= bpow radix2 52 /\ INR M <= bpow radix2 52) by (rewrite plus_INR in HN; lra).
  destruct (int_ok N (proj1 HN')) as [F1 E1]. destruct (int_ok M (proj2 HN')) as [F2 E2]. destruct (int_ok (N + M) HN) as [F3 E3].
  rewrite plus_INR in *. set (n := INR N) in *. set (k := INR M) in *.
  assert (B53 : bpow radix2 52 <= bpow radix2 53) by (apply bpow_le; lia).
  assert (Am : Rabs (B2R m) <= 2 * P) by (pose proof (abs_near _ _ _ HA); lra). assert (Ab : Rabs (B2R b) <= 2 * P) by (pose proof (abs_near _ _ _ HB); lra).
  assert (Xm : Rabs (n * B2R m) <= 2 * n * P). { rewrite Rabs_mult, (Rabs_pos_eq n N0). apply Rle_trans with (n * (2 * P)); [apply Rmult_le_compat_l; auto|lra]. }
  assert (Xb : Rabs (k * B2R b) <= 2 * k * P). { rewrite Rabs_mult, (Rabs_pos_eq k) by lra. apply Rle_trans with (k * (2 * P)); [apply Rmult_le_compat_l; lra|lra]. }
  assert (G1 : is_finite (f_mul (f_int (Z.of_nat N)) m) = true) by (apply mul_ok; auto; rewrite E1; eapply Rle_trans; [exact Xm|]; apply scaled; lra).
  assert (G2 : is_finite (f_mul (f_int (Z.of_nat M)) b) = true) by (apply mul_ok; auto; rewrite E2; eapply Rle_trans; [exact Xb|]; apply scaled; lra).
  destruct (mul_fin _ _ G1) as (_ & _ & H1). destruct (mul_fin _ _ G2) as (_ & _ & H2). rewrite E1 in H1. rewrite E2 in H2. fold n in H1. fold k in H2.
  set (p := f_mul (f_int (Z.of_nat N)) m) in *. set (q := f_mul (f_int (Z.of_nat M)) b) in *.
  assert (R1 := rnd_le _ _ Xm). assert (R2 := rnd_le _ _ Xb). rewrite <- H1 in R1. rewrite <- H2 in R2.
  replace (uu * (2 * n * P)) with (2 * (n * U)) in R1 by (unfold U; ring). replace (uu * (2 * k * P)) with (2 * (k * U)) in R2 by (unfold U; ring).
  assert (NU : 0 <= n * U) by (apply Rmult_le_pos; lra). assert (KU : U <= k * U) by (rewrite <- (Rmult_1_l U) at 1; apply Rmult_le_compat_r; lra).
  assert (NP : 1024 * (n * U) <= n * P) by (replace (1024 * (n * U)) with (n * (1024 * U)) by ring; apply Rmult_le_compat_l; lra).
  assert (KP : 1024 * (k * U) <= k * P) by (replace (1024 * (k * U)) with (k * (1024 * U)) by ring; apply Rmult_le_compat_l; lra).
  assert (S3 : Rabs (B2R p + B2R q) <= 3 * (n + k) * P).
  { eapply Rle_trans; [apply Rabs_triang|]. pose proof (abs_near _ _ _ R1). pose proof (abs_near _ _ _ R2). lra. }
  assert (G3 : is_finite (f_add p q) = true) by (apply add_ok; auto; eapply Rle_trans; [exact S3|]; apply scaled; lra).
  destruct (add_fin _ _ G3) as (_ & _ & H3). assert (R3 := rnd_le _ _ S3). rewrite <- H3 in R3. replace (uu * (3 * (n + k) * P)) with (3 * (n * U) + 3 * (k * U)) in R3 by (unfold U; ring).
  set (s := f_add p q) in *.
  assert (SE : Rabs (B2R s - (n * B2R m + k * B2R b)) <= (n + k) * (8 * U)).
  { replace (B2R s - (n * B2R m + k * B2R b)) with ((B2R s - (B2R p + B2R q)) + ((B2R p - n * B2R m) + (B2R q - k * B2R b))) by ring.
    eapply Rle_trans; [apply Rabs_triang|]. eapply Rle_trans; [apply Rplus_le_compat_l, Rabs_triang|]. lra. }
  assert (DM : forall y c, Rabs y <= (n + k) * c -> Rabs (y / (n + k)) <= c).
  { intros y c H. unfold Rdiv. rewrite Rabs_mult, (Rabs_pos_eq (/(n + k))) by (left; apply Rinv_0_lt_compat; lra). apply Rmult_le_reg_l with (n + k); [lra|]. replace ((n + k) * (Rabs y * / (n + k))) with (Rabs y) by (field; lra). exact H. }
  assert (Q1 : Rabs (B2R s / (n + k) - (n * B2R m + k * B2R b) / (n + k)) <= 8 * U).
  { replace (B2R s / (n + k) - (n * B2R m + k * B2R b) / (n + k)) with ((B2R s - (n * B2R m + k * B2R b)) / (n + k)) by (field; lra). apply DM. exact SE. }
  assert (Q2 : Rabs ((n * B2R m + k * B2R b) / (n + k)) <= 2 * P). { apply DM. eapply Rle_trans; [apply Rabs_triang|]. lra. }
  assert (Q3 : Rabs (B2R s / (n + k)) <= 3 * P) by (pose proof (abs_near _ _ _ Q1); lra).
  destruct (div_ok s (f_int (Z.of_nat (N + M))) G3) as [D1 D2]; [rewrite E3; lra|rewrite E3; eapply Rle_trans; [exact Q3|]|].
  { replace (3 * P) with (3 * 1 * P) by ring. apply scaled; try lra; change 1 with (bpow radix2 0); apply bpow_le; lia. }
  rewrite E3 in D2. fold r in D1, D2. split; [exact D1|]. rewrite D2. assert (R4 := rnd_le _ _ Q3). replace (uu * (3 * P)) with (3 * U) in R4 by (unfold U; ring).
  assert (Q4 : Rabs ((n * B2R m + k * B2R b) / (n + k) - (n * A + k * B) / (n + k)) <= E).
  { replace ((n * B2R m + k * B2R b) / (n + k) - (n * A + k * B) / (n + k)) with ((n * (B2R m - A) + k * (B2R b - B)) / (n + k)) by (field; lra). apply DM.
    eapply Rle_trans; [apply Rabs_triang|]. rewrite !Rabs_mult, (Rabs_pos_eq n), (Rabs_pos_eq k) by lra.
    assert (n * Rabs (B2R m - A) <= n * E) by (apply Rmult_le_compat_l; auto). assert (k * Rabs (B2R b - B) <= k * E) by (apply Rmult_le_compat_l; lra). lra. }
  set (x1 := B2R s / (n + k)) in *. set (x2 := (n * B2R m + k * B2R b) / (n + k)) in *. set (x3 := (n * A + k * B) / (n + k)) in *.
  replace (rnd x1 - x3) with ((rnd x1 - x1) + ((x1 - x2) + (x2 - x3))) by ring. eapply Rle_trans; [apply Rabs_triang|]. eapply Rle_trans; [apply Rplus_le_compat_l, Rabs_triang|]. lra.
Qed.
End Bounds.

(** *** updates *)
Section Updates.
Context {V : Type} {NV : Num V}.
Variable auto_bins : string -> list V -> option (V * V) -> res nat.
(** (number of data points, mean) of a component, after a sample of values b *)
Definition cum_mean (s : nat * V) (b : list V) : nat * V :=
  ((fst s + length b)%nat, ndiv (nadd (nmul (nofnat (fst s)) (snd s)) (nmul (nofnat (length b)) (nmean b))) (nofnat (fst s + length b))).

Lemma hist_mean first N y a : mc_use (fst (mc_update_histogram auto_bins first N y a)) = mc_use a /\ mc_mean (fst (mc_update_histogram auto_bins first N y a)) = mc_mean a.
Proof.
  unfold mc_update_histogram. destruct (mc_bins a) as [|n|s|m|m]; auto; destruct (mc_moments a) as [[|m0 t]|]; auto; destruct first; auto;
  repeat (match goal with |- context [match ?x with _ => _ end] => destruct x end; auto).
Qed.
Lemma cumulate_mean N M v (x y z : arr V) : shp x = v -> shp y = v -> cumulate N M x y = Ok z -> shp z = v /\
  forall ix, inb v ix -> dat z ix = ndiv (nadd (nmul (nofnat N) (dat x ix)) (nmul (nofnat M) (dat y ix))) (nofnat (N + M)).
Proof.
  intros SX SY. unfold cumulate, aop. rewrite SX, SY. rewrite bshape_can_l by apply can_refl. cbv beta iota delta [rbind].
  rewrite assign_can by apply can_refl. intro H. injection H as <-. split; [auto|]. intros ix Hix. cbn [dat]. rewrite bget_self by auto. cbn [dat].
  rewrite !bget_self by congruence. reflexivity.
Qed.
Lemma step_mean v N M a y a' mean : shp y = (v ++ [M])%list -> mc_mean a = Some mean -> shp mean = v -> mc_moments_step N y a = Ok a' ->
  exists mean', mc_mean a' = Some mean' /\ mc_use a' = mc_use a /\ shp mean' = v /\
    forall ix, inb v ix -> dat mean' ix = ndiv (nadd (nmul (nofnat N) (dat mean ix)) (nmul (nofnat M) (nmean (row y ix)))) (nofnat (N + M)).
Proof.
  intros SY EM SM H. unfold mc_moments_step in H. rewrite EM, SY, last_snoc in H. destruct (mc_center a) as [c|]; [|discriminate].
  destruct (aop nsub y (new_last c)) as [d|]; [|discriminate]. cbv beta iota delta [rbind] in H.
  destruct (assign (v ++ [M])%list d) as [s0|]; [|discriminate]. destruct (mc_moments a) as [ms|]; [|discriminate].
  destruct (cumulate_all N M ms _) as [ms'|]; [|discriminate]. destruct (cumulate N M mean (mean_last y)) as [z|] eqn:EZ; [|discriminate].
  injection H as <-. exists z. split; [reflexivity|]. split; [reflexivity|].
  assert (SL : shp (mean_last y) = v) by (unfold mean_last; cbn [shp]; rewrite SY; apply removelast_snoc).
  destruct (cumulate_mean N M v mean (mean_last y) z SM SL EZ) as [SZ HZ]. split; [exact SZ|]. exact HZ.
Qed.
(** the component means of an instance after N data points *)
Definition has_means (v : list nat) (N : nat) (a : mc V) (f : list nat -> nat * V) : Prop :=
  mc_use a = "all"%string /\ (forall ix, inb v ix -> fst (f ix) = N) /\
  match N with
  | O => forall ix, inb v ix -> snd (f ix) = nzero
  | _ => exists mean, mc_mean a = Some mean /\ shp mean = v /\ forall ix, inb v ix -> dat mean ix = snd (f ix)
  end.
Lemma update_mean v m N a x n a' f : batch v m x -> (0 < m)%nat -> has_means v N a f -> mc_update auto_bins N a (fst x) (snd x) = ((n, a'), Ok tt) ->
  n = (N + m)%nat /\ has_means v n a' (fun ix => cum_mean (f ix) (values x ix)).
Proof.
  intros HB Hm (HU & HF & HM) H. destruct (moveaxis_batch v m x HB) as (y & EY & SY & RY).
  unfold mc_update in H. rewrite HU in H.
  assert (ES : mc_sample "all" (fst x) (snd x) = Ok y) by (unfold mc_sample; rewrite EY; reflexivity).
  rewrite ES in H. unfold mc_update_moments in H.
  destruct (mc_moments_step N y (mc_init_moments (Nat.eqb N 0) y a)) as [a1|] eqn:E1; [|discriminate].
  pose proof (hist_mean (Nat.eqb N 0) N y a1) as [U2 M2]. destruct (mc_update_histogram auto_bins (Nat.eqb N 0) N y a1) as [a2 [[]|]]; [|discriminate].
  injection H as <- <-. cbn [fst] in U2, M2. rewrite SY, last_snoc. split; [reflexivity|].
  assert (EM : exists mean, mc_mean (mc_init_moments (Nat.eqb N 0) y a) = Some mean /\ shp mean = v /\ forall ix, inb v ix -> dat mean ix = snd (f ix)).
  { destruct N; [|exact HM]. exists (zeros v). unfold mc_init_moments. cbn [Nat.eqb mc_mean]. rewrite SY, removelast_snoc. split; [reflexivity|]. split; [reflexivity|].
    intros ix Hix. symmetry. apply HM. exact Hix. }
  destruct EM as (mean & EM & SM & DM). destruct (step_mean v N m _ y a1 mean SY EM SM E1) as (mean' & E' & U' & S' & D').
  assert (UI : mc_use (mc_init_moments (Nat.eqb N 0) y a) = mc_use a) by (unfold mc_init_moments; destruct (Nat.eqb N 0); reflexivity).
  split; [congruence|]. split; [intros ix Hix; unfold cum_mean; cbn [fst]; rewrite (HF ix Hix), (values_length v m x ix HB); reflexivity|].
  destruct (N + m)%nat eqn:EN; [lia|]. rewrite <- EN in D'. exists mean'. split; [congruence|]. split; [exact S'|]. intros ix Hix. rewrite (D' ix Hix), (DM ix Hix), (RY ix Hix).
  unfold cum_mean. cbn [snd]. rewrite (HF ix Hix), (values_length v m x ix HB). reflexivity.
Qed.
Lemma updates_mean v l : forall N a n a' f, List.Forall (fun x => exists m, batch v m x /\ (0 < m)%nat) l -> has_means v N a f ->
  mc_updates auto_bins N a l = ((n, a'), Ok tt) -> has_means v n a' (fun ix => fold_left cum_mean (map (fun x => values x ix) l) (f ix)) /\ (l <> [] -> (0 < n)%nat) /\ (N <= n)%nat.
Proof.
  induction l as [|[x ax] l IH]; intros N a n a' f HF HM H; cbn [mc_updates] in H.
  - injection H as <- <-. split; [exact HM|]. split; [congruence|lia].
  - destruct (mc_update auto_bins N a x ax) as [[n1 a1] [[]|]] eqn:E; [|discriminate]. inversion_clear HF as [|? ? (m & HB & Hm) HL].
    destruct (update_mean v m N a (x, ax) n1 a1 f HB Hm HM E) as [-> HM'].
    destruct (IH _ _ _ _ _ HL HM' H) as (I1 & I2 & I3). split; [exact I1|]. split; [intros _; lia|lia].
Qed.
(** without histograms, updates are accepted *)
Definition has_shapes (v : list nat) (a : mc V) : Prop :=
  exists c mean ms, mc_center a = Some c /\ mc_mean a = Some mean /\ mc_moments a = Some ms /\ shp c = v /\ shp mean = v /\
    length ms = 4%nat /\ List.Forall (fun m => shp m = v) ms.
Lemma cumulate_accepted N M v (x y : arr V) : shp x = v -> shp y = v -> exists z, cumulate N M x y = Ok z /\ shp z = v.
Proof.
  intros SX SY. unfold cumulate, aop. rewrite SX, SY. rewrite bshape_can_l by apply can_refl. cbv beta iota delta [rbind].
  rewrite assign_can by apply can_refl. eexists. split; reflexivity.
Qed.
Lemma cumulate_all_accepted N M v ms : forall ss, length ms = length ss -> List.Forall (fun m => shp m = v) ms -> List.Forall (fun m => shp m = v) ss ->
  exists r, cumulate_all N M ms ss = Ok r /\ length r = length ms /\ List.Forall (fun m => shp m = v) r.
Proof.
  induction ms as [|m ms IH]; intros [|y ss] L H1 H2; try discriminate; [exists []; repeat split; constructor|].
  inversion_clear H1 as [|? ? A1 B1]. inversion_clear H2 as [|? ? A2 B2]. destruct (cumulate_accepted N M v m y A1 A2) as (z & Ez & Sz).
  injection L as L. destruct (IH ss L B1 B2) as (r & Er & Lr & Sr). exists (z :: r). cbn [cumulate_all]. rewrite Ez. cbv beta iota delta [rbind]. rewrite Er.
  split; [reflexivity|]. split; [cbn [length]; congruence|]. constructor; auto.
Qed.
Lemma step_accepted v N M a y : shp y = (v ++ [M])%list -> has_shapes v a -> exists a', mc_moments_step N y a = Ok a' /\ has_shapes v a' /\ mc_use a' = mc_use a /\ mc_bins a' = mc_bins a.
Proof.
  intros SY (c & mean & ms & EC & EME & EMO & SC & SME & LM & SM). unfold mc_moments_step. rewrite EC, EME, EMO. unfold aop. cbn [shp new_last]. rewrite SY, SC.
  rewrite bshape_can_r by (apply can_snoc; auto). cbv beta iota delta [rbind]. cbn [shp]. rewrite assign_can by apply can_refl. cbv beta iota.
  set (s0 := bget (mkArr (v ++ [M])%list _)). rewrite last_snoc. set (ss := map _ (powers 4 s0 s0)).
  assert (HS : List.Forall (fun m => shp m = v) ss) by (unfold ss; apply List.Forall_forall; intros m Hm; apply in_map_iff in Hm as (g & <- & _); unfold mean_last; cbn [shp]; apply removelast_snoc).
  destruct (cumulate_all_accepted N M v ms ss) as (r & Er & Lr & Sr); auto.
  assert (SL : shp (mean_last y) = v) by (unfold mean_last; cbn [shp]; rewrite SY; apply removelast_snoc).
  destruct (cumulate_accepted N M v mean (mean_last y) SME SL) as (z & Ez & Sz). rewrite Er, Ez. eexists. split; [reflexivity|]. split; [|split; reflexivity].
  exists c, z, r. cbn [mc_center mc_mean mc_moments]. repeat split; auto. congruence.
Qed.
Lemma update_accepted v m N a x : batch v m x -> mc_use a = "all"%string -> mc_bins a = BNone -> (N = 0%nat \/ has_shapes v a) ->
  exists a', mc_update auto_bins N a (fst x) (snd x) = (((N + m)%nat, a'), Ok tt) /\ mc_use a' = "all"%string /\ mc_bins a' = BNone /\ has_shapes v a'.
Proof.
  intros HB HU HN HS. destruct (moveaxis_batch v m x HB) as (y & EY & SY & _). unfold mc_update. rewrite HU.
  assert (ES : mc_sample "all" (fst x) (snd x) = Ok y) by (unfold mc_sample; rewrite EY; reflexivity). rewrite ES. unfold mc_update_moments.
  assert (HI : has_shapes v (mc_init_moments (Nat.eqb N 0) y a) /\ mc_use (mc_init_moments (Nat.eqb N 0) y a) = mc_use a /\ mc_bins (mc_init_moments (Nat.eqb N 0) y a) = mc_bins a).
  { unfold mc_init_moments. destruct (Nat.eqb N 0) eqn:E0; [|split; [|split; reflexivity]; apply Nat.eqb_neq in E0; destruct HS; [lia|assumption]].
    split; [|split; reflexivity]. rewrite SY, removelast_snoc. eexists _, _, _. cbn [mc_center mc_mean mc_moments]. do 3 (split; [reflexivity|]).
    split; [unfold mean_last; cbn [shp]; rewrite SY; apply removelast_snoc|]. split; [reflexivity|]. split; [reflexivity|]. repeat constructor. }
  destruct HI as (H1 & H2 & H3). destruct (step_accepted v N m _ y SY H1) as (a1 & E1 & S1 & U1 & B1). rewrite E1.
  unfold mc_update_histogram. rewrite B1, H3, HN, SY, last_snoc. exists a1. repeat split; congruence.
Qed.
Lemma updates_accepted v l : List.Forall (fun x => exists m, batch v m x /\ (0 < m)%nat) l -> forall N a, mc_use a = "all"%string -> mc_bins a = BNone ->
  (N = 0%nat \/ has_shapes v a) -> exists n a', mc_updates auto_bins N a l = ((n, a'), Ok tt).
Proof.
  induction 1 as [|[x ax] l (m & HB & _) HL IH]; intros N a HU HN HS; cbn [mc_updates]; [eauto|].
  destruct (update_accepted v m N a (x, ax) HB HU HN HS) as (a1 & E1 & U1 & B1 & S1). cbn [fst snd] in E1. rewrite E1. apply IH; auto.
Qed.
End Updates.

(** *** accuracy *)
Lemma total_bound P l : (forall z, In z l -> Rabs z <= P) -> Rabs (total l) <= INR (length l) * P.
Proof.
  induction l as [|x l IH]; intro H; cbn [total fold_right length]; [rewrite Rabs_R0; simpl; lra|]. rewrite S_INR. eapply Rle_trans; [apply Rabs_triang|].
  pose proof (H x (or_introl eq_refl)). assert (Rabs (total l) <= INR (length l) * P) by (apply IH; intros z Hz; apply H; right; exact Hz). unfold total in *. lra.
Qed.
Lemma average_bound P l : 0 <= P -> (forall z, In z l -> Rabs z <= P) -> Rabs (average l) <= P.
Proof.
  intros HP H. unfold average. destruct l as [|x l]; [unfold total; simpl; unfold Rdiv; rewrite Rmult_0_l, Rabs_R0; exact HP|].
  pose proof (total_bound P _ H) as T. set (l' := x :: l) in *. assert (L : 0 < INR (length l')) by (apply lt_0_INR; unfold l'; cbn [length]; lia).
  unfold Rdiv. rewrite Rabs_mult, (Rabs_pos_eq (/ _)) by (left; apply Rinv_0_lt_compat; exact L). apply Rmult_le_reg_l with (INR (length l')); [exact L|].
  replace (INR (length l') * (Rabs (total l') * / INR (length l'))) with (Rabs (total l')) by (field; lra). exact T.
Qed.

Section Accuracy.
Variables (fexp flog : float64 -> float64) (P : R) (B : nat).
Hypothesis PB : bpow radix2 (-1022) <= P <= bpow radix2 900.
Let E (j : nat) : R := (2 * INR B + 12 * INR j + 4) * uu * P.
Let good (l : list float64) : Prop := forall z, In z l -> is_finite z = true /\ Rabs (B2R z) <= P.
Lemma cum_accuracy k : (2 * INR B + 12 * INR k + 4) * uu <= 1 -> forall bs N m D j, (j + length bs <= k)%nat ->
  (forall b, In b bs -> (0 < length b <= B)%nat /\ good b) -> good D -> N = length D ->
  is_finite m = true -> Rabs (B2R m - average (map B2R D)) <= E j ->
  let r := fold_left (cum_mean (NV := Num_float64 fexp flog)) bs (N, m) in
  INR (fst r) <= bpow radix2 52 ->
  fst r = length (D ++ concat bs) /\ is_finite (snd r) = true /\ Rabs (B2R (snd r) - average (map B2R (D ++ concat bs))) <= E (j + length bs).
Proof using PB.
  intro HK. pose proof (P_pos P PB) as P0. pose proof uu_pos as u0. destruct (U_facts P PB) as (U0 & _ & _). pose proof (pos_INR B) as B0.
  induction bs as [|b bs IH]; intros N m D j HJ HB GD EN Fm HE; cbv zeta; cbn [fold_left].
  - intros _. cbn [fst snd concat length]. rewrite app_nil_r, Nat.add_0_r. auto.
  - set (s := cum_mean (NV := Num_float64 fexp flog) (N, m) b). intros HR. destruct (HB b (or_introl eq_refl)) as [LB GB]. cbn [length] in HJ.
    assert (MON : forall l t, (fst t <= fst (fold_left (cum_mean (NV := Num_float64 fexp flog)) l t))%nat).
    { induction l as [|b' l IHl]; intro t; cbn [fold_left]; [lia|]. etransitivity; [|apply IHl]. unfold cum_mean. cbn [fst]. lia. }
    assert (FS : INR (N + length b) <= bpow radix2 52) by (eapply Rle_trans; [|exact HR]; apply le_INR; apply (MON bs s)).
    assert (JK : INR j + 1 <= INR k) by (rewrite <- S_INR; apply le_INR; lia). pose proof (pos_INR j) as J0.
    assert (LB' : INR (length b) <= INR B) by (apply le_INR; lia).
    assert (Lb52 : INR (length b) <= bpow radix2 52) by (rewrite plus_INR in FS; pose proof (pos_INR N); lra).
    assert (K1 : (2 * INR B + 12 * INR j + 4) * uu <= 1).
    { eapply Rle_trans; [|exact HK]. apply Rmult_le_compat_r; lra. }
    destruct (mean_error P PB fexp flog b ltac:(lia) Lb52) as (Fb & Eb & Ab); [|exact GB|].
    { eapply Rle_trans; [|exact K1]. apply Rmult_le_compat_r; lra. }
    set (bm := nmean (NV := Num_float64 fexp flog) b) in *.
    assert (Eb' : Rabs (B2R bm - average (map B2R b)) <= E j).
    { eapply Rle_trans; [exact Eb|]. unfold E. rewrite Rmult_assoc. apply Rmult_le_compat_r; lra. }
    assert (EP : E j <= P). { unfold E. rewrite <- (Rmult_1_l P) at 2. apply Rmult_le_compat_r; lra. }
    assert (AD : Rabs (average (map B2R D)) <= P). { apply average_bound; [lra|]. intros z Hz. apply in_map_iff in Hz as (w & <- & Hw). apply GD. exact Hw. }
    destruct (cum_error P PB N (length b) m bm _ _ (E j) ltac:(lia) FS Fm Fb HE Eb' AD Ab EP) as [Fr Er].
    assert (AV : average (map B2R (D ++ b)) = (INR N * average (map B2R D) + INR (length b) * average (map B2R b)) / INR (N + length b)).
    { rewrite map_app, average_app by (rewrite map_length; lia). rewrite !map_length, EN. reflexivity. }
    destruct (IH (N + length b)%nat (snd s) (D ++ b)%list (S j)) as (I1 & I2 & I3).
    + lia.
    + intros b' Hb'. apply HB. right. exact Hb'.
    + intros z Hz. apply in_app_or in Hz as [Hz|Hz]; [apply GD|apply GB]; exact Hz.
    + rewrite app_length. lia.
    + exact Fr.
    + rewrite AV. eapply Rle_trans; [exact Er|]. unfold E. rewrite S_INR. apply Req_le. ring.
    + exact HR.
    + rewrite <- app_assoc in I1, I3. cbn [concat length]. rewrite <- Nat.add_succ_comm. auto.
Qed.
End Accuracy.
