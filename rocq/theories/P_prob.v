(** C81: probabilities. The probability that a simulated value is at most y is the distribution function of the process at y:
    wiener_cdf and lognorm_cdf, whatever the steps, and oruh_cdf in the limit of short steps. On different paths these events
    are independent, and the fraction of the paths with a value of at most y has the probability as its mean, p, and
    p(1 - p)/paths as its variance. *)
From Coq Require Import String List Arith Bool ZArith Reals Lra Lia.
From Coquelicot Require Import Coquelicot.
From Verif Require Import Base BaseOrd BaseNum BaseArr M_paths S_paths S_run L_ord L_paths8
  M_process M_source S_source M_sde S_sde L_sde L_sde2 L_sde3 M_presets S_presets L_presets M_integrate S_integrate P_source4 S_true2 S_euler L_euler L_euler2
  BaseNd BaseIdx S_process L_nd L_pack L_process P_source2 P_source3 M_rv S_rv M_analytical S_analytical M_dist S_dist L_gauss L_gauss2 L_dist P_dist P_bs P_price M_anti S_law P_chf L_law L_law2 L_law4 L_law5 L_law8 S_gval L_gval L_gval2 L_gval3 L_gval4 L_gval5 L_gval6 P_gval
  S_tval L_tval L_tval2 L_tval3 L_tval4 L_tval5 L_tval6 L_gop L_cirop L_nrun L_cirrun S_mean L_conv L_cok L_tame L_meanrun L_meanlaw L_est P_mean.
From Verif Require P_euler P_tval.
Import ListNotations.
Open Scope R_scope.
Local Notation len := List.length.

(** *** functions of events *)
Lemma between_cok a b : a <= b -> cok (between a b).
Proof.
  intro H. eapply cok_ext; [|apply (cok_plus _ _ (ind_cok b) (cok_scal (-1) _ (ind_cok a)))]. intro x. unfold between, at_most.
  destruct (Rle_dec x b), (Rle_dec x a), (Rlt_dec a x); lra.
Qed.
Lemma at_most_sq y x : at_most y x * at_most y x = at_most y x.
Proof. unfold at_most. destruct (Rle_dec x y); ring. Qed.
Lemma at_most_exp y x : at_most y (exp x) = if Rlt_dec 0 y then at_most (ln y) x else 0.
Proof.
  unfold at_most. assert (P := exp_pos x). destruct (Rlt_dec 0 y) as [Y|Y]; [|destruct (Rle_dec (exp x) y); lra].
  destruct (Rle_dec (exp x) y) as [A|A], (Rle_dec x (ln y)) as [B|B]; try reflexivity; exfalso.
  - apply B. rewrite <- (ln_exp x). apply ln_le; auto.
  - apply A. rewrite <- (exp_ln y Y). destruct B as [B| ->]; [left; apply exp_increasing; exact B|right; reflexivity].
Qed.
Lemma ind_exp_cok y : cok (fun x => at_most y (exp x)).
Proof.
  destruct (Rlt_dec 0 y) as [Y|Y].
  - eapply cok_ext; [|apply (ind_cok (ln y))]. intro x. cbv beta. rewrite at_most_exp. destruct (Rlt_dec 0 y); [reflexivity|contradiction].
  - eapply cok_ext; [|apply (cok_const 0)]. intro x. cbv beta. rewrite at_most_exp. destruct (Rlt_dec 0 y); [contradiction|reflexivity].
Qed.
Lemma EN_between a b m s : a <= b -> EN (fun z => between a b (m + s*z)) = EN (fun z => at_most b (m + s*z)) - EN (fun z => at_most a (m + s*z)).
Proof.
  intro H. assert (A := cok_mean _ m s (ind_cok a)). assert (B := cok_mean _ m s (ind_cok b)). rewrite (EN_eq _ _ A), (EN_eq _ _ B). apply EN_eq.
  eapply mean_ext; [apply (mean_plus _ _ _ _ B (mean_scal (-1) _ _ A))| |ring]. intro z. unfold between, at_most. cbv beta.
  destruct (Rle_dec (m + s*z) b), (Rle_dec (m + s*z) a), (Rlt_dec a (m + s*z)); lra.
Qed.
Section Cdf.
Variable F : R -> R.
Hypothesis HF : std_normal_cdf F.
Lemma EN_normal y m s : 0 < s -> EN (fun z => at_most y (m + s*z)) = F ((y - m)/s).
Proof using HF. intro S. rewrite (EN_ind F HF). destruct (Req_EM_T s 0); [lra|]. rewrite Rabs_pos_eq by lra. reflexivity. Qed.
Lemma EN_lognormal y c s : 0 < s -> 0 < c -> EN (fun z => at_most y (exp (ln c + s*z))) = lcdf F c s y.
Proof using HF.
  intros S C. rewrite (EN_ext _ (fun z => if Rlt_dec 0 y then at_most (ln y) (ln c + s*z) else 0)) by (intro z; apply at_most_exp). unfold lcdf.
  destruct (Rlt_dec 0 y) as [Y|Y]; [|apply EN_const]. rewrite EN_normal by exact S. f_equal. rewrite ln_div by auto. reflexivity.
Qed.
(** close means and variances give close probabilities *)
Lemma cdf_close y m v : 0 < v -> forall eps, 0 < eps -> exists delta, 0 < delta /\ forall m' v', 0 <= v' -> Rabs (m' - m) <= delta -> Rabs (v' - v) <= delta ->
  Rabs (EN (fun z => at_most y (m' + sqrt v' * z)) - F ((y - m)/sqrt v)) <= eps.
Proof using HF.
  intros V eps EP.
  assert (FC : forall x, continuous F x) by (intro x; apply (ex_derive_continuous (V := R_NormedModule)); eexists; apply HF).
  assert (C : continuous (fun p : R * R => F ((y - fst p) * / sqrt (snd p))) (m, v)).
  { apply (continuous_comp (fun p : R * R => (y - fst p) * / sqrt (snd p)) F); [|apply FC].
    apply (continuous_mult (K := R_AbsRing) (fun p : R * R => y - fst p) (fun p => / sqrt (snd p))).
    - apply (continuous_minus (V := R_NormedModule) (fun _ : R * R => y) fst); [apply continuous_const|apply continuous_fst].
    - apply (continuous_comp (fun p : R * R => snd p) (fun t => / sqrt t)); [apply continuous_snd|].
      apply (ex_derive_continuous (V := R_NormedModule)). cbn [snd]. auto_derive. split; [exact V|]. split; [|exact I]. apply Rgt_not_eq, sqrt_lt_R0, V. }
  destruct (proj1 (filterlim_locally _ _) C (mkposreal eps EP)) as ([del DP] & Q). cbn [fst snd pos] in Q.
  exists (Rmin (del/2) (v/2)). assert (M1 := Rmin_l (del/2) (v/2)). assert (M2 := Rmin_r (del/2) (v/2)).
  split; [apply Rmin_glb_lt; lra|]. intros m' v' _ H1 H2.
  assert (VP : 0 < v'). { unfold Rabs in H2. destruct (Rcase_abs (v' - v)) in H2; lra. }
  rewrite EN_normal by (apply sqrt_lt_R0; exact VP). left. apply (Q (m', v')). split; cbn [fst snd].
  - change (Rabs (m' - m) < del). lra.
  - change (Rabs (v' - v) < del). lra.
Qed.
End Cdf.

(** *** exact probabilities, for any timeline and any steps, antithetic or not *)
Section Exact.
Context {G I : Type}.
Variables (L : nat -> (G -> R) -> R) (normal : list nat -> G -> res (arr R) * G) (mvnormal : arr R -> list nat -> G -> res (arr R) * G).
Variables (anti : bool) (c : R -> nat -> nat -> R) (n paths : nat) (vshape : list nat) (s : src (V := R) (G := G) (arr R)).
Hypothesis HS : noise_source L normal mvnormal anti INone INone c n paths vshape s.
Let w := (vshape ++ [paths])%list.
Variables (x0 mu sigma : arr R) (args : dict (M_sde.param R R)).
Hypothesis CM : const_arg args "mu" mu.
Hypothesis CS : const_arg args "sigma" sigma.
Hypothesis BX : broadcasts (shp x0) w.
Hypothesis BM : broadcasts (shp mu) w.
Hypothesis BS : broadcasts (shp sigma) w.
Variables (pace_fn : list R -> list R) (fuel : nat) (gi : bool) (inf : I) (timeline : list R) (t0 : R) (d : nat).
Hypothesis V0 : valid_timeline timeline.
Hypothesis N0 : nth_error timeline 0 = Some t0.
Let N := len timeline.
Hypothesis HF : (N + len (pace_fn timeline) <= fuel)%nat.
Hypothesis Hd : (N + len (pace_fn timeline) <= d)%nat.
Variable F : R -> R.
Hypothesis HC : std_normal_cdf F.

(** *** Wiener processes *)
Let runw g := sde_call Rminus (wiener_process (I := I) (at_step s) gi vshape paths x0 args) 0 pace_fn fuel (g, inf) [N] timeline.
Let mw ix t := wiener_mean (bget x0 ix) (bget mu ix) (bget sigma ix) t.
Let vw ix t := wiener_var (bget x0 ix) (bget mu ix) (bget sigma ix) t.
Lemma wiener_EN x a sg t y : 0 < sg -> 0 < t -> wiener_cdf F x a sg t y = Some (EN (fun z => at_most y (wiener_mean x a sg t + sqrt (wiener_var x a sg t) * z))).
Proof using HC.
  intros S T. assert (E : sg * sqrt t = sqrt (wiener_var x a sg t)) by (unfold wiener_var; rewrite sqrt_scale by lra; f_equal; ring).
  assert (SP : 0 < sqrt (wiener_var x a sg t)) by (rewrite <- E; apply Rmult_lt_0_compat; [exact S|apply sqrt_lt_R0; exact T]).
  unfold wiener_cdf. cbv zeta. rewrite E, norm_cdf_eq by exact SP. f_equal. rewrite (EN_normal F HC) by exact SP. reflexivity.
Qed.
Theorem C81_wiener i ti ix y : nth_error timeline i = Some ti -> inb w ix -> 0 < bget sigma ix -> t0 < ti ->
  wiener_cdf F (bget x0 ix) (bget mu ix) (bget sigma ix) (ti - t0) y = Some (L d (fun g => at_most y (value_at (runw g) i ix))).
Proof using HS CM CS BX BM BS V0 N0 HF Hd HC.
  intros Hi HI S T. destruct (wiener_all (I := I) L normal mvnormal anti c n paths vshape s HS x0 mu sigma args CM CS BX BM BS pace_fn fuel gi inf timeline t0 d V0 N0 HF Hd) as [_ R2].
  destruct (R2 i ti Hi) as (X & _). etransitivity; [apply wiener_EN; lra|]. f_equal. symmetry. exact (X ix (at_most y) HI (ind_cok y)).
Qed.
(** probability of a value in an interval *)
Theorem C81_wiener_between i ti ix a b : nth_error timeline i = Some ti -> inb w ix -> 0 < bget sigma ix -> t0 < ti -> a <= b ->
  exists p q, wiener_cdf F (bget x0 ix) (bget mu ix) (bget sigma ix) (ti - t0) a = Some p /\ wiener_cdf F (bget x0 ix) (bget mu ix) (bget sigma ix) (ti - t0) b = Some q /\
    L d (fun g => between a b (value_at (runw g) i ix)) = q - p.
Proof using HS CM CS BX BM BS V0 N0 HF Hd HC.
  intros Hi HI S T AB. destruct (wiener_all (I := I) L normal mvnormal anti c n paths vshape s HS x0 mu sigma args CM CS BX BM BS pace_fn fuel gi inf timeline t0 d V0 N0 HF Hd) as [_ R2].
  destruct (R2 i ti Hi) as (X & _). do 2 eexists. split; [apply wiener_EN; lra|]. split; [apply wiener_EN; lra|].
  etransitivity; [exact (X ix (between a b) HI (between_cok a b AB))|]. apply EN_between. exact AB.
Qed.
(** all entries are independent *)
Theorem C81_wiener_joint : anti = false -> forall i ti y p, nth_error timeline i = Some ti -> t0 < ti ->
  (forall ix, inb w ix -> 0 < bget sigma ix /\ wiener_cdf F (bget x0 ix) (bget mu ix) (bget sigma ix) (ti - t0) (y ix) = Some (p ix)) ->
  L d (fun g => rprod (fun ix => at_most (y ix) (value_at (runw g) i ix)) (ndindex w)) = rprod p (ndindex w).
Proof using HS CM CS BX BM BS V0 N0 HF Hd HC.
  intros EA i ti y p Hi T HP. destruct (wiener_all (I := I) L normal mvnormal anti c n paths vshape s HS x0 mu sigma args CM CS BX BM BS pace_fn fuel gi inf timeline t0 d V0 N0 HF Hd) as [_ R2].
  destruct (R2 i ti Hi) as (_ & X & _). etransitivity; [apply (X EA (fun ix => at_most (y ix))); intros; apply ind_cok|].
  apply rprod_ext. intros ix HI. apply in_ndindex in HI. destruct (HP ix HI) as [S E]. rewrite wiener_EN in E by lra. injection E. auto.
Qed.
(** fraction of the paths with a value of at most y *)
Theorem C81_wiener_fraction i ti r y x a sg : anti = false -> normal_sums L normal w -> (0 < paths)%nat -> nth_error timeline i = Some ti -> t0 < ti -> inb vshape r -> 0 < sg ->
  (forall j, (j < paths)%nat -> bget x0 (r ++ [j]) = x /\ bget mu (r ++ [j]) = a /\ bget sigma (r ++ [j]) = sg) ->
  let fraction g := rsum (fun j => at_most y (value_at (runw g) i (r ++ [j]))) (seq 0 paths) / INR paths in
  exists p, wiener_cdf F x a sg (ti - t0) y = Some p /\ L d fraction = p /\ L d (fun g => (fraction g - p)^2) = p * (1 - p) / INR paths.
Proof using HS CM CS BX BM BS V0 N0 HF Hd HC.
  intros EA NS HP Hi T Hr S HE fraction. destruct (wiener_all (I := I) L normal mvnormal anti c n paths vshape s HS x0 mu sigma args CM CS BX BM BS pace_fn fuel gi inf timeline t0 d V0 N0 HF Hd) as [_ R2].
  destruct (R2 i ti Hi) as (_ & _ & X). eexists. split; [apply wiener_EN; lra|]. set (p := EN _).
  destruct (average (L d) w (fun g => value_at (runw g) i) (fun x => x) (fun ix => mw ix (ti - t0)) (fun ix => vw ix (ti - t0)) (proj1 (proj1 HS) d) (X EA NS) paths (fun j => r ++ [j])%list (at_most y) (wiener_mean x a sg (ti - t0)) (wiener_var x a sg (ti - t0)) HP) as [A1 A2].
  - intros j Hj. destruct (HE j Hj) as (E1 & E2 & E3). split; [apply inb_app; auto; repeat constructor; lia|]. unfold mw, vw. rewrite E1, E2, E3. auto.
  - intros a1 b1 _ _ E. apply app_inv_head in E. injection E. auto.
  - apply ind_cok.
  - eapply cok_ext; [|apply (ind_cok y)]. intro. symmetry. apply at_most_sq.
  - split; [exact A1|]. etransitivity; [exact A2|]. rewrite (EN_ext (fun z => at_most y _ * at_most y _) (fun z => at_most y (wiener_mean x a sg (ti - t0) + sqrt (wiener_var x a sg (ti - t0)) * z))) by (intro; apply at_most_sq).
    fold p. f_equal. ring.
Qed.

(** *** lognormal processes *)
Hypothesis XP : forall ix, inb w ix -> 0 < bget x0 ix.
Let runl g := sde_call Rminus (lognorm_process (I := I) (at_step s) gi vshape paths x0 args) 0 pace_fn fuel (g, inf) [N] timeline.
Let ml ix t := ln (bget x0 ix) + (bget mu ix - bget sigma ix * bget sigma ix / 2) * t.
Let vl ix t := bget sigma ix * bget sigma ix * t.
Lemma lognorm_EN x a sg t y : 0 < x -> 0 < sg -> 0 < t -> lognorm_cdf F x a sg t y = Some (EN (fun z => at_most y (exp (ln x + (a - sg*sg/2)*t + sqrt (sg*sg*t) * z)))).
Proof using HC.
  intros X S T. set (sd := sg * sqrt t). set (cc := x * exp (a*t - sd*sd/2)).
  assert (SP : 0 < sd) by (apply Rmult_lt_0_compat; [exact S|apply sqrt_lt_R0; exact T]).
  assert (CP : 0 < cc) by (apply Rmult_lt_0_compat; [exact X|apply exp_pos]).
  assert (ES : sd = sqrt (sg*sg*t)) by (apply sqrt_scale; lra).
  assert (SS : sd*sd = sg*sg*t) by (rewrite ES; apply sqrt_sqrt; apply Rmult_le_pos; [apply Rle_0_sqr|lra]).
  assert (EM : ln x + (a - sg*sg/2)*t = ln cc). { unfold cc. rewrite ln_mult, ln_exp by (auto; apply exp_pos). rewrite SS. field. }
  unfold lognorm_cdf. cbv zeta. fold sd. fold cc. rewrite sp_cdf_eq by auto. f_equal. rewrite EM, <- ES. symmetry. apply (EN_lognormal F HC); auto.
Qed.
Theorem C81_lognorm i ti ix y : nth_error timeline i = Some ti -> inb w ix -> 0 < bget sigma ix -> t0 < ti ->
  lognorm_cdf F (bget x0 ix) (bget mu ix) (bget sigma ix) (ti - t0) y = Some (L d (fun g => at_most y (value_at (runl g) i ix))).
Proof using HS CM CS BX BM BS V0 N0 HF Hd HC XP.
  intros Hi HI S T. destruct (lognorm_all (I := I) L normal mvnormal anti c n paths vshape s HS x0 mu sigma args CM CS BX BM BS pace_fn fuel gi inf timeline t0 d V0 N0 HF Hd) as [_ R2].
  destruct (R2 i ti Hi) as (X & _). etransitivity; [apply lognorm_EN; auto; lra|]. f_equal. symmetry. exact (X ix (at_most y) HI (ind_exp_cok y)).
Qed.
(** probability of exercise of a call: the normal distribution function at d2 of [bsd1d2] *)
Theorem C81_exercise k r q i ti ix : 0 < k -> nth_error timeline i = Some ti -> inb w ix -> 0 < bget sigma ix -> t0 < ti -> bget mu ix = r - q ->
  exists d1 d2, bsd1d2 k (ti - t0) (bget x0 ix) r q (bget sigma ix) = Ok (Fin d1, Fin d2) /\ L d (fun g => 1 - at_most k (value_at (runl g) i ix)) = F d2.
Proof using HS CM CS BX BM BS V0 N0 HF Hd HC XP.
  intros HK Hi HI S T EM. assert (XI := XP ix HI). assert (T' : 0 < ti - t0) by lra.
  do 2 eexists. split; [apply bsd1d2_regular; auto; lra|].
  destruct (lognorm_all (I := I) L normal mvnormal anti c n paths vshape s HS x0 mu sigma args CM CS BX BM BS pace_fn fuel gi inf timeline t0 d V0 N0 HF Hd) as [_ R2].
  destruct (R2 i ti Hi) as (X & _). etransitivity; [apply (X ix (fun x => 1 - at_most k x) HI)|].
  { eapply cok_ext; [|apply (cok_plus _ _ (cok_const 1) (cok_scal (-1) _ (ind_exp_cok k)))]. intro x. cbv beta. ring. }
  cbv beta. set (m := ln _ + _). set (sd := sqrt _). assert (ES : bget sigma ix * sqrt (ti - t0) = sd) by (apply sqrt_scale; lra).
  assert (SP : 0 < sd) by (rewrite <- ES; apply Rmult_lt_0_compat; [exact S|apply sqrt_lt_R0; lra]).
  assert (SS : sd * sd = bget sigma ix * bget sigma ix * (ti - t0)) by (apply sqrt_sqrt; apply Rmult_le_pos; [apply Rle_0_sqr|lra]).
  assert (IM : mean_normal (fun z => at_most (ln k) (m + sd * z)) (F ((ln k - m)/Rabs sd))) by (apply (ind_mean F HC); lra). rewrite Rabs_pos_eq in IM by lra.
  transitivity (1 - F ((ln k - m)/sd)).
  - apply EN_eq. eapply mean_ext; [apply (mean_plus _ _ _ _ (mean_const 1) (mean_scal (-1) _ _ IM))| |ring]. intro z. cbv beta. rewrite at_most_exp. destruct (Rlt_dec 0 k); [ring|contradiction].
  - rewrite <- (cdf_sym F HC). f_equal. rewrite ES. unfold m. rewrite EM, ln_div by auto. replace (0.5 * bget sigma ix ^ 2) with (bget sigma ix * bget sigma ix / 2) by (cbn [pow]; lra).
    transitivity ((ln (bget x0 ix) - ln k + (r - q + bget sigma ix * bget sigma ix / 2) * (ti - t0) - sd * sd) / sd); [rewrite SS|]; field; lra.
Qed.
Theorem C81_lognorm_joint : anti = false -> forall i ti y p, nth_error timeline i = Some ti -> t0 < ti ->
  (forall ix, inb w ix -> 0 < bget sigma ix /\ lognorm_cdf F (bget x0 ix) (bget mu ix) (bget sigma ix) (ti - t0) (y ix) = Some (p ix)) ->
  L d (fun g => rprod (fun ix => at_most (y ix) (value_at (runl g) i ix)) (ndindex w)) = rprod p (ndindex w).
Proof using HS CM CS BX BM BS V0 N0 HF Hd HC XP.
  intros EA i ti y p Hi T HP. destruct (lognorm_all (I := I) L normal mvnormal anti c n paths vshape s HS x0 mu sigma args CM CS BX BM BS pace_fn fuel gi inf timeline t0 d V0 N0 HF Hd) as [_ R2].
  destruct (R2 i ti Hi) as (_ & X & _). etransitivity; [apply (X EA (fun ix => at_most (y ix))); intros; apply ind_exp_cok|].
  apply rprod_ext. intros ix HI. apply in_ndindex in HI. destruct (HP ix HI) as [S E]. rewrite lognorm_EN in E by (auto; lra). injection E. auto.
Qed.
Theorem C81_lognorm_fraction i ti r y x a sg : anti = false -> normal_sums L normal w -> (0 < paths)%nat -> nth_error timeline i = Some ti -> t0 < ti -> inb vshape r -> 0 < sg ->
  (forall j, (j < paths)%nat -> bget x0 (r ++ [j]) = x /\ bget mu (r ++ [j]) = a /\ bget sigma (r ++ [j]) = sg) ->
  let fraction g := rsum (fun j => at_most y (value_at (runl g) i (r ++ [j]))) (seq 0 paths) / INR paths in
  exists p, lognorm_cdf F x a sg (ti - t0) y = Some p /\ L d fraction = p /\ L d (fun g => (fraction g - p)^2) = p * (1 - p) / INR paths.
Proof using HS CM CS BX BM BS V0 N0 HF Hd HC XP.
  intros EA NS HP Hi T Hr S HE fraction. destruct (lognorm_all (I := I) L normal mvnormal anti c n paths vshape s HS x0 mu sigma args CM CS BX BM BS pace_fn fuel gi inf timeline t0 d V0 N0 HF Hd) as [_ R2].
  assert (PX : 0 < x). { destruct (HE 0%nat HP) as (<- & _). apply XP. apply inb_app; auto; repeat constructor; lia. }
  destruct (R2 i ti Hi) as (_ & _ & X). eexists. split; [apply lognorm_EN; auto; lra|]. set (p := EN _).
  destruct (average (L d) w (fun g => value_at (runl g) i) exp (fun ix => ml ix (ti - t0)) (fun ix => vl ix (ti - t0)) (proj1 (proj1 HS) d) (X EA NS) paths (fun j => r ++ [j])%list (at_most y) (ln x + (a - sg*sg/2)*(ti - t0)) (sg*sg*(ti - t0)) HP) as [A1 A2].
  - intros j Hj. destruct (HE j Hj) as (E1 & E2 & E3). split; [apply inb_app; auto; repeat constructor; lia|]. unfold ml, vl. rewrite E1, E2, E3. auto.
  - intros a1 b1 _ _ E. apply app_inv_head in E. injection E. auto.
  - apply ind_exp_cok.
  - eapply cok_ext; [|apply (ind_exp_cok y)]. intro. symmetry. apply at_most_sq.
  - split; [exact A1|]. etransitivity; [exact A2|]. rewrite (EN_ext (fun z => at_most y _ * at_most y _) (fun z => at_most y (exp (ln x + (a - sg*sg/2)*(ti - t0) + sqrt (sg*sg*(ti - t0)) * z)))) by (intro; apply at_most_sq).
    fold p. f_equal. ring.
Qed.
End Exact.
Print Assumptions C81_wiener.
Print Assumptions C81_wiener_between.
Print Assumptions C81_wiener_joint.
Print Assumptions C81_wiener_fraction.
Print Assumptions C81_lognorm.
Print Assumptions C81_exercise.
Print Assumptions C81_lognorm_joint.
Print Assumptions C81_lognorm_fraction.

(** *** limits for short steps *)
Section Limits.
Variables (anti : bool) (n paths : nat) (vshape : list nat).
Let w := (vshape ++ [paths])%list.
Let ic := fun (_ : R) (i j : nat) => if Nat.eq_dec i j then 1 else 0.
Variable F : R -> R.
Hypothesis HC : std_normal_cdf F.
(** mean-reverting processes, with parameters that depend on time *)
Theorem C81_oruh_limit (x0 : arr R) (theta k sigma : R -> arr R) t0 T ti ix y eps :
  continuous_array w theta -> continuous_array w k -> continuous_array w sigma -> broadcasts (shp x0) w -> 0 <= T -> t0 <= ti -> inb w ix -> 0 < eps ->
  let m0 := linear_mean (bget x0 ix) (fun t => bget (k t) ix) (fun t => bget (k t) ix * bget (theta t) ix) t0 ti in
  let v0 := linear_cov (fun t => bget (k t) ix) (fun t => bget (k t) ix) (fun t => bget (sigma t) ix * bget (sigma t) ix) t0 ti ti in
  0 < v0 ->
  exists delta, 0 < delta /\ forall (G I : Type) (L : nat -> (G -> R) -> R) normal mvnormal s gi args pace_fn fuel (inf : I) (timeline : list R) h d i,
  let N := len timeline in
  noise_source L normal mvnormal anti INone INone ic n paths vshape s -> var_arg args "theta" theta -> var_arg args "k" k -> var_arg args "sigma" sigma ->
  stepped timeline (pace_fn timeline) t0 T h d -> h <= delta -> (N + len (pace_fn timeline) <= fuel)%nat -> nth_error timeline i = Some ti ->
  let run (g : G) := sde_call Rminus (ou_process (I := I) (at_step s) gi vshape paths x0 args) 0 pace_fn fuel (g, inf) [N] timeline in
  Rabs (L d (fun g => at_most y (value_at (run g) i ix)) - F ((y - m0) / sqrt v0)) <= eps.
Proof using HC.
  intros KT KK KS BX HT H0 HI EP m0 v0 VP. destruct (cdf_close F HC y m0 v0 VP eps EP) as (e1 & E1 & CL).
  destruct (oruh_near anti n paths vshape x0 theta k sigma t0 T ti ix e1 KT KK KS BX HT H0 HI E1) as (_ & delta & DP & H). exists delta. split; [exact DP|].
  intros G I L normal mvnormal s gi args pace_fn fuel inf timeline h d i N HS AT AK AS ST Hh HF Hi run.
  destruct (H G I L normal mvnormal s gi args pace_fn fuel inf timeline h d i HS AT AK AS ST Hh HF Hi) as (m' & v' & VP' & NM & NV & R2).
  eapply Rle_trans; [apply Req_le; exact (f_equal (fun z => Rabs (z - _)) (R2 (at_most y) (ind_cok y)))|]. cbv beta. apply (CL m' v'); auto.
Qed.
(** constant parameters: oruh_cdf *)
Theorem C81_oruh (x0 theta k sigma : arr R) t0 T ti ix y eps :
  broadcasts (shp theta) w -> broadcasts (shp k) w -> broadcasts (shp sigma) w -> broadcasts (shp x0) w -> 0 <= T -> t0 < ti -> inb w ix -> bget k ix <> 0 -> bget sigma ix <> 0 -> 0 < eps ->
  exists p delta, oruh_cdf F (bget x0 ix) (bget theta ix) (bget k ix) (bget sigma ix) (ti - t0) y = Some p /\ 0 < delta /\
  forall (G I : Type) (L : nat -> (G -> R) -> R) normal mvnormal s gi args pace_fn fuel (inf : I) (timeline : list R) h d i,
  let N := len timeline in
  noise_source L normal mvnormal anti INone INone ic n paths vshape s -> const_arg args "theta" theta -> const_arg args "k" k -> const_arg args "sigma" sigma ->
  stepped timeline (pace_fn timeline) t0 T h d -> h <= delta -> (N + len (pace_fn timeline) <= fuel)%nat -> nth_error timeline i = Some ti ->
  let run (g : G) := sde_call Rminus (ou_process (I := I) (at_step s) gi vshape paths x0 args) 0 pace_fn fuel (g, inf) [N] timeline in
  Rabs (L d (fun g => at_most y (value_at (run g) i ix)) - p) <= eps.
Proof using HC.
  intros BT BK BS BX HT H0 HI K0 S0 EP.
  assert (CA : forall a : arr R, broadcasts (shp a) w -> continuous_array w (fun _ => a)) by (intros a B; split; [auto|intros; apply continuous_const]).
  destruct (P_tval.C74_constant (bget x0 ix) (bget theta ix) (bget k ix) (bget sigma ix) (bget k ix) (bget k ix) (bget sigma ix * bget sigma ix) t0 ti ti ltac:(lra) ltac:(lra)) as [E1 E2].
  assert (VP : 0 < oruh_var (bget x0 ix) (bget theta ix) (bget k ix) (bget sigma ix) (ti - t0)) by (apply oruh_var_pos; auto; lra).
  rewrite (revert_oruh (bget x0 ix) (bget theta ix)) in E2 by exact K0.
  destruct (C81_oruh_limit x0 (fun _ => theta) (fun _ => k) (fun _ => sigma) t0 T ti ix y eps (CA _ BT) (CA _ BK) (CA _ BS) BX HT ltac:(lra) HI EP) as (delta & DP & H).
  - rewrite E2. exact VP.
  - rewrite E1, E2 in H. eexists. exists delta. split; [|split; [exact DP|]].
    + unfold oruh_cdf. apply norm_cdf_eq. apply sqrt_lt_R0. exact VP.
    + intros G I L normal mvnormal s gi args pace_fn fuel inf timeline h d i N HS AT AK AS. exact (H G I L normal mvnormal s gi args pace_fn fuel inf timeline h d i HS (const_var _ _ _ AT) (const_var _ _ _ AK) (const_var _ _ _ AS)).
Qed.
(** Wiener and lognormal processes with parameters that depend on time *)
Theorem C81_wiener_limit (x0 : arr R) (mu sigma : R -> arr R) t0 T ti ix y eps :
  continuous_array w mu -> continuous_array w sigma -> broadcasts (shp x0) w -> 0 <= T -> t0 <= ti -> inb w ix -> 0 < eps ->
  let m0 := bget x0 ix + RInt (fun t => bget (mu t) ix) t0 ti in
  let v0 := RInt (fun t => bget (sigma t) ix * bget (sigma t) ix) t0 ti in
  0 < v0 ->
  exists delta, 0 < delta /\ forall (G I : Type) (L : nat -> (G -> R) -> R) normal mvnormal s gi args pace_fn fuel (inf : I) (timeline : list R) h d i,
  let N := len timeline in
  noise_source L normal mvnormal anti INone INone ic n paths vshape s -> var_arg args "mu" mu -> var_arg args "sigma" sigma ->
  stepped timeline (pace_fn timeline) t0 T h d -> h <= delta -> (N + len (pace_fn timeline) <= fuel)%nat -> nth_error timeline i = Some ti ->
  let run (g : G) := sde_call Rminus (wiener_process (I := I) (at_step s) gi vshape paths x0 args) 0 pace_fn fuel (g, inf) [N] timeline in
  Rabs (L d (fun g => at_most y (value_at (run g) i ix)) - F ((y - m0) / sqrt v0)) <= eps.
Proof using HC.
  intros KM KS BX HT H0 HI EP m0 v0 VP. destruct (cdf_close F HC y m0 v0 VP eps EP) as (e1 & E1 & CL).
  destruct (wiener_near anti n paths vshape x0 mu sigma t0 T ti ix e1 KM KS BX HT H0 HI E1) as (_ & delta & DP & H). exists delta. split; [exact DP|].
  intros G I L normal mvnormal s gi args pace_fn fuel inf timeline h d i N HS AM AS ST Hh HF Hi run.
  destruct (H G I L normal mvnormal s gi args pace_fn fuel inf timeline h d i HS AM AS ST Hh HF Hi) as (m' & v' & VP' & NM & NV & R2).
  eapply Rle_trans; [apply Req_le; exact (f_equal (fun z => Rabs (z - _)) (R2 (at_most y) (ind_cok y)))|]. cbv beta. apply (CL m' v'); auto.
Qed.
Theorem C81_lognorm_limit (x0 : arr R) (mu sigma : R -> arr R) t0 T ti ix y eps :
  continuous_array w mu -> continuous_array w sigma -> broadcasts (shp x0) w -> (forall ix, inb w ix -> 0 < bget x0 ix) -> 0 <= T -> t0 <= ti -> inb w ix -> 0 < y -> 0 < eps ->
  let m0 := ln (bget x0 ix) + RInt (fun t => bget (mu t) ix - bget (sigma t) ix * bget (sigma t) ix / 2) t0 ti in
  let v0 := RInt (fun t => bget (sigma t) ix * bget (sigma t) ix) t0 ti in
  0 < v0 ->
  exists delta, 0 < delta /\ forall (G I : Type) (L : nat -> (G -> R) -> R) normal mvnormal s gi args pace_fn fuel (inf : I) (timeline : list R) h d i,
  let N := len timeline in
  noise_source L normal mvnormal anti INone INone ic n paths vshape s -> var_arg args "mu" mu -> var_arg args "sigma" sigma ->
  stepped timeline (pace_fn timeline) t0 T h d -> h <= delta -> (N + len (pace_fn timeline) <= fuel)%nat -> nth_error timeline i = Some ti ->
  let run (g : G) := sde_call Rminus (lognorm_process (I := I) (at_step s) gi vshape paths x0 args) 0 pace_fn fuel (g, inf) [N] timeline in
  Rabs (L d (fun g => at_most y (value_at (run g) i ix)) - F ((ln y - m0) / sqrt v0)) <= eps.
Proof using HC.
  intros KM KS BX XP HT H0 HI YP EP m0 v0 VP. destruct (cdf_close F HC (ln y) m0 v0 VP eps EP) as (e1 & E1 & CL).
  destruct (lognorm_near anti n paths vshape x0 mu sigma t0 T ti ix e1 KM KS BX XP HT H0 HI E1) as (_ & delta & DP & H). exists delta. split; [exact DP|].
  intros G I L normal mvnormal s gi args pace_fn fuel inf timeline h d i N HS AM AS ST Hh HF Hi run.
  destruct (H G I L normal mvnormal s gi args pace_fn fuel inf timeline h d i HS AM AS ST Hh HF Hi) as (m' & v' & VP' & NM & NV & R2).
  eapply Rle_trans; [apply Req_le; exact (f_equal (fun z => Rabs (z - _)) (R2 (at_most y) (ind_exp_cok y)))|]. cbv beta.
  rewrite (EN_ext _ (fun z => at_most (ln y) (m' + sqrt v' * z))) by (intro z; rewrite at_most_exp; destruct (Rlt_dec 0 y); [reflexivity|contradiction]). apply (CL m' v'); auto.
Qed.
End Limits.
Print Assumptions C81_oruh_limit.
Print Assumptions C81_oruh.
Print Assumptions C81_wiener_limit.
Print Assumptions C81_lognorm_limit.

(** *** Examples *)
Section Ex.
Let law := the_law [].
Lemma half F : std_normal_cdf F -> F 0 = 1/2.
Proof. intro H. assert (X := cdf_sym F H 0). rewrite Ropp_0 in X. lra. Qed.
(** 100 Wiener paths, from 2, with any number of steps: the fraction of the values at time 1 not above 2 has mean 1/2 and mean
    square error 1/400 *)
Example C81_ex_fraction n s : (0 < n)%nat -> source_dw (the_normal []) (the_mvnormal []) GNone INone INone 100 [] = Ok s ->
  let pc := pace ex_linspace (StepsScalar n) in let d := (2 + len (pc [0%R; 1%R]))%nat in
  let X g j := value_at (sde_call Rminus (wiener_process (I := unit) (at_step s) false [] 100 (ascalar 2) (ex_const 0 1)) 0 pc d (g, tt) [2%nat] [0; 1]) 1 [j] in
  let fraction g := rsum (fun j => at_most 2 (X g j)) (seq 0 100) / INR 100 in
  law d fraction = 1/2 /\ law d (fun g => (fraction g - 1/2)^2) = 1/400.
Proof.
  intros Hn HS pc d X fraction. assert (HN := P_tval.ex_noise false 100 s HS). cbv iota in HN. set (F := fun x => Phi x + 1/2). assert (HC : std_normal_cdf F) by apply cdf_exists.
  destruct (C81_wiener_fraction (I := unit) law (the_normal []) (the_mvnormal []) false _ 100 100 [] s HN (ascalar 2) (ascalar 0) (ascalar 1) (ex_const 0 1) eq_refl eq_refl (ex_b 2 _) (ex_b 0 _) (ex_b 1 _)
    pc d false tt [0; 1] 0 d (ex_tl 1 ltac:(lra)) eq_refl (le_n _) (le_n _) F HC 1%nat 1 [] 2 2 0 1 eq_refl (the_normal_sums [] _) ltac:(lia) eq_refl ltac:(lra) (Forall2_nil _) ltac:(lra)
    (fun j _ => conj eq_refl (conj eq_refl eq_refl))) as (p & P1 & P2 & P3).
  assert (Q : p = 1/2).
  { unfold wiener_cdf in P1. cbv zeta in P1. replace (1 - 0) with 1 in P1 by ring. rewrite sqrt_1, norm_cdf_eq in P1 by lra. injection P1 as <-. replace ((2 - (2 + 0*1))/(1*1)) with 0 by field. apply (half F HC). }
  rewrite Q in *. split; [exact P2|]. etransitivity; [exact P3|]. rewrite INR_IZR_INZ. change (Z.of_nat 100) with 100%Z. field.
Qed.
(** mean-reverting paths from their long-term level: the probability of ending above it is close to 1/2, with short steps *)
Example C81_ex_oruh F : std_normal_cdf F -> oruh_cdf F 2 2 1 3 1 2 = Some (1/2) /\ lognorm_cdf F 1 (1/2) 1 1 1 = Some (1/2) /\ lognorm_cdf F 1 0 1 1 0 = Some 0.
Proof.
  intro HC. assert (H := half F HC). split; [|split].
  - unfold oruh_cdf. rewrite norm_cdf_eq by (apply sqrt_lt_R0, oruh_var_pos; lra). f_equal. unfold oruh_mean. replace (2 - _) with 0 by ring. unfold Rdiv. rewrite Rmult_0_l. exact H.
  - unfold lognorm_cdf. cbv zeta. rewrite sqrt_1. replace (1 / 2 * 1 - 1 * 1 * (1 * 1) / 2) with 0 by field. rewrite exp_0, sp_cdf_eq by lra. unfold lcdf. destruct (Rlt_dec 0 1); [|lra]. rewrite Rmult_1_l. replace (1/1) with 1 by field. rewrite ln_1. f_equal. unfold Rdiv. rewrite Rmult_0_l. exact H.
  - unfold lognorm_cdf. cbv zeta. rewrite sqrt_1, Rmult_1_l, sp_cdf_eq by (try lra; rewrite Rmult_1_l; apply exp_pos). unfold lcdf. destruct (Rlt_dec 0 0); [lra|reflexivity].
Qed.
End Ex.
