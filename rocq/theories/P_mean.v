(** C80: means of functions of the values given by integrations of linear equations, whatever the steps: values of Wiener and
    lognormal processes have exactly the law of the process, values on different paths are independent, averages of payoffs
    estimate Black-Scholes prices without bias, and their variance is that of one payoff over the number of paths. Means of
    functions of Ornstein-Uhlenbeck processes approach those of the process as steps get shorter. *)
From Coq Require Import String List Arith Bool ZArith Reals Lra Lia.
From Coquelicot Require Import Coquelicot.
From Verif Require Import Base BaseOrd BaseNum BaseArr M_paths S_paths S_run L_ord L_paths8
  M_process M_source S_source M_sde S_sde L_sde L_sde2 L_sde3 M_presets S_presets L_presets M_integrate S_integrate P_source4 S_true2 S_euler L_euler L_euler2
  BaseNd BaseIdx S_process L_nd L_pack L_process P_source2 P_source3 M_rv S_rv M_analytical S_analytical M_dist S_dist L_gauss L_gauss2 L_dist P_dist P_bs P_price M_anti S_law P_chf L_law L_law2 L_law4 L_law5 L_law8 S_gval L_gval L_gval2 L_gval3 L_gval4 L_gval5 L_gval6 P_gval
  S_tval L_tval L_tval2 L_tval3 L_tval4 L_tval5 L_tval6 L_gop L_cirop L_nrun L_cirrun S_mean L_conv L_cok L_tame L_meanrun L_meanlaw L_est.
From Verif Require P_euler P_tval.
Import ListNotations.
Open Scope R_scope.
Local Notation len := List.length.

Lemma nmean_EN m s f v : normal_mean m s f v -> EN (fun z => f (m + s * z)) = v.
Proof. intro H. apply EN_eq. exact H. Qed.
Lemma EN_nmean m s f : tame f -> normal_mean m s f (EN (fun z => f (m + s * z))).
Proof. intro T. apply EN_ok, tame_aff, T. Qed.
Lemma tame_comp_exp f : exp_growth (fun x => f (exp x)) -> tame (fun x => f (exp x)).
Proof. intro H. apply tame_growth. exact H. Qed.
Lemma const_var args k a : const_arg (V := R) args k a -> var_arg args k (fun _ => a).
Proof. intro H. exists (PConst a). split; [exact H|reflexivity]. Qed.

(** *** exact laws, for any timeline and any steps, antithetic or not *)
Section Exact.
Context {G I : Type}.
Variables (L : nat -> (G -> R) -> R) (normal : list nat -> G -> res (arr R) * G) (mvnormal : arr R -> list nat -> G -> res (arr R) * G).
Variables (anti : bool) (c : R -> nat -> nat -> R) (n paths : nat) (vshape : list nat) (s : src (V := R) (G := G) (arr R)).
Hypothesis HS : noise_source L normal mvnormal anti INone INone c n paths vshape s.
Let w := (vshape ++ [paths])%list.
Variables (x0 mu sigma : arr R) (args : dict (M_sde.param R R)).
Hypothesis CM : const_arg args "mu" mu.
Hypothesis CS : const_arg args "sigma" sigma.
Hypothesis BX : broadcasts (shp x0) w.
Hypothesis BM : broadcasts (shp mu) w.
Hypothesis BS : broadcasts (shp sigma) w.
Variables (pace_fn : list R -> list R) (fuel : nat) (gi : bool) (inf : I) (timeline : list R) (t0 : R) (d : nat).
Hypothesis V0 : valid_timeline timeline.
Hypothesis N0 : nth_error timeline 0 = Some t0.
Let N := len timeline.
Hypothesis HF : (N + len (pace_fn timeline) <= fuel)%nat.
Hypothesis Hd : (N + len (pace_fn timeline) <= d)%nat.
Lemma at_time i ti : nth_error timeline i = Some ti -> (i < N)%nat /\ nth i timeline 0 = ti.
Proof using. intro H. split; [apply nth_error_Some; rewrite H; discriminate|apply nth_error_nth; exact H]. Qed.

(** *** Wiener processes *)
Let runw g := sde_call Rminus (wiener_process (I := I) (at_step s) gi vshape paths x0 args) 0 pace_fn fuel (g, inf) [N] timeline.
Let mw ix t := wiener_mean (bget x0 ix) (bget mu ix) (bget sigma ix) t.
Let vw ix t := wiener_var (bget x0 ix) (bget mu ix) (bget sigma ix) t.
Lemma wiener_all : (forall g, exists s' xx, runw g = Ok (s', xx)) /\ forall i ti, nth_error timeline i = Some ti ->
  (forall ix f, inb w ix -> cok f -> L d (fun g => f (value_at (runw g) i ix)) = EN (fun z => f (mw ix (ti - t0) + sqrt (vw ix (ti - t0)) * z))) /\
  (anti = false -> forall f, (forall ix, inb w ix -> cok (f ix)) ->
     L d (fun g => rprod (fun ix => f ix (value_at (runw g) i ix)) (ndindex w)) = rprod (fun ix => EN (fun z => f ix (mw ix (ti - t0) + sqrt (vw ix (ti - t0)) * z))) (ndindex w)) /\
  (anti = false -> normal_sums L normal w -> forall K u f, (forall k ix, (k < K)%nat -> inb w ix -> cok (f k ix)) ->
     L d (fun g => rsum (fun k => u k * rprod (fun ix => f k ix (value_at (runw g) i ix)) (ndindex w)) (seq 0 K)) =
     rsum (fun k => u k * rprod (fun ix => EN (fun z => f k ix (mw ix (ti - t0) + sqrt (vw ix (ti - t0)) * z))) (ndindex w)) (seq 0 K)).
Proof using HS CM CS BX BM BS V0 N0 HF Hd.
  destruct (lin_law (I := I) L normal mvnormal anti c n paths vshape s HS wiener_sde false gi x0 (fun _ => sigma) args (fun _ => bget mu) (fun _ _ => 0) BX
    (wiener_drift_at w args _ _ (const_var _ _ _ CM) (const_var _ _ _ CS) (fun _ => BM) (fun _ => BS)) pace_fn fuel inf timeline t0 V0 N0 HF) as (R1 & m & v & _ & FL & R2 & R3 & R4).
  split; [exact R1|]. intros i ti Hi. destruct (at_time i ti Hi) as [LI ET]. unfold mw, vw, wiener_mean, wiener_var.
  assert (F : forall ix, m i ix = bget x0 ix + bget mu ix * (ti - t0) /\ v i ix = bget sigma ix * bget sigma ix * (ti - t0)).
  { intro ix. rewrite <- ET. apply (FL (bget mu ix) (bget sigma ix) ix); auto. }
  split; [|split].
  - intros ix f HI TF. destruct (F ix) as [<- <-]. exact (R2 i ix f d LI HI TF Hd).
  - intros EA f TF. etransitivity; [exact (R3 EA i f d LI TF Hd)|]. apply rprod_ext. intros ix _. destruct (F ix) as [-> ->]. reflexivity.
  - intros EA NS K u f TF. etransitivity; [exact (R4 EA NS i K u f d LI TF Hd)|]. apply rsum_ext. intros k _. f_equal. apply rprod_ext. intros ix _. destruct (F ix) as [-> ->]. reflexivity.
Qed.
Theorem C80_wiener : (forall g, exists s' xx, runw g = Ok (s', xx)) /\
  forall i ti ix f, nth_error timeline i = Some ti -> inb w ix -> exp_growth f ->
    normal_mean (wiener_mean (bget x0 ix) (bget mu ix) (bget sigma ix) (ti - t0)) (sqrt (wiener_var (bget x0 ix) (bget mu ix) (bget sigma ix) (ti - t0))) f
      (L d (fun g => f (value_at (runw g) i ix))).
Proof using HS CM CS BX BM BS V0 N0 HF Hd.
  destruct wiener_all as [R1 R2]. split; [exact R1|]. intros i ti ix f Hi HI HG. apply tame_growth in HG. destruct (R2 i ti Hi) as (X & _). rewrite (X ix f HI (tame_cok _ HG)). apply EN_nmean. exact HG.
Qed.
(** all entries are independent, at any time of the timeline *)
Theorem C80_wiener_independent : anti = false -> forall i ti f v, nth_error timeline i = Some ti ->
  (forall ix, inb w ix -> exp_growth (f ix) /\
    normal_mean (wiener_mean (bget x0 ix) (bget mu ix) (bget sigma ix) (ti - t0)) (sqrt (wiener_var (bget x0 ix) (bget mu ix) (bget sigma ix) (ti - t0))) (f ix) (v ix)) ->
  L d (fun g => rprod (fun ix => f ix (value_at (runw g) i ix)) (ndindex w)) = rprod v (ndindex w).
Proof using HS CM CS BX BM BS V0 N0 HF Hd.
  intros EA i ti f v Hi HG. destruct wiener_all as [R1 R2]. destruct (R2 i ti Hi) as (_ & X & _). rewrite (X EA f) by (intros ix HI; apply tame_cok, tame_growth, HG, HI).
  apply rprod_ext. intros ix HI. apply in_ndindex in HI. apply nmean_EN. apply HG. exact HI.
Qed.
(** with the density given by wiener_pdf *)
Theorem C80_wiener_pdf i ti ix f : nth_error timeline i = Some ti -> inb w ix -> 0 < bget sigma ix -> t0 < ti -> exp_growth f ->
  exists p, (forall x, wiener_pdf (bget x0 ix) (bget mu ix) (bget sigma ix) (ti - t0) x = Some (p x)) /\
    line (fun x => f x * p x) (L d (fun g => f (value_at (runw g) i ix))).
Proof using HS CM CS BX BM BS V0 N0 HF Hd.
  intros Hi HI S T HG. destruct C80_wiener as [_ X]. specialize (X i ti ix f Hi HI HG). set (m := wiener_mean (bget x0 ix) (bget mu ix) (bget sigma ix) (ti - t0)) in *. set (sd := sqrt (wiener_var (bget x0 ix) (bget mu ix) (bget sigma ix) (ti - t0))) in *.
  assert (ES : bget sigma ix * sqrt (ti - t0) = sd) by (apply sqrt_scale; lra).
  assert (SP : 0 < sd) by (rewrite <- ES; apply Rmult_lt_0_compat; [exact S|apply sqrt_lt_R0; lra]).
  exists (npdf m sd). split.
  - intro x. unfold wiener_pdf. cbv zeta. rewrite ES. apply norm_pdf_eq. exact SP.
  - apply (normal_line m sd (fun z => f (m + sd * z))); [exact SP| |exact X|].
    + intro z. apply (continuous_comp (fun z => m + sd * z) f); [apply (ex_derive_continuous (V := R_NormedModule)); auto_derive; auto|apply HG].
    + intro x. do 2 f_equal. field. lra.
Qed.
(** the average over paths estimates the mean without bias, and its variance is the variance of one value over the number of
    paths *)
Theorem C80_wiener_average i ti r f x a sg : anti = false -> normal_sums L normal w -> (0 < paths)%nat -> nth_error timeline i = Some ti -> inb vshape r -> exp_growth f ->
  (forall j, (j < paths)%nat -> bget x0 (r ++ [j]) = x /\ bget mu (r ++ [j]) = a /\ bget sigma (r ++ [j]) = sg) ->
  forall v v2, normal_mean (wiener_mean x a sg (ti - t0)) (sqrt (wiener_var x a sg (ti - t0))) f v ->
    normal_mean (wiener_mean x a sg (ti - t0)) (sqrt (wiener_var x a sg (ti - t0))) (fun y => f y * f y) v2 ->
    let est g := rsum (fun j => f (value_at (runw g) i (r ++ [j]))) (seq 0 paths) / INR paths in
    L d est = v /\ L d (fun g => (est g - v)^2) = (v2 - v^2) / INR paths.
Proof using HS CM CS BX BM BS V0 N0 HF Hd.
  intros EA NS HP Hi Hr HG HE v v2 M1 M2 est. destruct wiener_all as [R1 R2]. destruct (R2 i ti Hi) as (_ & _ & X).
  apply tame_growth in HG. apply nmean_EN in M1. apply nmean_EN in M2. rewrite <- M1, <- M2.
  apply (average (L d) w (fun g => value_at (runw g) i) (fun x => x) (fun ix => mw ix (ti - t0)) (fun ix => vw ix (ti - t0)) (proj1 (proj1 HS) d) (X EA NS) paths (fun j => r ++ [j])%list f); auto.
  - intros j Hj. destruct (HE j Hj) as (E1 & E2 & E3). split; [apply inb_app; auto; repeat constructor; lia|]. unfold mw, vw. rewrite E1, E2, E3. auto.
  - intros a1 b1 _ _ E. apply app_inv_head in E. injection E. auto.
  - apply tame_cok. exact HG.
  - apply tame_cok. exact (tame_mult _ _ HG HG).
Qed.

(** *** lognormal processes *)
Hypothesis XP : forall ix, inb w ix -> 0 < bget x0 ix.
Let runl g := sde_call Rminus (lognorm_process (I := I) (at_step s) gi vshape paths x0 args) 0 pace_fn fuel (g, inf) [N] timeline.
Let ml ix t := ln (bget x0 ix) + (bget mu ix - bget sigma ix * bget sigma ix / 2) * t.
Let vl ix t := bget sigma ix * bget sigma ix * t.
Lemma lognorm_all : (forall g, exists s' xx, runl g = Ok (s', xx)) /\ forall i ti, nth_error timeline i = Some ti ->
  (forall ix f, inb w ix -> cok (fun x => f (exp x)) -> L d (fun g => f (value_at (runl g) i ix)) = EN (fun z => f (exp (ml ix (ti - t0) + sqrt (vl ix (ti - t0)) * z)))) /\
  (anti = false -> forall f, (forall ix, inb w ix -> cok (fun x => f ix (exp x))) ->
     L d (fun g => rprod (fun ix => f ix (value_at (runl g) i ix)) (ndindex w)) = rprod (fun ix => EN (fun z => f ix (exp (ml ix (ti - t0) + sqrt (vl ix (ti - t0)) * z)))) (ndindex w)) /\
  (anti = false -> normal_sums L normal w -> forall K u f, (forall k ix, (k < K)%nat -> inb w ix -> cok (fun x => f k ix (exp x))) ->
     L d (fun g => rsum (fun k => u k * rprod (fun ix => f k ix (value_at (runl g) i ix)) (ndindex w)) (seq 0 K)) =
     rsum (fun k => u k * rprod (fun ix => EN (fun z => f k ix (exp (ml ix (ti - t0) + sqrt (vl ix (ti - t0)) * z)))) (ndindex w)) (seq 0 K)).
Proof using HS CM CS BX BM BS V0 N0 HF Hd.
  destruct (lin_law (I := I) L normal mvnormal anti c n paths vshape s HS lognorm_sde true gi x0 (fun _ => sigma) args (fun _ ix => bget mu ix - bget sigma ix * bget sigma ix / 2) (fun _ _ => 0) BX
    (lognorm_drift_at w args _ _ (const_var _ _ _ CM) (const_var _ _ _ CS) (fun _ => BM) (fun _ => BS)) pace_fn fuel inf timeline t0 V0 N0 HF) as (R1 & m & v & _ & FL & R2 & R3 & R4).
  split; [exact R1|]. intros i ti Hi. destruct (at_time i ti Hi) as [LI ET]. unfold ml, vl.
  assert (F : forall ix, m i ix = ln (bget x0 ix) + (bget mu ix - bget sigma ix * bget sigma ix / 2) * (ti - t0) /\ v i ix = bget sigma ix * bget sigma ix * (ti - t0)).
  { intro ix. rewrite <- ET. apply (FL (bget mu ix - bget sigma ix * bget sigma ix / 2) (bget sigma ix) ix); auto. }
  split; [|split].
  - intros ix f HI TF. destruct (F ix) as [<- <-]. exact (R2 i ix f d LI HI TF Hd).
  - intros EA f TF. etransitivity; [exact (R3 EA i f d LI TF Hd)|]. apply rprod_ext. intros ix _. destruct (F ix) as [-> ->]. reflexivity.
  - intros EA NS K u f TF. etransitivity; [exact (R4 EA NS i K u f d LI TF Hd)|]. apply rsum_ext. intros k _. f_equal. apply rprod_ext. intros ix _. destruct (F ix) as [-> ->]. reflexivity.
Qed.
(** f may grow as any power *)
Theorem C80_lognorm : (forall g, exists s' xx, runl g = Ok (s', xx)) /\
  forall i ti ix f, nth_error timeline i = Some ti -> inb w ix -> exp_growth (fun x => f (exp x)) ->
    normal_mean (ln (bget x0 ix) + (bget mu ix - bget sigma ix * bget sigma ix / 2) * (ti - t0)) (sqrt (bget sigma ix * bget sigma ix * (ti - t0))) (fun x => f (exp x))
      (L d (fun g => f (value_at (runl g) i ix))).
Proof using HS CM CS BX BM BS V0 N0 HF Hd.
  destruct lognorm_all as [R1 R2]. split; [exact R1|]. intros i ti ix f Hi HI HG. apply tame_growth in HG. destruct (R2 i ti Hi) as (X & _). rewrite (X ix f HI (tame_cok _ HG)).
  apply (EN_nmean _ _ (fun x => f (exp x))). exact HG.
Qed.
Theorem C80_lognorm_independent : anti = false -> forall i ti f v, nth_error timeline i = Some ti ->
  (forall ix, inb w ix -> exp_growth (fun x => f ix (exp x)) /\
    normal_mean (ln (bget x0 ix) + (bget mu ix - bget sigma ix * bget sigma ix / 2) * (ti - t0)) (sqrt (bget sigma ix * bget sigma ix * (ti - t0))) (fun x => f ix (exp x)) (v ix)) ->
  L d (fun g => rprod (fun ix => f ix (value_at (runl g) i ix)) (ndindex w)) = rprod v (ndindex w).
Proof using HS CM CS BX BM BS V0 N0 HF Hd.
  intros EA i ti f v Hi HG. destruct lognorm_all as [R1 R2]. destruct (R2 i ti Hi) as (_ & X & _). rewrite (X EA f) by (intros ix HI; apply tame_cok, tame_comp_exp, HG, HI).
  apply rprod_ext. intros ix HI. apply in_ndindex in HI. destruct (HG ix HI) as [_ M]. apply nmean_EN in M. exact M.
Qed.
(** with the density given by lognorm_pdf *)
Theorem C80_lognorm_pdf i ti ix f : nth_error timeline i = Some ti -> inb w ix -> 0 < bget sigma ix -> t0 < ti -> exp_growth (fun x => f (exp x)) ->
  exists p, (forall x, lognorm_pdf (bget x0 ix) (bget mu ix) (bget sigma ix) (ti - t0) x = Some (p x)) /\
    half_line (fun x => f x * p x) (L d (fun g => f (value_at (runl g) i ix))).
Proof using HS CM CS BX BM BS V0 N0 HF Hd XP.
  intros Hi HI S T HG. destruct C80_lognorm as [_ X]. specialize (X i ti ix f Hi HI HG).
  set (sd := bget sigma ix * sqrt (ti - t0)). set (cc := bget x0 ix * exp (bget mu ix * (ti - t0) - sd * sd / 2)).
  assert (SP : 0 < sd) by (apply Rmult_lt_0_compat; [exact S|apply sqrt_lt_R0; lra]).
  assert (XI := XP ix HI). assert (CP : 0 < cc) by (apply Rmult_lt_0_compat; [exact XI|apply exp_pos]).
  assert (ES : sd = sqrt (bget sigma ix * bget sigma ix * (ti - t0))) by (apply sqrt_scale; lra).
  assert (SS : sd * sd = bget sigma ix * bget sigma ix * (ti - t0)) by (rewrite ES; apply sqrt_sqrt; apply Rmult_le_pos; [apply Rle_0_sqr|lra]).
  assert (EM : ln (bget x0 ix) + (bget mu ix - bget sigma ix * bget sigma ix / 2) * (ti - t0) = ln cc).
  { unfold cc. rewrite ln_mult, ln_exp by (auto; apply exp_pos). rewrite SS. field. }
  rewrite EM, <- ES in X.
  exists (lpdf cc sd). split.
  - intro x. unfold lognorm_pdf. cbv zeta. apply sp_pdf_eq; auto.
  - apply (lognormal_line cc sd (fun z => f (exp (ln cc + sd * z)))); [exact CP|exact SP| |exact X|].
    + intro z. apply (continuous_comp (fun z => ln cc + sd * z) (fun x => f (exp x))); [apply (ex_derive_continuous (V := R_NormedModule)); auto_derive; auto|apply HG].
    + intros x Hx. do 2 f_equal. rewrite <- (exp_ln x) at 1 by exact Hx. f_equal. rewrite ln_div by auto. field. lra.
Qed.
Theorem C80_lognorm_average i ti r f x a sg : anti = false -> normal_sums L normal w -> (0 < paths)%nat -> nth_error timeline i = Some ti -> inb vshape r -> exp_growth (fun x => f (exp x)) ->
  (forall j, (j < paths)%nat -> bget x0 (r ++ [j]) = x /\ bget mu (r ++ [j]) = a /\ bget sigma (r ++ [j]) = sg) ->
  forall v v2, normal_mean (ln x + (a - sg * sg / 2) * (ti - t0)) (sqrt (sg * sg * (ti - t0))) (fun x => f (exp x)) v ->
    normal_mean (ln x + (a - sg * sg / 2) * (ti - t0)) (sqrt (sg * sg * (ti - t0))) (fun x => f (exp x) * f (exp x)) v2 ->
    let est g := rsum (fun j => f (value_at (runl g) i (r ++ [j]))) (seq 0 paths) / INR paths in
    L d est = v /\ L d (fun g => (est g - v)^2) = (v2 - v^2) / INR paths.
Proof using HS CM CS BX BM BS V0 N0 HF Hd.
  intros EA NS HP Hi Hr HG HE v v2 M1 M2 est. destruct lognorm_all as [R1 R2]. destruct (R2 i ti Hi) as (_ & _ & X).
  apply tame_growth in HG. apply nmean_EN in M1. apply nmean_EN in M2. rewrite <- M1, <- M2.
  apply (average (L d) w (fun g => value_at (runl g) i) exp (fun ix => ml ix (ti - t0)) (fun ix => vl ix (ti - t0)) (proj1 (proj1 HS) d) (X EA NS) paths (fun j => r ++ [j])%list f); auto.
  - intros j Hj. destruct (HE j Hj) as (E1 & E2 & E3). split; [apply inb_app; auto; repeat constructor; lia|]. unfold ml, vl. rewrite E1, E2, E3. auto.
  - intros a1 b1 _ _ E. apply app_inv_head in E. injection E. auto.
  - apply tame_cok. exact HG.
  - apply tame_cok. exact (tame_mult _ _ HG HG).
Qed.

(** *** prices *)
Lemma payoff_growth k : exp_growth (fun x => Rmax (exp x - k) 0) /\ exp_growth (fun x => Rmax (k - exp x) 0).
Proof using.
  assert (T : tame (fun x => exp x)). { eapply tame_ext; [|apply (tame_exp 0 1)]. intro. cbv beta. f_equal. ring. }
  assert (TM : forall f, tame f -> tame (fun x => Rmax (f x) 0)).
  { intros f (Cf & C & c' & C0 & c0 & D). split.
    - intro x. apply (continuous_comp f (fun y => Rmax y 0)); [apply Cf|]. apply (proj1 tame_max).
    - exists C, c'. repeat split; auto. intro x. eapply Rle_trans; [|apply D]. unfold Rmax. destruct (Rle_dec (f x) 0); [rewrite Rabs_R0; apply Rabs_pos|lra]. }
  split; apply tame_growth; apply TM; apply tame_minus; auto; apply tame_const.
Qed.
(** the mean of the discounted payoff is the price *)
Theorem C80_call F k r q i ti ix : std_normal_cdf F -> 0 < k -> nth_error timeline i = Some ti -> inb w ix -> 0 < bget sigma ix -> t0 < ti -> bget mu ix = r - q ->
  bscall F k (ti - t0) (bget x0 ix) r q (bget sigma ix) = Ok (exp (- (r * (ti - t0))) * L d (fun g => Rmax (value_at (runl g) i ix - k) 0)).
Proof using HS CM CS BX BM BS V0 N0 HF Hd XP.
  intros HC HK Hi HI S T EM. assert (XI := XP ix HI).
  destruct (C65_call F k (ti - t0) (bget x0 ix) r q (bget sigma ix) HC HK ltac:(lra) XI S) as (p & v & H1 & H2 & H3). rewrite H3. do 2 f_equal.
  destruct (C80_lognorm_pdf i ti ix (fun x => Rmax (x - k) 0) Hi HI S T (proj1 (payoff_growth k))) as (p' & H1' & H2').
  assert (EP : forall x, p' x = p x). { intro x. specialize (H1 x). specialize (H1' x). rewrite EM, H1 in H1'. injection H1' as ->. reflexivity. }
  unfold half_line in *. rewrite <- (is_RInt_gen_unique _ _ H2). rewrite <- (is_RInt_gen_unique _ _ H2'). f_equal. apply FunctionalExtensionality.functional_extensionality. intro x. rewrite EP. reflexivity.
Qed.
Theorem C80_put F k r q i ti ix : std_normal_cdf F -> 0 < k -> nth_error timeline i = Some ti -> inb w ix -> 0 < bget sigma ix -> t0 < ti -> bget mu ix = r - q ->
  bsput F k (ti - t0) (bget x0 ix) r q (bget sigma ix) = Ok (exp (- (r * (ti - t0))) * L d (fun g => Rmax (k - value_at (runl g) i ix) 0)).
Proof using HS CM CS BX BM BS V0 N0 HF Hd XP.
  intros HC HK Hi HI S T EM. assert (XI := XP ix HI).
  destruct (C65_put F k (ti - t0) (bget x0 ix) r q (bget sigma ix) HC HK ltac:(lra) XI S) as (p & v & H1 & H2 & H3). rewrite H3. do 2 f_equal.
  destruct (C80_lognorm_pdf i ti ix (fun x => Rmax (k - x) 0) Hi HI S T (proj2 (payoff_growth k))) as (p' & H1' & H2').
  assert (EP : forall x, p' x = p x). { intro x. specialize (H1 x). specialize (H1' x). rewrite EM, H1 in H1'. injection H1' as ->. reflexivity. }
  unfold half_line in *. rewrite <- (is_RInt_gen_unique _ _ H2). rewrite <- (is_RInt_gen_unique _ _ H2'). f_equal. apply FunctionalExtensionality.functional_extensionality. intro x. rewrite EP. reflexivity.
Qed.
(** the average of the discounted payoffs of all paths estimates the price, with a mean square error inversely proportional to
    the number of paths *)
Theorem C80_call_average F k rr q i ti r x sg : anti = false -> normal_sums L normal w -> (0 < paths)%nat -> std_normal_cdf F -> 0 < k -> nth_error timeline i = Some ti -> t0 < ti ->
  inb vshape r -> 0 < sg -> (forall j, (j < paths)%nat -> bget x0 (r ++ [j]) = x /\ bget mu (r ++ [j]) = rr - q /\ bget sigma (r ++ [j]) = sg) ->
  let est g := exp (- (rr * (ti - t0))) * (rsum (fun j => Rmax (value_at (runl g) i (r ++ [j]) - k) 0) (seq 0 paths) / INR paths) in
  exists price v2, bscall F k (ti - t0) x rr q sg = Ok price /\
    normal_mean (ln x + (rr - q - sg * sg / 2) * (ti - t0)) (sqrt (sg * sg * (ti - t0))) (fun x => (exp (- (rr * (ti - t0))) * Rmax (exp x - k) 0)^2) v2 /\
    L d est = price /\ L d (fun g => (est g - price)^2) = (v2 - price^2) / INR paths.
Proof using HS CM CS BX BM BS V0 N0 HF Hd XP.
  intros EA NS HP HC HK Hi T Hr S HE est. set (D := exp (- (rr * (ti - t0)))). set (f := fun y => D * Rmax (y - k) 0).
  assert (HG : exp_growth (fun x => f (exp x))). { apply tame_growth. apply (tame_scal D). apply tame_growth. apply payoff_growth. }
  assert (TF : tame (fun x => f (exp x))) by (apply tame_growth; exact HG).
  set (m := ln x + (rr - q - sg * sg / 2) * (ti - t0)). set (sd := sqrt (sg * sg * (ti - t0))).
  destruct (C80_lognorm_average i ti r f x (rr - q) sg EA NS HP Hi Hr HG HE _ _ (EN_nmean m sd _ TF) (EN_nmean m sd (fun x => f (exp x) * f (exp x)) (tame_mult _ _ TF TF))) as [A1 A2].
  set (v := EN (fun z => f (exp (m + sd * z)))) in *. set (v2 := EN (fun z => f (exp (m + sd * z)) * f (exp (m + sd * z)))) in *.
  assert (EG : forall g, est g = rsum (fun j => f (value_at (runl g) i (r ++ [j]))) (seq 0 paths) / INR paths).
  { intro g. unfold est, f. rewrite (rsum_scal (fun j => Rmax (value_at (runl g) i (r ++ [j]) - k) 0)). unfold D, Rdiv. ring. }
  assert (HI : inb w (r ++ [0%nat])) by (apply inb_app; auto; repeat constructor; lia). destruct (HE 0%nat HP) as (E1 & E2 & E3).
  exists v, v2. split; [|split; [|split]].
  - assert (X := C80_call F k rr q i ti (r ++ [0%nat])%list HC HK Hi HI ltac:(rewrite E3; exact S) T E2). rewrite E1, E3 in X. rewrite X. f_equal. fold D.
    destruct lognorm_all as [_ R2]. destruct (R2 i ti Hi) as (Y & _). rewrite (Y _ (fun y => Rmax (y - k) 0) HI) by (apply tame_cok, tame_growth, payoff_growth).
    unfold v, f. rewrite (EN_scal D (fun z => Rmax (exp (m + sd*z) - k) 0)) by (apply (tame_aff (fun x => Rmax (exp x - k) 0) m sd); apply tame_growth, payoff_growth).
    unfold ml, vl. rewrite E1, E2, E3. reflexivity.
  - assert (X := EN_nmean m sd (fun x => f (exp x) * f (exp x)) (tame_mult _ _ TF TF)). fold v2 in X. unfold normal_mean in *. eapply mean_ext; [exact X| |reflexivity]. intro z. unfold f. fold D. cbn [pow]. ring.
  - rewrite <- A1. apply (proj1 (proj1 HS)). exact EG.
  - rewrite <- A2. apply (proj1 (proj1 HS)). intro g. rewrite EG. reflexivity.
Qed.
End Exact.
Print Assumptions C80_wiener.
Print Assumptions C80_wiener_independent.
Print Assumptions C80_wiener_pdf.
Print Assumptions C80_wiener_average.
Print Assumptions C80_lognorm.
Print Assumptions C80_lognorm_independent.
Print Assumptions C80_lognorm_pdf.
Print Assumptions C80_lognorm_average.
Print Assumptions C80_call.
Print Assumptions C80_put.
Print Assumptions C80_call_average.

(** *** time dependent parameters: means approach those under the law of the process as steps get shorter *)
Lemma corr_1 anti n ix : path_corr anti n (fun i j => if Nat.eq_dec i j then 1 else 0) ix ix = 1.
Proof.
  assert (X : forall ix, entry_corr (fun i j => if Nat.eq_dec i j then 1 else 0) ix ix = 1).
  { intro jx. unfold entry_corr. destruct (rev jx) as [|p [|m r]].
    - destruct (list_eq_dec Nat.eq_dec [] []); congruence.
    - destruct (list_eq_dec Nat.eq_dec [p] [p]); congruence.
    - destruct (list_eq_dec Nat.eq_dec (p :: r) (p :: r)); [|congruence]. destruct (Nat.eq_dec m m); congruence. }
  unfold path_corr. destruct anti; [|apply X]. unfold antithetic. rewrite X. unfold half_sign. destruct (rev ix) as [|p r]; [ring|]. destruct (Nat.ltb p n); ring.
Qed.
Lemma cov_pos (k q : R -> R) t0 t : t0 <= t -> (forall t, continuous k t) -> (forall t, continuous q t) -> (forall t, 0 <= q t) -> 0 <= linear_cov k k q t0 t t.
Proof.
  intros H CK CQ PQ. unfold linear_cov. rewrite Rmin_left by lra. apply RInt_ge_0; [exact H| |].
  - apply (ex_RInt_continuous (V := R_CompleteNormedModule)). intros r _. apply (continuous_mult (K := R_AbsRing) (fun r => decay k r t * decay k r t) q); [|apply CQ].
    apply (continuous_mult (K := R_AbsRing) (fun r => decay k r t) (fun r => decay k r t)); apply decay_cont; exact CK.
  - intros r _. apply Rmult_le_pos; [|apply PQ]. apply Rmult_le_pos; left; apply exp_pos.
Qed.
Lemma cont_sq (a : R -> R) : (forall t, continuous a t) -> forall t, continuous (fun t => a t * a t) t.
Proof. intros H t. apply (continuous_mult (K := R_AbsRing) a a); apply H. Qed.
Section Limits.
Variables (anti : bool) (n paths : nat) (vshape : list nat).
Let w := (vshape ++ [paths])%list.
Let ic := fun (_ : R) (i j : nat) => if Nat.eq_dec i j then 1 else 0.
Lemma ic_cont : continuous_corr w (fun t => path_corr anti n (ic t)).
Proof using. intros ix jx _ _ t. apply continuous_const. Qed.

Lemma oruh_near (x0 : arr R) (theta k sigma : R -> arr R) t0 T ti ix e1 :
  continuous_array w theta -> continuous_array w k -> continuous_array w sigma -> broadcasts (shp x0) w -> 0 <= T -> t0 <= ti -> inb w ix -> 0 < e1 ->
  let m0 := linear_mean (bget x0 ix) (fun t => bget (k t) ix) (fun t => bget (k t) ix * bget (theta t) ix) t0 ti in
  let v0 := linear_cov (fun t => bget (k t) ix) (fun t => bget (k t) ix) (fun t => bget (sigma t) ix * bget (sigma t) ix) t0 ti ti in
  0 <= v0 /\
  exists delta, 0 < delta /\ forall (G I : Type) (L : nat -> (G -> R) -> R) normal mvnormal s gi args pace_fn fuel (inf : I) (timeline : list R) h d i,
  let N := len timeline in
  noise_source L normal mvnormal anti INone INone ic n paths vshape s -> var_arg args "theta" theta -> var_arg args "k" k -> var_arg args "sigma" sigma ->
  stepped timeline (pace_fn timeline) t0 T h d -> h <= delta -> (N + len (pace_fn timeline) <= fuel)%nat -> nth_error timeline i = Some ti ->
  let run (g : G) := sde_call Rminus (ou_process (I := I) (at_step s) gi vshape paths x0 args) 0 pace_fn fuel (g, inf) [N] timeline in
  exists m v, 0 <= v /\ Rabs (m - m0) <= e1 /\ Rabs (v - v0) <= e1 /\ forall f, cok f -> L d (fun g => f (value_at (run g) i ix)) = EN (fun z => f (m + sqrt v * z)).
Proof using.
  intros KT KK KS BX HT H0 HI E1 m0 v0.
  assert (VP : 0 <= v0). { apply cov_pos; [exact H0|apply KK, HI| |intro; apply Rle_0_sqr]. apply (cont_sq (fun t => bget (sigma t) ix)). apply KS, HI. }
  split; [exact VP|].
  destruct (P_tval.C74_oruh_limit anti n paths vshape ic x0 theta k sigma t0 T e1 KT KK KS ic_cont HT E1) as (delta & DP & H). exists delta. split; [exact DP|].
  intros G I L normal mvnormal s gi args pace_fn fuel inf timeline h d i N HS AT AK AS ST Hh HF Hi run. destruct ST as (V0 & N0 & ST).
  destruct (H G I L normal mvnormal INone INone s gi args pace_fn fuel inf timeline h d HS AT AK AS BX (conj V0 (conj N0 ST)) Hh HF) as (m & vv & GS & NR).
  assert (LI : (i < N)%nat) by (apply nth_error_Some; rewrite Hi; discriminate). assert (ET : nth i timeline 0 = ti) by (apply nth_error_nth; exact Hi).
  destruct (lin_law (I := I) L normal mvnormal anti ic n paths vshape s HS ou_sde false gi x0 sigma args _ _ BX
    (ou_drift_at w args _ _ _ AT AK AS (proj1 KT) (proj1 KK) (proj1 KS)) pace_fn fuel inf timeline t0 V0 N0 HF) as (R1 & m' & v' & VP' & _ & R2 & _).
  assert (Hd : (N + len (pace_fn timeline) <= d)%nat) by apply ST.
  destruct (gaussian_ident (L d) _ N w m vv (i, ix) (m' i ix) (v' i ix) (proj1 (proj1 HS) d) GS (in_entries N w i ix LI HI) (VP' i ix) (fun f TF => R2 i ix f d LI HI (tame_cok _ TF) Hd)) as [Q1 Q2].
  destruct (NR i ix LI HI) as [NM NV]. specialize (NV i ix LI HI). rewrite ET in NM, NV. cbv zeta in NV. rewrite Q1 in NM. rewrite Q2 in NV.
  assert (EV : linear_cov (fun t => bget (k t) ix) (fun t => bget (k t) ix) (fun t => bget (sigma t) ix * bget (sigma t) ix * path_corr anti n (ic t) ix ix) t0 ti ti = v0).
  { unfold v0. f_equal. apply FunctionalExtensionality.functional_extensionality. intro t. unfold ic. rewrite corr_1. ring. }
  rewrite EV in NV. exists (m' i ix), (v' i ix). split; [apply VP'|]. split; [exact NM|]. split; [exact NV|]. intros f TF. exact (R2 i ix f d LI HI TF Hd).
Qed.
Theorem C80_oruh_limit (x0 : arr R) (theta k sigma : R -> arr R) t0 T ti ix f v eps :
  continuous_array w theta -> continuous_array w k -> continuous_array w sigma -> broadcasts (shp x0) w -> 0 <= T -> t0 <= ti -> inb w ix -> exp_growth f -> 0 < eps ->
  normal_mean (linear_mean (bget x0 ix) (fun t => bget (k t) ix) (fun t => bget (k t) ix * bget (theta t) ix) t0 ti)
    (sqrt (linear_cov (fun t => bget (k t) ix) (fun t => bget (k t) ix) (fun t => bget (sigma t) ix * bget (sigma t) ix) t0 ti ti)) f v ->
  exists delta, 0 < delta /\ forall (G I : Type) (L : nat -> (G -> R) -> R) normal mvnormal s gi args pace_fn fuel (inf : I) (timeline : list R) h d i,
  let N := len timeline in
  noise_source L normal mvnormal anti INone INone ic n paths vshape s -> var_arg args "theta" theta -> var_arg args "k" k -> var_arg args "sigma" sigma ->
  stepped timeline (pace_fn timeline) t0 T h d -> h <= delta -> (N + len (pace_fn timeline) <= fuel)%nat -> nth_error timeline i = Some ti ->
  let run (g : G) := sde_call Rminus (ou_process (I := I) (at_step s) gi vshape paths x0 args) 0 pace_fn fuel (g, inf) [N] timeline in
  Rabs (L d (fun g => f (value_at (run g) i ix)) - v) <= eps.
Proof using.
  intros KT KK KS BX HT H0 HI HG EP M. apply nmean_EN in M. apply tame_growth in HG.
  set (m0 := linear_mean _ _ _ _ _) in M. set (v0 := linear_cov _ _ _ _ _ _) in M.
  destruct (oruh_near x0 theta k sigma t0 T ti ix 1 KT KK KS BX HT H0 HI Rlt_0_1) as (VP & _). destruct (EN_close f m0 v0 HG VP eps EP) as (e1 & E1 & CL).
  destruct (oruh_near x0 theta k sigma t0 T ti ix e1 KT KK KS BX HT H0 HI E1) as (_ & delta & DP & H). exists delta. split; [exact DP|].
  intros G I L normal mvnormal s gi args pace_fn fuel inf timeline h d i N HS AT AK AS ST Hh HF Hi run.
  destruct (H G I L normal mvnormal s gi args pace_fn fuel inf timeline h d i HS AT AK AS ST Hh HF Hi) as (m' & v' & VP' & NM & NV & R2).
  rewrite <- M. eapply Rle_trans; [apply Req_le; exact (f_equal (fun z => Rabs (z - _)) (R2 f (tame_cok _ HG)))|]. cbv beta. apply (CL m' v'); auto.
Qed.
(** constant parameters: the law is that of oruh_mean and oruh_var *)
Theorem C80_oruh (x0 theta k sigma : arr R) t0 T ti ix f v eps :
  broadcasts (shp theta) w -> broadcasts (shp k) w -> broadcasts (shp sigma) w -> broadcasts (shp x0) w -> 0 <= T -> t0 <= ti -> inb w ix -> bget k ix <> 0 -> exp_growth f -> 0 < eps ->
  normal_mean (oruh_mean (bget x0 ix) (bget theta ix) (bget k ix) (bget sigma ix) (ti - t0)) (sqrt (oruh_var (bget x0 ix) (bget theta ix) (bget k ix) (bget sigma ix) (ti - t0))) f v ->
  exists delta, 0 < delta /\ forall (G I : Type) (L : nat -> (G -> R) -> R) normal mvnormal s gi args pace_fn fuel (inf : I) (timeline : list R) h d i,
  let N := len timeline in
  noise_source L normal mvnormal anti INone INone ic n paths vshape s -> const_arg args "theta" theta -> const_arg args "k" k -> const_arg args "sigma" sigma ->
  stepped timeline (pace_fn timeline) t0 T h d -> h <= delta -> (N + len (pace_fn timeline) <= fuel)%nat -> nth_error timeline i = Some ti ->
  let run (g : G) := sde_call Rminus (ou_process (I := I) (at_step s) gi vshape paths x0 args) 0 pace_fn fuel (g, inf) [N] timeline in
  Rabs (L d (fun g => f (value_at (run g) i ix)) - v) <= eps.
Proof using.
  intros BT BK BS BX HT H0 HI K0 HG EP M.
  assert (CA : forall a : arr R, broadcasts (shp a) w -> continuous_array w (fun _ => a)) by (intros a B; split; [auto|intros; apply continuous_const]).
  destruct (C80_oruh_limit x0 (fun _ => theta) (fun _ => k) (fun _ => sigma) t0 T ti ix f v eps (CA _ BT) (CA _ BK) (CA _ BS) BX HT H0 HI HG EP) as (delta & DP & H).
  - destruct (P_tval.C74_constant (bget x0 ix) (bget theta ix) (bget k ix) (bget sigma ix) (bget k ix) (bget k ix) (bget sigma ix * bget sigma ix) t0 ti ti H0 H0) as [E1 E2].
    rewrite E1, E2, (revert_oruh (bget x0 ix) (bget theta ix)) by exact K0. exact M.
  - exists delta. split; [exact DP|]. intros G I L normal mvnormal s gi args pace_fn fuel inf timeline h d i N HS AT AK AS. exact (H G I L normal mvnormal s gi args pace_fn fuel inf timeline h d i HS (const_var _ _ _ AT) (const_var _ _ _ AK) (const_var _ _ _ AS)).
Qed.
Lemma wiener_near (x0 : arr R) (mu sigma : R -> arr R) t0 T ti ix e1 :
  continuous_array w mu -> continuous_array w sigma -> broadcasts (shp x0) w -> 0 <= T -> t0 <= ti -> inb w ix -> 0 < e1 ->
  let m0 := bget x0 ix + RInt (fun t => bget (mu t) ix) t0 ti in
  let v0 := RInt (fun t => bget (sigma t) ix * bget (sigma t) ix) t0 ti in
  0 <= v0 /\
  exists delta, 0 < delta /\ forall (G I : Type) (L : nat -> (G -> R) -> R) normal mvnormal s gi args pace_fn fuel (inf : I) (timeline : list R) h d i,
  let N := len timeline in
  noise_source L normal mvnormal anti INone INone ic n paths vshape s -> var_arg args "mu" mu -> var_arg args "sigma" sigma ->
  stepped timeline (pace_fn timeline) t0 T h d -> h <= delta -> (N + len (pace_fn timeline) <= fuel)%nat -> nth_error timeline i = Some ti ->
  let run (g : G) := sde_call Rminus (wiener_process (I := I) (at_step s) gi vshape paths x0 args) 0 pace_fn fuel (g, inf) [N] timeline in
  exists m v, 0 <= v /\ Rabs (m - m0) <= e1 /\ Rabs (v - v0) <= e1 /\ forall f, cok f -> L d (fun g => f (value_at (run g) i ix)) = EN (fun z => f (m + sqrt v * z)).
Proof using.
  intros KM KS BX HT H0 HI E1 m0 v0.
  assert (VP : 0 <= v0). { unfold v0. apply RInt_ge_0; [exact H0| |intros; apply Rle_0_sqr]. apply (ex_RInt_continuous (V := R_CompleteNormedModule)). intros r _. apply (cont_sq (fun t => bget (sigma t) ix)). apply KS, HI. }
  split; [exact VP|].
  destruct (P_tval.C74_wiener_limit anti n paths vshape ic x0 mu sigma t0 T e1 KM KS ic_cont HT E1) as (delta & DP & H). exists delta. split; [exact DP|].
  intros G I L normal mvnormal s gi args pace_fn fuel inf timeline h d i N HS AM AS ST Hh HF Hi run. destruct ST as (V0 & N0 & ST).
  destruct (H G I L normal mvnormal INone INone s gi args pace_fn fuel inf timeline h d HS AM AS BX (conj V0 (conj N0 ST)) Hh HF) as (m & vv & GS & NR).
  assert (LI : (i < N)%nat) by (apply nth_error_Some; rewrite Hi; discriminate). assert (ET : nth i timeline 0 = ti) by (apply nth_error_nth; exact Hi).
  destruct (lin_law (I := I) L normal mvnormal anti ic n paths vshape s HS wiener_sde false gi x0 sigma args _ _ BX
    (wiener_drift_at w args _ _ AM AS (proj1 KM) (proj1 KS)) pace_fn fuel inf timeline t0 V0 N0 HF) as (R1 & m' & v' & VP' & _ & R2 & _).
  assert (Hd : (N + len (pace_fn timeline) <= d)%nat) by apply ST.
  destruct (gaussian_ident (L d) _ N w m vv (i, ix) (m' i ix) (v' i ix) (proj1 (proj1 HS) d) GS (in_entries N w i ix LI HI) (VP' i ix) (fun f TF => R2 i ix f d LI HI (tame_cok _ TF) Hd)) as [Q1 Q2].
  destruct (NR i ix LI HI) as [NM NV]. specialize (NV i ix LI HI). rewrite ET in NM, NV. cbv zeta in NV. rewrite Q1 in NM. rewrite Q2 in NV. rewrite (Rmin_left ti ti) in NV by lra.
  assert (EV : RInt (fun t => bget (sigma t) ix * bget (sigma t) ix * path_corr anti n (ic t) ix ix) t0 ti = v0).
  { unfold v0. f_equal. apply FunctionalExtensionality.functional_extensionality. intro t. unfold ic. rewrite corr_1. ring. }
  rewrite EV in NV. exists (m' i ix), (v' i ix). split; [apply VP'|]. split; [exact NM|]. split; [exact NV|]. intros f TF. exact (R2 i ix f d LI HI TF Hd).
Qed.
Theorem C80_wiener_limit (x0 : arr R) (mu sigma : R -> arr R) t0 T ti ix f v eps :
  continuous_array w mu -> continuous_array w sigma -> broadcasts (shp x0) w -> 0 <= T -> t0 <= ti -> inb w ix -> exp_growth f -> 0 < eps ->
  normal_mean (bget x0 ix + RInt (fun t => bget (mu t) ix) t0 ti) (sqrt (RInt (fun t => bget (sigma t) ix * bget (sigma t) ix) t0 ti)) f v ->
  exists delta, 0 < delta /\ forall (G I : Type) (L : nat -> (G -> R) -> R) normal mvnormal s gi args pace_fn fuel (inf : I) (timeline : list R) h d i,
  let N := len timeline in
  noise_source L normal mvnormal anti INone INone ic n paths vshape s -> var_arg args "mu" mu -> var_arg args "sigma" sigma ->
  stepped timeline (pace_fn timeline) t0 T h d -> h <= delta -> (N + len (pace_fn timeline) <= fuel)%nat -> nth_error timeline i = Some ti ->
  let run (g : G) := sde_call Rminus (wiener_process (I := I) (at_step s) gi vshape paths x0 args) 0 pace_fn fuel (g, inf) [N] timeline in
  Rabs (L d (fun g => f (value_at (run g) i ix)) - v) <= eps.
Proof using.
  intros KM KS BX HT H0 HI HG EP M. apply nmean_EN in M. apply tame_growth in HG.
  set (m0 := bget x0 ix + _) in M. set (v0 := RInt (fun t => bget (sigma t) ix * bget (sigma t) ix) t0 ti) in M.
  destruct (wiener_near x0 mu sigma t0 T ti ix 1 KM KS BX HT H0 HI Rlt_0_1) as (VP & _). destruct (EN_close f m0 v0 HG VP eps EP) as (e1 & E1 & CL).
  destruct (wiener_near x0 mu sigma t0 T ti ix e1 KM KS BX HT H0 HI E1) as (_ & delta & DP & H). exists delta. split; [exact DP|].
  intros G I L normal mvnormal s gi args pace_fn fuel inf timeline h d i N HS AM AS ST Hh HF Hi run.
  destruct (H G I L normal mvnormal s gi args pace_fn fuel inf timeline h d i HS AM AS ST Hh HF Hi) as (m' & v' & VP' & NM & NV & R2).
  rewrite <- M. eapply Rle_trans; [apply Req_le; exact (f_equal (fun z => Rabs (z - _)) (R2 f (tame_cok _ HG)))|]. cbv beta. apply (CL m' v'); auto.
Qed.
Lemma lognorm_near (x0 : arr R) (mu sigma : R -> arr R) t0 T ti ix e1 :
  continuous_array w mu -> continuous_array w sigma -> broadcasts (shp x0) w -> (forall ix, inb w ix -> 0 < bget x0 ix) -> 0 <= T -> t0 <= ti -> inb w ix -> 0 < e1 ->
  let m0 := ln (bget x0 ix) + RInt (fun t => bget (mu t) ix - bget (sigma t) ix * bget (sigma t) ix / 2) t0 ti in
  let v0 := RInt (fun t => bget (sigma t) ix * bget (sigma t) ix) t0 ti in
  0 <= v0 /\
  exists delta, 0 < delta /\ forall (G I : Type) (L : nat -> (G -> R) -> R) normal mvnormal s gi args pace_fn fuel (inf : I) (timeline : list R) h d i,
  let N := len timeline in
  noise_source L normal mvnormal anti INone INone ic n paths vshape s -> var_arg args "mu" mu -> var_arg args "sigma" sigma ->
  stepped timeline (pace_fn timeline) t0 T h d -> h <= delta -> (N + len (pace_fn timeline) <= fuel)%nat -> nth_error timeline i = Some ti ->
  let run (g : G) := sde_call Rminus (lognorm_process (I := I) (at_step s) gi vshape paths x0 args) 0 pace_fn fuel (g, inf) [N] timeline in
  exists m v, 0 <= v /\ Rabs (m - m0) <= e1 /\ Rabs (v - v0) <= e1 /\ forall f, cok (fun x => f (exp x)) -> L d (fun g => f (value_at (run g) i ix)) = EN (fun z => f (exp (m + sqrt v * z))).
Proof using.
  intros KM KS BX XP HT H0 HI E1 m0 v0.
  assert (VP : 0 <= v0). { unfold v0. apply RInt_ge_0; [exact H0| |intros; apply Rle_0_sqr]. apply (ex_RInt_continuous (V := R_CompleteNormedModule)). intros r _. apply (cont_sq (fun t => bget (sigma t) ix)). apply KS, HI. }
  split; [exact VP|].
  destruct (P_tval.C74_lognorm_limit anti n paths vshape ic x0 mu sigma t0 T e1 KM KS ic_cont XP HT E1) as (delta & DP & H). exists delta. split; [exact DP|].
  intros G I L normal mvnormal s gi args pace_fn fuel inf timeline h d i N HS AM AS ST Hh HF Hi run. destruct ST as (V0 & N0 & ST).
  destruct (H G I L normal mvnormal INone INone s gi args pace_fn fuel inf timeline h d HS AM AS BX (conj V0 (conj N0 ST)) Hh HF) as (m & vv & GS & NR).
  assert (LI : (i < N)%nat) by (apply nth_error_Some; rewrite Hi; discriminate). assert (ET : nth i timeline 0 = ti) by (apply nth_error_nth; exact Hi).
  destruct (lin_law (I := I) L normal mvnormal anti ic n paths vshape s HS lognorm_sde true gi x0 sigma args _ _ BX
    (lognorm_drift_at w args _ _ AM AS (proj1 KM) (proj1 KS)) pace_fn fuel inf timeline t0 V0 N0 HF) as (R1 & m' & v' & VP' & _ & R2 & _).
  assert (Hd : (N + len (pace_fn timeline) <= d)%nat) by apply ST.
  assert (R3 : forall f, tame f -> L d (fun g => f (ln (value_at (run g) i ix))) = EN (fun z => f (m' i ix + sqrt (v' i ix) * z))).
  { intros f' TF. etransitivity; [apply (R2 i ix (fun y => f' (ln y)) d LI HI); [|exact Hd]|].
    - apply tame_cok. eapply tame_ext; [|exact TF]. intro x. cbv beta. rewrite ln_exp. reflexivity.
    - apply EN_ext. intro z. rewrite ln_exp. reflexivity. }
  destruct (gaussian_ident (L d) _ N w m vv (i, ix) (m' i ix) (v' i ix) (proj1 (proj1 HS) d) GS (in_entries N w i ix LI HI) (VP' i ix) R3) as [Q1 Q2].
  destruct (NR i ix LI HI) as [NM NV]. specialize (NV i ix LI HI). rewrite ET in NM, NV. cbv zeta in NV. rewrite Q1 in NM. rewrite Q2 in NV. rewrite (Rmin_left ti ti) in NV by lra.
  assert (EV : RInt (fun t => bget (sigma t) ix * bget (sigma t) ix * path_corr anti n (ic t) ix ix) t0 ti = v0).
  { unfold v0. f_equal. apply FunctionalExtensionality.functional_extensionality. intro t. unfold ic. rewrite corr_1. ring. }
  rewrite EV in NV. exists (m' i ix), (v' i ix). split; [apply VP'|]. split; [exact NM|]. split; [exact NV|]. intros f TF. exact (R2 i ix f d LI HI TF Hd).
Qed.
Theorem C80_lognorm_limit (x0 : arr R) (mu sigma : R -> arr R) t0 T ti ix f v eps :
  continuous_array w mu -> continuous_array w sigma -> broadcasts (shp x0) w -> (forall ix, inb w ix -> 0 < bget x0 ix) -> 0 <= T -> t0 <= ti -> inb w ix -> exp_growth (fun x => f (exp x)) -> 0 < eps ->
  normal_mean (ln (bget x0 ix) + RInt (fun t => bget (mu t) ix - bget (sigma t) ix * bget (sigma t) ix / 2) t0 ti) (sqrt (RInt (fun t => bget (sigma t) ix * bget (sigma t) ix) t0 ti)) (fun x => f (exp x)) v ->
  exists delta, 0 < delta /\ forall (G I : Type) (L : nat -> (G -> R) -> R) normal mvnormal s gi args pace_fn fuel (inf : I) (timeline : list R) h d i,
  let N := len timeline in
  noise_source L normal mvnormal anti INone INone ic n paths vshape s -> var_arg args "mu" mu -> var_arg args "sigma" sigma ->
  stepped timeline (pace_fn timeline) t0 T h d -> h <= delta -> (N + len (pace_fn timeline) <= fuel)%nat -> nth_error timeline i = Some ti ->
  let run (g : G) := sde_call Rminus (lognorm_process (I := I) (at_step s) gi vshape paths x0 args) 0 pace_fn fuel (g, inf) [N] timeline in
  Rabs (L d (fun g => f (value_at (run g) i ix)) - v) <= eps.
Proof using.
  intros KM KS BX XP HT H0 HI HG EP M. apply nmean_EN in M. apply tame_comp_exp in HG.
  set (m0 := ln (bget x0 ix) + _) in M. set (v0 := RInt (fun t => bget (sigma t) ix * bget (sigma t) ix) t0 ti) in M.
  destruct (lognorm_near x0 mu sigma t0 T ti ix 1 KM KS BX XP HT H0 HI Rlt_0_1) as (VP & _). destruct (EN_close (fun x => f (exp x)) m0 v0 HG VP eps EP) as (e1 & E1 & CL).
  destruct (lognorm_near x0 mu sigma t0 T ti ix e1 KM KS BX XP HT H0 HI E1) as (_ & delta & DP & H). exists delta. split; [exact DP|].
  intros G I L normal mvnormal s gi args pace_fn fuel inf timeline h d i N HS AM AS ST Hh HF Hi run.
  destruct (H G I L normal mvnormal s gi args pace_fn fuel inf timeline h d i HS AM AS ST Hh HF Hi) as (m' & v' & VP' & NM & NV & R2).
  rewrite <- M. eapply Rle_trans; [apply Req_le; exact (f_equal (fun z => Rabs (z - _)) (R2 f (tame_cok _ HG)))|]. cbv beta. apply (CL m' v'); auto.
Qed.
End Limits.
Print Assumptions C80_oruh_limit.
Print Assumptions C80_oruh.
Print Assumptions C80_wiener_limit.
Print Assumptions C80_lognorm_limit.

(** *** Examples *)
Section Ex.
Let law := the_law [].
Definition ex_const (mu sigma : R) : dict (M_sde.param R R) := [("mu"%string, PConst (ascalar mu)); ("sigma"%string, PConst (ascalar sigma))].
Lemma ex_tl t : 0 < t -> valid_timeline [0; t].
Proof. intro H. split; [discriminate|]; split; repeat constructor; unfold isnum; simpl; try (apply teqb_R_true; auto); apply tltb_R_true; exact H. Qed.
(** the functions are those of at most exponential growth: polynomials, exponentials, payoffs, not exp(x^2) *)
Example C80_ex_growth : exp_growth (fun x => x) /\ exp_growth (fun x => exp (3*x) - x*x) /\ exp_growth cos /\ ~ exp_growth (fun x => exp (x*x)).
Proof.
  assert (T := tame_id).
  split; [apply tame_growth; exact T|]. split; [|split].
  - apply tame_growth, tame_minus; [|apply tame_mult; exact T]. eapply tame_ext; [|apply (tame_exp 0 3)]. intro. cbv beta. f_equal. ring.
  - split; [intro x; apply (ex_derive_continuous (V := R_NormedModule)); auto_derive; auto|]. exists 1, 0. split; [lra|]. split; [lra|]. intro x. rewrite Rmult_0_l, exp_0, Rmult_1_l. apply Rabs_le. apply COS_bound.
  - intros (_ & C & c & C0 & c0 & D). set (x := c + C + 1). specialize (D x). rewrite Rabs_pos_eq, (Rabs_pos_eq x) in D by (try (left; apply exp_pos); unfold x; lra).
    replace (x*x) with (c*x + (C + 1)*x) in D by (unfold x; ring). rewrite exp_plus in D. assert (P := exp_pos (c*x)). assert (Q := exp_ineq1_le ((C + 1)*x)).
    assert (R1 : 1 + (C + 1)*x > C) by (unfold x; nra). rewrite Rmult_comm in D. apply Rmult_le_reg_r in D; lra.
Qed.
(** the average of the values at time 1 of three Wiener paths, from 2, with any number of steps: mean 2, variance 1/3 *)
Example C80_ex_wiener n s : (0 < n)%nat -> source_dw (the_normal []) (the_mvnormal []) GNone INone INone 3 [] = Ok s ->
  let X g j := value_at (sde_call Rminus (wiener_process (I := unit) (at_step s) false [] 3 (ascalar 2) (ex_const 0 1)) 0 (pace ex_linspace (StepsScalar (S n))) (n + 3) (g, tt) [2%nat] [0; 1]) 1 [j] in
  let est g := (X g 0%nat + X g 1%nat + X g 2%nat) / 3 in
  law (n + 3) est = 2 /\ law (n + 3) (fun g => (est g - 2)^2) = 1/3.
Proof.
  intros Hn HS X est. destruct (P_tval.ex_steps n Hn) as [_ LP].
  assert (HN := P_tval.ex_noise false 3 s HS). cbv iota in HN.
  assert (M : forall a b cc, normal_mean (wiener_mean 2 0 1 (1 - 0)) (sqrt (wiener_var 2 0 1 (1 - 0))) (fun x => a + b*x + cc*(x*x)) (a + b*2 + cc*(2*2) + cc)).
  { intros a b cc. unfold normal_mean, wiener_mean, wiener_var. replace (1*1*(1 - 0)) with 1 by ring. replace (1^2*(1 - 0)) with 1 by ring. rewrite sqrt_1.
    eapply mean_ext; [apply (mean_normal_poly (a + b*2 + cc*(2*2)) (b + cc*4) cc)| |]; [intro z; cbv beta; ring|ring]. }
  destruct (C80_wiener_average (I := unit) law (the_normal []) (the_mvnormal []) false _ 3 3 [] s HN (ascalar 2) (ascalar 0) (ascalar 1) (ex_const 0 1) eq_refl eq_refl (ex_b 2 _) (ex_b 0 _) (ex_b 1 _)
    (pace ex_linspace (StepsScalar (S n))) (n + 3)%nat false tt [0; 1] 0 (n + 3)%nat (ex_tl 1 ltac:(lra)) eq_refl ltac:(rewrite LP; cbn; lia) ltac:(rewrite LP; cbn; lia)
    1%nat 1 [] (fun x => x) 2 0 1 eq_refl (the_normal_sums [] _) ltac:(lia) eq_refl (Forall2_nil _) (proj1 C80_ex_growth) (fun j _ => conj eq_refl (conj eq_refl eq_refl)) 2 5) as [A1 A2].
  - eapply mean_ext; [apply (M 0 1 0)| |]; [intro z; cbv beta; ring|ring].
  - eapply mean_ext; [apply (M 0 0 1)| |]; [intro z; cbv beta; ring|ring].
  - assert (E : forall g, rsum (fun j => X g j) (seq 0 3) / INR 3 = est g) by (intro g; unfold est, rsum; cbn; field).
    split.
    + etransitivity; [|exact A1]. apply (proj1 (the_is_law [])). intro g. rewrite <- E. reflexivity.
    + transitivity ((5 - 2^2) / INR 3); [|cbn; field]. rewrite <- A2. apply (proj1 (the_is_law [])). intro g. rewrite <- E. reflexivity.
Qed.
(** 100 paths of a lognormal process, from 1, with sigma = 1, up to time 4: the mean of the average of max(x - 1, 0) is the
    price of the call, 2 F(1) - 1 *)
Example C80_ex_call F n s : std_normal_cdf F -> (0 < n)%nat -> source_dw (the_normal []) (the_mvnormal []) GNone INone INone 100 [] = Ok s ->
  let pc := pace ex_linspace (StepsScalar n) in let d := (2 + len (pc [0%R; 4%R]))%nat in
  let X g j := value_at (sde_call Rminus (lognorm_process (I := unit) (at_step s) false [] 100 (ascalar 1) (ex_const 0 1)) 0 pc d (g, tt) [2%nat] [0; 4]) 1 [j] in
  let est g := rsum (fun j => Rmax (X g j - 1) 0) (seq 0 100) / 100 in
  law d est = 2 * F 1 - 1.
Proof.
  intros HC Hn HS pc d X est. assert (HN := P_tval.ex_noise false 100 s HS). cbv iota in HN.
  destruct (C65_ex F HC) as (_ & _ & _ & PR & _).
  destruct (C80_call_average (I := unit) law (the_normal []) (the_mvnormal []) false _ 100 100 [] s HN (ascalar 1) (ascalar 0) (ascalar 1) (ex_const 0 1) eq_refl eq_refl (ex_b 1 _) (ex_b 0 _) (ex_b 1 _)
    pc d false tt [0; 4] 0 d (ex_tl 4 ltac:(lra)) eq_refl (le_n _) (le_n _) (fun _ _ => Rlt_0_1) F 1 0 0 1%nat 4 [] 1 1 eq_refl (the_normal_sums [] _) ltac:(lia) HC ltac:(lra) eq_refl ltac:(lra) (Forall2_nil _) ltac:(lra)
    (fun j _ => conj eq_refl (conj (eq_sym (Rminus_0_r 0)) eq_refl))) as (price & v2 & P1 & _ & P2 & _).
  replace (4 - 0) with 4 in P1 by ring. rewrite PR in P1. injection P1 as E. rewrite E. rewrite <- P2. apply (proj1 (the_is_law [])). intro g. unfold est.
  replace (- (0 * (4 - 0))) with 0 by ring. rewrite exp_0, Rmult_1_l. f_equal. rewrite INR_IZR_INZ. reflexivity.
Qed.
End Ex.
