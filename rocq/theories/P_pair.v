(** C83: antithetic paths. Paths n + j and j of a simulation with antithetic increments mirror each other; half sums of their
    values are independent across pairs: montecarlo objects with use='even' give the right standard error, those with use='all'
    overstate it for monotone functions, whose averages have smaller errors than averages of as many independent paths. *)
From Coq Require Import String List Arith Bool ZArith Reals Lra Lia.
From Coquelicot Require Import Coquelicot.
From Verif Require Import Base BaseOrd BaseNum BaseArr M_paths S_paths S_run L_ord L_paths8
  M_process M_source S_source M_sde S_sde L_sde L_sde2 L_sde3 M_presets S_presets L_presets M_integrate S_integrate P_source4 S_true2 S_euler L_euler L_euler2
  BaseNd BaseIdx S_process L_nd L_pack L_process P_process P_process3 P_source2 P_source3 M_mc S_mc P_mc M_rv S_rv M_analytical S_analytical M_dist S_dist L_gauss L_gauss2 L_dist P_dist P_bs P_price M_anti S_law P_chf L_law L_law2 L_law4 L_law5 L_law8 S_gval L_gval L_gval2 L_gval3 L_gval4 L_gval5 L_gval6 P_gval
  S_tval L_tval L_tval2 L_tval3 L_tval4 L_tval5 L_tval6 L_gop L_cirop L_nrun L_cirrun S_mean L_conv L_cok L_tame L_meanrun L_meanlaw L_est P_mean P_prob M_result S_stat L_stat P_stat S_pair L_pair L_pair2.
From Verif Require P_euler P_tval.
Import ListNotations.
Open Scope R_scope.
Local Notation len := List.length.

(** *** montecarlo objects accept samples taken from a process with an even number of paths *)
Theorem C83_accepted auto range p vshape n i f : comp p = (vshape ++ [(2*n)%nat])%list -> (0 < n)%nat -> forall use, use = "all"%string \/ use = "even"%string ->
  mcu_done use auto BNone range (at_point f p i) /\
  ((forall r0 r1, range = Some (r0, r1) -> r0 <= r1) -> forall k, (0 < k)%nat -> mcu_done use auto (BInt k) range (at_point f p i)).
Proof.
  intros CP HP use U. assert (OK : List.Forall (sample_ok use vshape) [(at_point f p i, (-1)%Z)]) by (repeat constructor; apply (pair_ok p vshape n i f CP HP use U)).
  assert (NE : [(at_point f p i, (-1)%Z)] <> []) by discriminate.
  split; [exact (C44_succeeds auto use range vshape _ NE OK)|]. intros HR k HK.
  destruct (C45_equal_bins auto use k range vshape _ HK HR NE OK) as (m & a & E & _). exists m, a. exact E.
Qed.
Print Assumptions C83_accepted.

Section Exact.
Context {G I : Type}.
Variables (L : nat -> (G -> R) -> R) (normal : list nat -> G -> res (arr R) * G) (mvnormal : arr R -> list nat -> G -> res (arr R) * G).
Variables (c : R -> nat -> nat -> R) (n paths : nat) (vshape : list nat) (s : src (V := R) (G := G) (arr R)).
Hypothesis HS : noise_source L normal mvnormal true INone INone c n paths vshape s.
Let w := (vshape ++ [paths])%list.
Variables (x0 mu sigma : arr R) (args : dict (M_sde.param R R)).
Hypothesis CM : const_arg args "mu" mu.
Hypothesis CS : const_arg args "sigma" sigma.
Hypothesis BX : broadcasts (shp x0) w.
Hypothesis BM : broadcasts (shp mu) w.
Hypothesis BS : broadcasts (shp sigma) w.
Variables (pace_fn : list R -> list R) (fuel : nat) (gi : bool) (inf : I) (timeline : list R) (t0 : R) (d : nat).
Hypothesis V0 : valid_timeline timeline.
Hypothesis N0 : nth_error timeline 0 = Some t0.
Let N := len timeline.
Hypothesis HF : (N + len (pace_fn timeline) <= fuel)%nat.
Hypothesis Hd : (N + len (pace_fn timeline) <= d)%nat.
Let runw g := sde_call Rminus (wiener_process (I := I) (at_step s) gi vshape paths x0 args) 0 pace_fn fuel (g, inf) [N] timeline.
Let runl g := sde_call Rminus (lognorm_process (I := I) (at_step s) gi vshape paths x0 args) 0 pace_fn fuel (g, inf) [N] timeline.
Definition wpair :=
  lin_pair (I := I) L normal mvnormal c n paths vshape s HS wiener_sde false gi x0 (fun _ => sigma) args (fun _ => bget mu) (fun _ _ => 0) BX
    (wiener_drift_at w args _ _ (const_var _ _ _ CM) (const_var _ _ _ CS) (fun _ => BM) (fun _ => BS)) pace_fn fuel inf timeline t0 V0 N0 HF.
Definition lpair :=
  lin_pair (I := I) L normal mvnormal c n paths vshape s HS lognorm_sde true gi x0 (fun _ => sigma) args (fun _ ix => bget mu ix - bget sigma ix * bget sigma ix / 2) (fun _ _ => 0) BX
    (lognorm_drift_at w args _ _ (const_var _ _ _ CM) (const_var _ _ _ CS) (fun _ => BM) (fun _ => BS)) pace_fn fuel inf timeline t0 V0 N0 HF.

(** *** mirrored paths, in every run: values of Wiener processes average to the mean of the process, those of lognormal
    processes have as their geometric average the median of the process *)
Section Mirror.
Variables (i : nat) (ti : R) (r : list nat) (j : nat) (x a sg : R).
Hypothesis Hi : nth_error timeline i = Some ti.
Hypothesis Hr : inb vshape r.
Hypothesis Hj : (j < n)%nat.
Hypothesis E1 : bget x0 (r ++ [j]) = x /\ bget mu (r ++ [j]) = a /\ bget sigma (r ++ [j]) = sg.
Hypothesis E2 : bget x0 (r ++ [(n + j)%nat]) = x /\ bget mu (r ++ [(n + j)%nat]) = a /\ bget sigma (r ++ [(n + j)%nat]) = sg.
Theorem C83_wiener_mirror g : value_at (runw g) i (r ++ [j]) + value_at (runw g) i (r ++ [(n + j)%nat]) = 2 * wiener_mean x a sg (ti - t0).
Proof using HS CM CS BX BM BS V0 N0 HF Hi Hr Hj E1 E2.
  destruct wpair as (_ & _ & X & m & v & FL & R1 & R2 & _). destruct (at_time timeline i ti Hi) as [LI ET]. destruct E1 as (A1 & A2 & A3). destruct E2 as (B1 & B2 & B3).
  etransitivity; [exact (f_equal2 Rplus (R1 g i r j LI Hr Hj) (R2 g i r j LI Hr Hj (eq_trans B1 (eq_sym A1)) (fun _ => eq_trans B2 (eq_sym A2)) (fun _ => eq_refl) (fun _ => eq_trans B3 (eq_sym A3))))|]. cbv iota.
  destruct (FL a sg (r ++ [j])%list (fun _ => eq_refl) (fun _ => A2) (fun _ => A3) i LI) as [-> _]. rewrite ET, A1. unfold wiener_mean. ring.
Qed.
Theorem C83_lognorm_mirror g : 0 < x -> value_at (runl g) i (r ++ [j]) * value_at (runl g) i (r ++ [(n + j)%nat]) = (x * exp ((a - sg * sg / 2) * (ti - t0)))^2.
Proof using HS CM CS BX BM BS V0 N0 HF Hi Hr Hj E1 E2.
  intro XP. destruct lpair as (_ & _ & X & m & v & FL & R1 & R2 & _). destruct (at_time timeline i ti Hi) as [LI ET]. destruct E1 as (A1 & A2 & A3). destruct E2 as (B1 & B2 & B3).
  assert (SD : forall t : R, bget mu (r ++ [(n + j)%nat]) - bget sigma (r ++ [(n + j)%nat]) * bget sigma (r ++ [(n + j)%nat]) / 2 = bget mu (r ++ [j]) - bget sigma (r ++ [j]) * bget sigma (r ++ [j]) / 2)
    by (intros; rewrite A2, A3, B2, B3; reflexivity).
  etransitivity; [exact (f_equal2 Rmult (R1 g i r j LI Hr Hj) (R2 g i r j LI Hr Hj (eq_trans B1 (eq_sym A1)) SD (fun _ => eq_refl) (fun _ => eq_trans B3 (eq_sym A3))))|]. cbv iota.
  destruct (FL (a - sg * sg / 2) sg (r ++ [j])%list (fun _ => eq_refl)) with (i := i) as [-> _]; [intros; rewrite A2, A3; reflexivity|auto|exact LI|]. rewrite ET, A1.
  rewrite <- exp_plus. rewrite <- (exp_ln x XP) at 2. rewrite <- exp_plus. rewrite <- Rsqr_pow2. unfold Rsqr. rewrite <- exp_plus. f_equal. ring.
Qed.
End Mirror.

(** *** statistics, at a time of the timeline and for a component with the same parameters on all paths *)
Hypothesis NS : normal_sums L normal (vshape ++ [n]).
Hypothesis HP : (0 < n)%nat.
Variables (i : nat) (ti : R) (r : list nat) (x a sg : R).
Hypothesis Hi : nth_error timeline i = Some ti.
Hypothesis Hr : inb vshape r.
Hypothesis HE : forall j, (j < paths)%nat -> bget x0 (r ++ [j]) = x /\ bget mu (r ++ [j]) = a /\ bget sigma (r ++ [j]) = sg.
Variables (auto : string -> list R -> option (R * R) -> res nat) (bins : bspec R) (range : option (R * R)).
Hypothesis BF : bins_for vshape bins.
Let procw g := proc_of (sde_process w timeline (runw g)).
Let procl g := proc_of (sde_process w timeline (runl g)).
Let mw := wiener_mean x a sg (ti - t0).
Let vw := wiener_var x a sg (ti - t0).
Let ml := ln x + (a - sg * sg / 2) * (ti - t0).
Let vl := sg * sg * (ti - t0).
Lemma wdata : exists (X : G -> list nat -> R) (m v : list nat -> R),
  (forall K u f, (forall k ix, (k < K)%nat -> inb (vshape ++ [n]) ix -> cok (f k ix)) ->
    L d (fun g => rsum (fun k => u k * rprod (fun ix => f k ix (X g ix)) (ndindex (vshape ++ [n]))) (seq 0 K)) =
    rsum (fun k => u k * rprod (fun ix => EN (fun z => f k ix (m ix + sqrt (v ix) * z))) (ndindex (vshape ++ [n]))) (seq 0 K)) /\
  (forall g, comp (procw g) = (vshape ++ [(2*n)%nat])%list) /\
  (forall g j, (j < n)%nat -> dat (px (procw g)) (i :: r ++ [j]) = X g (r ++ [j])%list) /\
  (forall g j, (j < n)%nat -> dat (px (procw g)) (i :: r ++ [(n + j)%nat]) = 2 * mw - X g (r ++ [j])%list) /\
  (forall j, (j < n)%nat -> m (r ++ [j])%list = mw /\ v (r ++ [j])%list = vw).
Proof using HS CM CS BX BM BS V0 N0 HF Hd NS HP Hi Hr HE.
  destruct wpair as (OK & EP & X & m & v & FL & R1 & R2 & _ & R3). destruct (at_time timeline i ti Hi) as [LI ET].
  exists (fun g => X g i), (m i), (v i). assert (Q := good (G := G) (I := I) paths vshape pace_fn fuel inf timeline t0 V0 N0 HF i ti Hi (wiener_process (I := I) (at_step s) gi vshape paths x0 args) eq_refl OK).
  assert (MV : forall j, (j < n)%nat -> m i (r ++ [j])%list = mw /\ v i (r ++ [j])%list = vw).
  { intros j Hj. destruct (HE j ltac:(lia)) as (A1 & A2 & A3). destruct (FL a sg (r ++ [j])%list (fun _ => eq_refl) (fun _ => A2) (fun _ => A3) i LI) as [-> ->]. rewrite ET, A1. split; reflexivity. }
  assert (IW : forall j, (j < 2*n)%nat -> inb (vshape ++ [paths]) (r ++ [j])) by (intros j Hj; apply inb_app; [exact Hr|]; rewrite EP; repeat constructor; exact Hj).
  split; [|split; [|split; [|split]]].
  - intros K u f TF. exact (R3 NS i K u f d LI TF Hd).
  - intro g. rewrite <- EP. apply (Q g).
  - intros g j Hj. etransitivity; [exact (proj2 (proj2 (proj2 (Q g))) (r ++ [j])%list (IW j ltac:(lia)))|]. exact (R1 g i r j LI Hr Hj).
  - intros g j Hj. etransitivity; [exact (proj2 (proj2 (proj2 (Q g))) (r ++ [(n + j)%nat])%list (IW (n + j)%nat ltac:(lia)))|].
    destruct (HE j ltac:(lia)) as (A1 & A2 & A3). destruct (HE (n + j)%nat ltac:(lia)) as (B1 & B2 & B3).
    etransitivity; [apply (R2 g i r j LI Hr Hj); intros; congruence|]. cbv iota. rewrite (proj1 (MV j Hj)). reflexivity.
  - exact MV.
Qed.
Lemma ldata : exists (X : G -> list nat -> R) (m v : list nat -> R),
  (forall K u f, (forall k ix, (k < K)%nat -> inb (vshape ++ [n]) ix -> cok (f k ix)) ->
    L d (fun g => rsum (fun k => u k * rprod (fun ix => f k ix (X g ix)) (ndindex (vshape ++ [n]))) (seq 0 K)) =
    rsum (fun k => u k * rprod (fun ix => EN (fun z => f k ix (m ix + sqrt (v ix) * z))) (ndindex (vshape ++ [n]))) (seq 0 K)) /\
  (forall g, comp (procl g) = (vshape ++ [(2*n)%nat])%list) /\
  (forall g j, (j < n)%nat -> dat (px (procl g)) (i :: r ++ [j]) = exp (X g (r ++ [j])%list)) /\
  (forall g j, (j < n)%nat -> dat (px (procl g)) (i :: r ++ [(n + j)%nat]) = exp (2 * ml - X g (r ++ [j])%list)) /\
  (forall j, (j < n)%nat -> m (r ++ [j])%list = ml /\ v (r ++ [j])%list = vl).
Proof using HS CM CS BX BM BS V0 N0 HF Hd NS HP Hi Hr HE.
  destruct lpair as (OK & EP & X & m & v & FL & R1 & R2 & _ & R3). destruct (at_time timeline i ti Hi) as [LI ET].
  exists (fun g => X g i), (m i), (v i). assert (Q := good (G := G) (I := I) paths vshape pace_fn fuel inf timeline t0 V0 N0 HF i ti Hi (lognorm_process (I := I) (at_step s) gi vshape paths x0 args) eq_refl OK).
  assert (MV : forall j, (j < n)%nat -> m i (r ++ [j])%list = ml /\ v i (r ++ [j])%list = vl).
  { intros j Hj. destruct (HE j ltac:(lia)) as (A1 & A2 & A3). destruct (FL (a - sg * sg / 2) sg (r ++ [j])%list (fun _ => eq_refl)) with (i := i) as [-> ->]; [intros; rewrite A2, A3; reflexivity|auto|exact LI|].
    rewrite ET, A1. split; reflexivity. }
  assert (IW : forall j, (j < 2*n)%nat -> inb (vshape ++ [paths]) (r ++ [j])) by (intros j Hj; apply inb_app; [exact Hr|]; rewrite EP; repeat constructor; exact Hj).
  split; [|split; [|split; [|split]]].
  - intros K u f TF. exact (R3 NS i K u f d LI TF Hd).
  - intro g. rewrite <- EP. apply (Q g).
  - intros g j Hj. etransitivity; [exact (proj2 (proj2 (proj2 (Q g))) (r ++ [j])%list (IW j ltac:(lia)))|]. exact (R1 g i r j LI Hr Hj).
  - intros g j Hj. etransitivity; [exact (proj2 (proj2 (proj2 (Q g))) (r ++ [(n + j)%nat])%list (IW (n + j)%nat ltac:(lia)))|].
    destruct (HE j ltac:(lia)) as (A1 & A2 & A3). destruct (HE (n + j)%nat ltac:(lia)) as (B1 & B2 & B3).
    etransitivity; [apply (R2 g i r j LI Hr Hj); intros; rewrite ?A1, ?A2, ?A3, ?B1, ?B2, ?B3; reflexivity|]. cbv iota. rewrite (proj1 (MV j Hj)). reflexivity.
  - exact MV.
Qed.

(** v, v2, vr: means of f(x), of its square, and of its product with f of the mirrored value; e2: the mean square error. With
    use='even' the square of the standard error estimates it without bias *)
Theorem C83_wiener_even f v v2 vr : exp_growth f -> (forall g, mcu_done "even" auto bins range (at_point f (procw g) i)) ->
  normal_mean mw (sqrt vw) f v -> normal_mean mw (sqrt vw) (fun y => f y * f y) v2 -> normal_mean mw (sqrt vw) (fun y => f y * f (2*mw - y)) vr ->
  let e2 := ((v2 + vr)/2 - v^2) / INR n in let m g := mcu_mean_at "even" auto bins range (at_point f (procw g) i) r in
  L d m = v /\ L d (fun g => (m g - v)^2) = e2 /\
  ((2 <= n)%nat -> L d (fun g => mcu_var_at "even" auto bins range (at_point f (procw g) i) r) = e2 * (INR n - 1) /\
    L d (fun g => mcu_stderr_at "even" auto bins range (at_point f (procw g) i) r ^2) = e2).
Proof using HS CM CS BX BM BS V0 N0 HF Hd NS HP Hi Hr HE BF.
  intros HG MC M1 M2 M3. apply tame_growth in HG. apply nmean_EN in M1. apply nmean_EN in M2. apply nmean_EN in M3. rewrite <- M1, <- M2, <- M3.
  destruct wdata as (X & m & va & SUM & CP & P1 & P2 & IS).
  exact (pair_even (L d) vshape n X (fun y => y) m va (proj1 (proj1 HS) d) SUM procw i r mw vw HP Hr CP P1 P2 IS f HG auto bins range BF MC).
Qed.
(** with use='all' the mean is the same; the standard error is not *)
Theorem C83_wiener_all f v v2 vr : exp_growth f -> (forall g, mcu_done "all" auto bins range (at_point f (procw g) i)) ->
  normal_mean mw (sqrt vw) f v -> normal_mean mw (sqrt vw) (fun y => f y * f y) v2 -> normal_mean mw (sqrt vw) (fun y => f y * f (2*mw - y)) vr ->
  let e2 := ((v2 + vr)/2 - v^2) / INR n in let m g := mcu_mean_at "all" auto bins range (at_point f (procw g) i) r in
  let se2 := L d (fun g => mcu_stderr_at "all" auto bins range (at_point f (procw g) i) r ^2) in
  L d m = v /\ L d (fun g => (m g - v)^2) = e2 /\ se2 = (v2 - v^2 - e2) / (2 * INR n - 1) /\
  (monotone f -> e2 <= (v2 - v^2) / (2 * INR n) <= se2).
Proof using HS CM CS BX BM BS V0 N0 HF Hd NS HP Hi Hr HE BF.
  intros HG MC M1 M2 M3. apply tame_growth in HG. apply nmean_EN in M1. apply nmean_EN in M2. apply nmean_EN in M3. rewrite <- M1, <- M2, <- M3.
  destruct wdata as (X & m & va & SUM & CP & P1 & P2 & IS).
  destruct (pair_all (L d) vshape n X (fun y => y) m va (proj1 (proj1 HS) d) SUM procw i r mw vw HP Hr CP P1 P2 IS f HG auto bins range BF MC) as (A1 & A2 & A3).
  intros e2 mm se2. split; [exact A1|]. split; [exact A2|]. split; [exact A3|]. intro M.
  assert (Q := pair_reduced n (fun y => y) mw vw HP f HG M). cbv beta in Q. split; [exact Q|]. change se2 with (L d (fun g => mcu_stderr_at "all" auto bins range (at_point f (procw g) i) r ^2)). rewrite A3.
  apply (overstated n HP). exact Q.
Qed.
(** in every run, the average of all paths of a Wiener process is its mean: the standard error with use='all' is not zero *)
Theorem C83_wiener_exact : (forall g, mcu_done "all" auto bins range (at_point (fun y => y) (procw g) i)) ->
  (forall g, mcu_mean_at "all" auto bins range (at_point (fun y => y) (procw g) i) r = mw) /\
  L d (fun g => mcu_stderr_at "all" auto bins range (at_point (fun y => y) (procw g) i) r ^2) = vw / (2 * INR n - 1).
Proof using HS CM CS BX BM BS V0 N0 HF Hd NS HP Hi Hr HE BF.
  intro MC. assert (TI := tame_id). assert (PP : 1 <= INR n) by (apply (le_INR 1 n); lia).
  assert (VP : 0 <= vw) by (unfold vw, wiener_var; apply Rmult_le_pos; [apply Rle_0_sqr|exact (after timeline t0 V0 N0 i ti Hi)]).
  assert (M1 : normal_mean mw (sqrt vw) (fun y => y) mw). { eapply mean_ext; [exact (mean_normal_poly mw (sqrt vw) 0)| |ring]. intro z. cbv beta. ring. }
  assert (M2 : normal_mean mw (sqrt vw) (fun y => y * y) (mw^2 + vw)).
  { eapply mean_ext; [exact (mean_normal_poly (mw*mw) (2*mw*sqrt vw) vw)| |ring]. intro z. cbv beta. transitivity (mw*mw + 2*mw*sqrt vw*z + (sqrt vw*sqrt vw)*(z*z)); [ring|rewrite (sqrt_sqrt vw VP); reflexivity]. }
  assert (M3 : normal_mean mw (sqrt vw) (fun y => y * (2*mw - y)) (mw^2 - vw)).
  { eapply mean_ext; [exact (mean_normal_poly (mw*mw) 0 (- vw))| |ring]. intro z. cbv beta. transitivity (mw*mw + 0*z + (- (sqrt vw*sqrt vw))*(z*z)); [ring|rewrite (sqrt_sqrt vw VP); reflexivity]. }
  split.
  - intro g. destruct wdata as (X & m & va & _ & CP & P1 & P2 & _).
    destruct (mcu_is "all" auto bins range vshape r (at_point (fun y => y) (procw g) i) (fun j => dat (px (procw g)) (i :: r ++ [j])) (2*n) BF (pair_ok (procw g) vshape n i (fun y => y) (CP g) HP "all" (or_introl eq_refl)) Hr
      (data_all (procw g) vshape n i r (fun y => y) _ (CP g) Hr (fun j _ => eq_refl)) (MC g)) as [Q _]. etransitivity; [exact Q|].
    rewrite rsum_double, (rsum_ext _ (fun _ => 2 * mw)); [rewrite rsum_const, seq_length, mult_INR; cbn [INR]; field; lra|].
    intros j Hj. apply in_seq in Hj. rewrite (P1 g j) by lia. rewrite (P2 g j) by lia. ring.
  - destruct (C83_wiener_all (fun y => y) mw (mw^2 + vw) (mw^2 - vw) (proj2 (tame_growth _) TI) MC M1 M2 M3) as (_ & _ & Q & _). etransitivity; [exact Q|]. field. lra.
Qed.

(** *** lognormal processes *)
Theorem C83_lognorm_even f v v2 vr : exp_growth (fun y => f (exp y)) -> (forall g, mcu_done "even" auto bins range (at_point f (procl g) i)) ->
  normal_mean ml (sqrt vl) (fun y => f (exp y)) v -> normal_mean ml (sqrt vl) (fun y => f (exp y) * f (exp y)) v2 -> normal_mean ml (sqrt vl) (fun y => f (exp y) * f (exp (2*ml - y))) vr ->
  let e2 := ((v2 + vr)/2 - v^2) / INR n in let m g := mcu_mean_at "even" auto bins range (at_point f (procl g) i) r in
  L d m = v /\ L d (fun g => (m g - v)^2) = e2 /\
  ((2 <= n)%nat -> L d (fun g => mcu_var_at "even" auto bins range (at_point f (procl g) i) r) = e2 * (INR n - 1) /\
    L d (fun g => mcu_stderr_at "even" auto bins range (at_point f (procl g) i) r ^2) = e2).
Proof using HS CM CS BX BM BS V0 N0 HF Hd NS HP Hi Hr HE BF.
  intros HG MC M1 M2 M3. apply tame_growth in HG. apply nmean_EN in M1. apply nmean_EN in M2. apply nmean_EN in M3. rewrite <- M1, <- M2, <- M3.
  destruct ldata as (X & m & va & SUM & CP & P1 & P2 & IS).
  exact (pair_even (L d) vshape n X exp m va (proj1 (proj1 HS) d) SUM procl i r ml vl HP Hr CP P1 P2 IS f HG auto bins range BF MC).
Qed.
Theorem C83_lognorm_all f v v2 vr : exp_growth (fun y => f (exp y)) -> (forall g, mcu_done "all" auto bins range (at_point f (procl g) i)) ->
  normal_mean ml (sqrt vl) (fun y => f (exp y)) v -> normal_mean ml (sqrt vl) (fun y => f (exp y) * f (exp y)) v2 -> normal_mean ml (sqrt vl) (fun y => f (exp y) * f (exp (2*ml - y))) vr ->
  let e2 := ((v2 + vr)/2 - v^2) / INR n in let m g := mcu_mean_at "all" auto bins range (at_point f (procl g) i) r in
  let se2 := L d (fun g => mcu_stderr_at "all" auto bins range (at_point f (procl g) i) r ^2) in
  L d m = v /\ L d (fun g => (m g - v)^2) = e2 /\ se2 = (v2 - v^2 - e2) / (2 * INR n - 1) /\
  (monotone f -> e2 <= (v2 - v^2) / (2 * INR n) <= se2).
Proof using HS CM CS BX BM BS V0 N0 HF Hd NS HP Hi Hr HE BF.
  intros HG MC M1 M2 M3. apply tame_growth in HG. apply nmean_EN in M1. apply nmean_EN in M2. apply nmean_EN in M3. rewrite <- M1, <- M2, <- M3.
  destruct ldata as (X & m & va & SUM & CP & P1 & P2 & IS).
  destruct (pair_all (L d) vshape n X exp m va (proj1 (proj1 HS) d) SUM procl i r ml vl HP Hr CP P1 P2 IS f HG auto bins range BF MC) as (A1 & A2 & A3).
  intros e2 mm se2. split; [exact A1|]. split; [exact A2|]. split; [exact A3|]. intro M.
  assert (M' : monotone (fun y => f (exp y))).
  { assert (EI : forall y z, y <= z -> exp y <= exp z) by (intros y z [H| ->]; [left; apply exp_increasing; exact H|lra]). destruct M as [M|M]; [left|right]; intros y z H; apply M, EI, H. }
  assert (Q := pair_reduced n exp ml vl HP f HG M'). cbv beta in Q. split; [exact Q|]. change se2 with (L d (fun g => mcu_stderr_at "all" auto bins range (at_point f (procl g) i) r ^2)). rewrite A3.
  apply (overstated n HP). exact Q.
Qed.
(** the price of a call: without bias, the standard error with use='even' is right, the one with use='all' is at least as large,
    and so is the error with as many independent paths *)
Theorem C83_call F k rr q : (forall ix, inb w ix -> 0 < bget x0 ix) -> std_normal_cdf F -> 0 < k -> 0 < sg -> t0 < ti -> a = rr - q -> (2 <= n)%nat ->
  let pay y := exp (- (rr * (ti - t0))) * Rmax (y - k) 0 in
  (forall use g, use = "even"%string \/ use = "all"%string -> mcu_done use auto bins range (at_point pay (procl g) i)) ->
  let m use g := mcu_mean_at use auto bins range (at_point pay (procl g) i) r in let se2 use := L d (fun g => mcu_stderr_at use auto bins range (at_point pay (procl g) i) r ^2) in
  exists price v2, bscall F k (ti - t0) x rr q sg = Ok price /\ normal_mean ml (sqrt vl) (fun y => pay (exp y) * pay (exp y)) v2 /\
    L d (m "even"%string) = price /\ L d (m "all"%string) = price /\
    L d (fun g => (m "even"%string g - price)^2) = se2 "even"%string /\ L d (fun g => (m "all"%string g - price)^2) = se2 "even"%string /\
    se2 "even"%string <= (v2 - price^2) / (2 * INR n) <= se2 "all"%string.
Proof using HS CM CS BX BM BS V0 N0 HF Hd NS HP Hi Hr HE BF.
  intros XP HC HK S T EA N2 pay MC m se2.
  assert (TP : tame (fun y => pay (exp y))) by exact (tame_scal (exp (- (rr * (ti - t0)))) (fun y => Rmax (exp y - k) 0) (proj1 (tame_growth _) (proj1 (payoff_growth k)))).
  assert (HG : exp_growth (fun y => pay (exp y))) by (apply tame_growth; exact TP).
  assert (TR : tame (fun y => pay (exp (2*ml - y)))) by exact (tame_reflect (fun y => pay (exp y)) ml TP).
  set (v := EN (fun z => pay (exp (ml + sqrt vl * z)))). set (v2 := EN (fun z => pay (exp (ml + sqrt vl * z)) * pay (exp (ml + sqrt vl * z)))).
  assert (M1 : normal_mean ml (sqrt vl) (fun y => pay (exp y)) v) by exact (EN_nmean ml (sqrt vl) _ TP).
  assert (M2 : normal_mean ml (sqrt vl) (fun y => pay (exp y) * pay (exp y)) v2) by exact (EN_nmean ml (sqrt vl) _ (tame_mult _ _ TP TP)).
  assert (M3 := EN_nmean ml (sqrt vl) _ (tame_mult _ _ TP TR)). cbv beta in M3.
  destruct (C83_lognorm_even pay v v2 _ HG (fun g => MC "even"%string g (or_introl eq_refl)) M1 M2 M3) as (A1 & A2 & A3). destruct (A3 N2) as [_ A4].
  destruct (C83_lognorm_all pay v v2 _ HG (fun g => MC "all"%string g (or_intror eq_refl)) M1 M2 M3) as (B1 & B2 & _ & B3).
  assert (MO : monotone pay).
  { left. intros y z H. unfold pay. apply Rmult_le_compat_l; [left; apply exp_pos|]. apply Rle_max_compat_r. lra. }
  destruct (B3 MO) as [B4 B5].
  destruct (HE 0%nat) as (X1 & X2 & X3). { destruct HS as (_ & _ & _ & _ & _ & _ & EP & _). cbv iota in EP. lia. }
  assert (I0 : inb w (r ++ [0%nat])). { apply inb_app; [exact Hr|]. repeat constructor. destruct HS as (_ & _ & _ & _ & _ & _ & EP & _). cbv iota in EP. lia. }
  assert (C1 := C80_call (I := I) L normal mvnormal true c n paths vshape s HS x0 mu sigma args CM CS BX BM BS pace_fn fuel gi inf timeline t0 d V0 N0 HF Hd XP F k rr q i ti (r ++ [0%nat])%list HC HK Hi I0
    (eq_ind_r (fun y => 0 < y) S X3) T (eq_trans X2 EA)).
  rewrite X1, X3 in C1. eexists _, v2. split; [exact C1|]. split; [exact M2|].
  assert (TM : tame (fun y => Rmax (exp y - k) 0)) by exact (proj1 (tame_growth _) (proj1 (payoff_growth k))).
  assert (EP : v = exp (- (rr * (ti - t0))) * L d (fun g => Rmax (value_at (runl g) i (r ++ [0%nat]) - k) 0)).
  { destruct (lognorm_all (I := I) L normal mvnormal true c n paths vshape s HS x0 mu sigma args CM CS BX BM BS pace_fn fuel gi inf timeline t0 d V0 N0 HF Hd) as [_ R2]. destruct (R2 i ti Hi) as (Q & _).
    assert (Q1 := Q (r ++ [0%nat])%list (fun y => Rmax (y - k) 0) I0 (tame_cok _ TM)). rewrite X1, X2, X3 in Q1. etransitivity; [|apply f_equal; symmetry; exact Q1].
    unfold v, pay. apply EN_scal. exact (tame_aff _ ml (sqrt vl) TM). }
  unfold runl, N in EP. rewrite <- EP. split; [exact A1|]. split; [exact B1|]. unfold se2, m. rewrite A4. split; [exact A2|]. split; [exact B2|]. split; [exact B4|exact B5].
Qed.
Theorem C83_put F k rr q : (forall ix, inb w ix -> 0 < bget x0 ix) -> std_normal_cdf F -> 0 < k -> 0 < sg -> t0 < ti -> a = rr - q -> (2 <= n)%nat ->
  let pay y := exp (- (rr * (ti - t0))) * Rmax (k - y) 0 in
  (forall use g, use = "even"%string \/ use = "all"%string -> mcu_done use auto bins range (at_point pay (procl g) i)) ->
  let m use g := mcu_mean_at use auto bins range (at_point pay (procl g) i) r in let se2 use := L d (fun g => mcu_stderr_at use auto bins range (at_point pay (procl g) i) r ^2) in
  exists price v2, bsput F k (ti - t0) x rr q sg = Ok price /\ normal_mean ml (sqrt vl) (fun y => pay (exp y) * pay (exp y)) v2 /\
    L d (m "even"%string) = price /\ L d (m "all"%string) = price /\
    L d (fun g => (m "even"%string g - price)^2) = se2 "even"%string /\ L d (fun g => (m "all"%string g - price)^2) = se2 "even"%string /\
    se2 "even"%string <= (v2 - price^2) / (2 * INR n) <= se2 "all"%string.
Proof using HS CM CS BX BM BS V0 N0 HF Hd NS HP Hi Hr HE BF.
  intros XP HC HK S T EA N2 pay MC m se2.
  assert (TP : tame (fun y => pay (exp y))) by exact (tame_scal (exp (- (rr * (ti - t0)))) (fun y => Rmax (k - exp y) 0) (proj1 (tame_growth _) (proj2 (payoff_growth k)))).
  assert (HG : exp_growth (fun y => pay (exp y))) by (apply tame_growth; exact TP).
  assert (TR : tame (fun y => pay (exp (2*ml - y)))) by exact (tame_reflect (fun y => pay (exp y)) ml TP).
  set (v := EN (fun z => pay (exp (ml + sqrt vl * z)))). set (v2 := EN (fun z => pay (exp (ml + sqrt vl * z)) * pay (exp (ml + sqrt vl * z)))).
  assert (M1 : normal_mean ml (sqrt vl) (fun y => pay (exp y)) v) by exact (EN_nmean ml (sqrt vl) _ TP).
  assert (M2 : normal_mean ml (sqrt vl) (fun y => pay (exp y) * pay (exp y)) v2) by exact (EN_nmean ml (sqrt vl) _ (tame_mult _ _ TP TP)).
  assert (M3 := EN_nmean ml (sqrt vl) _ (tame_mult _ _ TP TR)). cbv beta in M3.
  destruct (C83_lognorm_even pay v v2 _ HG (fun g => MC "even"%string g (or_introl eq_refl)) M1 M2 M3) as (A1 & A2 & A3). destruct (A3 N2) as [_ A4].
  destruct (C83_lognorm_all pay v v2 _ HG (fun g => MC "all"%string g (or_intror eq_refl)) M1 M2 M3) as (B1 & B2 & _ & B3).
  assert (MO : monotone pay).
  { right. intros y z H. unfold pay. apply Rmult_le_compat_l; [left; apply exp_pos|]. apply Rle_max_compat_r. lra. }
  destruct (B3 MO) as [B4 B5].
  destruct (HE 0%nat) as (X1 & X2 & X3). { destruct HS as (_ & _ & _ & _ & _ & _ & EP & _). cbv iota in EP. lia. }
  assert (I0 : inb w (r ++ [0%nat])). { apply inb_app; [exact Hr|]. repeat constructor. destruct HS as (_ & _ & _ & _ & _ & _ & EP & _). cbv iota in EP. lia. }
  assert (C1 := C80_put (I := I) L normal mvnormal true c n paths vshape s HS x0 mu sigma args CM CS BX BM BS pace_fn fuel gi inf timeline t0 d V0 N0 HF Hd XP F k rr q i ti (r ++ [0%nat])%list HC HK Hi I0
    (eq_ind_r (fun y => 0 < y) S X3) T (eq_trans X2 EA)).
  rewrite X1, X3 in C1. eexists _, v2. split; [exact C1|]. split; [exact M2|].
  assert (TM : tame (fun y => Rmax (k - exp y) 0)) by exact (proj1 (tame_growth _) (proj2 (payoff_growth k))).
  assert (EP : v = exp (- (rr * (ti - t0))) * L d (fun g => Rmax (k - value_at (runl g) i (r ++ [0%nat])) 0)).
  { destruct (lognorm_all (I := I) L normal mvnormal true c n paths vshape s HS x0 mu sigma args CM CS BX BM BS pace_fn fuel gi inf timeline t0 d V0 N0 HF Hd) as [_ R2]. destruct (R2 i ti Hi) as (Q & _).
    assert (Q1 := Q (r ++ [0%nat])%list (fun y => Rmax (k - y) 0) I0 (tame_cok _ TM)). rewrite X1, X2, X3 in Q1. etransitivity; [|apply f_equal; symmetry; exact Q1].
    unfold v, pay. apply EN_scal. exact (tame_aff _ ml (sqrt vl) TM). }
  unfold runl, N in EP. rewrite <- EP. split; [exact A1|]. split; [exact B1|]. unfold se2, m. rewrite A4. split; [exact A2|]. split; [exact B2|]. split; [exact B4|exact B5].
Qed.
End Exact.
Print Assumptions C83_wiener_mirror.
Print Assumptions C83_lognorm_mirror.
Print Assumptions C83_wiener_even.
Print Assumptions C83_wiener_all.
Print Assumptions C83_wiener_exact.
Print Assumptions C83_lognorm_even.
Print Assumptions C83_lognorm_all.
Print Assumptions C83_call.
Print Assumptions C83_put.

(** *** Examples *)
Section Ex.
Let law := the_law [].
(** 200 antithetic Wiener paths from 2, with drift 3 and volatility 2, with any number of steps up to time 1: in every run, values on
    paths 7 and 107 add to 10, and the mean is 5, exactly; the square of the standard error with use='all' has mean 4/199 *)
Example C83_ex_wiener auto k s : (0 < k)%nat -> source_dw (the_normal []) (the_mvnormal []) (given_dw (the_normal []) (the_mvnormal []) true INone INone) INone INone 200 [] = Ok s ->
  let pc := pace ex_linspace (StepsScalar k) in let d := (2 + len (pc [0%R; 1%R]))%nat in
  let run g := sde_call Rminus (wiener_process (I := unit) (at_step s) false [] 200 (ascalar 2) (ex_const 3 2)) 0 pc d (g, tt) [2%nat] [0; 1] in
  let p g := proc_of (sde_process [200%nat] [0; 1] (run g)) in
  (forall g, value_at (run g) 1 [7%nat] + value_at (run g) 1 [107%nat] = 10) /\
  (forall g, mcu_mean_at "all" auto (BInt 100) None (at_point (fun y => y) (p g) 1) [] = 5) /\
  law d (fun g => mcu_stderr_at "all" auto (BInt 100) None (at_point (fun y => y) (p g) 1) [] ^2) = 4/199.
Proof.
  intros Hn HS pc d run p. assert (HN := P_tval.ex_noise true 100 s HS). cbv iota in HN. change (2 * 100)%nat with 200%nat in HN.
  assert (EM : wiener_mean 2 3 2 (1 - 0) = 5) by (unfold wiener_mean; ring). assert (EV : wiener_var 2 3 2 (1 - 0) = 4) by (unfold wiener_var; ring).
  assert (GD := fun g => good (G := _) (I := unit) 200 [] pc d tt [0; 1] 0 (ex_tl 1 ltac:(lra)) eq_refl (le_n _) 1%nat 1 eq_refl (wiener_process (I := unit) (at_step s) false [] 200 (ascalar 2) (ex_const 3 2)) eq_refl
    (proj1 (wpair (I := unit) law (the_normal []) (the_mvnormal []) _ 100 200 [] s HN (ascalar 2) (ascalar 3) (ascalar 2) (ex_const 3 2) eq_refl eq_refl (ex_b 2 _) (ex_b 3 _) (ex_b 2 _)
      pc d false tt [0; 1] 0 (ex_tl 1 ltac:(lra)) eq_refl (le_n _))) g).
  split.
  - intro g. assert (Q := C83_wiener_mirror (I := unit) law (the_normal []) (the_mvnormal []) _ 100 200 [] s HN (ascalar 2) (ascalar 3) (ascalar 2) (ex_const 3 2) eq_refl eq_refl (ex_b 2 _) (ex_b 3 _) (ex_b 2 _)
      pc d false tt [0; 1] 0 (ex_tl 1 ltac:(lra)) eq_refl (le_n _) 1%nat 1 [] 7%nat 2 3 2 eq_refl (Forall2_nil _) ltac:(lia) (conj eq_refl (conj eq_refl eq_refl)) (conj eq_refl (conj eq_refl eq_refl)) g).
    rewrite EM in Q. etransitivity; [exact Q|]. ring.
  - destruct (C83_wiener_exact (I := unit) law (the_normal []) (the_mvnormal []) _ 100 200 [] s HN (ascalar 2) (ascalar 3) (ascalar 2) (ex_const 3 2) eq_refl eq_refl (ex_b 2 _) (ex_b 3 _) (ex_b 2 _)
      pc d false tt [0; 1] 0 d (ex_tl 1 ltac:(lra)) eq_refl (le_n _) (le_n _) (the_normal_sums [] _) ltac:(lia) 1%nat 1 [] 2 3 2 eq_refl (Forall2_nil _) (fun j _ => conj eq_refl (conj eq_refl eq_refl)) auto (BInt 100) None Logic.I) as [A1 A2].
    + intro g. destruct (GD g) as (_ & CW & _). destruct (C83_accepted auto None _ [] 100 1 (fun y => y) CW ltac:(lia) "all"%string (or_introl eq_refl)) as [_ H]. apply H; [discriminate|lia].
    + split; [intro g; etransitivity; [exact (A1 g)|exact EM]|]. etransitivity; [exact A2|]. rewrite EV, INR_IZR_INZ. change (Z.of_nat 100) with 100%Z. field.
Qed.
(** the price of a call at the money from 200 antithetic lognormal paths *)
Example C83_ex_call F auto k s : std_normal_cdf F -> (0 < k)%nat -> source_dw (the_normal []) (the_mvnormal []) (given_dw (the_normal []) (the_mvnormal []) true INone INone) INone INone 200 [] = Ok s ->
  let pc := pace ex_linspace (StepsScalar k) in let d := (2 + len (pc [0%R; 1%R]))%nat in
  let p g := proc_of (sde_process [200%nat] [0; 1] (sde_call Rminus (lognorm_process (I := unit) (at_step s) false [] 200 (ascalar 3) (ex_const 0 2)) 0 pc d (g, tt) [2%nat] [0; 1])) in
  let pay y := exp (- (0 * (1 - 0))) * Rmax (y - 3) 0 in
  let m use g := mcu_mean_at use auto (BInt 100) None (at_point pay (p g) 1) [] in let se2 use := law d (fun g => mcu_stderr_at use auto (BInt 100) None (at_point pay (p g) 1) [] ^2) in
  exists price, bscall F 3 (1 - 0) 3 0 0 2 = Ok price /\ law d (m "even"%string) = price /\ law d (fun g => (m "even"%string g - price)^2) = se2 "even"%string /\ se2 "even"%string <= se2 "all"%string.
Proof.
  intros HC Hn HS pc d p pay m se2. assert (HN := P_tval.ex_noise true 100 s HS). cbv iota in HN. change (2 * 100)%nat with 200%nat in HN.
  assert (XP : forall ix : list nat, inb ([] ++ [200%nat]) ix -> 0 < bget (ascalar 3) ix) by (intros; cbn; lra).
  assert (GD := fun g => good (G := _) (I := unit) 200 [] pc d tt [0; 1] 0 (ex_tl 1 ltac:(lra)) eq_refl (le_n _) 1%nat 1 eq_refl (lognorm_process (I := unit) (at_step s) false [] 200 (ascalar 3) (ex_const 0 2)) eq_refl
    (proj1 (lpair (I := unit) law (the_normal []) (the_mvnormal []) _ 100 200 [] s HN (ascalar 3) (ascalar 0) (ascalar 2) (ex_const 0 2) eq_refl eq_refl (ex_b 3 _) (ex_b 0 _) (ex_b 2 _)
      pc d false tt [0; 1] 0 (ex_tl 1 ltac:(lra)) eq_refl (le_n _))) g).
  assert (MC : forall use g, use = "even"%string \/ use = "all"%string -> mcu_done use auto (BInt 100) None (at_point pay (p g) 1)).
  { intros use g U. destruct (GD g) as (_ & CW & _). destruct (C83_accepted auto None _ [] 100 1 pay CW ltac:(lia) use ltac:(tauto)) as [_ H]. apply H; [discriminate|lia]. }
  destruct (C83_call (I := unit) law (the_normal []) (the_mvnormal []) _ 100 200 [] s HN (ascalar 3) (ascalar 0) (ascalar 2) (ex_const 0 2) eq_refl eq_refl (ex_b 3 _) (ex_b 0 _) (ex_b 2 _)
    pc d false tt [0; 1] 0 d (ex_tl 1 ltac:(lra)) eq_refl (le_n _) (le_n _) (the_normal_sums [] _) ltac:(lia) 1%nat 1 [] 3 0 2 eq_refl (Forall2_nil _) (fun j _ => conj eq_refl (conj eq_refl eq_refl)) auto (BInt 100) None Logic.I
    F 3 0 0 XP HC ltac:(lra) ltac:(lra) ltac:(lra) ltac:(lra) ltac:(lia) MC) as (price & v2 & A1 & _ & A2 & _ & A3 & _ & A4 & A5).
  exists price. split; [exact A1|]. split; [exact A2|]. split; [exact A3|]. exact (Rle_trans _ _ _ A4 A5).
Qed.
End Ex.
