(** C82: the statistics that the library computes from a simulation estimate the quantities that its analytical module gives:
    summaries across paths and empirical distributions of the process returned by an integration, and montecarlo objects. *)
From Coq Require Import String List Arith Bool ZArith Reals Lra Lia.
From Coquelicot Require Import Coquelicot.
From Verif Require Import Base BaseOrd BaseNum BaseArr M_paths S_paths S_run L_ord L_paths8
  M_process M_source S_source M_sde S_sde L_sde L_sde2 L_sde3 M_presets S_presets L_presets M_integrate S_integrate P_source4 S_true2 S_euler L_euler L_euler2
  BaseNd BaseIdx S_process L_nd L_pack L_process P_process P_process3 P_source2 P_source3 M_mc S_mc P_mc M_rv S_rv M_analytical S_analytical M_dist S_dist L_gauss L_gauss2 L_dist P_dist P_bs P_price M_anti S_law P_chf L_law L_law2 L_law4 L_law5 L_law8 S_gval L_gval L_gval2 L_gval3 L_gval4 L_gval5 L_gval6 P_gval
  S_tval L_tval L_tval2 L_tval3 L_tval4 L_tval5 L_tval6 L_gop L_cirop L_nrun L_cirrun S_mean L_conv L_cok L_tame L_meanrun L_meanlaw L_est P_mean P_prob M_result S_stat L_stat.
From Verif Require P_euler P_tval.
Import ListNotations.
Open Scope R_scope.
Local Notation len := List.length.

(** *** the process that an integration returns: its timeline is the one requested, its values have the shape of the working
    array, and its entries are the values stored along the timeline *)
Theorem C82_result {Wd I} (ig : integ R R Wd I) i0 pace_fn fuel wd inf timeline p0 t0 s' xx :
  valid_timeline timeline -> start_index (len timeline) i0 p0 -> nth_error timeline p0 = Some t0 -> (len timeline + len (pace_fn timeline) <= fuel)%nat ->
  let run := sde_call Rminus ig i0 pace_fn fuel (wd, inf) [len timeline] timeline in
  run = Ok (s', xx) ->
  exists p, sde_process (ig_w ig) timeline run = Ok (s', p) /\ wf p /\ pt p = timeline /\ comp p = ig_w ig /\ forall i ix, dat (px p) (i :: ix) = value_at run i ix.
Proof.
  intros V0 SI N0 HF run E. destruct s' as [u' i']. rewrite E. apply result_ok; [apply V0|].
  destruct (sde_call_run Rminus ig i0 pace_fn fuel wd inf timeline p0 t0 u' i' xx V0 SI N0 HF E) as (? & ? & ? & ? & ? & _ & _ & _ & _ & _ & _ & LX & _). exact LX.
Qed.
Print Assumptions C82_result.

(** *** montecarlo objects: samples taken from a process are accepted, without bins or with a number of equal bins *)
Theorem C82_accepted auto range p vshape P i f : wf p -> comp p = (vshape ++ [P])%list -> (0 < P)%nat ->
  mc_done auto BNone range (at_point f p i) /\
  ((forall r0 r1, range = Some (r0, r1) -> r0 <= r1) -> forall k, (0 < k)%nat -> mc_done auto (BInt k) range (at_point f p i)).
Proof.
  intros W CP HP. assert (OK : List.Forall (sample_ok "all" vshape) [(at_point f p i, (-1)%Z)]) by (repeat constructor; apply (sample_good p vshape P i CP f HP)).
  assert (NE : [(at_point f p i, (-1)%Z)] <> []) by discriminate.
  split; [exact (C44_succeeds auto "all" range vshape _ NE OK)|]. intros HR k HK.
  destruct (C45_equal_bins auto "all" k range vshape _ HK HR NE OK) as (n & a & E & _). exists n, a. exact E.
Qed.
Print Assumptions C82_accepted.

Section Exact.
Context {G I : Type}.
Variables (L : nat -> (G -> R) -> R) (normal : list nat -> G -> res (arr R) * G) (mvnormal : arr R -> list nat -> G -> res (arr R) * G).
Variables (c : R -> nat -> nat -> R) (n paths : nat) (vshape : list nat) (s : src (V := R) (G := G) (arr R)).
Hypothesis HS : noise_source L normal mvnormal false INone INone c n paths vshape s.
Let w := (vshape ++ [paths])%list.
Hypothesis NS : normal_sums L normal w.
Hypothesis HP : (0 < paths)%nat.
Variables (x0 mu sigma : arr R) (args : dict (M_sde.param R R)).
Hypothesis CM : const_arg args "mu" mu.
Hypothesis CS : const_arg args "sigma" sigma.
Hypothesis BX : broadcasts (shp x0) w.
Hypothesis BM : broadcasts (shp mu) w.
Hypothesis BS : broadcasts (shp sigma) w.
Variables (pace_fn : list R -> list R) (fuel : nat) (gi : bool) (inf : I) (timeline : list R) (t0 : R) (d : nat).
Hypothesis V0 : valid_timeline timeline.
Hypothesis N0 : nth_error timeline 0 = Some t0.
Let N := len timeline.
Hypothesis HF : (N + len (pace_fn timeline) <= fuel)%nat.
Hypothesis Hd : (N + len (pace_fn timeline) <= d)%nat.
(** a time of the timeline, and a component, with the same parameters on all paths *)
Variables (i : nat) (ti : R) (r : list nat) (x a sg : R).
Hypothesis Hi : nth_error timeline i = Some ti.
Hypothesis Hr : inb vshape r.
Hypothesis HE : forall j, (j < paths)%nat -> bget x0 (r ++ [j]) = x /\ bget mu (r ++ [j]) = a /\ bget sigma (r ++ [j]) = sg.
Lemma after : 0 <= ti - t0.
Proof using V0 N0 Hi.
  clear - V0 N0 Hi. destruct V0 as (_ & _ & ST). destruct timeline as [|t l]; [discriminate|]. injection N0 as ->. destruct i as [|k]; [injection Hi as ->; lra|]. cbn in Hi.
  inversion ST as [|? ? _ FA]; subst. rewrite Forall_forall in FA. specialize (FA ti (nth_error_In _ _ Hi)). apply before_false in FA. lra.
Qed.
Lemma good (ig : integ R R G I) : ig_w ig = w -> let run g := sde_call Rminus ig 0 pace_fn fuel (g, inf) [N] timeline in (forall g, exists s' xx, run g = Ok (s', xx)) ->
  forall g, let p := proc_of (sde_process w timeline (run g)) in wf p /\ comp p = w /\ (i < len (pt p))%nat /\ forall ix, inb w ix -> dat (px p) (i :: ix) = value_at (run g) i ix.
Proof using V0 N0 HF Hi.
  intros EW run OK g p. destruct (OK g) as (s' & xx & E). assert (SI : start_index N 0 0) by (clear - Hi; unfold start_index, N; destruct timeline; [destruct i; discriminate|cbn; lia]).
  destruct (C82_result ig 0 pace_fn fuel g inf timeline 0%nat t0 s' xx V0 SI N0 HF E) as (q & E2 & W & PT & CW & EN). unfold p, run. rewrite EW in *. unfold N. rewrite E2. cbn [proc_of].
  split; [exact W|]. split; [exact CW|]. split; [rewrite PT; apply nth_error_Some; rewrite Hi; discriminate|]. intros ix _. apply EN.
Qed.

(** *** Wiener processes *)
Let procw g := proc_of (sde_process w timeline (sde_call Rminus (wiener_process (I := I) (at_step s) gi vshape paths x0 args) 0 pace_fn fuel (g, inf) [N] timeline)).
Let mw := wiener_mean x a sg (ti - t0).
Let vw := wiener_var x a sg (ti - t0).
Lemma wgood g : wf (procw g) /\ comp (procw g) = w /\ (i < len (pt (procw g)))%nat /\
  forall ix, inb w ix -> dat (px (procw g)) (i :: ix) = value_at (sde_call Rminus (wiener_process (I := I) (at_step s) gi vshape paths x0 args) 0 pace_fn fuel (g, inf) [N] timeline) i ix.
Proof using HS CM CS BX BM BS V0 N0 HF Hd Hi.
  exact (good (wiener_process (I := I) (at_step s) gi vshape paths x0 args) eq_refl
    (proj1 (wiener_all (I := I) L normal mvnormal false c n paths vshape s HS x0 mu sigma args CM CS BX BM BS pace_fn fuel gi inf timeline t0 d V0 N0 HF Hd)) g).
Qed.
(** the average of the paths, and the variance of the paths (ddof = k): the latter is unbiased with ddof=1 *)
Theorem C82_wiener :
  let ave g := entry_of (psummary false nmean (procw g)) (i :: r ++ [0%nat]) in
  let var k g := entry_of (psummary false (nvar k) (procw g)) (i :: r ++ [0%nat]) in
  L d ave = mw /\ L d (fun g => (ave g - mw)^2) = vw / INR paths /\
  (forall k, (k < paths)%nat -> L d (var k) = vw * (INR paths - 1) / (INR paths - INR k)) /\ ((1 < paths)%nat -> L d (var 1%nat) = vw).
Proof using HS NS HP CM CS BX BM BS V0 N0 HF Hd Hi Hr HE.
  intros ave var. destruct (wiener_all (I := I) L normal mvnormal false c n paths vshape s HS x0 mu sigma args CM CS BX BM BS pace_fn fuel gi inf timeline t0 d V0 N0 HF Hd) as [_ R2].
  destruct (R2 i ti Hi) as (_ & _ & X).
  destruct (pmean_est (L d) vshape paths _ (fun y => y) _ _ (proj1 (proj1 HS) d) (X eq_refl NS) procw i r mw vw HP Hr wgood) as (A1 & A2 & A3).
  - intros j Hj. cbv beta. destruct (HE j Hj) as (-> & -> & ->). auto.
  - apply tame_cok, tame_id.
  - apply tame_cok, (tame_mult (fun y => y) (fun y => y)); apply tame_id.
  - assert (VP : 0 <= vw) by (unfold vw, wiener_var; apply Rmult_le_pos; [apply Rle_0_sqr|apply after]).
    assert (M1 : EN (fun z => mw + sqrt vw * z) = mw). { apply EN_eq. eapply mean_ext; [exact (mean_normal_poly mw (sqrt vw) 0)| |ring]. intro z. cbv beta. ring. }
    assert (M2 : EN (fun z => (mw + sqrt vw * z) * (mw + sqrt vw * z)) = mw^2 + vw).
    { apply EN_eq. eapply mean_ext; [exact (mean_normal_poly (mw*mw) (2*mw*sqrt vw) vw)| |ring]. intro z. cbv beta. transitivity (mw*mw + 2*mw*sqrt vw*z + (sqrt vw*sqrt vw)*(z*z)); [ring|rewrite (sqrt_sqrt vw VP); reflexivity]. }
    cbv beta in A1, A2, A3. rewrite M1, M2 in A2. rewrite M1 in A1. assert (Q : forall k, (k < paths)%nat -> L d (var k) = vw * (INR paths - 1) / (INR paths - INR k)).
    { intros k Hk. etransitivity; [exact (A3 k Hk)|]. rewrite M1, M2. f_equal. ring. }
    split; [exact A1|]. split; [etransitivity; [exact A2|]; f_equal; ring|]. split; [exact Q|]. intro H1. rewrite (Q 1%nat H1). apply lt_INR in H1. cbn [INR] in *. field. lra.
Qed.
(** the empirical cumulative distribution function and characteristic function *)
Theorem C82_wiener_cdf F y jx : std_normal_cdf F -> inb (shp y) jx -> 0 < sg -> t0 < ti ->
  let frac g := array_at 0 (cdf (procw g) None (Some y)) (i :: jx ++ r) in
  exists q, wiener_cdf F x a sg (ti - t0) (dat y jx) = Some q /\ L d frac = q /\ L d (fun g => (frac g - q)^2) = q * (1 - q) / INR paths.
Proof using HS NS HP CM CS BX BM BS V0 N0 HF Hd Hi Hr HE.
  intros HC HJ S T frac. destruct (wiener_all (I := I) L normal mvnormal false c n paths vshape s HS x0 mu sigma args CM CS BX BM BS pace_fn fuel gi inf timeline t0 d V0 N0 HF Hd) as [_ R2].
  destruct (R2 i ti Hi) as (_ & _ & X). eexists. split; [apply (wiener_EN F HC); lra|].
  destruct (cdf_est (L d) vshape paths _ (fun y => y) _ _ (proj1 (proj1 HS) d) (X eq_refl NS) procw i r mw vw HP Hr wgood) with (y := y) (jx := jx) as [A1 A2].
  - intros j Hj. cbv beta. destruct (HE j Hj) as (-> & -> & ->). auto.
  - exact HJ.
  - apply ind_cok.
  - split; [exact A1|exact A2].
Qed.
Theorem C82_wiener_chf u jx : inb (shp u) jx ->
  let cf g := array_at (RtoC 0) (chf cis caverage (procw g) None (Some u)) (i :: jx ++ r) in
  (L d (fun g => fst (cf g)), L d (fun g => snd (cf g))) = wiener_chf x a sg (ti - t0) (dat u jx).
Proof using HS NS HP CM CS BX BM BS V0 N0 HF Hd Hi Hr HE.
  intros HJ cf. destruct (wiener_all (I := I) L normal mvnormal false c n paths vshape s HS x0 mu sigma args CM CS BX BM BS pace_fn fuel gi inf timeline t0 d V0 N0 HF Hd) as [_ R2].
  destruct (R2 i ti Hi) as (_ & _ & X).
  assert (VP : 0 <= vw) by (unfold vw, wiener_var; apply Rmult_le_pos; [apply Rle_0_sqr|apply after]).
  destruct (chf_est (L d) vshape paths _ (fun y => y) _ _ (proj1 (proj1 HS) d) (X eq_refl NS) procw i r mw vw HP Hr wgood) with (u := u) (jx := jx) as [A1 A2].
  - intros j Hj. cbv beta. destruct (HE j Hj) as (-> & -> & ->). auto.
  - exact HJ.
  - intro b. apply (tame_bounded _ 1); [|intro y; apply Rabs_le, COS_bound]. intro y. apply (ex_derive_continuous (V := R_NormedModule)). auto_derive. auto.
  - intro b. apply (tame_bounded _ 1); [|intro y; apply Rabs_le, SIN_bound]. intro y. apply (ex_derive_continuous (V := R_NormedModule)). auto_derive. auto.
  - etransitivity; [exact (f_equal2 pair A1 A2)|]. rewrite C57_wiener by apply after. fold mw vw. unfold S_analytical.normal_chf, cexp. cbn [fst snd].
    assert (SV : sqrt vw * sqrt vw = vw) by (apply sqrt_sqrt; exact VP).
    f_equal; apply EN_eq.
    + eapply mean_ext; [exact (mean_normal_cos (dat u jx * mw) (dat u jx * sqrt vw))| |].
      * intro z. cbv beta. f_equal. ring.
      * rewrite Rmult_comm. f_equal; f_equal; [|ring]. field.
    + eapply mean_ext; [exact (mean_normal_sin (dat u jx * sqrt vw) (dat u jx * mw))| |].
      * intro z. cbv beta. f_equal. ring.
      * rewrite Rmult_comm. f_equal; f_equal; [|ring]. field.
Qed.
(** montecarlo objects, for a sample of any function of the values: the mean, its mean square error, the variance (that of the
    sample: ddof=0), the standard error (its square estimates the mean square error of the mean) *)
Theorem C82_wiener_montecarlo auto bins range f v v2 : exp_growth f -> bins_for vshape bins -> (forall g, mc_done auto bins range (at_point f (procw g) i)) ->
  normal_mean mw (sqrt vw) f v -> normal_mean mw (sqrt vw) (fun y => f y * f y) v2 ->
  L d (fun g => mc_mean_at auto bins range (at_point f (procw g) i) r) = v /\
  L d (fun g => (mc_mean_at auto bins range (at_point f (procw g) i) r - v)^2) = (v2 - v^2) / INR paths /\
  L d (fun g => mc_var_at auto bins range (at_point f (procw g) i) r) = (v2 - v^2) * (INR paths - 1) / INR paths /\
  ((2 <= paths)%nat -> L d (fun g => mc_stderr_at auto bins range (at_point f (procw g) i) r ^2) = (v2 - v^2) / INR paths).
Proof using HS NS HP CM CS BX BM BS V0 N0 HF Hd Hi Hr HE.
  intros HG BF MC M1 M2. destruct (wiener_all (I := I) L normal mvnormal false c n paths vshape s HS x0 mu sigma args CM CS BX BM BS pace_fn fuel gi inf timeline t0 d V0 N0 HF Hd) as [_ R2].
  destruct (R2 i ti Hi) as (_ & _ & X). apply tame_growth in HG. apply nmean_EN in M1. apply nmean_EN in M2. rewrite <- M1, <- M2.
  destruct (mc_mean_est (L d) vshape paths _ (fun y => y) _ _ (proj1 (proj1 HS) d) (X eq_refl NS) procw i r mw vw HP Hr wgood) with (f := f) (auto := auto) (bins := bins) (range := range) as (A1 & A2 & A3 & A4); auto.
  - intros j Hj. cbv beta. destruct (HE j Hj) as (-> & -> & ->). auto.
  - apply tame_cok. exact HG.
  - apply tame_cok. exact (tame_mult _ _ HG HG).
Qed.

(** *** lognormal processes *)
Hypothesis XP : forall ix, inb w ix -> 0 < bget x0 ix.
Let procl g := proc_of (sde_process w timeline (sde_call Rminus (lognorm_process (I := I) (at_step s) gi vshape paths x0 args) 0 pace_fn fuel (g, inf) [N] timeline)).
Let ml := ln x + (a - sg * sg / 2) * (ti - t0).
Let vl := sg * sg * (ti - t0).
Lemma lgood g : wf (procl g) /\ comp (procl g) = w /\ (i < len (pt (procl g)))%nat /\
  forall ix, inb w ix -> dat (px (procl g)) (i :: ix) = value_at (sde_call Rminus (lognorm_process (I := I) (at_step s) gi vshape paths x0 args) 0 pace_fn fuel (g, inf) [N] timeline) i ix.
Proof using HS CM CS BX BM BS V0 N0 HF Hd Hi.
  exact (good (lognorm_process (I := I) (at_step s) gi vshape paths x0 args) eq_refl
    (proj1 (lognorm_all (I := I) L normal mvnormal false c n paths vshape s HS x0 mu sigma args CM CS BX BM BS pace_fn fuel gi inf timeline t0 d V0 N0 HF Hd)) g).
Qed.
Lemma xpos : 0 < x.
Proof using XP HE HP Hr. rewrite <- (proj1 (HE 0%nat HP)). apply XP. apply inb_app; [exact Hr|]. repeat constructor. exact HP. Qed.
Theorem C82_lognorm :
  let ave g := entry_of (psummary false nmean (procl g)) (i :: r ++ [0%nat]) in
  let var k g := entry_of (psummary false (nvar k) (procl g)) (i :: r ++ [0%nat]) in
  let m := lognorm_mean x a sg (ti - t0) in let v := lognorm_var x a sg (ti - t0) in
  L d ave = m /\ L d (fun g => (ave g - m)^2) = v / INR paths /\
  (forall k, (k < paths)%nat -> L d (var k) = v * (INR paths - 1) / (INR paths - INR k)) /\ ((1 < paths)%nat -> L d (var 1%nat) = v).
Proof using HS NS HP CM CS BX BM BS V0 N0 HF Hd Hi Hr HE XP.
  intros ave var m v. destruct (lognorm_all (I := I) L normal mvnormal false c n paths vshape s HS x0 mu sigma args CM CS BX BM BS pace_fn fuel gi inf timeline t0 d V0 N0 HF Hd) as [_ R2].
  destruct (R2 i ti Hi) as (_ & _ & X). assert (TE : tame exp) by (eapply tame_ext; [|apply (tame_exp 0 1)]; intro; cbv beta; f_equal; ring).
  destruct (pmean_est (L d) vshape paths _ exp _ _ (proj1 (proj1 HS) d) (X eq_refl NS) procl i r ml vl HP Hr lgood) as (A1 & A2 & A3).
  - intros j Hj. cbv beta. destruct (HE j Hj) as (-> & -> & ->). auto.
  - apply tame_cok. exact TE.
  - apply tame_cok, (tame_mult exp exp); exact TE.
  - assert (XX := xpos). assert (VP : 0 <= vl) by (unfold vl; apply Rmult_le_pos; [apply Rle_0_sqr|apply after]). assert (SV := sqrt_sqrt vl VP).
    assert (M1 : EN (fun z => exp (ml + sqrt vl * z)) = m).
    { apply EN_eq. eapply mean_ext; [exact (mean_normal_exp ml (sqrt vl))|reflexivity|]. rewrite SV. unfold m, lognorm_mean. rewrite <- (exp_ln x XX) at 1. rewrite <- exp_plus. f_equal. unfold ml, vl. field. }
    assert (M2 : EN (fun z => exp (ml + sqrt vl * z) * exp (ml + sqrt vl * z)) = v + m^2).
    { apply EN_eq. eapply mean_ext; [exact (mean_normal_exp (2*ml) (2*sqrt vl))| |].
      - intro z. cbv beta. rewrite <- exp_plus. f_equal. ring.
      - replace (2 * sqrt vl * (2 * sqrt vl)) with (4 * (sqrt vl * sqrt vl)) by ring. rewrite SV. unfold v, m, lognorm_var, lognorm_mean. fold vl.
        replace (x * x * (exp vl - 1) * exp (2*a*(ti-t0)) + (x * exp (a*(ti-t0)))^2) with (x * x * (exp vl * exp (2*a*(ti-t0)))).
        + rewrite <- (exp_ln x XX) at 1 2. rewrite <- !exp_plus. f_equal. unfold ml, vl. field.
        + replace (2*a*(ti-t0)) with (a*(ti-t0) + a*(ti-t0)) by ring. rewrite (exp_plus (a*(ti-t0))). ring. }
    cbv beta in A1, A2, A3. rewrite M1, M2 in A2. rewrite M1 in A1. assert (Q : forall k, (k < paths)%nat -> L d (var k) = v * (INR paths - 1) / (INR paths - INR k)).
    { intros k Hk. etransitivity; [exact (A3 k Hk)|]. rewrite M1, M2. f_equal. ring. }
    split; [exact A1|]. split; [etransitivity; [exact A2|]; f_equal; ring|]. split; [exact Q|]. intro H1. rewrite (Q 1%nat H1). apply lt_INR in H1. cbn [INR] in *. field. lra.
Qed.
Theorem C82_lognorm_cdf F y jx : std_normal_cdf F -> inb (shp y) jx -> 0 < sg -> t0 < ti ->
  let frac g := array_at 0 (cdf (procl g) None (Some y)) (i :: jx ++ r) in
  exists q, lognorm_cdf F x a sg (ti - t0) (dat y jx) = Some q /\ L d frac = q /\ L d (fun g => (frac g - q)^2) = q * (1 - q) / INR paths.
Proof using HS NS HP CM CS BX BM BS V0 N0 HF Hd Hi Hr HE XP.
  intros HC HJ S T frac. destruct (lognorm_all (I := I) L normal mvnormal false c n paths vshape s HS x0 mu sigma args CM CS BX BM BS pace_fn fuel gi inf timeline t0 d V0 N0 HF Hd) as [_ R2].
  destruct (R2 i ti Hi) as (_ & _ & X). eexists. split; [apply (lognorm_EN F HC); [apply xpos|lra|lra]|].
  destruct (cdf_est (L d) vshape paths _ exp _ _ (proj1 (proj1 HS) d) (X eq_refl NS) procl i r ml vl HP Hr lgood) with (y := y) (jx := jx) as [A1 A2].
  - intros j Hj. cbv beta. destruct (HE j Hj) as (-> & -> & ->). auto.
  - exact HJ.
  - apply ind_exp_cok.
  - split; [exact A1|exact A2].
Qed.
Theorem C82_lognorm_montecarlo auto bins range f v v2 : exp_growth (fun y => f (exp y)) -> bins_for vshape bins -> (forall g, mc_done auto bins range (at_point f (procl g) i)) ->
  normal_mean ml (sqrt vl) (fun y => f (exp y)) v -> normal_mean ml (sqrt vl) (fun y => f (exp y) * f (exp y)) v2 ->
  L d (fun g => mc_mean_at auto bins range (at_point f (procl g) i) r) = v /\
  L d (fun g => (mc_mean_at auto bins range (at_point f (procl g) i) r - v)^2) = (v2 - v^2) / INR paths /\
  L d (fun g => mc_var_at auto bins range (at_point f (procl g) i) r) = (v2 - v^2) * (INR paths - 1) / INR paths /\
  ((2 <= paths)%nat -> L d (fun g => mc_stderr_at auto bins range (at_point f (procl g) i) r ^2) = (v2 - v^2) / INR paths).
Proof using HS NS HP CM CS BX BM BS V0 N0 HF Hd Hi Hr HE.
  intros HG BF MC M1 M2. destruct (lognorm_all (I := I) L normal mvnormal false c n paths vshape s HS x0 mu sigma args CM CS BX BM BS pace_fn fuel gi inf timeline t0 d V0 N0 HF Hd) as [_ R2].
  destruct (R2 i ti Hi) as (_ & _ & X). apply tame_growth in HG. apply nmean_EN in M1. apply nmean_EN in M2. rewrite <- M1, <- M2.
  destruct (mc_mean_est (L d) vshape paths _ exp _ _ (proj1 (proj1 HS) d) (X eq_refl NS) procl i r ml vl HP Hr lgood) with (f := f) (auto := auto) (bins := bins) (range := range) as (A1 & A2 & A3 & A4); auto.
  - intros j Hj. cbv beta. destruct (HE j Hj) as (-> & -> & ->). auto.
  - apply tame_cok. exact HG.
  - apply tame_cok. exact (tame_mult _ _ HG HG).
Qed.
(** discounted payoffs of calls: the Black-Scholes price, and a standard error whose square is the mean square error of the
    estimate *)
Theorem C82_call auto bins range F k rr q : bins_for vshape bins -> std_normal_cdf F -> 0 < k -> 0 < sg -> t0 < ti -> a = rr - q -> (2 <= paths)%nat ->
  let pay y := exp (- (rr * (ti - t0))) * Rmax (y - k) 0 in
  (forall g, mc_done auto bins range (at_point pay (procl g) i)) ->
  exists price, bscall F k (ti - t0) x rr q sg = Ok price /\
    L d (fun g => mc_mean_at auto bins range (at_point pay (procl g) i) r) = price /\
    L d (fun g => (mc_mean_at auto bins range (at_point pay (procl g) i) r - price)^2) = L d (fun g => mc_stderr_at auto bins range (at_point pay (procl g) i) r ^2).
Proof using HS NS HP CM CS BX BM BS V0 N0 HF Hd Hi Hr HE XP.
  intros BF HC HK S T EA P2 pay MC.
  assert (HE' : forall j, (j < paths)%nat -> bget x0 (r ++ [j]) = x /\ bget mu (r ++ [j]) = rr - q /\ bget sigma (r ++ [j]) = sg) by (rewrite <- EA; exact HE).
  destruct (C80_call_average (I := I) L normal mvnormal false c n paths vshape s HS x0 mu sigma args CM CS BX BM BS pace_fn fuel gi inf timeline t0 d V0 N0 HF Hd XP F k rr q i ti r x sg eq_refl NS HP HC HK Hi T Hr S HE') as (price & v2 & B1 & B2 & B3 & _).
  assert (TP : tame (fun y => pay (exp y))) by exact (tame_scal (exp (- (rr * (ti - t0)))) (fun y => Rmax (exp y - k) 0) (proj1 (tame_growth _) (proj1 (payoff_growth k)))).
  assert (HG : exp_growth (fun y => pay (exp y))) by (apply tame_growth; exact TP).
  destruct (C82_lognorm_montecarlo auto bins range pay _ _ HG BF MC (EN_nmean ml (sqrt vl) _ TP) (EN_nmean ml (sqrt vl) _ (tame_mult _ _ TP TP))) as (A1 & A2 & _ & A4).
  exists price. split; [exact B1|].
  assert (EP : EN (fun z => pay (exp (ml + sqrt vl * z))) = price).
  { rewrite <- B3. rewrite <- A1. apply (proj1 (proj1 HS)). intro g.
    destruct (mc_is (procl g) vshape paths i r (fun j => value_at (sde_call Rminus (lognorm_process (I := I) (at_step s) gi vshape paths x0 args) 0 pace_fn fuel (g, inf) [N] timeline) i (r ++ [j])%list) (proj1 (proj2 (lgood g))) Hr) with (auto := auto) (bins := bins) (range := range) (f := pay) as (M & _); auto.
    - intros j Hj. apply lgood. apply inb_app; auto. repeat constructor. exact Hj.
    - etransitivity; [exact M|]. cbv beta. unfold pay. rewrite (rsum_scal (fun j => Rmax (value_at _ i (r ++ [j])%list - k) 0)). unfold Rdiv, N. ring. }
  rewrite EP in A1, A2, A4. split; [exact A1|]. etransitivity; [exact A2|]. symmetry. exact (A4 P2).
Qed.
Theorem C82_put auto bins range F k rr q : bins_for vshape bins -> std_normal_cdf F -> 0 < k -> 0 < sg -> t0 < ti -> a = rr - q -> (2 <= paths)%nat ->
  let pay y := exp (- (rr * (ti - t0))) * Rmax (k - y) 0 in
  (forall g, mc_done auto bins range (at_point pay (procl g) i)) ->
  exists price, bsput F k (ti - t0) x rr q sg = Ok price /\
    L d (fun g => mc_mean_at auto bins range (at_point pay (procl g) i) r) = price /\
    L d (fun g => (mc_mean_at auto bins range (at_point pay (procl g) i) r - price)^2) = L d (fun g => mc_stderr_at auto bins range (at_point pay (procl g) i) r ^2).
Proof using HS NS HP CM CS BX BM BS V0 N0 HF Hd Hi Hr HE XP.
  intros BF HC HK S T EA P2 pay MC.
  assert (TP : tame (fun y => pay (exp y))) by exact (tame_scal (exp (- (rr * (ti - t0)))) (fun y => Rmax (k - exp y) 0) (proj1 (tame_growth _) (proj2 (payoff_growth k)))).
  assert (HG : exp_growth (fun y => pay (exp y))) by (apply tame_growth; exact TP).
  destruct (C82_lognorm_montecarlo auto bins range pay _ _ HG BF MC (EN_nmean ml (sqrt vl) _ TP) (EN_nmean ml (sqrt vl) _ (tame_mult _ _ TP TP))) as (A1 & A2 & _ & A4).
  destruct (HE 0%nat) as (X1 & X2 & X3); [lia|].
  assert (I0 : inb w (r ++ [0%nat])) by (apply inb_app; [exact Hr|]; repeat constructor; lia).
  assert (C1 := C80_put (I := I) L normal mvnormal false c n paths vshape s HS x0 mu sigma args CM CS BX BM BS pace_fn fuel gi inf timeline t0 d V0 N0 HF Hd XP F k rr q i ti (r ++ [0%nat])%list HC HK Hi I0
    (eq_ind_r (fun y => 0 < y) S X3) T (eq_trans X2 EA)).
  rewrite X1, X3 in C1. eexists. split; [exact C1|].
  assert (TM : tame (fun y => Rmax (k - exp y) 0)) by exact (proj1 (tame_growth _) (proj2 (payoff_growth k))).
  match type of C1 with _ = Ok ?v => set (price := v) end.
  assert (EP : EN (fun z => pay (exp (ml + sqrt vl * z))) = price).
  { destruct (lognorm_all (I := I) L normal mvnormal false c n paths vshape s HS x0 mu sigma args CM CS BX BM BS pace_fn fuel gi inf timeline t0 d V0 N0 HF Hd) as [_ R2]. destruct (R2 i ti Hi) as (Q & _).
    assert (Q1 := Q (r ++ [0%nat])%list (fun y => Rmax (k - y) 0) I0 (tame_cok _ TM)). rewrite X1, X2, X3 in Q1. unfold price. etransitivity; [|apply f_equal; symmetry; exact Q1].
    unfold pay. apply EN_scal. exact (tame_aff _ ml (sqrt vl) TM). }
  rewrite EP in A1, A2, A4. split; [exact A1|]. etransitivity; [exact A2|]. symmetry. exact (A4 P2).
Qed.
End Exact.
Print Assumptions C82_wiener.
Print Assumptions C82_wiener_cdf.
Print Assumptions C82_wiener_chf.
Print Assumptions C82_wiener_montecarlo.
Print Assumptions C82_lognorm.
Print Assumptions C82_lognorm_cdf.
Print Assumptions C82_lognorm_montecarlo.
Print Assumptions C82_call.
Print Assumptions C82_put.

(** *** Examples *)
Section Ex.
Let law := the_law [].
(** 100 Wiener paths from 2, with drift 3 and volatility 2, with any number of steps up to time 1: the average of the paths has
    mean 5 and mean square error 4/100, their variance (ddof=1) has mean 4, and the fraction of paths not above 5 has mean 1/2 *)
Example C82_ex_wiener n s : (0 < n)%nat -> source_dw (the_normal []) (the_mvnormal []) GNone INone INone 100 [] = Ok s ->
  let pc := pace ex_linspace (StepsScalar n) in let d := (2 + len (pc [0%R; 1%R]))%nat in
  let p g := proc_of (sde_process [100%nat] [0; 1] (sde_call Rminus (wiener_process (I := unit) (at_step s) false [] 100 (ascalar 2) (ex_const 3 2)) 0 pc d (g, tt) [2%nat] [0; 1])) in
  let ave g := entry_of (psummary false nmean (p g)) [1; 0]%nat in
  law d ave = 5 /\ law d (fun g => (ave g - 5)^2) = 4/100 /\ law d (fun g => entry_of (psummary false (nvar 1) (p g)) [1; 0]%nat) = 4 /\
  law d (fun g => array_at 0 (cdf (p g) None (Some (ascalar 5))) [1%nat]) = 1/2.
Proof.
  intros Hn HS pc d p ave. assert (HN := P_tval.ex_noise false 100 s HS). cbv iota in HN. set (F := fun x => Phi x + 1/2). assert (HC : std_normal_cdf F) by apply cdf_exists.
  destruct (C82_wiener (I := unit) law (the_normal []) (the_mvnormal []) _ 100 100 [] s HN (the_normal_sums [] _) ltac:(lia) (ascalar 2) (ascalar 3) (ascalar 2) (ex_const 3 2) eq_refl eq_refl (ex_b 2 _) (ex_b 3 _) (ex_b 2 _)
    pc d false tt [0; 1] 0 d (ex_tl 1 ltac:(lra)) eq_refl (le_n _) (le_n _) 1%nat 1 [] 2 3 2 eq_refl (Forall2_nil _) (fun j _ => conj eq_refl (conj eq_refl eq_refl))) as (A1 & A2 & _ & A3).
  destruct (C82_wiener_cdf (I := unit) law (the_normal []) (the_mvnormal []) _ 100 100 [] s HN (the_normal_sums [] _) ltac:(lia) (ascalar 2) (ascalar 3) (ascalar 2) (ex_const 3 2) eq_refl eq_refl (ex_b 2 _) (ex_b 3 _) (ex_b 2 _)
    pc d false tt [0; 1] 0 d (ex_tl 1 ltac:(lra)) eq_refl (le_n _) (le_n _) 1%nat 1 [] 2 3 2 eq_refl (Forall2_nil _) (fun j _ => conj eq_refl (conj eq_refl eq_refl)) F (ascalar 5) [] HC (Forall2_nil _) ltac:(lra) ltac:(lra)) as (q & P1 & P2 & _).
  assert (EM : wiener_mean 2 3 2 (1 - 0) = 5) by (unfold wiener_mean; ring). assert (EV : wiener_var 2 3 2 (1 - 0) = 4) by (unfold wiener_var; ring). rewrite EM in A1. rewrite EM, EV in A2. rewrite EV in A3.
  split; [exact A1|]. split; [etransitivity; [exact A2|]; rewrite INR_IZR_INZ; reflexivity|]. split; [apply A3; lia|]. etransitivity; [exact P2|].
  unfold wiener_cdf in P1. cbv zeta in P1. replace (1 - 0) with 1 in P1 by ring. rewrite sqrt_1, norm_cdf_eq in P1 by lra. injection P1 as <-. change (dat (ascalar 5) []) with 5. replace ((5 - (2 + 3*1))/(2*1)) with 0 by field. apply (half F HC).
Qed.
(** the price of a call at the money from 100 lognormal paths, with the default number of bins: a montecarlo object of the
    discounted payoffs gives it, and its standard error is right *)
Example C82_ex_call F auto n s : std_normal_cdf F -> (0 < n)%nat -> source_dw (the_normal []) (the_mvnormal []) GNone INone INone 100 [] = Ok s ->
  let pc := pace ex_linspace (StepsScalar n) in let d := (2 + len (pc [0%R; 1%R]))%nat in
  let p g := proc_of (sde_process [100%nat] [0; 1] (sde_call Rminus (lognorm_process (I := unit) (at_step s) false [] 100 (ascalar 3) (ex_const 0 2)) 0 pc d (g, tt) [2%nat] [0; 1])) in
  let pay y := exp (- (0 * (1 - 0))) * Rmax (y - 3) 0 in
  let m g := mc_mean_at auto (BInt 100) None (at_point pay (p g) 1) [] in let e g := mc_stderr_at auto (BInt 100) None (at_point pay (p g) 1) [] in
  exists price, bscall F 3 (1 - 0) 3 0 0 2 = Ok price /\ law d m = price /\ law d (fun g => (m g - price)^2) = law d (fun g => e g ^2).
Proof.
  intros HC Hn HS pc d p pay m e. assert (HN := P_tval.ex_noise false 100 s HS). cbv iota in HN.
  assert (XP : forall ix : list nat, inb ([] ++ [100%nat]) ix -> 0 < bget (ascalar 3) ix) by (intros; cbn; lra).
  assert (GD := fun g => lgood (I := unit) law (the_normal []) (the_mvnormal []) _ 100 100 [] s HN (ascalar 3) (ascalar 0) (ascalar 2) (ex_const 0 2) eq_refl eq_refl (ex_b 3 _) (ex_b 0 _) (ex_b 2 _)
    pc d false tt [0; 1] 0 d (ex_tl 1 ltac:(lra)) eq_refl (le_n _) (le_n _) 1%nat 1 eq_refl g).
  refine (C82_call (I := unit) law (the_normal []) (the_mvnormal []) _ 100 100 [] s HN (the_normal_sums [] _) _ (ascalar 3) (ascalar 0) (ascalar 2) (ex_const 0 2) eq_refl eq_refl (ex_b 3 _) (ex_b 0 _) (ex_b 2 _)
    pc d false tt [0; 1] 0 d (ex_tl 1 _) eq_refl (le_n _) (le_n _) 1%nat 1 [] 3 0 2 eq_refl (Forall2_nil _) (fun j _ => conj eq_refl (conj eq_refl eq_refl)) XP auto (BInt 100) None F 3 0 0 Logic.I HC _ _ _ _ _ _); try lra; try lia.
  intro g. destruct (GD g) as (W & CW & _). destruct (C82_accepted auto None _ [] 100 1 pay W CW ltac:(lia)) as [_ H]. apply H; [discriminate|lia].
Qed.
End Ex.
