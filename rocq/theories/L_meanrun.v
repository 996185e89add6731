(** Lemmas on the means of functions of simulated values, for linear equations: runs. *)
From Coq Require Import String List Arith Bool ZArith Reals Lra Lia Sorted.
From Coquelicot Require Import Coquelicot.
From Verif Require Import Base BaseOrd BaseNum BaseArr M_paths S_paths S_run L_ord L_paths8
  M_process M_source S_source M_sde S_sde L_sde L_sde2 L_sde3 M_presets S_presets L_presets L_presets2 M_integrate S_integrate P_source P_source2 P_source4 S_true2 S_euler L_euler L_euler2
  BaseNd BaseIdx S_process L_nd L_pack L_process P_source3 M_rv S_rv M_analytical S_analytical M_anti S_dist S_law P_chf L_line L_complex L_law L_law2 L_law4 L_law5 S_gval L_gval L_gval2 L_gval3 L_gval4 L_gval6 S_tval L_tval L_tval2 L_tval3 L_tval4 L_tval6
  L_gop L_cirop L_nrun L_cirrun S_mean L_conv L_cok L_tame.
Import ListNotations.
Local Open Scope R_scope.

Section Run.
Context {G I : Type}.
Variables (wshape : list nat) (paths : nat) (dw : G -> R -> R -> res (G * arr R)).
Let w := (wshape ++ [paths])%list.
Hypothesis HV : forall g t dt, exists g' z, dw g t dt = Ok (g', z) /\ shp z = w.
Variables (sde : R -> arr R -> dict (arr R) -> res (sdeval R)) (log gi : bool) (x0 : arr R) (b : R -> arr R) (args : dict (M_sde.param R R)) (al ka : R -> list nat -> R).
Hypothesis HX : broadcasts (shp x0) w.
Hypothesis HD : drift_noise_at w sde args al ka b.
Variables (pace_fn : list R -> list R) (fuel : nat) (inf : I) (timeline : list R) (t0 : R).
Hypothesis V0 : valid_timeline timeline.
Hypothesis N0 : nth_error timeline 0 = Some t0.
Hypothesis HF : (List.length timeline + List.length (pace_fn timeline) <= fuel)%nat.
Let ig : integ R R G I := mk_sde dw_ids (dw_src dw) log sde gi wshape paths x0 args.
Let v0 ix := if log then ln (bget x0 ix) else bget x0 ix.
Let bb (t : R) : list nat -> R := bget (b t).
Lemma lin_run :
  let run g := sde_call Rminus ig 0 pace_fn fuel (g, inf) [List.length timeline] timeline in
  let N := List.length timeline in
  (forall g, exists s' xx, run g = Ok (s', xx)) /\
  exists gr kk, on_times timeline (pace_fn timeline) t0 gr kk /\
    (List.length gr <= List.length timeline + List.length (pace_fn timeline))%nat /\
    forall g i ix, (i < N)%nat -> inb w ix ->
      value_at (run g) i ix = let y := fgo (dw_inc dw) (lstep al ka bb) gr (kk i) 0 v0 g ix in if log then exp y else y.
Proof using HV HX HD V0 N0 HF.
  intros run N.
  assert (CX : can (shp x0) w = true) by (apply can_broadcasts; exact HX).
  assert (CB : forall t, can (shp (b t)) w = true) by (intro t; apply can_broadcasts, HD).
  assert (HA : forall t x, exists a, sde t (mkArr w x) (map (fun '(k, z) => (k, peval t z)) args) = Ok (RDict [("dt"%string, a); ("dw"%string, b t)]) /\
    can (shp a) w = true /\ forall ix, inb w ix -> bget a ix = al t ix - ka t ix * x ix).
  { intros t x. destruct (HD t) as [_ HA]. destruct (HA x) as (a & E & Cc & Ha). apply can_broadcasts in Cc. eauto. }
  assert (TI : total_integ ig (fun _ => True)).
  { apply dw_total; auto.
    - intros t x. destruct (HA t x) as (a & E & Cc & _). exists a, (b t). auto.
    - intros wd t dt _. destruct (HV wd t dt) as (g' & z & E & S). exists g', z. split; [exact E|]. split; [rewrite S; apply can_refl|exact Logic.I]. }
  destruct (frun ig w w TI (dw_inc dw) v0 (lstep al ka bb)) with (outf := fun (x : list nat -> R) ix => if log then exp (x ix) else x ix) (pace_fn := pace_fn) (fuel := fuel) (inf := inf) (timeline := timeline) (t0 := t0) as (R1 & gr & kk & R2 & R3 & R4); auto.
  - intros t dt x x' z ix HI E. unfold lstep. rewrite E by exact HI. reflexivity.
  - intros u t t' x u' x' E. destruct (HA t x) as (a & EA & CA & Ha).
    edestruct (dw_next_ok Rminus ig dw a (b t) u t t' x u' x' eq_refl eq_refl) as (z & EZ & HN); [|exact E|].
    { cbn [ig_A mk_sde ig]. unfold sde_A. cbn [ig_w mk_sde ig]. fold w. rewrite EA. cbn [rbind]. apply dw_check. }
    unfold dw_inc. rewrite EZ. cbn [fst snd]. split; auto. intros ix HI. rewrite HN by exact HI. rewrite Ha by auto. unfold lstep, bb. cbn [nadd nmul nzero Num_R]. ring.
  - intros t x EI ix HI. cbn [ig_init mk_sde ig] in EI. unfold sde_init in EI. fold w in EI. rewrite assign_can in EI by auto. injection EI as <-. cbn [ig_log mk_sde ig]. reflexivity.
  - intros t x y EL ix HI. cbn [ig_let mk_sde ig] in EL. unfold sde_let in EL. fold w in EL. rewrite assign_can in EL by apply can_refl. injection EL as <-. unfold fin. cbn [ig_log ig mk_sde]. destruct log; cbn [nexp Num_R]; rewrite bget_self by auto; reflexivity.
  - intros x x' ix HI E. rewrite E by exact HI. reflexivity.
  - split; [exact R1|]. exists gr, kk. split; [exact R2|]. split; [exact R3|]. intros g i ix Hi HI. unfold run, N in *. rewrite (R4 g i ix Hi HI).
    assert (W := fgo_walk (dw_inc dw) (lstep al ka bb) gr v0 g (kk i) 0). cbn [fwalk gstate Nat.add] in W. rewrite <- W. reflexivity.
Qed.
End Run.

(** the normal law of each entry, and of independent entries *)
Section Law.
Context {G I : Type}.
Variables (L : nat -> (G -> R) -> R) (normal : list nat -> G -> res (arr R) * G) (mvnormal : arr R -> list nat -> G -> res (arr R) * G).
Variables (anti : bool) (c : R -> nat -> nat -> R) (n paths : nat) (vshape : list nat) (s : src (V := R) (G := G) (arr R)).
Hypothesis HS : noise_source L normal mvnormal anti INone INone c n paths vshape s.
Let w := (vshape ++ [paths])%list.
Variables (sde : R -> arr R -> dict (arr R) -> res (sdeval R)) (log gi : bool) (x0 : arr R) (b : R -> arr R) (args : dict (M_sde.param R R)) (al ka : R -> list nat -> R).
Hypothesis HX : broadcasts (shp x0) w.
Hypothesis HD : drift_noise_at w sde args al ka b.
Variables (pace_fn : list R -> list R) (fuel : nat) (inf : I) (timeline : list R) (t0 : R).
Hypothesis V0 : valid_timeline timeline.
Hypothesis N0 : nth_error timeline 0 = Some t0.
Hypothesis HF : (List.length timeline + List.length (pace_fn timeline) <= fuel)%nat.
Let N := List.length timeline.
Let run g := sde_call Rminus (mk_sde (I := I) dw_ids (dw_src (at_step s)) log sde gi vshape paths x0 args) 0 pace_fn fuel (g, inf) [N] timeline.
Let v0 ix := if log then ln (bget x0 ix) else bget x0 ix.
Let val (x : R) : R := if log then exp x else x.
Lemma lin_law :
  (forall g, exists s' xx, run g = Ok (s', xx)) /\
  exists m v : nat -> list nat -> R,
    (forall i ix, 0 <= v i ix) /\
    (forall a sg ix, (forall t, ka t ix = 0) -> (forall t, al t ix = a) -> (forall t, bget (b t) ix = sg) -> forall i, (i < N)%nat ->
       m i ix = v0 ix + a * (nth i timeline 0 - t0) /\ v i ix = sg * sg * (nth i timeline 0 - t0)) /\
    (forall i ix f d, (i < N)%nat -> inb w ix -> cok (fun x => f (val x)) -> (N + List.length (pace_fn timeline) <= d)%nat ->
       L d (fun g => f (value_at (run g) i ix)) = EN (fun z => f (val (m i ix + sqrt (v i ix) * z)))) /\
    (anti = false -> forall i f d, (i < N)%nat -> (forall ix, inb w ix -> cok (fun x => f ix (val x))) -> (N + List.length (pace_fn timeline) <= d)%nat ->
       L d (fun g => rprod (fun ix => f ix (value_at (run g) i ix)) (ndindex w)) = rprod (fun ix => EN (fun z => f ix (val (m i ix + sqrt (v i ix) * z)))) (ndindex w)) /\
    (anti = false -> normal_sums L normal w -> forall i K u f d, (i < N)%nat -> (forall k ix, (k < K)%nat -> inb w ix -> cok (fun x => f k ix (val x))) -> (N + List.length (pace_fn timeline) <= d)%nat ->
       L d (fun g => rsum (fun k => u k * rprod (fun ix => f k ix (value_at (run g) i ix)) (ndindex w)) (seq 0 K)) =
       rsum (fun k => u k * rprod (fun ix => EN (fun z => f k ix (val (m i ix + sqrt (v i ix) * z)))) (ndindex w)) (seq 0 K)).
Proof using HS HX HD V0 N0 HF.
  assert (HE := noise_mean _ _ _ _ _ _ _ _ _ HS).
  destruct (lin_run (I := I) vshape paths (at_step s) (proj1 HE) sde log gi x0 b args al ka HX HD pace_fn fuel inf timeline t0 V0 N0 HF) as (R1 & gr & kk & OT & LG & R4).
  split; [exact R1|]. set (bb := fun t : R => bget (b t)) in *. fold v0 in R4.
  destruct OT as [(GP & GF & E0 & GK) _].
  exists (fun i ix => lc al ka gr ix (kk i) 0 + lk ka gr ix (kk i) 0 * v0 ix), (fun i ix => lv ka bb gr ix (kk i) 0). split; [|split; [|split; [|split]]].
  - intros i ix. apply lv_pos.
  - intros a sg ix K0 A0 B0 i Hi. destruct (GK i Hi) as [K1 K2]. rewrite (lk_flat ka gr ix K0), (lc_flat al ka gr ix a K0 A0).
    rewrite (lv_flat ka bb gr ix sg K0 B0) by (intros j Hj; left; apply GP; lia). cbn [Nat.add]. rewrite K2, E0. split; ring.
  - intros i ix f d Hi HI TF Hd. destruct (GK i Hi) as [K1 K2].
    transitivity (L d (fun g => f (val (fgo (dw_inc (at_step s)) (lstep al ka bb) gr (kk i) 0 v0 g ix)))).
    { apply (proj1 (proj1 HS)). intro g. f_equal. exact (R4 g i ix Hi HI). }
    apply (one_linear L (proj1 HS) w (at_step s) al ka bb gr HE ix HI (kk i) 0 v0 (fun x => f (val x)) d TF). unfold N in *. lia.
  - intros EA i f d Hi TF Hd. destruct (GK i Hi) as [K1 K2].
    assert (HEs : entries_normal L w (at_step s)) by (apply (noise_entries L normal mvnormal c n); rewrite <- EA; exact HS).
    transitivity (L d (fun g => rprod (fun ix => f ix (val (fgo (dw_inc (at_step s)) (lstep al ka bb) gr (kk i) 0 v0 g ix))) (ndindex w))).
    { apply (proj1 (proj1 HS)). intro g. apply rprod_ext. intros ix HI. apply in_ndindex in HI. f_equal. exact (R4 g i ix Hi HI). }
    apply (all_linear L (proj1 HS) w (at_step s) al ka bb gr HEs (kk i) 0 v0 (fun ix x => f ix (val x)) d TF). unfold N in *. lia.
  - intros EA NS i K u f d Hi TF Hd. destruct (GK i Hi) as [K1 K2].
    assert (HEs : entries_sums L w (at_step s)) by (apply (noise_sums L normal mvnormal c n); [rewrite <- EA; exact HS|exact NS]).
    transitivity (L d (fun g => rsum (fun k => u k * rprod (fun ix => f k ix (val (fgo (dw_inc (at_step s)) (lstep al ka bb) gr (kk i) 0 v0 g ix))) (ndindex w)) (seq 0 K))).
    { apply (proj1 (proj1 HS)). intro g. apply rsum_ext. intros k _. f_equal. apply rprod_ext. intros ix HI. apply in_ndindex in HI. f_equal. exact (R4 g i ix Hi HI). }
    apply (sum_linear L (proj1 HS) w (at_step s) al ka bb gr HEs K (kk i) 0 v0 u (fun k ix x => f k ix (val x)) d TF). unfold N in *. lia.
Qed.
End Law.

(** *** Gaussian values with a normal law have its mean and variance *)
Lemma gaussian_ident {G} (E : (G -> R) -> R) (X : G -> nat * list nat -> R) N w m v a m' v' : (forall f h, (forall g, f g = h g) -> E f = E h) ->
  gaussian E (entries N w) X m v -> In a (entries N w) -> 0 <= v' ->
  (forall f, tame f -> E (fun g => f (X g a)) = EN (fun z => f (m' + sqrt v' * z))) -> m a = m' /\ v a a = v'.
Proof.
  intros EE GX IA V H.
  assert (Q : forall c, m a * c + c*c/2 * v a a = c * m' + c*c/2 * v').
  { intro c. assert (T : tame (fun x => exp (c * x))). { eapply tame_ext; [|apply (tame_exp 0 c)]. intro. cbv beta. f_equal. ring. }
    assert (A := H _ T). cbv beta in A. rewrite (EN_ext _ (fun z => exp (c*m' + (c * sqrt v') * z))) in A by (intro z; f_equal; ring). rewrite EN_exp in A.
    replace (c * sqrt v' * (c * sqrt v') / 2) with (c*c/2*(sqrt v' * sqrt v')) in A by field. rewrite (sqrt_sqrt v' V) in A.
    assert (B := gaussian_exp2 E N w X m v EE GX a a c 0 IA IA). rewrite (EE _ (fun g => exp (c * X g a))) in B by (intro g; f_equal; ring). rewrite A in B. apply exp_inv in B.
    rewrite B. field. }
  assert (Q1 := Q 1). assert (Q2 := Q 2). split; lra.
Qed.
(** continuity in the mean and the variance *)
Lemma EN_close f m v : tame f -> 0 <= v -> forall eps, 0 < eps -> exists delta, 0 < delta /\ forall m' v', 0 <= v' -> Rabs (m' - m) <= delta -> Rabs (v' - v) <= delta ->
  Rabs (EN (fun z => f (m' + sqrt v' * z)) - EN (fun z => f (m + sqrt v * z))) <= eps.
Proof.
  intros TF V eps EP. destruct (tame_growth f) as [_ GT]. destruct (GT TF) as (CF & C & c & C0 & c0 & D).
  set (M := Rabs m + 1). set (S := sqrt v + 1). assert (SP := sqrt_pos v). assert (MP := Rabs_pos m).
  assert (CN : continuous (fun p : prod_UniformSpace R_UniformSpace R_UniformSpace => EN (fun z => f (fst p + snd p * z))) (m, sqrt v)).
  { apply (EN_continuous (X := prod_UniformSpace R_UniformSpace R_UniformSpace) (fun p z => f (fst p + snd p * z)) (m, sqrt v) (C * exp (c*M)) (c*S)).
    - apply Rmult_le_pos; [exact c0|unfold S; lra].
    - intro z. apply (continuous_comp (fun p : prod_UniformSpace (prod_UniformSpace R_UniformSpace R_UniformSpace) R_UniformSpace => fst (fst p) + snd (fst p) * snd p) f); [|apply CF].
      apply (continuous_plus (V := R_NormedModule)); [apply (continuous_comp fst fst); apply continuous_fst|].
      apply (continuous_mult (K := R_AbsRing) (fun p : prod_UniformSpace (prod_UniformSpace R_UniformSpace R_UniformSpace) R_UniformSpace => snd (fst p)) snd); [|apply continuous_snd].
      apply (continuous_comp fst snd); [apply continuous_fst|apply continuous_snd].
    - intros p z. apply (continuous_comp (fun z => fst p + snd p * z) f); [|apply CF]. apply (ex_derive_continuous (V := R_NormedModule)). auto_derive. auto.
    - exists (mkposreal 1 Rlt_0_1). intros [m' s'] [B1 B2] z. cbn [fst snd] in *. change (Rabs (m' - m) < 1) in B1. change (Rabs (s' - sqrt v) < 1) in B2.
      eapply Rle_trans; [apply D|]. rewrite Rmult_assoc. apply Rmult_le_compat_l; [exact C0|].
      apply Rle_trans with (exp (c*M) * exp (c*S*Rabs z)).
      + rewrite <- exp_plus. apply exp_le. replace (c*M + c*S*Rabs z) with (c*(M + S*Rabs z)) by ring. apply Rmult_le_compat_l; [exact c0|].
        eapply Rle_trans; [apply Rabs_triang|]. rewrite Rabs_mult. assert (ZP := Rabs_pos z).
        assert (A1 : Rabs m' <= M). { unfold M. replace m' with ((m' - m) + m) by ring. eapply Rle_trans; [apply Rabs_triang|]. lra. }
        assert (A2 : Rabs s' <= S). { unfold S. replace s' with ((s' - sqrt v) + sqrt v) by ring. eapply Rle_trans; [apply Rabs_triang|]. rewrite (Rabs_pos_eq (sqrt v)) by exact SP. lra. }
        apply Rplus_le_compat; [exact A1|]. apply Rmult_le_compat_r; auto.
      + apply Rmult_le_compat_l; [left; apply exp_pos|]. unfold ch. assert (P1 := exp_pos (c*S*z)). assert (P2 := exp_pos (- (c*S*z))).
        unfold Rabs. destruct (Rcase_abs z); [replace (c*S*-z) with (-(c*S*z)) by ring|]; lra. }
  destruct (proj1 (filterlim_locally _ _) CN (mkposreal eps EP)) as [[d1 D1] HD1]. cbn in HD1.
  assert (CS := continuous_sqrt v). destruct (proj1 (filterlim_locally _ _) CS (mkposreal d1 D1)) as [[d2 D2] HD2]. cbn in HD2.
  exists (Rmin (d1/2) (d2/2)). split; [apply Rmin_pos; lra|]. intros m' v' V' A B.
  assert (X1 := Rmin_l (d1/2) (d2/2)). assert (X2 := Rmin_r (d1/2) (d2/2)).
  left. apply (HD1 (m', sqrt v')). split; cbn [fst snd].
  - change (Rabs (m' - m) < d1). lra.
  - apply HD2. change (Rabs (v' - v) < d2). lra.
Qed.
